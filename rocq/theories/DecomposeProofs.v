(** Decomposition of common nodes keeps the function of the root. *)
From stdpp Require Import gmap.
From Coq Require Import Lia Permutation List.
From Verif Require Import Pdag PdagProofs PdagAdd PdagSem PdagKeeps Rooted Decompose.
Import ListNotations.
Open Scope Z_scope.

Section Run.
Context (parents : graph -> Z -> list Z) (timed : Z -> Z -> bool) (order : graph -> Z -> list Z) (root : Z).
Context (PARENTS : forall G g p x, reach G root p -> gs G !! p = Some x -> (In g (g_args x) \/ In (- g) (g_args x)) -> In p (parents G g)).
Context (ORDER : forall G i a, In a (order G i) -> exists x, gs G !! i = Some x /\ In a (g_args x) /\ is_Some (gs G !! Z.abs a)).
Context (TIMED : forall P, P <> root -> timed P root = false).

Lemma avoid_reach G P i j : reach_avoid G P i j -> reach G i j.
Proof. induction 1; [constructor|]. eapply reach_arg; eauto. Qed.
Lemma arg_cases (x : gate) a : In a (g_args x) -> In (Z.abs a) (g_args x) \/ In (- Z.abs a) (g_args x).
Proof. intros I. destruct (Z.abs_eq_or_opp a) as [E|E]; rewrite E; auto. right. now rewrite Z.opp_involutive. Qed.

Section Destination.
Context (P n : Z) (state : bool) (xP : gate) (CP : controls xP n state) (Ln : 1 < n).

Definition known (G : graph) (A : gmap Z bool) : Prop := forall k, A !! k = Some true -> 1 < k -> dominates G root P k.
Lemma within_ok fuel G : wf G -> forall g A b A', known G A -> within parents timed P fuel G g A = Some (b, A') -> known G A' /\ (b = true -> 1 < g -> g = P \/ dominates G root P g).
Proof.
  intros W. induction fuel as [|fuel IH]; intros g A b A' K H; cbn [within] in H.
  - destruct (Z.eqb_spec g P); [injection H as <- <-; auto|]. destruct (A !! g) as [b0|] eqn:E; [|discriminate]. injection H as <- <-. split; auto. intros ->. auto.
  - destruct (Z.eqb_spec g P) as [|NP]; [injection H as <- <-; auto|]. destruct (A !! g) as [b0|] eqn:E; [injection H as <- <-; split; auto; intros ->; auto|].
    destruct (timed P g) eqn:T.
    + destruct (all_within _ _ A) as [[b1 A1]|] eqn:EA; [|discriminate]. cbn in H. injection H as <- <-.
      assert (X : forall l A b A', known G A -> all_within (within parents timed P fuel G) l A = Some (b, A') -> known G A' /\ (b = true -> forall p, In p l -> 1 < p -> p = P \/ dominates G root P p)).
      { clear - IH. induction l as [|p l IHl]; intros A b A' K H; cbn [all_within] in H; [injection H as <- <-; split; [auto|intros _ p []]|]. destruct (within parents timed P fuel G p A) as [[b1 A1]|] eqn:E; [|discriminate]. cbn in H. destruct (IH _ _ _ _ K E) as [K1 D1]. destruct b1; [|injection H as <- <-; split; [auto|discriminate]].
        destruct (IHl _ _ _ K1 H) as [K2 D2]. split; [auto|]. intros Eb q [<-|Iq]; auto. }
      destruct (X _ _ _ _ K EA) as [K1 D1].
      assert (D : b1 = true -> 1 < g -> dominates G root P g).
      { intros Eb _ RA. specialize (D1 Eb). clear Eb. inversion RA as [N EQ|j x a RJ Ej Ia N EQ]; [rewrite <- EQ in *; rewrite TIMED in T by auto; discriminate|].
        assert (Lj : 1 < j) by (apply W in Ej; lia). assert (Ij : In j (parents G g)) by (rewrite <- EQ; eapply PARENTS; [eapply avoid_reach; eauto|eauto|apply arg_cases; auto]). destruct (D1 j Ij Lj) as [Q|Dj]; [rewrite Q in RJ; inversion RJ; auto|exact (Dj RJ)]. }
      split; [|auto]. intros k Ek. destruct (Z.eq_dec g k) as [<-|N]; [rewrite lookup_insert in Ek; injection Ek as ->; auto|rewrite lookup_insert_ne in Ek by auto; auto].
    + injection H as <- <-. split; [|discriminate]. intros k Ek. destruct (Z.eq_dec g k) as [<-|N]; [rewrite lookup_insert in Ek; discriminate|rewrite lookup_insert_ne in Ek by auto; auto].
Qed.
Lemma known_less G A A' : known G A -> A' ⊆ A -> known G A'.
Proof. intros K S k E. apply K. eapply lookup_weaken; eauto. Qed.
Lemma clear_less fuel G : forall g A A', clear_marks parents fuel G g A = Some A' -> A' ⊆ A.
Proof.
  induction fuel as [|fuel IH]; intros g A A' H; cbn [clear_marks] in H; (destruct (A !! g) eqn:E; [|injection H as <-; reflexivity]); [discriminate|].
  assert (X : forall l A A', clear_all (clear_marks parents fuel G) l A = Some A' -> A' ⊆ A).
  { clear - IH. induction l as [|p l IHl]; intros A A' H; cbn [clear_all] in H; [injection H as <-; reflexivity|]. destruct (clear_marks parents fuel G p A) as [A1|] eqn:E; [|discriminate]. cbn in H. etransitivity; [eapply IHl; eauto|eauto]. }
  etransitivity; [eapply X; eauto|]. apply delete_subseteq.
Qed.
Lemma clear_all_less fuel G l : forall A A', clear_all (clear_marks parents fuel G) l A = Some A' -> A' ⊆ A.
Proof. induction l as [|p l IHl]; intros A A' H; cbn [clear_all] in H; [injection H as <-; reflexivity|]. destruct (clear_marks parents fuel G p A) as [A1|] eqn:E; [|discriminate]. cbn in H. etransitivity; [eapply IHl; eauto|eapply clear_less; eauto]. Qed.

(** What holds all along. *)
Record inv (G0 G : graph) (A : gmap Z bool) : Prop := {
  i_same : same_function root G0 root G;
  i_dest : gs G !! P = Some xP;
  i_arity : forall j x, gs G !! j = Some x -> arity x;
  i_known : known G A }.
(** How the graph goes on: arguments of the gates go, arrangements stay. *)
Record onward (G G' : graph) : Prop := {
  o_nxt : nxt G <= nxt G';
  o_gates : forall j, j < nxt G -> (is_Some (gs G' !! j) <-> is_Some (gs G !! j));
  o_args : forall j x' a, j < nxt G -> gs G' !! j = Some x' -> In a (g_args x') -> exists x, gs G !! j = Some x /\ (In a (g_args x) \/ Z.abs a = 1);
  o_rank : forall r, ranked G r -> exists r', ranked G' r' /\ forall j, j < nxt G -> r' j = r j }.
Lemma onward_refl G : onward G G.
Proof. constructor; [lia|tauto| |eauto]. intros j x a _ E I. eauto. Qed.
Lemma onward_trans G1 G2 G3 : onward G1 G2 -> onward G2 G3 -> onward G1 G3.
Proof.
  intros [a1 b1 c1 d1] [a2 b2 c2 d2]. constructor; [lia| | |].
  - intros j L. rewrite b2 by lia. auto.
  - intros j x a L E I. destruct (c2 j x a ltac:(lia) E I) as (y & Ey & [Iy|]); [apply (c1 j y a); auto|]. destruct (b1 j L) as [Q _]. destruct (Q ltac:(eauto)) as [z Ez]. eauto.
  - intros r R. destruct (d1 r R) as (r1 & R1 & E1). destruct (d2 r1 R1) as (r2 & R2 & E2). exists r2. split; auto. intros j L. rewrite E2, E1 by lia. auto.
Qed.

(** A node is fixed below the destination. *)
Lemma constant_ok G0 G A g y G' : wf G0 -> inv G0 G A -> gs G !! g = Some y -> has_node n y = true -> g <> P -> dominates G root P g ->
  process_constant_arg g n state G = Some G' -> inv G0 G' A /\ onward G G'.
Proof.
  intros W0 [I1 I2 I3 I4] Eg Hn NP D H. pose proof (f_wf _ _ _ _ I1) as W.
  assert (IN : In n (g_args y) \/ In (- n) (g_args y)) by (unfold has_node in Hn; apply orb_true_iff in Hn; rewrite !has_In in Hn; auto).
  destruct (constant_edits g n state G G' y W Eg Ln IN (I3 g y Eg) H) as (y' & HG & HN & OK & SUB & SEM).
  assert (SUB' : forall b, In b (g_args y') -> In b (g_args y) \/ Z.abs b = 1) by (intros b Hb; destruct (SUB b Hb) as [[? _]|]; auto).
  assert (W' : wf G') by (eapply put_wf; eauto).
  split.
  - constructor.
    + eapply same_trans; [exact W0|exact I1|]. eapply decompose_step; [exact W|apply I1|apply I1|exact I2|exact CP|exact Eg|auto|auto|auto|eauto|auto|exact H].
    + rewrite HG, lookup_insert_ne; auto.
    + intros j x E. rewrite HG in E. destruct (decide (g = j)) as [<-|N]; [|rewrite lookup_insert_ne in E by auto; eauto]. eapply process_constant_arity; [exact Eg|eauto|exact H|rewrite HG; exact E].
    + intros k Ek Lk. apply (dominates_mono G); auto. intros j x a E Ia La. rewrite HG in E. destruct (decide (g = j)) as [<-|N]; [|rewrite lookup_insert_ne in E by auto; eauto]. rewrite lookup_insert in E. injection E as <-. destruct (SUB' a Ia); [eauto|lia].
  - constructor; [lia| | |].
    + intros j _. eapply put_gates; eauto.
    + intros j x a _ E Ia. rewrite HG in E. destruct (decide (g = j)) as [<-|N]; [|rewrite lookup_insert_ne in E by auto; eauto]. rewrite lookup_insert in E. injection E as <-. eauto.
    + intros r R. exists r. split; auto. exact (put_ranked G G' g y y' r W Eg HG SUB' R).
Qed.
(** A clone nobody refers to. *)
Lemma clone_dead G0 G A g G' c : wf G0 -> inv G0 G A -> clone g G = Some (G', c) -> inv G0 G' A /\ onward G G' /\ (forall j, j < nxt G -> gs G' !! j = gs G !! j) /\ exists y, gs G' !! c = Some y /\ registered y = false.
Proof.
  intros W0 [I1 I2 I3 I4] H. pose proof (f_wf _ _ _ _ I1) as W. unfold clone in H. destruct (gs G !! g) as [x|] eqn:Eg; [|discriminate]. destruct (constant x || conn_eqb (g_type x) kNull) eqn:Q; [discriminate|]. injection H as <- <-.
  set (G' := Graph _ _ _ _). assert (HG : gs G' = <[nxt G := x]> (gs G)) by reflexivity. assert (HN : nxt G' = nxt G + 1) by reflexivity. destruct (proj2 W g x Eg) as [Lg Ax].
  assert (KN : keeps G G') by (eapply keeps_new; eauto).
  assert (SAME : forall j, j < nxt G -> gs G' !! j = gs G !! j) by (intros j L; rewrite HG, lookup_insert_ne by lia; auto).
  assert (Lroot : root < nxt G) by (destruct (f_root _ _ _ _ I1) as [z Ez]; apply W in Ez; lia).
  split; [|split; [|split; [auto|exists x; split; [rewrite HG; apply lookup_insert|exact Q]]]].
  - constructor.
    + eapply same_trans; [exact W0|exact I1|]. apply keeps_same_function; auto; apply I1.
    + rewrite SAME; auto. apply W in I2. lia.
    + intros j y E. rewrite HG in E. destruct (decide (nxt G = j)) as [<-|N]; [rewrite lookup_insert in E; injection E as <-; eauto|rewrite lookup_insert_ne in E by auto; eauto].
    + intros k Ek Lk RA. apply (I4 k Ek Lk). clear Ek Lk.
      assert (X : forall j, reach_avoid G' P root j -> j < nxt G /\ reach_avoid G P root j).
      { induction 1 as [|j y a H [L IH] E Ia N]; [split; [auto|constructor; auto]|]. rewrite SAME in E by auto. split; [|eapply avoid_arg; eauto]. apply W in E as [_ [_ B]]. destruct (B a Ia) as (_ & B2 & _). auto. }
      apply X. auto.
  - constructor; [lia| | |].
    + intros j L. rewrite SAME by auto. tauto.
    + intros j y a L E Ia. rewrite SAME in E by auto. eauto.
    + intros r R. exists (fun j => if j =? nxt G then r g else r j). split; [|intros j L; destruct (Z.eqb_spec j (nxt G)); auto; lia].
      intros j y a E Ia Sa. assert (La : Z.abs a < nxt G) by (rewrite HG in E; destruct (decide (nxt G = j)) as [<-|N]; [rewrite lookup_insert in E; injection E as <-; apply (proj2 Ax a Ia)|rewrite lookup_insert_ne in E by auto; apply W in E as [_ [_ B]]; apply (B a Ia)]).
      rewrite SAME in Sa by auto. destruct (Z.eqb_spec (Z.abs a) (nxt G)); [lia|]. rewrite HG in E. destruct (decide (nxt G = j)) as [<-|N]; [rewrite lookup_insert in E; injection E as <-; rewrite Z.eqb_refl; eapply R; eauto|]. rewrite lookup_insert_ne in E by auto. destruct (Z.eqb_spec j (nxt G)); [congruence|]. eapply R; eauto.
Qed.

(** One call. *)
Definition call_ok (rec : Z -> dstate -> option dstate) : Prop := forall G0 i s s' r, wf G0 -> inv G0 (d_graph s) (d_anc s) ->
  ranked (d_graph s) r -> is_Some (gs (d_graph s) !! i) -> (r i <= r P)%nat -> rec i s = Some s' -> inv G0 (d_graph s') (d_anc s') /\ onward (d_graph s) (d_graph s').
Lemma inv_anc G0 G A A' : inv G0 G A -> known G A' -> inv G0 G A'.
Proof. intros [a b c d] K. constructor; auto. Qed.
Lemma onward_list G G' r l : wf G -> is_Some (gs G !! P) -> ranked G r -> onward G G' -> (forall a, In a l -> is_Some (gs G !! Z.abs a) /\ (r (Z.abs a) < r P)%nat) ->
  exists r', ranked G' r' /\ forall a, In a l -> is_Some (gs G' !! Z.abs a) /\ (r' (Z.abs a) < r' P)%nat.
Proof.
  intros W [xp EP] R O H. destruct (o_rank _ _ O r R) as (r' & R' & E). exists r'. split; [auto|]. intros a Ia. destruct (H a Ia) as [[x Ex] L]. apply W in EP as [LP _]. pose proof (proj1 (proj2 W _ _ Ex)) as Lx.
  split; [apply (o_gates _ _ O); [lia|eauto]|]. rewrite !E by lia. auto.
Qed.
Lemma loop_ok fuel rec G0 : wf G0 -> call_ok rec -> forall l s s' sw r, inv G0 (d_graph s) (d_anc s) -> ranked (d_graph s) r ->
  (forall a, In a l -> is_Some (gs (d_graph s) !! Z.abs a) /\ (r (Z.abs a) < r P)%nat) ->
  args_loop parents timed P n state fuel rec l s = Some (s', sw) -> inv G0 (d_graph s') (d_anc s') /\ onward (d_graph s) (d_graph s') /\ sw = [].
Proof.
  intros W0 CO. induction l as [|a l IH]; intros s s' sw r I R L H; cbn [args_loop] in H; [injection H as <- <-; split; [auto|split; [apply onward_refl|auto]]|].
  destruct (L a ltac:(left; auto)) as [Sg Lg]. set (g := Z.abs a) in *. apply bind_inv in H as (x & Ex & H). apply bind_inv in H as ([[s1 g1] sw1] & E1 & H).
  pose proof (f_wf _ _ _ _ (i_same _ _ _ I)) as W.
  assert (Lg1 : 1 < g) by (apply W in Ex; lia). assert (NP : g <> P) by (intros E; rewrite E in Lg; lia).
  assert (STEP1 : inv G0 (d_graph s1) (d_anc s1) /\ onward (d_graph s) (d_graph s1) /\ g1 = g /\ sw1 = []).
  { destruct (has_node n x) eqn:HN; [|injection E1 as <- <- <-; split; [auto|split; [apply onward_refl|auto]]].
    apply bind_inv in E1 as ([b A] & EW & E1). destruct (within_ok fuel _ W _ _ _ _ (i_known _ _ _ I) EW) as [K D]. pose proof (inv_anc _ _ _ _ I K) as IA. destruct b.
    - apply bind_inv in E1 as (G' & EG & E1). injection E1 as <- <- <-. destruct (D eq_refl Lg1) as [|D1]; [contradiction|]. destruct (constant_ok G0 _ A g x G' W0 IA Ex HN NP D1 EG) as [Q1 Q2]. cbn [with_graph with_anc d_graph d_anc]. auto.
    - apply bind_inv in E1 as ([G' c] & EG & E1). destruct (clone_dead G0 _ A g G' c W0 IA EG) as (Q1 & Q2 & _ & y & Ey & RF). rewrite Ey in E1. cbn [mbind option_bind] in E1. rewrite RF in E1. injection E1 as <- <- <-. cbn [with_graph with_anc d_graph d_anc]. auto. }
  clear E1. destruct STEP1 as (I1 & O1 & -> & ->). pose proof (f_wf _ _ _ _ (i_same _ _ _ I1)) as W1.
  destruct (onward_list _ _ r (a :: l) W ltac:(rewrite (i_dest _ _ _ I); eauto) R O1 L) as (r1 & R1 & L1).
  apply bind_inv in H as (s2 & E2 & H).
  assert (STEP2 : inv G0 (d_graph s2) (d_anc s2) /\ onward (d_graph s1) (d_graph s2)).
  { destruct (decide (g ∈ d_desc s1)); [|injection E2 as <-; split; [auto|apply onward_refl]]. apply bind_inv in E2 as ([b A] & EW & E2). destruct (within_ok fuel _ W1 _ _ _ _ (i_known _ _ _ I1) EW) as [K D]. pose proof (inv_anc _ _ _ _ I1 K) as IA.
    destruct b; [|injection E2 as <-; split; [auto|apply onward_refl]]. destruct (L1 a ltac:(left; auto)) as [Sg1 Lg2]. apply (CO G0 g (with_anc A s1) s2 r1); auto. fold g in Lg2. lia. }
  clear E2. destruct STEP2 as (I2 & O2). destruct (onward_list _ _ r1 (a :: l) W1 ltac:(rewrite (i_dest _ _ _ I1); eauto) R1 O2 L1) as (r2 & R2 & L2).
  apply bind_inv in H as ([s3 sw3] & E3 & H). injection H as <- <-. destruct (IH s2 s3 sw3 r2 I2 R2 ltac:(intros; apply L2; right; auto) E3) as (I3 & O3 & ->).
  split; [auto|]. split; [|auto]. eapply onward_trans; [exact O1|]. eapply onward_trans; eauto.
Qed.
Lemma ancestors_ok fuel : call_ok (process_ancestors parents timed order P n state fuel).
Proof.
  induction fuel as [|fuel IH]; intros G0 i s s' r W0 I R Si Li H; cbn [process_ancestors] in H; [discriminate|].
  destruct (decide (i ∈ d_marks s)); [injection H as <-; split; [auto|apply onward_refl]|].
  apply bind_inv in H as ([s1 sw] & E1 & H). destruct (loop_ok fuel _ G0 W0 IH (order (d_graph s) i) (DSt (d_graph s) ({[i]} ∪ d_marks s) (d_desc s) (d_anc s)) s1 sw r I R) as (I1 & O1 & ->); [|exact E1|].
  { intros a Ia. cbn [d_graph]. destruct (ORDER _ _ _ Ia) as (x & Ex & Ix & Sx). split; [auto|]. pose proof (R i x a Ex Ix Sx). lia. }
  apply bind_inv in H as (A & EA & H). cbn [swap_loop mbind option_bind] in H. apply bind_inv in H as (x & Ex & H). injection H as <-. cbn [d_graph d_anc]. split; [|exact O1]. eapply inv_anc; [exact I1|]. eapply known_less; [apply I1|]. eapply clear_all_less; eauto.
Qed.
End Destination.

Lemma fixed_controls n x st : has_node n x = true -> fixed_state n x = Some st -> controls x n st.
Proof.
  intros H E. unfold fixed_state in E. apply bind_inv in E as (s0 & E0 & E). injection E as <-.
  assert (I : has n (g_args x) = false -> In (- n) (g_args x)) by (intros Q; unfold has_node in H; rewrite Q in H; cbn in H; apply has_In; auto).
  destruct (has n (g_args x)) eqn:Q; [apply has_In in Q|specialize (I eq_refl)]; unfold controls; destruct (g_type x); try discriminate; injection E0 as <-; cbn [negb]; auto.
Qed.
Lemma destinations_ok fuel n : 1 < n -> forall dest desc G G', wf G -> acyclic G -> is_Some (gs G !! root) -> (forall j x, gs G !! j = Some x -> arity x) ->
  process_destinations parents timed order fuel n dest desc G = Some G' -> same_function root G root G' /\ forall j x, gs G' !! j = Some x -> arity x.
Proof.
  intros Ln. induction dest as [|P dest IH]; intros desc G G' W A Sr AR H; cbn [process_destinations] in H; [injection H as <-; split; [apply same_refl; auto|auto]|].
  apply bind_inv in H as (x & EP & H). destruct (has_node n x) eqn:HN; [|eapply IH; eauto]. apply bind_inv in H as (st & ES & H). apply bind_inv in H as (s & EA & H). destruct A as [r R].
  assert (I : inv P x G G ∅) by (constructor; [apply same_refl; auto; exists r; auto|auto|auto|intros k E; rewrite lookup_empty in E; discriminate]).
  destruct (ancestors_ok P n st x (fixed_controls n x st HN ES) Ln fuel G P (DSt G ∅ desc ∅) s r W I R ltac:(eauto) ltac:(lia) EA) as [I1 _].
  destruct (IH _ _ _ (f_wf _ _ _ _ (i_same _ _ _ _ _ I1)) (f_acyclic _ _ _ _ (i_same _ _ _ _ _ I1)) (f_root _ _ _ _ (i_same _ _ _ _ _ I1)) (i_arity _ _ _ _ _ I1) H) as [S2 A2]. split; [|auto]. eapply same_trans; [exact W|exact (i_same _ _ _ _ _ I1)|exact S2].
Qed.
End Run.
