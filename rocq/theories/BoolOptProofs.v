(** Boolean optimization keeps the function of the root. *)
From stdpp Require Import gmap.
From Coq Require Import Lia Permutation List.
From Verif Require Import Pdag PdagProofs PdagAdd PdagSem PdagKeeps Preproc Decompose Rooted BoolOpt.
Import ListNotations.
Open Scope Z_scope.

Definition arg_in (g : Z) (x : gate) : Prop := In g (g_args x) \/ In (- g) (g_args x).

(** A gate with the node below it. *)
Definition preach (G : graph) (p g : Z) : Prop := exists x a, gs G !! p = Some x /\ In a (g_args x) /\ reach G (Z.abs a) g.
Lemma preach_reach G p g : preach G p g -> reach G p g /\ is_Some (gs G !! p).
Proof. intros (x & a & E & I & R). split; [|eauto]. eapply reach_trans; [|exact R]. eapply reach_arg; [constructor|eauto|auto]. Qed.
Lemma preach_trans G p q g : preach G p q -> reach G q g -> preach G p g.
Proof. intros (x & a & E & I & R) H. exists x, a. split; [auto|]. split; [auto|]. eapply reach_trans; eauto. Qed.
Lemma reach_preach G p q g x a : reach G p q -> gs G !! q = Some x -> In a (g_args x) -> reach G (Z.abs a) g -> preach G p g.
Proof.
  intros R. revert g x a. induction R as [|j y b R IH Ey Ib]; intros g x a Ex Ia H; [exists x, a; auto|]. eapply IH; [exact Ey|exact Ib|]. eapply reach_trans; [|exact H]. eapply reach_arg; [constructor|eauto|auto].
Qed.
Lemma preach_neq G r p g : ranked G r -> preach G p g -> p <> g /\ (is_Some (gs G !! g) -> (r g < r p)%nat).
Proof.
  intros R (x & a & E & I & RA). assert (L : is_Some (gs G !! g) -> (r g < r p)%nat).
  { intros Sg. destruct (gs G !! Z.abs a) as [y|] eqn:Ey.
    - pose proof (R p x a E I ltac:(eauto)). destruct (reach_rank G r _ _ R RA Sg) as [<-|]; lia.
    - assert (X : forall k, reach G (Z.abs a) k -> k = Z.abs a) by (induction 1 as [|k z b H1 IH H2 H3]; auto; subst k; congruence). rewrite <- (X g RA) in Ey. rewrite Ey in Sg. destruct Sg; discriminate. }
  split; [|auto]. intros ->. specialize (L ltac:(eauto)). lia.
Qed.

Section Marks.
Context (parents : graph -> Z -> list Z) (mods : gset Z).
Context (SOUND : forall G g p, In p (parents G g) -> exists x, gs G !! p = Some x /\ arg_in g x).

Record marked (G : graph) (g : Z) (A : gset Z) (m : option Z) (A' : gset Z) (m' : option Z) : Prop := {
  m_more : forall p, p ∈ A -> p ∈ A';
  m_parents : forall p, In p (parents G g) -> p ∈ A';
  m_closed : forall p q, p ∈ A' -> p ∉ A -> p ∉ mods -> In q (parents G p) -> q ∈ A';
  m_reach : forall p, p ∈ A' -> p ∉ A -> preach G p g;
  m_mod : forall p, p ∈ A' -> p ∉ A -> p ∈ mods -> m' = Some p;
  m_keep : forall q, m = Some q -> m' = Some q;
  m_from : forall q, m' = Some q -> m = Some q \/ q ∈ A' }.
Lemma parent_reach G g p : 0 < g -> In p (parents G g) -> preach G p g.
Proof.
  intros L I. destruct (SOUND G g p I) as (x & E & [A|A]); [exists x, g|exists x, (- g)]; (split; [auto|]); (split; [auto|]); [rewrite Z.abs_eq by lia|rewrite Z.abs_neq, Z.opp_involutive by lia]; constructor.
Qed.
Lemma mark_ok G : wf G -> forall fuel g A m A' m', 0 < g -> mark_ancestors parents mods fuel G g (A, m) = Some (A', m') -> marked G g A m A' m'.
Proof.
  intros W. induction fuel as [|fuel IH]; intros g A m A' m' Lg H; cbn [mark_ancestors] in H; [discriminate|].
  assert (X : forall l A m A' m', (forall p, In p l -> In p (parents G g)) -> mark_all mods (mark_ancestors parents mods fuel G) l (A, m) = Some (A', m') ->
    (forall p, p ∈ A -> p ∈ A') /\ (forall p, In p l -> p ∈ A') /\ (forall p q, p ∈ A' -> p ∉ A -> p ∉ mods -> In q (parents G p) -> q ∈ A') /\
    (forall p, p ∈ A' -> p ∉ A -> preach G p g) /\ (forall p, p ∈ A' -> p ∉ A -> p ∈ mods -> m' = Some p) /\
    (forall q, m = Some q -> m' = Some q) /\ (forall q, m' = Some q -> m = Some q \/ q ∈ A')).
  { clear A m A' m' H. induction l as [|p l IHl]; intros A m A' m' Hl H; cbn [mark_all] in H.
    { injection H as <- <-. repeat split; auto; try tauto; intros; try contradiction; firstorder. }
    apply bind_inv in H as ([A1 m1] & E1 & H). cbn [fst snd] in E1. pose proof (parent_reach G g p Lg (Hl p ltac:(left; auto))) as PP. destruct (preach_reach G p g PP) as [RP SP].
    assert (S1 : (forall q, q ∈ A -> q ∈ A1) /\ p ∈ A1 /\ (forall q q', q ∈ A1 -> q ∉ A -> q ∉ mods -> In q' (parents G q) -> q' ∈ A1) /\
      (forall q, q ∈ A1 -> q ∉ A -> preach G q g) /\ (forall q, q ∈ A1 -> q ∉ A -> q ∈ mods -> m1 = Some q) /\
      (forall q, m = Some q -> m1 = Some q) /\ (forall q, m1 = Some q -> m = Some q \/ q ∈ A1)).
    { destruct (decide (p ∈ A)) as [IA|IA]; [injection E1 as <- <-; repeat split; auto; try tauto; intros; contradiction|].
      destruct (decide (p ∈ mods)) as [IM|IM].
      - destruct m as [m|]; [discriminate|]. injection E1 as <- <-. split; [set_solver|]. split; [set_solver|]. split; [|split; [|split; [|split; [discriminate|]]]].
        + intros q q' I1 I2 I3. apply elem_of_union in I1 as [I1|I1]; [apply elem_of_singleton in I1 as ->; contradiction|contradiction].
        + intros q I1 I2. apply elem_of_union in I1 as [I1|I1]; [apply elem_of_singleton in I1 as ->; auto|contradiction].
        + intros q I1 I2 _. apply elem_of_union in I1 as [I1|I1]; [apply elem_of_singleton in I1 as ->; auto|contradiction].
        + intros q [= <-]. right. set_solver.
      - assert (Lp : 0 < p) by (destruct SP as [x Ex]; apply W in Ex; lia). destruct (IH p _ _ _ _ Lp E1) as [a b c d e f h]. split; [intros q Q; apply a; set_solver|]. split; [apply a; set_solver|].
        assert (NEW : forall q, q ∈ A1 -> q ∉ A -> q = p \/ q ∉ {[p]} ∪ A) by (intros q Q1 Q2; destruct (Z.eq_dec q p); [auto|right; set_solver]).
        split; [|split; [|split; [|split; [auto|exact h]]]].
        + intros q q' I1 I2 I3 I4. destruct (NEW q I1 I2) as [->|N]; [auto|eauto].
        + intros q I1 I2. destruct (NEW q I1 I2) as [->|N]; [auto|]. eapply preach_trans; [exact (d q I1 N)|exact RP].
        + intros q I1 I2 I3. destruct (NEW q I1 I2) as [->|N]; [contradiction|auto]. }
    clear E1. destruct S1 as (a1 & b1 & c1 & d1 & e1 & f1 & h1). destruct (IHl A1 m1 A' m' ltac:(intros; apply Hl; right; auto) H) as (a2 & b2 & c2 & d2 & e2 & f2 & h2).
    split; [auto|]. split; [intros q [<-|I]; auto|]. split; [|split; [|split; [|split; [auto|]]]].
    - intros q q' I1 I2 I3 I4. destruct (decide (q ∈ A1)); eauto.
    - intros q I1 I2. destruct (decide (q ∈ A1)); eauto.
    - intros q I1 I2 I3. destruct (decide (q ∈ A1)); eauto.
    - intros q Q. destruct (h2 q Q) as [Q1|]; auto. destruct (h1 q Q1); auto. }
  destruct (X (parents G g) A m A' m' ltac:(auto) H) as (a & b & c & d & e & f & h). constructor; auto.
Qed.
End Marks.

(** ** States of the gates when the node is true *)
Definition sound (ν : Z -> bool) (V : optis) : Prop := forall g, (opt V g = 1 -> ν g = true) /\ (opt V g = -1 -> ν g = false).
Definition bounded (V : optis) : Prop := forall g, opt V g = 0 \/ opt V g = 1 \/ opt V g = -1 \/ opt V g = 2.
Lemma opt_insert V g v h : opt (<[g := v]> V) h = if decide (g = h) then v else opt V h.
Proof. unfold opt. destruct (decide (g = h)) as [<-|N]; [now rewrite lookup_insert|now rewrite lookup_insert_ne]. Qed.
(** NOT and NULL gates have one argument, XOR gates two. *)
Definition shape (x : gate) : Prop := arity x /\ (g_type x = kXor -> length (g_args x) <= 2)%nat.
Definition falses (vs : list bool) : Z := count (map negb vs).
Lemma falses_count vs : falses vs + count vs = Z.of_nat (length vs).
Proof. unfold falses. induction vs as [|b vs IH]; [reflexivity|]. cbn [map]. rewrite !count_cons. cbn [length]. destruct b; cbn [negb]; lia. Qed.
Lemma determine_ok ν x nf ns v : shape x -> 0 <= nf -> 0 <= ns -> nf <= count (map (lit ν) (g_args x)) -> ns <= falses (map (lit ν) (g_args x)) ->
  determine x nf ns = Some v -> (v = 1 -> gate_value ν x = true) /\ (v = -1 -> gate_value ν x = false) /\ (v = 0 \/ v = 1 \/ v = -1).
Proof.
  intros [A AX] P1 P2 C1 C2 H. unfold determine in H. unfold gate_value. assert (TOT := falses_count (map (lit ν) (g_args x))). rewrite map_length in TOT. fold (size (g_args x)) in TOT.
  assert (SZ : size (g_args x) = Z.of_nat (length (map (lit ν) (g_args x)))) by (unfold size; now rewrite map_length).
  pose proof (count_bounds (map (lit ν) (g_args x))) as CB. set (vs := map (lit ν) (g_args x)) in *. set (T := count vs) in *. set (F := falses vs) in *.
  destruct (Z.eqb_spec (nf + ns) 0) as [Z0|Z0]; [injection H as <-; split; [discriminate|split; [discriminate|auto]]|].
  assert (ST : forall rf rs, let st := if rf <=? nf then 1 else if rs <=? ns then -1 else 0 in (st = 1 -> rf <= T) /\ (st = -1 -> rs <= F) /\ (st = 0 \/ st = 1 \/ st = -1)).
  { intros rf rs. cbn. destruct (Z.leb_spec rf nf); [split; [lia|split; [discriminate|auto]]|]. destruct (Z.leb_spec rs ns); split; try discriminate; (split; [lia|auto]). }
  assert (ONE : g_type x = kNot \/ g_type x = kNull -> nf + ns = 1 -> exists b, vs = [b] /\ (1 <= nf -> b = true) /\ (1 <= ns -> b = false)).
  { intros Ty E1. specialize (A Ty). assert (L : (length vs <= 1)%nat) by (unfold vs; rewrite map_length; auto). destruct vs as [|b [|]] eqn:Ev; [cbn in *; unfold size in *; cbn in *; lia| |cbn in L; lia]. exists b. split; [auto|]. unfold T, F, falses, count in C1, C2; destruct b; cbn in C1, C2; split; intros; auto; lia. }
  destruct (g_type x) eqn:Ty; cbn [conn_value].
  - injection H as <-. destruct (ST (size (g_args x)) 1) as (Q1 & Q2 & Q3). rewrite forallb_count. rewrite <- SZ. fold T. split; [|split; [|auto]]; intros E; [apply Q1 in E; apply Z.leb_le; lia|apply Q2 in E; apply Z.leb_gt; lia].
  - injection H as <-. destruct (ST 1 (size (g_args x))) as (Q1 & Q2 & Q3). rewrite existsb_count. fold T. split; [|split; [|auto]]; intros E; [apply Q1 in E; apply Z.leb_le; lia|apply Q2 in E; apply Z.leb_gt; lia].
  - destruct (_ <? _); [|discriminate]. injection H as <-. destruct (ST (g_min x) (size (g_args x) - g_min x + 1)) as (Q1 & Q2 & Q3). fold T. split; [|split; [|auto]]; intros E; [apply Q1 in E; apply Z.leb_le; lia|apply Q2 in E; apply Z.leb_gt; lia].
  - assert (L2 : size (g_args x) <= 2) by (specialize (AX eq_refl); unfold size; lia). injection H as <-. fold T.
    destruct (Z.eqb_spec nf 1); destruct (Z.eqb_spec ns 1); cbn [andb]; [split; [|split; [discriminate|auto]]; intros _; replace T with 1 by lia; reflexivity| | |];
    (destruct (Z.eqb_spec ns 2); [cbn [orb]; split; [discriminate|split; [|auto]]; intros _; replace T with 0 by lia; reflexivity|]); cbn [orb]; (destruct (Z.eqb_spec nf 2); [split; [discriminate|split; [|auto]]; intros _; replace T with 2 by lia; reflexivity|split; [discriminate|split; [discriminate|auto]]]).
  - destruct (Z.eqb_spec (nf + ns) 1) as [E1|]; [|discriminate]. injection H as <-. destruct (ONE ltac:(auto) E1) as (b & -> & B1 & B2). destruct (Z.leb_spec 1 nf); [rewrite B1 by auto|destruct (Z.leb_spec 1 ns); [rewrite B2 by auto|]]; cbn; split; try discriminate; auto; split; try discriminate; auto.
  - injection H as <-. destruct (ST (size (g_args x)) 1) as (Q1 & Q2 & Q3). rewrite forallb_count. rewrite <- SZ. fold T. split; [|split; [|lia]]; intros E; [rewrite negb_true_iff; apply Z.leb_gt; assert (1 <= F) by (apply Q2; lia); lia|rewrite negb_false_iff; apply Z.leb_le; apply Q1; lia].
  - injection H as <-. destruct (ST 1 (size (g_args x))) as (Q1 & Q2 & Q3). rewrite existsb_count. fold T. split; [|split; [|lia]]; intros E; [rewrite negb_true_iff; apply Z.leb_gt; assert (size (g_args x) <= F) by (apply Q2; lia); lia|rewrite negb_false_iff; apply Z.leb_le; apply Q1; lia].
  - destruct (Z.eqb_spec (nf + ns) 1) as [E1|]; [|discriminate]. injection H as <-. destruct (ONE ltac:(auto) E1) as (b & -> & B1 & B2). destruct (Z.leb_spec 1 nf); [rewrite B1 by auto|destruct (Z.leb_spec 1 ns); [rewrite B2 by auto|]]; cbn; split; try discriminate; auto; split; try discriminate; auto.
Qed.

Definition is_gate (G : graph) (a : Z) : bool := match gs G !! Z.abs a with Some _ => true | None => false end.
Lemma is_gate_true G a : is_gate G a = true <-> is_Some (gs G !! Z.abs a).
Proof. unfold is_gate. destruct (gs G !! Z.abs a); split; eauto; try discriminate. intros [? ?]; discriminate. Qed.
Lemma split_perm {A} (f : A -> bool) l : Permutation l (List.filter f l ++ List.filter (fun a => negb (f a)) l).
Proof. induction l as [|a l IH]; [constructor|]. cbn. destruct (f a); cbn; [constructor; auto|]. apply Permutation_cons_app. auto. Qed.
Lemma count_app l l' : count (l ++ l') = count l + count l'.
Proof. unfold count. rewrite List.filter_app, app_length. lia. Qed.
Lemma count_in l : In true l -> 1 <= count l.
Proof. intros I. pose proof (existsb_count l) as E. destruct (Z.leb_spec 1 (count l)); auto. apply not_true_iff_false in E. exfalso. apply E. apply existsb_exists. eauto. Qed.

Section Propagate.
Context (order : graph -> Z -> list Z).
Context (ORDER : forall G i x, gs G !! i = Some x -> Permutation (order G i) (List.filter (is_gate G) (g_args x))).

Lemma order_in G i x a : gs G !! i = Some x -> (In a (order G i) <-> In a (g_args x) /\ is_Some (gs G !! Z.abs a)).
Proof. intros E. rewrite (Permutation_in' eq_refl (ORDER G i x E)). rewrite filter_In, is_gate_true. tauto. Qed.

Lemma opt_lit ν V a : a <> 0 -> sound ν V -> (opt V (Z.abs a) * Z.sgn a = 1 -> lit ν a = true) /\ (opt V (Z.abs a) * Z.sgn a = -1 -> lit ν a = false).
Proof.
  intros N S. destruct (S (Z.abs a)) as [S1 S2]. rewrite lit_abs. destruct (Z.ltb_spec a 0).
  - rewrite Z.sgn_neg by lia. split; intros E; [rewrite S2 by lia|rewrite S1 by lia]; auto.
  - rewrite Z.sgn_pos by lia. split; intros E; [rewrite S1 by lia|rewrite S2 by lia]; auto.
Qed.
Lemma propagate_sound G n ν : wf G -> consistent G ν -> (forall j x, gs G !! j = Some x -> shape x) -> 1 < n ->
  forall fuel g s s', sound ν (p_opti s) -> propagate order fuel G n g s = Some s' -> sound ν (p_opti s').
Proof.
  intros W [C1 C] SH Ln. induction fuel as [|fuel IH]; intros g s s' S H; cbn [propagate] in H; [discriminate|].
  destruct (decide (g ∈ p_marks s)); [|injection H as <-; auto]. destruct (_ || _); [discriminate|]. apply bind_inv in H as (x & Ex & H).
  apply bind_inv in H as ([[s1 nf] ns] & E1 & H).
  assert (X : forall l s nf ns s' nf' ns', (forall a, In a l -> a <> 0) -> sound ν (p_opti s) -> propagate_args (propagate order fuel G n) l s nf ns = Some (s', nf', ns') ->
    sound ν (p_opti s') /\ nf <= nf' <= nf + count (map (lit ν) l) /\ ns <= ns' <= ns + falses (map (lit ν) l)).
  { clear - IH. induction l as [|a l IHl]; intros s nf ns s' nf' ns' NZ S H; cbn [propagate_args] in H; [injection H as <- <- <-; unfold falses; cbn; split; [auto|]; split; [change (count []) with 0; lia|change (count []) with 0; lia]|].
    apply bind_inv in H as (s1 & E1 & H). pose proof (IH _ _ _ S E1) as S1. apply IHl in H as (S2 & L1 & L2); auto; [|intros; apply NZ; right; auto]. split; [auto|].
    destruct (opt_lit ν (p_opti s1) a (NZ a ltac:(left; auto)) S1) as [O1 O2]. cbn [map]. unfold falses in *. cbn [map]. rewrite !count_cons.
    destruct (Z.eqb_spec (opt (p_opti s1) (Z.abs a) * Z.sgn a) 1) as [Q1|Q1]; [rewrite O1 in * by auto; rewrite Q1 in L2; cbn in *; lia|].
    destruct (Z.eqb_spec (opt (p_opti s1) (Z.abs a) * Z.sgn a) (-1)) as [Q2|Q2]; [rewrite O2 in * by auto; cbn in *; lia|]. destruct (lit ν a); cbn; lia. }
  destruct (proj2 W g x Ex) as [Lg [ND AK]]. assert (AZ : forall a, In a (g_args x) -> a <> 0) by (intros a Ia; apply AK; auto).
  destruct (X _ (PSt (p_marks s ∖ {[g]}) ({[g]} ∪ p_desc s) (p_opti s)) _ _ _ _ _ ltac:(intros a Ia; apply (order_in G g x a Ex) in Ia; apply AZ; tauto) S E1) as (S1 & L1 & L2). clear X E1.
  destruct (negb _); [discriminate|]. apply bind_inv in H as (st & ES & H). injection H as <-. cbn [p_opti].
  set (v := match gs G !! n with None => _ | Some _ => 0 end) in ES.
  (* counts *)
  pose proof (Permutation_map (lit ν) (ORDER G g x Ex)) as PO. pose proof (Permutation_map (lit ν) (split_perm (is_gate G) (g_args x))) as PS. rewrite map_app in PS.
  assert (CT : count (map (lit ν) (g_args x)) = count (map (lit ν) (order G g)) + count (map (lit ν) (List.filter (fun a => negb (is_gate G a)) (g_args x)))) by (rewrite (count_perm _ _ PS), count_app, (count_perm _ _ PO); auto).
  assert (CF : falses (map (lit ν) (g_args x)) = falses (map (lit ν) (order G g)) + falses (map (lit ν) (List.filter (fun a => negb (is_gate G a)) (g_args x)))) by (unfold falses; rewrite (count_perm _ _ (Permutation_map negb PS)), map_app, count_app, (count_perm _ _ (Permutation_map negb PO)); auto).
  assert (VN : forall a, In a (g_args x) -> Z.abs a = n -> gs G !! n = None -> In a (List.filter (fun a => negb (is_gate G a)) (g_args x))) by (intros a Ia Ea En; apply filter_In; split; [auto|]; unfold is_gate; rewrite Ea, En; auto).
  assert (V1 : v = 1 -> 1 <= count (map (lit ν) (List.filter (fun a => negb (is_gate G a)) (g_args x)))).
  { intros Ev. unfold v in Ev. destruct (gs G !! n) eqn:En; [discriminate|]. apply count_in. destruct (S1 n) as [Sa Sb].
    destruct (has n (g_args x)) eqn:H1; [apply has_In in H1; apply in_map_iff; exists n; split; [unfold lit; destruct (Z.ltb_spec n 0); [lia|apply Sa; lia]|apply VN; auto; lia]|].
    destruct (has (- n) (g_args x)) eqn:H2; [|lia]. apply has_In in H2. apply in_map_iff. exists (- n). split; [unfold lit; destruct (Z.ltb_spec (- n) 0); [rewrite Z.opp_involutive, Sb by lia; auto|lia]|apply VN; auto; lia]. }
  assert (V2 : v = -1 -> 1 <= falses (map (lit ν) (List.filter (fun a => negb (is_gate G a)) (g_args x)))).
  { intros Ev. unfold v in Ev. destruct (gs G !! n) eqn:En; [discriminate|]. unfold falses. rewrite map_map. apply count_in. destruct (S1 n) as [Sa Sb].
    destruct (has n (g_args x)) eqn:H1; [apply has_In in H1; apply in_map_iff; exists n; split; [unfold lit; destruct (Z.ltb_spec n 0); [lia|rewrite Sb by lia; auto]|apply VN; auto; lia]|].
    destruct (has (- n) (g_args x)) eqn:H2; [|lia]. apply has_In in H2. apply in_map_iff. exists (- n). split; [unfold lit; destruct (Z.ltb_spec (- n) 0); [rewrite Z.opp_involutive, Sa by lia; auto|lia]|apply VN; auto; lia]. }
  pose proof (count_bounds (map (lit ν) (List.filter (fun a => negb (is_gate G a)) (g_args x)))) as B1.
  pose proof (count_bounds (map negb (map (lit ν) (List.filter (fun a => negb (is_gate G a)) (g_args x))))) as B2. fold (falses (map (lit ν) (List.filter (fun a => negb (is_gate G a)) (g_args x)))) in B2.
  assert (K1 : 0 <= (if v =? 1 then nf + 1 else nf)) by (destruct (v =? 1); lia).
  assert (K2 : 0 <= (if v =? -1 then ns + 1 else ns)) by (destruct (v =? -1); lia).
  assert (K3 : (if v =? 1 then nf + 1 else nf) <= count (map (lit ν) (g_args x))) by (destruct (Z.eqb_spec v 1) as [Q|]; [specialize (V1 Q)|]; lia).
  assert (K4 : (if v =? -1 then ns + 1 else ns) <= falses (map (lit ν) (g_args x))) by (destruct (Z.eqb_spec v (-1)) as [Q|]; [specialize (V2 Q)|]; lia).
  destruct (determine_ok ν x _ _ st (SH g x Ex) K1 K2 K3 K4 ES) as (D1 & D2 & _).
  intros h. rewrite opt_insert. destruct (decide (g = h)) as [<-|N]; [|apply S1]. rewrite (C g x Ex). auto.
Qed.

Definition small (V : optis) : Prop := forall g, opt V g = 0 \/ opt V g = 1 \/ opt V g = -1.
Record proped (G : graph) (g : Z) (s s' : pstate) : Prop := {
  q_marks : forall h, h ∈ p_marks s' -> h ∈ p_marks s;
  q_desc : forall h, h ∈ p_desc s -> h ∈ p_desc s';
  q_new : forall h, h ∈ p_desc s' -> h ∉ p_desc s -> h ∈ p_marks s /\ h ∉ p_marks s' /\ reach G g h /\ is_Some (gs G !! h);
  q_moved : forall h, h ∈ p_marks s -> h ∉ p_marks s' -> h ∈ p_desc s';
  q_args : forall h a, h ∈ p_desc s' -> h ∉ p_desc s -> In a (order G h) -> Z.abs a ∉ p_marks s';
  q_opti : forall h, opt (p_opti s) h <> 0 -> opt (p_opti s') h = opt (p_opti s) h;
  q_from : forall h, opt (p_opti s') h <> 0 -> opt (p_opti s) h <> 0 \/ h ∈ p_desc s';
  q_small : small (p_opti s) -> small (p_opti s');
  q_self : g ∉ p_marks s' }.
Lemma determine_small x nf ns v : determine x nf ns = Some v -> v = 0 \/ v = 1 \/ v = -1.
Proof.
  intros H. unfold determine in H. destruct (_ =? 0); [injection H as <-; auto|].
  assert (ST : forall rf rs, let st := if rf <=? nf then 1 else if rs <=? ns then -1 else 0 in st = 0 \/ st = 1 \/ st = -1) by (intros rf rs; cbn; destruct (rf <=? nf); auto; destruct (rs <=? ns); auto).
  destruct (g_type x); try (injection H as <-; solve [apply ST]); try (injection H as <-; match goal with |- context [- (if ?a <=? nf then _ else if ?b <=? ns then _ else _)] => pose proof (ST a b) as Q; cbn in Q end; lia).
  - destruct (_ <? _); [|discriminate]. injection H as <-. apply ST.
  - injection H as <-. destruct (_ && _); auto. destruct (_ || _); auto.
  - destruct (_ =? 1); [|discriminate]. injection H as <-. pose proof (ST 1 1) as Q. cbn in Q. lia.
  - destruct (_ =? 1); [|discriminate]. injection H as <-. apply ST.
Qed.
Lemma propagate_ok G n : wf G -> forall fuel g s s', propagate order fuel G n g s = Some s' -> proped G g s s'.
Proof.
  intros W. induction fuel as [|fuel IH]; intros g s s' H; cbn [propagate] in H; [discriminate|].
  destruct (decide (g ∈ p_marks s)) as [Mg|Mg]; [|injection H as <-; constructor; auto; try (intros; contradiction)].
  destruct (bool_decide (g ∈ p_desc s) || negb (opt (p_opti s) g =? 0)) eqn:AS; [discriminate|]. apply orb_false_iff in AS as [AS1 AS2]. apply bool_decide_eq_false in AS1. apply negb_false_iff, Z.eqb_eq in AS2.
  apply bind_inv in H as (x & Ex & H). apply bind_inv in H as ([[s1 nf] ns] & E1 & H).
  assert (X : forall l s nf ns s' nf' ns', (forall a, In a l -> In a (order G g)) -> propagate_args (propagate order fuel G n) l s nf ns = Some (s', nf', ns') ->
    (forall h, h ∈ p_marks s' -> h ∈ p_marks s) /\ (forall h, h ∈ p_desc s -> h ∈ p_desc s') /\
    (forall h, h ∈ p_desc s' -> h ∉ p_desc s -> h ∈ p_marks s /\ h ∉ p_marks s' /\ reach G g h /\ is_Some (gs G !! h)) /\
    (forall h, h ∈ p_marks s -> h ∉ p_marks s' -> h ∈ p_desc s') /\
    (forall h a, h ∈ p_desc s' -> h ∉ p_desc s -> In a (order G h) -> Z.abs a ∉ p_marks s') /\
    (forall h, opt (p_opti s) h <> 0 -> opt (p_opti s') h = opt (p_opti s) h) /\
    (forall h, opt (p_opti s') h <> 0 -> opt (p_opti s) h <> 0 \/ h ∈ p_desc s') /\ (small (p_opti s) -> small (p_opti s')) /\ (forall a, In a l -> Z.abs a ∉ p_marks s')).
  { clear - IH ORDER Ex. induction l as [|a l IHl]; intros s nf ns s' nf' ns' Hl H; cbn [propagate_args] in H; [injection H as <- <- <-; repeat split; auto; intros; try contradiction; try (exfalso; auto; fail)|].
    apply bind_inv in H as (s1 & E1 & H). destruct (IH _ _ _ E1) as [a1 a2 a3 a4 a5 a6 a7 a8 a9]. apply IHl in H as (b1 & b2 & b3 & b4 & b5 & b6 & b7 & b8 & b9); [|intros; apply Hl; right; auto].
    assert (RA : reach G g (Z.abs a)) by (destruct (proj1 (order_in G g x a Ex) (Hl a ltac:(left; auto))) as [Ia _]; eapply reach_arg; [constructor|eauto|auto]).
    split; [auto|]. split; [auto|]. split; [|split; [|split; [|split; [|split; [|split; [auto|]]]]]].
    - intros h H1 H2. destruct (decide (h ∈ p_desc s1)) as [D|D].
      + destruct (a3 h D H2) as (c1 & c2 & c3 & c4). repeat split; auto. eapply reach_trans; eauto.
      + destruct (b3 h H1 D) as (c1 & c2 & c3 & c4). auto.
    - intros h H1 H2. destruct (decide (h ∈ p_marks s1)); auto.
    - intros h c H1 H2 H3. destruct (decide (h ∈ p_desc s1)) as [D|D]; [intros Q; exact (a5 h c D H2 H3 (b1 _ Q))|eauto].
    - intros h H1. assert (E : opt (p_opti s1) h = opt (p_opti s) h) by auto. rewrite b6; [auto|congruence].
    - intros h H1. destruct (b7 h H1) as [Q|]; [|auto]. destruct (a7 h Q); auto.
    - intros c [<-|Ic]; [intros Q; exact (a9 (b1 _ Q))|auto]. }
  destruct (X _ _ _ _ _ _ _ (fun a Ia => Ia) E1) as (b1 & b2 & b3 & b4 & b5 & b6 & b7 & b8 & b9). clear X E1. cbn [p_marks p_desc p_opti] in *.
  destruct (negb (opt (p_opti s1) g =? 0)) eqn:AS3; [discriminate|]. apply negb_false_iff, Z.eqb_eq in AS3. apply bind_inv in H as (st & ES & H). injection H as <-.
  assert (NG : g ∉ p_marks s1) by (intros Q; apply b1 in Q; set_solver). assert (DG : g ∈ p_desc s1) by (apply b2; set_solver).
  constructor; cbn [p_marks p_desc p_opti]; auto.
  - intros h Q. apply b1 in Q. set_solver.
  - intros h Q. apply b2. set_solver.
  - intros h H1 H2. destruct (decide (h = g)) as [->|N]; [split; [auto|split; [auto|split; [constructor|eauto]]]|]. destruct (b3 h H1 ltac:(set_solver)) as (c1 & c2 & c3 & c4). repeat split; auto. set_solver.
  - intros h H1 H2. destruct (decide (h = g)) as [->|N]; auto. apply b4; auto. set_solver.
  - intros h a H1 H2 H3. destruct (decide (h = g)) as [->|N]; [auto|]. eapply b5; eauto. set_solver.
  - intros h H1. rewrite opt_insert. destruct (decide (g = h)) as [<-|N]; [congruence|auto].
  - intros h H1. rewrite opt_insert in H1. destruct (decide (g = h)) as [<-|N]; [auto|]. destruct (b7 h H1); auto.
  - intros SM h. rewrite opt_insert. destruct (decide (g = h)) as [<-|N]; [eapply determine_small; eauto|apply b8; auto].
Qed.
End Propagate.

Section Collect.
Context (order : graph -> Z -> list Z).
Context (ORDER : forall G i x, gs G !! i = Some x -> Permutation (order G i) (List.filter (is_gate G) (g_args x))).
Record collected (G : graph) (desc : gset Z) (n g : Z) (st st' : optis * gset Z) : Prop := {
  c_opti : forall h, opt st.1 h <> 0 -> opt st'.1 h = opt st.1 h;
  c_new : forall h, opt st'.1 h <> 0 -> opt st.1 h <> 0 \/ (opt st'.1 h = 2 /\ h ∈ desc /\ reach G g h);
  c_closed : forall h a, opt st'.1 h = 2 -> opt st.1 h <> 2 -> In a (order G h) ->
    (Z.abs a ∈ desc -> opt st'.1 (Z.abs a) <> 0) /\ (opt st'.1 (Z.abs a) = 1 \/ opt st'.1 (Z.abs a) = -1 -> Z.abs a <> n -> Z.abs a ∈ st'.2);
  c_dest : forall d, d ∈ st'.2 -> d ∈ st.2 \/ ((opt st'.1 d = 1 \/ opt st'.1 d = -1) /\ d <> n /\ is_Some (gs G !! d));
  c_more : forall d, d ∈ st.2 -> d ∈ st'.2;
  c_bound : bounded st'.1;
  c_self : g ∈ desc -> opt st'.1 g <> 0 }.
Lemma collect_ok G desc n : (forall h, h ∈ desc -> is_Some (gs G !! h)) -> forall fuel g st st', bounded st.1 -> collect order fuel G desc n g st = Some st' -> collected G desc n g st st'.
Proof.
  intros DG. induction fuel as [|fuel IH]; intros g st st' B H; cbn [collect] in H; [discriminate|].
  destruct (decide (g ∈ desc)) as [Ig|Ig]; [|injection H as <-; constructor; auto; try (intros; contradiction); firstorder].
  destruct (Z.eqb_spec (opt st.1 g) 0) as [E0|E0]; cbn [negb] in H; [|injection H as <-; constructor; auto; try (intros; contradiction)].
  destruct (DG g Ig) as [x Ex].
  assert (X : forall l st st', (forall a, In a l -> In a (order G g)) -> bounded st.1 -> collect_args (collect order fuel G desc n) n l st = Some st' ->
    (forall h, opt st.1 h <> 0 -> opt st'.1 h = opt st.1 h) /\ (forall h, opt st'.1 h <> 0 -> opt st.1 h <> 0 \/ (opt st'.1 h = 2 /\ h ∈ desc /\ reach G g h)) /\
    (forall h a, opt st'.1 h = 2 -> opt st.1 h <> 2 -> In a (order G h) -> (Z.abs a ∈ desc -> opt st'.1 (Z.abs a) <> 0) /\ (opt st'.1 (Z.abs a) = 1 \/ opt st'.1 (Z.abs a) = -1 -> Z.abs a <> n -> Z.abs a ∈ st'.2)) /\
    (forall d, d ∈ st'.2 -> d ∈ st.2 \/ ((opt st'.1 d = 1 \/ opt st'.1 d = -1) /\ d <> n /\ is_Some (gs G !! d))) /\ (forall d, d ∈ st.2 -> d ∈ st'.2) /\ bounded st'.1 /\
    (forall a, In a l -> (Z.abs a ∈ desc -> opt st'.1 (Z.abs a) <> 0) /\ (opt st'.1 (Z.abs a) = 1 \/ opt st'.1 (Z.abs a) = -1 -> Z.abs a <> n -> Z.abs a ∈ st'.2))).
  { clear - IH ORDER Ex. induction l as [|a l IHl]; intros st st' Hl B H; cbn [collect_args] in H; [injection H as <-; split; [auto|split; [auto|split; [intros; contradiction|split; [auto|split; [auto|split; [auto|intros a []]]]]]]|].
    apply bind_inv in H as (st1 & E1 & H). destruct (IH _ _ _ B E1) as [a1 a2 a3 a4 a5 a6 a7].
    destruct (proj1 (order_in order ORDER G g x a Ex) (Hl a ltac:(left; auto))) as [Ia Sa].
    set (st2 := if _ || _ || _ then st1 else _) in H.
    assert (F2 : st2.1 = st1.1) by (unfold st2; destruct (_ || _); auto).
    assert (M2 : forall d, d ∈ st1.2 -> d ∈ st2.2) by (intros d; unfold st2; destruct (_ || _); auto; cbn; set_solver).
    assert (N2 : forall d, d ∈ st2.2 -> d ∈ st1.2 \/ ((opt st1.1 d = 1 \/ opt st1.1 d = -1) /\ d <> n /\ is_Some (gs G !! d))).
    { intros d Id. unfold st2 in Id. destruct (Z.eqb_spec (Z.abs a) n); [auto|]. destruct (Z.eqb_spec (opt st1.1 (Z.abs a)) 0); [auto|]. destruct (Z.ltb_spec 1 (opt st1.1 (Z.abs a))); [auto|]. cbn in Id. apply elem_of_union in Id as [Id|Id]; [|auto]. apply elem_of_singleton in Id as ->. right. split; [|auto]. destruct (a6 (Z.abs a)); lia. }
    assert (A2 : opt st1.1 (Z.abs a) = 1 \/ opt st1.1 (Z.abs a) = -1 -> Z.abs a <> n -> Z.abs a ∈ st2.2).
    { intros Q N. unfold st2. destruct (Z.eqb_spec (Z.abs a) n); [contradiction|]. destruct (Z.eqb_spec (opt st1.1 (Z.abs a)) 0); [lia|]. destruct (Z.ltb_spec 1 (opt st1.1 (Z.abs a))); [lia|]. cbn. set_solver. }
    destruct (IHl st2 st' ltac:(intros; apply Hl; right; auto) ltac:(rewrite F2; auto) H) as (b1 & b2 & b3 & b4 & b5 & b6 & b7). rewrite F2 in *.
    assert (RA : reach G g (Z.abs a)) by (eapply reach_arg; [constructor|eauto|auto]).
    (* a value 1 or -1 was there before *)
    assert (OLD : forall h, opt st'.1 h = 1 \/ opt st'.1 h = -1 -> opt st1.1 h = opt st'.1 h) by (intros h Q; destruct (b2 h ltac:(lia)) as [Q1|[Q1 _]]; [symmetry; auto|lia]).
    split; [|split; [|split; [|split; [|split; [|split; [auto|]]]]]].
    - intros h N. pose proof (a1 h N) as E. rewrite b1; congruence.
    - intros h N. destruct (b2 h N) as [N1|]; [|auto]. destruct (a2 h N1) as [|(Q1 & Q2 & Q3)]; [auto|]. right. split; [rewrite b1; auto|split; [auto|eapply reach_trans; eauto]].
    - intros h c E N I. destruct (Z.eq_dec (opt st1.1 h) 2) as [E2|E2]; [|eauto]. destruct (a3 h c E2 N I) as [Q1 Q2]. split; [intros D; rewrite b1; auto|]. intros O Nn. apply b5, M2, Q2; auto. rewrite OLD; auto.
    - intros d Id. destruct (b4 d Id) as [Q|]; [|auto]. destruct (N2 d Q) as [Q1|(Q1 & Q2 & Q3)]; [|right; rewrite b1 by lia; auto]. destruct (a4 d Q1) as [|(Q2 & Q3 & Q4)]; [auto|right; rewrite b1 by lia; auto].
    - intros d Id. auto.
    - intros c [<-|Ic]; [|auto]. split; [intros D; rewrite b1; auto|]. intros O Nn. apply b5, A2; auto. rewrite OLD; auto. }
  assert (B2 : bounded (<[g := 2]> st.1)) by (intros h; rewrite opt_insert; destruct (decide (g = h)); auto; lia).
  destruct (X (order G g) (<[g := 2]> st.1, st.2) st' (fun a I => I) B2 H) as (b1 & b2 & b3 & b4 & b5 & b6 & b7). cbn [fst snd] in *.
  assert (EG : opt st'.1 g = 2) by (rewrite b1; rewrite opt_insert; destruct (decide (g = g)); auto; lia).
  constructor; auto.
  - intros h N. rewrite b1; rewrite opt_insert; destruct (decide (g = h)) as [<-|]; auto; lia.
  - intros h N. destruct (b2 h N) as [Q|]; [|auto]. rewrite opt_insert in Q. destruct (decide (g = h)) as [<-|]; [right; split; [auto|split; [auto|constructor]]|auto].
  - intros h a E N I. destruct (decide (g = h)) as [<-|NE]; [auto|]. apply (b3 h a E); auto. rewrite opt_insert. destruct (decide (g = h)); [contradiction|auto].
  - intros _. lia.
Qed.
End Collect.

(** Destination and redundancy collision (2024-2032). *)
Definition collision (G : graph) (V : optis) (n p : Z) : Prop :=
  exists x, gs G !! p = Some x /\ opt V p <> 0 /\ g_type x = target_type (opt V p) /\ opt V p = arg_sign x n.
Lemma conn_eqb_eq a b : conn_eqb a b = true <-> a = b.
Proof. destruct a, b; cbn; split; intros; auto; discriminate. Qed.
Lemma redundants_ok G V n : forall l D R D' R', List.NoDup l -> redundants G V n l D R = Some (D', R') ->
  (forall p, In p R' -> In p R \/ (In p l /\ opt V p <> 2)) /\ (forall d, d ∈ D' -> d ∈ D) /\ (forall p, In p R -> In p R') /\
  (forall d, d ∈ D -> d ∉ D' -> In d l /\ collision G V n d /\ (In d R' -> In d R)) /\ (List.NoDup R -> (forall p, In p R -> ~ In p l) -> List.NoDup R').
Proof.
  induction l as [|p l IH]; intros D R D' R' ND H; cbn [redundants] in H; [injection H as <- <-; split; [auto|split; [auto|split; [auto|split; [intros; contradiction|auto]]]]|].
  inversion ND as [|? ? NI ND']; subst.
  destruct (Z.eqb_spec (opt V p) 2) as [E2|E2].
  { destruct (IH _ _ _ _ ND' H) as (a & b & c & d & e). split; [intros q Q; destruct (a q Q) as [|[? ?]]; [auto|right; split; [right; auto|auto]]|]. split; [auto|]. split; [auto|]. split; [intros q Q1 Q2; destruct (d q Q1 Q2) as (? & ? & ?); split; [right; auto|auto]|]. intros N1 N2. apply e; auto. intros q Q Q1. apply (N2 q Q). right; auto. }
  apply bind_inv in H as (x & Ex & H).
  destruct (negb (opt V p =? 0) && bool_decide (p ∈ D) && conn_eqb (g_type x) (target_type (opt V p)) && (opt V p =? arg_sign x n)) eqn:C.
  - apply andb_true_iff in C as [C C4]. apply andb_true_iff in C as [C C3]. apply andb_true_iff in C as [C1 C2]. apply negb_true_iff, Z.eqb_neq in C1. apply bool_decide_eq_true in C2. apply conn_eqb_eq in C3. apply Z.eqb_eq in C4.
    destruct (IH _ _ _ _ ND' H) as (a & b & c & d & e). split; [intros q Q; destruct (a q Q) as [|[? ?]]; [auto|right; split; [right; auto|auto]]|]. split; [intros q Q; apply b in Q; set_solver|]. split; [auto|]. split.
    + intros q Q1 Q2. destruct (decide (q = p)) as [->|N]; [|destruct (d q ltac:(set_solver) Q2) as (? & ? & ?); split; [right; auto|auto]]. split; [left; auto|]. split; [exists x; auto|]. intros Q. destruct (a p Q) as [|[? ?]]; [auto|contradiction].
    + intros N1 N2. apply e; auto. intros q Q Q1. apply (N2 q Q). right; auto.
  - destruct (IH _ _ _ _ ND' H) as (a & b & c & d & e). split; [intros q Q; destruct (a q Q) as [Q1|[? ?]]; [apply in_app_iff in Q1 as [|[<-|[]]]; [auto|right; split; [left; auto|auto]]|right; split; [right; auto|auto]]|]. split; [auto|]. split; [intros q Q; apply c, in_or_app; auto|]. split.
    + intros q Q1 Q2. destruct (d q Q1 Q2) as (d1 & d2 & d3). split; [right; auto|]. split; [auto|]. intros Q. apply d3 in Q. apply in_app_iff in Q as [|[<-|[]]]; [auto|contradiction].
    + intros N1 N2. apply e.
      * apply (Permutation_NoDup (Permutation_cons_append R p)). constructor; [intros Q; apply (N2 p Q); left; auto|auto].
      * intros q Q Q1. apply in_app_iff in Q as [Q|[<-|[]]]; [apply (N2 q Q); right; auto|contradiction].
Qed.
