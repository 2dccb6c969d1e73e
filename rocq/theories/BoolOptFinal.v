(** Boolean optimization of a common node keeps the function of the root. *)
From stdpp Require Import gmap.
From Coq Require Import Lia Permutation List.
From Verif Require Import Pdag PdagProofs PdagAdd PdagSem PdagKeeps Preproc Decompose Rooted BoolOpt BoolOptProofs BoolOptEdits BoolOptMain.
Import ListNotations.
Open Scope Z_scope.

Section Targets.
Context (G : graph) (root n : Z) (V : optis) (r : Z -> nat) (Rd : list Z).
Context (W : wf G) (RK : ranked G r) (Ln : 1 < n < nxt G).
Context (users : graph -> Z -> list Z).
Context (USERS : forall G d p, In p (users G d) <-> exists x, gs G !! p = Some x /\ arg_in d x).
Context (USERS_ND : forall G d, List.NoDup (users G d)).

Lemma targets_ok : forall l Ru ρ H root1 root2 H', built G root n V r Rd Ru ρ H -> root1 = default root (ρ !! root) -> List.NoDup l ->
  (forall d, In d l -> d ∉ Ru /\ ρ !! d = None /\ is_Some (gs G !! d) /\ (opt V d = 1 \/ opt V d = -1) /\ reach G d n /\ d <> n) ->
  fix_targets users V n l (root1, H) = Some (root2, H') ->
  exists Ru' ρ', built G root n V r Rd Ru' ρ' H' /\ root2 = default root (ρ' !! root) /\ (forall d, In d l -> d ∈ Ru' \/ is_Some (ρ' !! d)) /\
    (forall d, d ∈ Ru' -> d ∈ Ru \/ In d l) /\ (forall d, is_Some (ρ' !! d) -> is_Some (ρ !! d) \/ In d l) /\ (forall d, d ∈ Ru -> d ∈ Ru') /\ (forall d, is_Some (ρ !! d) -> is_Some (ρ' !! d)).
Proof.
  induction l as [|d l IH]; intros Ru ρ H root1 root2 H' B ER ND HL E; cbn [fix_targets] in E.
  { injection E as <- <-. exists Ru, ρ. split; [auto|]. split; [auto|]. split; [intros d []|]. auto. }
  apply bind_inv in E as (y & Ey & E). apply bind_inv in E as ([root3 H3] & E1 & E). inversion ND as [|? ? NI ND']; subst l0 x. destruct (HL d ltac:(left; auto)) as (L1 & L2 & L3 & L4 & L5 & L6).
  destruct (conn_eqb (g_type y) (target_type (opt V d))) eqn:CT.
  - apply conn_eqb_eq in CT. destruct L3 as [x0 Ex0]. destruct (b_gate _ _ _ _ _ _ _ _ _ B d x0 Ex0) as (y0 & Ey0 & TD & _). rewrite Ey in Ey0. injection Ey0 as <-.
    assert (NC : constant y = false) by (apply not_true_iff_false; intros Q; apply TD in Q; rewrite Q in CT; unfold target_type in CT; destruct (_ =? 1); discriminate). rewrite NC in E1. apply bind_inv in E1 as (H1 & E2 & E1). injection E1 as <- <-.
    pose proof (built_reuse G root n V r Rd W RK Ln Ru ρ H d y H1 B L1 ltac:(eauto) L4 L5 L6 Ey CT NC E2) as B1.
    destruct (IH ({[d]} ∪ Ru) ρ H1 root1 root2 H' B1 ER ND') as (Ru' & ρ' & c1 & c2 & c3 & c4 & c5 & c6 & c7); [|exact E|].
    { intros e Ie. destruct (HL e ltac:(right; auto)) as (M1 & M2). split; [|auto]. intros Q. apply elem_of_union in Q as [Q|Q]; [apply elem_of_singleton in Q as ->; contradiction|contradiction]. }
    exists Ru', ρ'. split; [auto|]. split; [auto|]. split; [intros e [<-|Ie]; [left; apply c6, elem_of_union_l, elem_of_singleton; auto|auto]|]. split; [intros e Q; destruct (c4 e Q) as [Q1|]; [|right; right; auto]; apply elem_of_union in Q1 as [Q1|]; [apply elem_of_singleton in Q1 as ->; right; left; auto|auto]|]. split; [intros e Q; destruct (c5 e Q); [auto|right; right; auto]|]. split; [intros e Q; apply c6, elem_of_union_r; auto|auto].
  - destruct (built_new G root n V r Rd W RK Ln users USERS USERS_ND Ru ρ H d H3 root1 root3 B L2 L3 L4 L5 L6 ER E1) as [B1 ER1].
    destruct (IH Ru (<[d := nxt H]> ρ) H3 root3 root2 H' B1 ER1 ND') as (Ru' & ρ' & c1 & c2 & c3 & c4 & c5 & c6 & c7); [|exact E|].
    { intros e Ie. destruct (HL e ltac:(right; auto)) as (M1 & M2 & M3). split; [auto|]. split; [|auto]. rewrite lookup_insert_ne; auto. intros ->. contradiction. }
    exists Ru', ρ'. split; [auto|]. split; [auto|]. split; [intros e [<-|Ie]; [right; apply c7; rewrite lookup_insert; eauto|auto]|]. split; [intros e Q; destruct (c4 e Q); [auto|right; right; auto]|].
    split; [intros e Q; destruct (c5 e Q) as [Q1|]; [|right; right; auto]; destruct (Z.eq_dec d e) as [->|Ne]; [right; left; auto|rewrite lookup_insert_ne in Q1 by auto; auto]|]. split; [auto|]. intros e Q. apply c7. destruct (Z.eq_dec d e) as [->|Ne]; [rewrite lookup_insert; eauto|rewrite lookup_insert_ne by auto; auto].
Qed.
End Targets.

(** What the analysis of the node finds. *)
Record plan (G : graph) (root n M : Z) (A : gset Z) (V : optis) (D : gset Z) : Prop := {
  pl_M : M ∈ A;
  pl_parents : forall p x, reach G root p -> gs G !! p = Some x -> arg_in n x -> p ∈ A;
  pl_up : forall p q x, p ∈ A -> p <> M -> reach G root q -> gs G !! q = Some x -> arg_in p x -> q ∈ A;
  pl_root : root ∈ A -> root = M;
  pl_anc : forall p, p ∈ A -> preach G p n;
  pl_sound : forall ν, consistent G ν -> ν n = true -> sound ν V;
  pl_U : forall g, opt V g = 2 -> g ∈ A /\ reach G M g;
  pl_args : forall g x a, opt V g = 2 -> gs G !! g = Some x -> In a (g_args x) -> is_Some (gs G !! Z.abs a) ->
    Z.abs a = n \/ Z.abs a ∈ D \/ opt V (Z.abs a) = 2 \/ Z.abs a ∉ A;
  pl_D : forall d, d ∈ D -> d ∈ A /\ (opt V d = 1 \/ opt V d = -1) /\ d <> n /\ is_Some (gs G !! d);
  pl_top : opt V M = 2 \/ M ∈ D }.

Section Final.
Context (G : graph) (root n M : Z) (A : gset Z) (V : optis) (D D' : gset Z) (r : Z -> nat) (Rd : list Z) (Ru : gset Z) (ρ : gmap Z Z) (H : graph).
Context (W : wf G) (RK : ranked G r) (Ln : 1 < n < nxt G) (Sroot : is_Some (gs G !! root)).
Context (PL : plan G root n M A V D) (B : built G root n V r Rd Ru ρ H).
Context (RN : preach G root n).
Context (RD1 : forall p, In p Rd -> p ∈ A /\ opt V p <> 2).
Context (DE : forall d, d ∈ Ru \/ is_Some (ρ !! d) -> d ∈ D).
Context (DF : forall d, d ∈ D -> d ∈ Ru \/ is_Some (ρ !! d) \/ (~ In d Rd /\ collision G V n d /\ exists x, gs G !! d = Some x /\ arg_in n x)).

Lemma chain h k : reach G root h -> reach G h k -> k = n \/ k ∈ A -> h = n \/ h ∈ A \/ preach G h M.
Proof.
  intros RH R. induction R as [|j x a R IH Ej Ia]; intros Q; [tauto|].
  assert (RJ : reach G root j) by (eapply reach_trans; eauto).
  destruct Q as [Q|Q]; [apply IH; right; apply (pl_parents _ _ _ _ _ _ _ PL j x RJ Ej); rewrite <- Q; apply arg_in_abs; auto|].
  destruct (Z.eq_dec (Z.abs a) M) as [EM|NM]; [|apply IH; right; apply (pl_up _ _ _ _ _ _ _ PL (Z.abs a) j x Q NM RJ Ej); apply arg_in_abs; auto].
  right. right. eapply reach_preach; [exact R|exact Ej|exact Ia|]. rewrite EM. constructor.
Qed.
Lemma gate_M : is_Some (gs G !! M).
Proof. apply (preach_reach G M n). apply PL, PL. Qed.
Lemma below_free h : reach G root h -> reach G M h -> h <> n -> h ∉ A -> ~ reach G h n.
Proof.
  intros R1 R2 N1 N2 R3. destruct (chain h n R1 R3 ltac:(auto)) as [|[|P]]; [contradiction|contradiction|]. destruct (preach_neq G r h M RK P) as [NE L]. specialize (L gate_M). destruct (reach_rank G r M h RK R2) as [|]; [apply (preach_reach G h M P)|auto|lia].
Qed.
Lemma above_free j : reach_avoid G M root j -> reach G root j /\ j ∉ A.
Proof.
  induction 1 as [N|j x a R [RJ IH] E Ia N]; [split; [constructor|intros Q; apply N, (pl_root _ _ _ _ _ _ _ PL Q)]|]. split; [eapply reach_arg; eauto|]. intros Q. apply IH. apply (pl_up _ _ _ _ _ _ _ PL (Z.abs a) j x Q N RJ E). apply arg_in_abs. auto.
Qed.
Lemma reach_M : reach G root M.
Proof.
  assert (X : forall k, reach G root k -> k ∈ A -> reach G root M).
  { induction 1 as [|j x a R IH Ej Ia]; intros Q; [rewrite <- (pl_root _ _ _ _ _ _ _ PL Q); constructor|]. destruct (Z.eq_dec (Z.abs a) M) as [<-|N]; [eapply reach_arg; eauto|]. apply IH. apply (pl_up _ _ _ _ _ _ _ PL (Z.abs a) j x Q N R Ej). apply arg_in_abs; auto. }
  destruct RN as (x & a & Ex & Ia & R). assert (R0 : reach G root n) by (apply (preach_reach _ _ _ RN)).
  destruct (preach_neq G r root n RK RN) as [NE _]. inversion R0 as [Q|j y b RJ Ej Ib Q]; [congruence|]. apply (X j RJ). apply (pl_parents _ _ _ _ _ _ _ PL j y RJ Ej). rewrite <- Q. apply arg_in_abs; auto.
Qed.

Section Values.
Context (ν μ : Z -> bool) (Cν : consistent G ν) (Cμ : consistent H μ) (VAR : forall j, 1 < j < nxt G -> gs G !! j = None -> μ j = ν j).
Definition at_ (k : Z) : Z := default k (ρ !! k).
Lemma at_free k : ~ (k ∈ D) -> at_ k = k.
Proof. intros N. unfold at_. destruct (ρ !! k) eqn:Q; auto. exfalso. apply N, DE. right. eauto. Qed.
Lemma gate_eq i x : gs G !! i = Some x -> reach G root i -> μ i = adj n V Ru i μ (gate_value (view n Rd ρ i μ) x).
Proof. intros E R. destruct (b_gate _ _ _ _ _ _ _ _ _ B i x E) as (y & Ey & _ & Sy). rewrite (proj2 Cμ i y Ey). apply Sy; auto. apply Cμ. Qed.
Lemma var_eq i x a : gs G !! i = Some x -> In a (g_args x) -> gs G !! Z.abs a = None -> μ (at_ (Z.abs a)) = ν (Z.abs a).
Proof.
  intros E I N. rewrite at_free by (intros Q; apply (pl_D _ _ _ _ _ _ _ PL) in Q as (_ & _ & _ & S); rewrite N in S; destruct S; discriminate).
  destruct (proj2 W i x E) as [_ [_ Q]]. destruct (Q a I) as (Q1 & Q2 & _). destruct (Z.eq_dec (Z.abs a) 1) as [->|]; [destruct Cν, Cμ; congruence|]. apply VAR; auto. lia.
Qed.
(* the usual gate *)
Lemma plain_eq i x : gs G !! i = Some x -> reach G root i -> i ∉ Ru -> ~ In i Rd -> (forall a, In a (g_args x) -> is_Some (gs G !! Z.abs a) -> μ (at_ (Z.abs a)) = ν (Z.abs a)) -> μ i = ν i.
Proof.
  intros E R N1 N2 AR. rewrite (gate_eq i x E R), (proj2 Cν i x E). unfold adj. destruct (decide (i ∈ Ru)); [contradiction|]. apply gate_value_ext. intros a Ia. unfold view. rewrite (proj2 (has_false i Rd) N2), andb_false_r. fold (at_ (Z.abs a)).
  destruct (gs G !! Z.abs a) eqn:Q; [apply AR; eauto|eapply var_eq; eauto].
Qed.
Lemma free_eq : forall k i, (r i < k)%nat -> is_Some (gs G !! i) -> reach G root i -> ~ preach G i n -> i <> n -> μ i = ν i /\ at_ i = i.
Proof.
  assert (ND : forall i, ~ preach G i n -> i ∉ A) by (intros i NP Q; apply NP, PL, Q).
  assert (F : forall i, ~ preach G i n -> i ∉ D) by (intros i NP Q; apply (ND i NP), (pl_D _ _ _ _ _ _ _ PL), Q).
  induction k as [|k IH]; intros i L [x E] R NP N; [lia|]. split; [|apply at_free; auto].
  apply (plain_eq i x E R); [intros Q; apply (F i NP), DE; auto|intros Q; apply (ND i NP), RD1, Q|].
  intros a Ia Sa. assert (NR : ~ reach G (Z.abs a) n) by (intros Q; apply NP; exists x, a; auto). assert (RA : reach G root (Z.abs a)) by (eapply reach_arg; eauto).
  destruct (IH (Z.abs a)) as [X Y]; auto; [pose proof (RK i x a E Ia Sa); lia|intros Q; apply NR, (preach_reach _ _ _ Q)|intros Q; apply NR; rewrite Q; constructor|]. rewrite Y. exact X.
Qed.
Lemma node_eq : μ n = ν n /\ at_ n = n.
Proof.
  assert (ND : n ∉ D) by (intros Q; apply (pl_D _ _ _ _ _ _ _ PL) in Q; tauto). split; [|apply at_free; auto].
  destruct (gs G !! n) as [x|] eqn:E; [|apply VAR; auto]. assert (R0 : reach G root n) by (apply (preach_reach _ _ _ RN)).
  assert (NA : n ∉ A) by (intros Q; apply (pl_anc _ _ _ _ _ _ _ PL) in Q; apply (preach_neq G r n n RK) in Q; tauto).
  apply (plain_eq n x E R0); [intros Q; apply ND, DE; auto|intros Q; apply NA, RD1, Q|]. intros a Ia Sa.
  destruct (free_eq (S (r (Z.abs a))) (Z.abs a)) as [X Y]; auto; [eapply reach_arg; eauto| | |rewrite Y; exact X].
  - intros Q. pose proof (RK n x a E Ia Sa). destruct (preach_neq G r _ _ RK Q) as [_ Q1]. specialize (Q1 ltac:(eauto)). lia.
  - intros Q. pose proof (RK n x a E Ia Sa). rewrite Q in *. lia.
Qed.
Lemma forced_eq d m : ρ !! d = Some m -> μ m = force (opt V d) (ν n) (μ d).
Proof. intros E. destruct (b_rho _ _ _ _ _ _ _ _ _ B d m E) as (_ & _ & _ & y & Ey & _ & Sy). rewrite (proj2 Cμ m y Ey), Sy. now rewrite (proj1 node_eq). Qed.

(** The node is false: nothing changes. *)
Lemma false_eq : ν n = false -> forall k i, (r i < k)%nat -> is_Some (gs G !! i) -> reach G root i -> μ i = ν i /\ μ (at_ i) = ν i.
Proof.
  intros VN. assert (FN : forall v b, force v (ν n) b = b) by (intros v b; unfold force; rewrite VN; destruct (v =? 1); destruct b; auto).
  induction k as [|k IH]; intros i L [x E] R; [lia|].
  assert (Q : μ i = ν i).
  { rewrite (gate_eq i x E R), (proj2 Cν i x E). unfold adj. rewrite (proj1 node_eq).
    assert (GV : gate_value (view n Rd ρ i μ) x = gate_value ν x).
    { apply gate_value_ext. intros a Ia. unfold view. destruct (Z.eqb_spec (Z.abs a) n) as [En|Nn]; cbn [andb].
      - rewrite En. destruct (has i Rd); [auto|]. fold (at_ n). destruct node_eq as [X ->]. auto.
      - fold (at_ (Z.abs a)). destruct (gs G !! Z.abs a) eqn:Q; [|eapply var_eq; eauto]. apply IH; eauto; [pose proof (RK i x a E Ia ltac:(eauto)); lia|eapply reach_arg; eauto]. }
    rewrite GV. destruct (decide (i ∈ Ru)); auto. }
  split; [auto|]. unfold at_. destruct (ρ !! i) as [m|] eqn:Em; cbn; [|auto]. rewrite (forced_eq i m Em), FN. auto.
Qed.

(** The node is true: what the root sees does not change. *)
Section True.
Context (VN : ν n = true).
Lemma dest_eq d : d ∈ D -> reach G root d -> μ (at_ d) = ν d.
Proof.
  intros Id Rr. destruct (pl_D _ _ _ _ _ _ _ PL d Id) as (_ & Hv & Nn & _). destruct (pl_sound _ _ _ _ _ _ _ PL ν Cν VN d) as [S1 S2].
  assert (FV : forall b, force (opt V d) (ν n) b = ν d) by (intros b; unfold force; rewrite VN; destruct Hv as [E|E]; rewrite E; cbn; [rewrite S1|rewrite S2]; auto).
  unfold at_. destruct (ρ !! d) as [m|] eqn:Em; cbn; [rewrite (forced_eq d m Em); auto|].
  destruct (DF d Id) as [IR|[[m Em']|(NR & (x & Ex & NZ & T & SG) & (x' & Ex' & AI))]]; [| congruence|].
  - destruct (pl_D _ _ _ _ _ _ _ PL d Id) as (_ & _ & _ & [x Ex]). rewrite (gate_eq d x Ex Rr). unfold adj. destruct (decide (d ∈ Ru)); [|contradiction]. rewrite (proj1 node_eq). auto.
  - rewrite Ex in Ex'. injection Ex' as <-. rewrite (gate_eq d x Ex Rr). unfold adj. destruct (decide (d ∈ Ru)) as [IR|_]; [rewrite (proj1 node_eq); auto|].
    assert (VW : view n Rd ρ d μ n = true) by (unfold view; rewrite (proj2 (has_false d Rd) NR), andb_false_r; fold (at_ n); destruct node_eq as [X ->]; congruence).
    unfold gate_value. rewrite T. unfold arg_sign in SG. unfold target_type. destruct (has n (g_args x)) eqn:HN.
    + rewrite SG. cbn. rewrite S1 by auto. apply existsb_exists. exists true. split; [|auto]. apply in_map_iff. exists n. split; [|apply has_In; auto]. unfold lit. destruct (Z.ltb_spec n 0); [lia|auto].
    + rewrite SG. cbn. rewrite S2 by auto. apply not_true_iff_false. rewrite forallb_forall. intros Q. apply has_false in HN. destruct AI as [|AI]; [contradiction|]. specialize (Q (lit (view n Rd ρ d μ) (- n)) ltac:(apply in_map; auto)). cbn in Q. unfold lit in Q. destruct (Z.ltb_spec (- n) 0); [|lia]. rewrite Z.opp_involutive, VW in Q. discriminate.
Qed.
Lemma undetermined_eq : forall k g, (r g < k)%nat -> opt V g = 2 -> μ g = ν g /\ at_ g = g.
Proof.
  induction k as [|k IH]; intros g L E2; [lia|]. destruct (pl_U _ _ _ _ _ _ _ PL g E2) as [Ag Rg].
  assert (ND : g ∉ D) by (intros Q; apply (pl_D _ _ _ _ _ _ _ PL) in Q as (_ & Q & _); lia). split; [|apply at_free; auto].
  destruct (proj2 (preach_reach _ _ _ (pl_anc _ _ _ _ _ _ _ PL g Ag))) as [x E]. assert (Rr : reach G root g) by (eapply reach_trans; [exact reach_M|exact Rg]).
  apply (plain_eq g x E Rr); [intros Q; apply ND, DE; auto|intros Q; destruct (RD1 g Q); contradiction|]. intros a Ia Sa. assert (RA : reach G root (Z.abs a)) by (eapply reach_arg; eauto).
  destruct (Z.eq_dec (Z.abs a) n) as [->|Nn]; [destruct node_eq as [X ->]; auto|].
  destruct (pl_args _ _ _ _ _ _ _ PL g x a E2 E Ia Sa) as [|[Q|[Q|Q]]]; [contradiction|apply dest_eq; auto| |].
  - destruct (IH (Z.abs a)) as [X ->]; auto. pose proof (RK g x a E Ia Sa). lia.
  - destruct (free_eq (S (r (Z.abs a))) (Z.abs a)) as [X ->]; auto. intros P. apply (below_free (Z.abs a)); auto; [eapply reach_arg; eauto|apply (preach_reach _ _ _ P)].
Qed.
Lemma above_eq : forall k j, (r j < k)%nat -> is_Some (gs G !! j) -> j = M \/ reach_avoid G M root j -> μ (at_ j) = ν j.
Proof.
  induction k as [|k IH]; intros j L [x E] Q; [lia|]. destruct (Z.eq_dec j M) as [->|NM].
  - destruct (pl_top _ _ _ _ _ _ _ PL) as [E2|ID]; [destruct (undetermined_eq (S (r M)) M) as [X ->]; auto|apply dest_eq; auto; exact reach_M].
  - destruct Q as [|RA]; [contradiction|]. destruct (above_free j RA) as [Rj NA].
    assert (ND : j ∉ D) by (intros Q; apply NA, (pl_D _ _ _ _ _ _ _ PL), Q). rewrite at_free by auto.
    apply (plain_eq j x E Rj); [intros Q; apply ND, DE; auto|intros Q; apply NA, RD1, Q|]. intros a Ia Sa. apply IH; auto; [pose proof (RK j x a E Ia Sa); lia|]. destruct (Z.eq_dec (Z.abs a) M); [auto|right; eapply avoid_arg; eauto].
Qed.
End True.
Lemma root_eq : μ (at_ root) = ν root.
Proof.
  destruct (ν n) eqn:VN; [|apply (false_eq VN (S (r root))); auto; constructor].
  apply (above_eq VN (S (r root))); auto. destruct (Z.eq_dec root M); [auto|right; constructor; auto].
Qed.
End Values.
Lemma final_same : same_function root G (at_ root) H.
Proof.
  pose proof B as [Bw Bn Bv Bg Br Bm (rr & R1 & _)]. apply same_intro; auto; [exists r; auto|exists rr; auto| |].
  - unfold at_. destruct (ρ !! root) as [m|] eqn:Em; cbn; [destruct (Br root m Em) as (_ & _ & _ & y & Ey & _); eauto|]. destruct Sroot as [x E]. destruct (Bg root x E) as (y & Ey & _). eauto.
  - intros ν μ Cν Cμ VAR. apply root_eq; auto.
Qed.
End Final.

(** ** ProcessCommonNode *)
Section Common.
Context (parents order users : graph -> Z -> list Z) (arrange : gset Z -> list Z) (mods : gset Z).
Context (SOUND : forall G g p, In p (parents G g) -> exists x, gs G !! p = Some x /\ arg_in g x).
Context (PARENTS_ND : forall G g, List.NoDup (parents G g)).
Context (ORDER : forall G i x, gs G !! i = Some x -> Permutation (order G i) (List.filter (is_gate G) (g_args x))).
Context (USERS : forall G d p, In p (users G d) <-> exists x, gs G !! p = Some x /\ arg_in d x).
Context (USERS_ND : forall G d, List.NoDup (users G d)).
Context (ARRANGE : forall D d, In d (arrange D) <-> d ∈ D) (ARRANGE_ND : forall D, List.NoDup (arrange D)).

Lemma plan_ok fuel G root n M A V D s : wf G -> acyclic G -> 1 < n < nxt G -> root ∈ mods -> is_Some (gs G !! root) ->
  (forall p g x, reach G root p -> gs G !! p = Some x -> arg_in g x -> In p (parents G g)) ->
  (forall j x, gs G !! j = Some x -> shape x) ->
  mark_ancestors parents mods fuel G n (∅, None) = Some (A, Some M) ->
  propagate order fuel G n M (PSt A ∅ {[n := 1]}) = Some s ->
  (if negb (opt (p_opti s) M =? 0) then Some (p_opti s, {[M]}) else collect order fuel G (p_desc s) n M (p_opti s, ∅)) = Some (V, D) ->
  plan G root n M A V D.
Proof.
  intros W [r RK] Ln RM Sr PAR SH E1 E2 E3.
  destruct (mark_ok parents mods SOUND G W fuel n ∅ None A (Some M) ltac:(lia) E1) as [a1 a2 a3 a4 a5 a6 a7].
  assert (NE : forall p : Z, p ∉ (∅ : gset Z)) by (intros p; apply not_elem_of_empty).
  destruct (propagate_ok order ORDER G n W fuel M _ _ E2) as [q1 q2 q3 q4 q5 q6 q7 q8 q9]. cbn [p_marks p_desc p_opti] in *.
  assert (AM : M ∈ A) by (destruct (a7 M eq_refl); [discriminate|auto]).
  assert (OS : forall h, opt ({[n := 1]} : optis) h = if decide (n = h) then 1 else 0) by (intros h; unfold opt; destruct (decide (n = h)) as [<-|N]; [now rewrite lookup_singleton|now rewrite lookup_singleton_ne]).
  assert (SM : small (p_opti s)) by (apply q8; intros h; rewrite OS; destruct (decide (n = h)); auto).
  assert (DA : forall h, h ∈ p_desc s -> h ∈ A /\ reach G M h /\ is_Some (gs G !! h)) by (intros h I; destruct (q3 h I (NE h)) as (b1 & _ & b2 & b3); auto).
  assert (ANC : forall p, p ∈ A -> preach G p n) by (intros p I; apply (a4 p I (NE p))).
  assert (NM : M <> n) by (apply (preach_neq G r M n RK (ANC M AM))).
  assert (ND : forall h, opt (p_opti s) h <> 0 -> h <> n -> h ∈ p_desc s) by (intros h Q Nn; destruct (q7 h Q) as [Q1|]; [|auto]; rewrite OS in Q1; destruct (decide (n = h)); [congruence|contradiction]).
  assert (SND : forall ν, consistent G ν -> ν n = true -> sound ν (p_opti s)).
  { intros ν C VN. apply (propagate_sound order ORDER G n ν W C SH ltac:(lia) fuel M (PSt A ∅ {[n := 1]}) s); [|exact E2]. cbn [p_opti]. intros h. rewrite OS. destruct (decide (n = h)) as [<-|]; split; intros; try discriminate; auto. }
  assert (MD : M ∈ p_desc s) by (apply q4; auto).
  assert (COMMON : (forall p x, reach G root p -> gs G !! p = Some x -> arg_in n x -> p ∈ A) /\
    (forall p q x, p ∈ A -> p <> M -> reach G root q -> gs G !! q = Some x -> arg_in p x -> q ∈ A) /\ (root ∈ A -> root = M)).
  { split; [intros p x R E I; apply a2; eapply PAR; eauto|]. split.
    - intros p q x I N R E J. apply (a3 p q I (NE p)); [|eapply PAR; eauto]. intros Q. specialize (a5 p I (NE p) Q). congruence.
    - intros I. specialize (a5 root I (NE root) RM). congruence. }
  destruct COMMON as (C1 & C2 & C3).
  destruct (Z.eqb_spec (opt (p_opti s) M) 0) as [Z0|Z0]; cbn [negb] in E3.
  - assert (BD : bounded (p_opti s)) by (intros h; destruct (SM h) as [|[|]]; auto).
    destruct (collect_ok order ORDER G (p_desc s) n (fun h I => proj2 (proj2 (DA h I))) fuel M (p_opti s, ∅) (V, D) BD E3) as [b1 b2 b3 b4 b5 b6 b7]. cbn [fst snd] in *.
    assert (OLD : forall h, opt V h = 1 \/ opt V h = -1 -> opt (p_opti s) h = opt V h) by (intros h Q; destruct (b2 h ltac:(lia)) as [Q1|[Q1 _]]; [symmetry; auto|lia]).
    constructor; auto.
    + intros ν C VN h. destruct (SND ν C VN h) as [S1 S2]. split; intros Q; [apply S1|apply S2]; rewrite OLD; auto.
    + intros g Q. destruct (b2 g ltac:(lia)) as [Q1|(_ & Q2 & Q3)]; [rewrite b1 in Q by auto; destruct (SM g) as [|[|]]; lia|split; [apply DA; auto|auto]].
    + intros g x a Q Ex Ia Sa. assert (Gd : g ∈ p_desc s) by (destruct (b2 g ltac:(lia)) as [Q1|(_ & Q2 & _)]; [rewrite b1 in Q by auto; destruct (SM g) as [|[|]]; lia|auto]).
      assert (Io : In a (order G g)) by (apply (order_in order ORDER G g x a Ex); auto).
      assert (N2 : opt (p_opti s) g <> 2) by (destruct (SM g) as [|[|]]; lia). destruct (b3 g a Q N2 Io) as [K1 K2].
      destruct (Z.eq_dec (Z.abs a) n); [auto|]. destruct (decide (Z.abs a ∈ A)) as [IA|]; [|auto]. right.
      assert (Ad : Z.abs a ∈ p_desc s) by (apply q4; [auto|apply (q5 g a Gd (NE g) Io)]). specialize (K1 Ad).
      destruct (b6 (Z.abs a)) as [|[Q1|[Q1|Q1]]]; [contradiction|left; apply K2; auto|left; apply K2; auto|auto].
    + intros d I. destruct (b4 d I) as [Q|(Q1 & Q2 & Q3)]; [exfalso; exact (NE d Q)|]. split; [|auto]. apply DA, ND; auto. rewrite OLD; auto. lia.
    + left. specialize (b7 MD). destruct (b2 M b7) as [|(Q & _)]; [contradiction|auto].
  - injection E3 as <- <-. constructor; auto.
    + intros g Q. destruct (SM g) as [|[|]]; lia.
    + intros g x a Q. destruct (SM g) as [|[|]]; lia.
    + intros d Q. apply elem_of_singleton in Q as ->. split; [auto|]. split; [destruct (SM M) as [|[|]]; auto; contradiction|]. split; [auto|]. apply DA. auto.
    + right. apply elem_of_singleton. auto.
Qed.

Theorem common_node_ok fuel n worthwhile root G root' G' : wf G -> acyclic G -> 1 < n < nxt G -> preach G root n -> root ∈ mods ->
  (forall p g x, reach G root p -> gs G !! p = Some x -> arg_in g x -> In p (parents G g)) ->
  (forall j x, gs G !! j = Some x -> shape x /\ tidy x) ->
  process_common_node parents order users arrange mods fuel n worthwhile root G = Some (root', G') ->
  same_function root G root' G'.
Proof.
  intros W AC Ln RN RM PAR SH H. assert (Sr : is_Some (gs G !! root)) by (apply (preach_reach _ _ _ RN)). assert (AC' := AC). destruct AC' as [r RK].
  unfold process_common_node in H. apply bind_inv in H as ([A om] & E1 & H). destruct om as [M|]; cbn [mbind option_bind] in H; [|discriminate].
  apply bind_inv in H as (s & E2 & H). apply bind_inv in H as ([V D] & E3 & H). destruct worthwhile; [|injection H as <- <-; apply same_refl; auto].
  pose proof (plan_ok fuel G root n M A V D s W AC Ln RM Sr PAR (fun j x E => proj1 (SH j x E)) E1 E2 E3) as PL.
  apply bind_inv in H as ([D' Rd] & E4 & H).
  destruct (redundants_ok G V n _ _ _ _ _ (PARENTS_ND G n) E4) as (d1 & d2 & _ & d4 & d5).
  assert (NDR : List.NoDup Rd) by (apply d5; [constructor|intros p []]).
  assert (RP : forall p, In p Rd -> In p (parents G n) /\ opt V p <> 2) by (intros p I; destruct (d1 p I) as [[]|]; auto).
  destruct Rd as [|p0 Rd0] eqn:ERd; [injection H as <- <-; apply same_refl; auto|]. rewrite <- ERd in *. clear p0 Rd0 ERd.
  apply bind_inv in H as (H0 & E5 & H).
  assert (B0 : built G root n V r Rd ∅ ∅ H0).
  { apply (built_start G root n V r Rd W RK Ln H0 NDR); [|intros j x E; apply (SH j x E)|exact E5]. intros p I. destruct (RP p I) as [I1 _]. destruct (SOUND G n p I1) as (x & Ex & Ax). exists x. split; [auto|]. split; [auto|]. apply (SH p x Ex). }
  destruct (targets_ok G root n V r Rd W RK Ln users USERS USERS_ND (arrange D') ∅ ∅ H0 root root' G' B0) as (Ru & ρ & B & ER & t3 & t4 & t5 & _ & _); [now rewrite lookup_empty|apply ARRANGE_ND| |exact H|].
  { intros d I. apply ARRANGE, d2 in I. destruct (pl_D _ _ _ _ _ _ _ PL d I) as (I1 & I2 & I3 & I4). split; [apply not_elem_of_empty|]. split; [apply lookup_empty|]. split; [auto|]. split; [auto|]. split; [apply (preach_reach _ _ _ (pl_anc _ _ _ _ _ _ _ PL d I1))|auto]. }
  rewrite ER. apply (final_same G root n M A V D r Rd Ru ρ G' W RK Ln Sr PL B RN).
  - intros p I. destruct (RP p I) as [I1 I2]. split; [|auto]. destruct (SOUND G n p I1) as (x & Ex & Ax). destruct (mark_ok parents mods SOUND G W fuel n ∅ None A (Some M) ltac:(lia) E1) as [_ a2 _ _ _ _ _]. auto.
  - intros d [Q|Q].
    + destruct (t4 d Q) as [Q1|Q1]; [exfalso; revert Q1; apply not_elem_of_empty|apply ARRANGE in Q1; auto].
    + destruct (t5 d Q) as [[z Q1]|Q1]; [rewrite lookup_empty in Q1; discriminate|apply ARRANGE in Q1; auto].
  - intros d I. destruct (decide (d ∈ D')) as [I'|I']; [apply ARRANGE in I'; destruct (t3 d I'); auto|]. right. right. destruct (d4 d I I') as (J1 & J2 & J3). split; [intros Q; exact (J3 Q)|]. split; [auto|]. apply SOUND. auto.
Qed.
End Common.
