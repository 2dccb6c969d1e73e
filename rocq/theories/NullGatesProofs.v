(** Removal of NULL gates: the values stay, and no NULL gate is left below the root. *)
From stdpp Require Import gmap.
From Coq Require Import Lia Permutation List.
From Verif Require Import Pdag PdagProofs PdagAdd PdagSem PdagKeeps Preproc PreprocProofs PreprocNorm Decompose Rooted BoolOpt BoolOptProofs BoolOptEdits Shaped ShapedOps NullGates.
Import ListNotations.
Open Scope Z_scope.

(** A NULL gate is bypassed in one of its parents. *)
Definition joins (G G' : graph) : Prop := exists p a, join_null_gate p a G = Some G'.
(** The case in which a K/N gate is rewritten wrongly (C01_duplicate_refuted): the argument
    of the NULL gate is an argument of a parent that is a K/N gate of three arguments. *)
Definition no_clash (G : graph) : Prop :=
  forall p x a y b, gs G !! p = Some x -> In a (g_args x) -> gs G !! Z.abs a = Some y -> g_type y = kNull -> g_args y = [b] ->
    ~ (g_type x = kAtleast /\ length (g_args x) = 3%nat /\ In (b * Z.sgn a) (g_args x)).

Lemma join_inv p a G G' : join_null_gate p a G = Some G' ->
  exists x y b G1, gs G !! p = Some x /\ In a (g_args x) /\ gs G !! Z.abs a = Some y /\ g_type y = kNull /\ g_args y = [b] /\ gs G1 = <[p := with_args x (set_erase a (g_args x))]> (gs G) /\ nxt G1 = nxt G /\ erase_arg p a G = Some G1 /\ add_any p (b * Z.sgn a) G1 = Some G'.
Proof.
  intros Q. unfold join_null_gate in Q. apply bind_inv in Q as (y & Ey & Q). destruct (g_type y) eqn:T; try discriminate. destruct (g_args y) as [|b [|]] eqn:EA; try discriminate. apply bind_inv in Q as (G1 & E1 & Q). assert (E1' := E1). apply erase_arg_inv in E1' as (x & Ex & I & HG & HN). exists x, y, b, G1. auto 10.
Qed.
Lemma join_keeps p a G G' : wf G -> acyclic G -> shaped G -> no_clash G -> join_null_gate p a G = Some G' -> keeps G G'.
Proof.
  intros W AC SH NC Q. destruct (join_inv p a G G' Q) as (x & y & b & G1 & Ex & I & Ey & Ty & Ay & _). apply (join_null_keeps p a G G' x b); auto; [apply (good_at G p x SH Ex)|eauto|apply (NC p x a y b); auto].
Qed.
(** Without K/N gates the case does not arise. *)
Definition no_atleast (G : graph) : Prop := forall j x, gs G !! j = Some x -> g_type x <> kAtleast.
Lemma put_no_atleast G G' p x : no_atleast G -> g_type x <> kAtleast -> gs G' = <[p := x]> (gs G) -> no_atleast G'.
Proof. intros N T HG j y E. rewrite HG in E. apply lookup_insert_Some in E as [[_ <-]|[_ E]]; [auto|apply (N j y E)]. Qed.
Lemma join_no_atleast p a G G' : no_atleast G -> join_null_gate p a G = Some G' -> no_atleast G'.
Proof.
  intros N Q. destruct (join_inv p a G G' Q) as (x & y & b & G1 & Ex & I & Ey & Ty & Ay & HG1 & HN1 & E1 & Q2). set (x1 := with_args x (set_erase a (g_args x))) in *. assert (Ex1 : gs G1 !! p = Some x1) by (rewrite HG1; apply lookup_insert). assert (T1 : g_type x1 <> kAtleast) by (apply (N p x Ex)).
  assert (N1 : no_atleast G1) by (eapply put_no_atleast; [exact N|exact T1|exact HG1]). clear HG1 E1.
  assert (MC : forall s G3, make_constant p s G1 = Some G3 -> no_atleast G3) by (intros s G3 K; apply make_constant_spec in K as (w & _ & _ & HG & _); eapply put_no_atleast; [exact N1| |exact HG]; cbn; discriminate).
  assert (ST : forall t G3, t <> kAtleast -> set_type p t G1 = Some G3 -> no_atleast G3) by (intros t G3 Ht K; apply set_type_spec in K as (w & _ & HG & _); eapply put_no_atleast; [exact N1| |exact HG]; cbn; auto).
  assert (RL : forall t m G3, t <> kAtleast -> reduce_logic p t m G1 = Some G3 -> no_atleast G3) by (intros t m G3 Ht K; unfold reduce_logic in K; rewrite Ex1 in K; cbn [mbind option_bind] in K; destruct (g_args x1); [discriminate|]; destruct (_ =? m); [eapply ST; [|exact K]; auto|injection K as <-; auto]).
  unfold add_any in Q2. rewrite Ex1 in Q2. cbn [mbind option_bind] in Q2. destruct (_ || _).
  - destruct (constant x1); [discriminate|]. unfold add_constant_arg in Q2. rewrite Ex1 in Q2. cbn [mbind option_bind] in Q2.
    destruct (0 <? _); destruct (g_type x1) eqn:TT; try congruence; try (eapply MC; exact Q2); try (eapply RL; [|exact Q2]; discriminate); (destruct (_ =? 1); [eapply ST; [|exact Q2]; discriminate|discriminate]).
  - unfold add_arg in Q2. rewrite Ex1 in Q2. cbn [mbind option_bind] in Q2. destruct (_ || _); [discriminate|]. destruct (has _ _).
    + unfold process_duplicate in Q2. rewrite Ex1 in Q2. cbn [mbind option_bind] in Q2. destruct (g_type x1) eqn:TT; try congruence; try (eapply MC; exact Q2); (destruct (_ =? 1); [first [eapply ST; [|exact Q2]; discriminate|eapply MC; exact Q2]|injection Q2 as <-; auto]).
    + destruct (has _ _).
      * unfold process_complement in Q2. rewrite Ex1 in Q2. cbn [mbind option_bind] in Q2. destruct (g_type x1) eqn:TT; try congruence; try discriminate; eapply MC; exact Q2.
      * apply add_new_inv in Q2 as (w & Ew & _ & _ & HG & _). rewrite Ex1 in Ew. injection Ew as <-. eapply put_no_atleast; [exact N1| |exact HG]. exact T1.
Qed.
Lemma no_atleast_clash G : no_atleast G -> forall H, rtc joins G H -> no_clash H.
Proof.
  intros N H J. assert (NH : no_atleast H) by (induction J as [|G1 G2 G3 (p & a & E) _ IH]; [auto|]; apply IH; eapply join_no_atleast; [exact N|exact E]).
  intros p x a y b Ex _ _ _ _ (T & _). exact (NH p x Ex T).
Qed.
Lemma rtc_joins_r G H K : rtc joins G H -> joins H K -> rtc joins G K.
Proof. intros A B. eapply rtc_r; eauto. Qed.

Section Removal.
Context (parents : graph -> Z -> list Z) (expired : graph -> Z -> bool).
Lemma propagate_null_keeps G0 : (forall H, rtc joins G0 H -> no_clash H) ->
  forall fuel g G G', rtc joins G0 G -> wf G -> acyclic G -> roomy G -> propagate_null parents fuel g G = Some G' -> keeps G G' /\ roomy G' /\ rtc joins G0 G'.
Proof.
  intros NC. induction fuel as [|fuel IH]; intros g G G' J W AC R Q; cbn [propagate_null] in Q; [discriminate|]. apply bind_inv in Q as (y & Ey & Q). destruct (negb _); [discriminate|]. destruct (parents G g) as [|p l]; [injection Q as <-; split; [apply keeps_refl; auto|auto]|].
  apply bind_inv in Q as (x & Ex & Q). apply bind_inv in Q as (G1 & E1 & Q). pose proof (join_keeps _ _ _ _ W AC (proj1 R) (NC G J) E1) as K1. pose proof (join_roomy _ _ _ _ R E1) as R1. assert (J1 : rtc joins G0 G1) by (eapply rtc_joins_r; [exact J|eexists; eexists; exact E1]).
  apply bind_inv in Q as (x1 & Ex1 & Q). apply bind_inv in Q as (G2 & E2 & Q). pose proof (k_wf _ _ K1) as W1. pose proof (k_acyclic _ _ K1 AC) as AC1.
  assert (X2 : keeps G1 G2 /\ roomy G2 /\ rtc joins G0 G2) by (destruct (conn_eqb _ _); [apply (IH p G1 G2); auto|injection E2 as <-; split; [apply keeps_refl; auto|auto]]). destruct X2 as (K2 & R2 & J2).
  destruct (IH g G2 G' J2 (k_wf _ _ K2) (k_acyclic _ _ K2 AC1) R2 Q) as (K3 & R3 & J3). split; [|auto]. apply (keeps_trans _ _ _ K1). apply (keeps_trans _ _ _ K2 K3).
Qed.
Lemma propagate_each_keeps G0 fuel : (forall H, rtc joins G0 H -> no_clash H) ->
  forall l G G', rtc joins G0 G -> wf G -> acyclic G -> roomy G -> propagate_each parents expired fuel l G = Some G' -> keeps G G' /\ roomy G' /\ rtc joins G0 G'.
Proof.
  intros NC. induction l as [|g l IH]; intros G G' J W AC R Q; cbn [propagate_each] in Q; [injection Q as <-; split; [apply keeps_refl; auto|auto]|]. apply bind_inv in Q as (G1 & E1 & Q).
  assert (X1 : keeps G G1 /\ roomy G1 /\ rtc joins G0 G1) by (destruct (expired G g); [injection E1 as <-; split; [apply keeps_refl; auto|auto]|eapply propagate_null_keeps; [exact NC|exact J|auto|auto|auto|exact E1]]). destruct X1 as (K1 & R1 & J1).
  destruct (IH G1 G' J1 (k_wf _ _ K1) (k_acyclic _ _ K1 AC) R1 Q) as (K2 & R2 & J2). split; [apply (keeps_trans _ _ _ K1 K2)|auto].
Qed.
Theorem remove_null_keeps fuel G G' : wf G -> acyclic G -> roomy G -> (forall H, rtc joins (unregistered G) H -> no_clash H) ->
  remove_null_gates parents expired fuel G = Some G' -> keeps G G' /\ roomy G' /\ nulls G' = [].
Proof.
  intros W AC R NC Q. unfold remove_null_gates in Q. apply bind_inv in Q as (G1 & E1 & Q). injection Q as <-.
  destruct (propagate_each_keeps (unregistered G) fuel NC (nulls G) (unregistered G) G1) as (K1 & R1 & _); [apply rtc_refl|auto|auto|exact R|exact E1|].
  split; [|split; [exact R1|reflexivity]]. assert (K0 : keeps G (unregistered G)) by (apply keeps_same; auto). pose proof (keeps_trans _ _ _ K0 K1) as K. apply (keeps_trans _ G1 _ K). apply keeps_same; auto. apply K1.
Qed.

(** A NULL gate stays a NULL gate. *)
Lemma join_stays p a G G' q x : wf G -> shaped G -> join_null_gate p a G = Some G' -> gs G !! q = Some x -> g_type x = kNull -> exists x', gs G' !! q = Some x' /\ g_type x' = kNull.
Proof.
  intros W SH Q Eq Tq. destruct (join_inv p a G G' Q) as (z & y & b & G1 & Ez & I & Ey & Ty & Ay & HG1 & HN1 & E1 & Q2). destruct (Z.eq_dec q p) as [->|N].
  - assert (z = x) as -> by congruence. destruct (good_at G p x SH Ez) as [SHP _]. assert (LN : (length (g_args x) <= 1)%nat) by (apply SHP; auto). destruct (g_args x) as [|a0 [|]] eqn:EA; [destruct I| |cbn in LN; lia]. destruct I as [->|[]].
    set (x1 := with_args x (set_erase a [a])) in *. assert (EX1 : g_args x1 = []) by (cbn; rewrite Z.eqb_refl; reflexivity). assert (Ex1 : gs G1 !! p = Some x1) by (rewrite HG1; apply lookup_insert).
    unfold add_any in Q2. rewrite Ex1 in Q2. cbn [mbind option_bind] in Q2.
    assert (MC : forall s G2 G3, make_constant p s G2 = Some G3 -> exists x', gs G3 !! p = Some x' /\ g_type x' = kNull) by (intros s G2 G3 K; apply make_constant_spec in K as (w & _ & _ & HG & _); eexists; rewrite HG, lookup_insert; auto).
    destruct (_ || _).
    + destruct (constant x1); [discriminate|]. unfold add_constant_arg in Q2. rewrite Ex1 in Q2. cbn [mbind option_bind] in Q2. replace (g_type x1) with kNull in Q2 by (symmetry; exact Tq). destruct (0 <? _); eapply MC; exact Q2.
    + unfold add_arg in Q2. rewrite Ex1 in Q2. cbn [mbind option_bind] in Q2. rewrite EX1 in Q2. destruct (_ || _); [discriminate|]. cbn in Q2. apply add_new_inv in Q2 as (w & Ew & _ & _ & HG & _). rewrite Ex1 in Ew. injection Ew as <-. eexists. rewrite HG, lookup_insert. split; [reflexivity|exact Tq].
  - exists x. split; [|auto]. rewrite <- Eq. unfold add_any in Q2.
    assert (SP : spread G1 p (fun _ => True) G').
    { assert (Lp : 1 < p < nxt G) by (apply (key G p z SH Ez)). assert (Ex1 : gs G1 !! p = Some (with_args z (set_erase a (g_args z)))) by (rewrite HG1; apply lookup_insert). assert (R1 : roomy G1) by (apply (erase_arg_roomy p a G); auto; split; [auto|lia]).
      eapply (add_any_spread G1 p _); [rewrite HN1; exact Lp|apply (spread_start G1 p _ _ (proj1 R1) Ex1); auto; intros; left; exact I0|exact Ex1|left; exact Logic.I|exact Q2]. }
    rewrite (sp_old _ _ _ _ SP) by (auto; rewrite HN1; apply W in Eq; lia). rewrite HG1, lookup_insert_ne; auto.
Qed.
Lemma propagate_null_stays G0 q : (forall H, rtc joins G0 H -> no_clash H) -> forall fuel g G G' x, rtc joins G0 G -> wf G -> acyclic G -> roomy G ->
  propagate_null parents fuel g G = Some G' -> gs G !! q = Some x -> g_type x = kNull -> exists x', gs G' !! q = Some x' /\ g_type x' = kNull.
Proof.
  intros NC. induction fuel as [|fuel IH]; intros g G G' x J W AC R Q Eq Tq; cbn [propagate_null] in Q; [discriminate|]. apply bind_inv in Q as (y & Ey & Q). destruct (negb _); [discriminate|]. destruct (parents G g) as [|p l]; [injection Q as <-; eauto|].
  apply bind_inv in Q as (xp & Ex & Q). apply bind_inv in Q as (G1 & E1 & Q). pose proof (join_keeps _ _ _ _ W AC (proj1 R) (NC G J) E1) as K1. pose proof (join_roomy _ _ _ _ R E1) as R1. assert (J1 : rtc joins G0 G1) by (eapply rtc_joins_r; [exact J|eexists; eexists; exact E1]).
  destruct (join_stays _ _ G G1 q x W (proj1 R) E1 Eq Tq) as (x1 & Eq1 & Tq1).
  apply bind_inv in Q as (xp1 & Ex1 & Q). apply bind_inv in Q as (G2 & E2 & Q). pose proof (k_wf _ _ K1) as W1. pose proof (k_acyclic _ _ K1 AC) as AC1.
  assert (X2 : keeps G1 G2 /\ roomy G2 /\ rtc joins G0 G2) by (destruct (conn_eqb _ _); [apply (propagate_null_keeps G0 NC fuel p G1 G2); auto|injection E2 as <-; split; [apply keeps_refl; auto|auto]]). destruct X2 as (K2 & R2 & J2).
  assert (X3 : exists x2, gs G2 !! q = Some x2 /\ g_type x2 = kNull) by (destruct (conn_eqb _ _); [apply (IH p G1 G2 x1 J1 W1 AC1 R1 E2 Eq1 Tq1)|injection E2 as <-; eauto]). destruct X3 as (x2 & Eq2 & Tq2).
  apply (IH g G2 G' x2 J2 (k_wf _ _ K2) (k_acyclic _ _ K2 AC1) R2 Q Eq2 Tq2).
Qed.
Lemma propagate_each_stays G0 q fuel : (forall H, rtc joins G0 H -> no_clash H) -> forall l G G' x, rtc joins G0 G -> wf G -> acyclic G -> roomy G ->
  propagate_each parents expired fuel l G = Some G' -> gs G !! q = Some x -> g_type x = kNull -> exists x', gs G' !! q = Some x' /\ g_type x' = kNull.
Proof.
  intros NC. induction l as [|g l IH]; intros G G' x J W AC R Q Eq Tq; cbn [propagate_each] in Q; [injection Q as <-; eauto|]. apply bind_inv in Q as (G1 & E1 & Q).
  destruct (expired G g); [injection E1 as <-; eapply IH; eauto|]. destruct (propagate_null_keeps G0 NC fuel g G G1 J W AC R E1) as (K1 & R1 & J1). destruct (propagate_null_stays G0 q NC fuel g G G1 x J W AC R E1 Eq Tq) as (x1 & Eq1 & Tq1).
  apply (IH G1 G' x1 J1 (k_wf _ _ K1) (k_acyclic _ _ K1 AC) R1 Q Eq1 Tq1).
Qed.

(** ** No NULL gate is left *)
Section Complete.
Context (root : Z).
Context (PARENTS : forall G p g x, reach G root p -> gs G !! p = Some x -> arg_in g x -> In p (parents G g)).
Context (EXPIRED : forall G p g x, expired G g = true -> reach G root p -> gs G !! p = Some x -> ~ arg_in g x).
(** The NULL gates that are arguments below the root are among [S]. *)
Definition pend (G : graph) (l : list Z) : Prop :=
  forall p x a y, reach G root p -> gs G !! p = Some x -> In a (g_args x) -> gs G !! Z.abs a = Some y -> g_type y = kNull -> In (Z.abs a) l.
Lemma join_pend p a G G' l : wf G -> roomy G -> 1 < root < nxt G -> keeps G G' -> join_null_gate p a G = Some G' -> pend G l ->
  exists x', gs G' !! p = Some x' /\ (g_type x' <> kNull -> pend G' l) /\ pend G' (p :: l).
Proof.
  intros W R LR K Q PE. destruct (join_inv p a G G' Q) as (x & y & b & G1 & Ex & I & Ey & Ty & Ay & HG1 & HN1 & E1 & Q2). pose proof (erase_arg_roomy _ _ _ _ R E1) as R1.
  set (L := fun c => In c (g_args x) \/ c = b * Z.sgn a). set (x1 := with_args x (set_erase a (g_args x))) in *. assert (Ex1 : gs G1 !! p = Some x1) by (rewrite HG1; apply lookup_insert). assert (Lp : 1 < p < nxt G) by (apply (key G p x (proj1 R) Ex)).
  assert (SP : spread G1 p L G').
  { eapply (add_any_spread G1 p L); [rewrite HN1; exact Lp|apply (spread_start G1 p L x1 (proj1 R1) Ex1)|exact Ex1|left; right; reflexivity|exact Q2]. intros c Ic. left. cbn in Ic. apply set_erase_In in Ic. tauto. }
  destruct SP as [a1 a0 a2 a3 a4 a5]. rewrite HN1 in *. assert (OLD : forall j, j <> p -> j < nxt G -> gs G' !! j = gs G !! j) by (intros j J1 J2; rewrite a2 by auto; rewrite HG1, lookup_insert_ne; auto).
  assert (E' : exists x', gs G' !! p = Some x') by (destruct (gs G' !! p) as [z|] eqn:EP; [eauto|]; apply (k_vars _ _ K p Lp) in EP; congruence).
  destruct E' as [x' E']. exists x'. split; [auto|].
  assert (NO1 : gs G' !! 1 = None) by (destruct (gs G' !! 1) as [z|] eqn:Q1; [|auto]; apply a0 in Q1; lia).
  assert (BND : forall k z c, gs G !! k = Some z -> In c (g_args z) -> 1 <= Z.abs c < nxt G) by (intros k z c Ek Ic; apply W in Ek as [_ [_ A]]; destruct (A c Ic) as (A1 & A2 & _); lia).
  assert (N0 : a <> 0) by (pose proof (BND p x a Ex I); lia).
  assert (AB : Z.abs (b * Z.sgn a) = Z.abs b) by nia.
  assert (LA : forall c, L c -> exists k z c', gs G !! k = Some z /\ In c' (g_args z) /\ Z.abs c' = Z.abs c /\ (reach G root p -> reach G root k)).
  { intros c [Ic| ->]; [exists p, x, c; auto|]. exists (Z.abs a), y, b. split; [auto|]. split; [rewrite Ay; left; auto|]. split; [lia|]. intros RP. eapply reach_arg; eauto. }
  assert (RCH : forall q, reach G' root q -> q = 1 \/ (q < nxt G /\ reach G root q) \/ (nxt G <= q /\ reach G root p)).
  { induction 1 as [|k z c K' IH Ek Ic]; [right; left; split; [lia|constructor]|]. pose proof (a0 k z Ek) as Lk.
    assert (OA : forall k z c, gs G !! k = Some z -> In c (g_args z) -> reach G root k -> Z.abs c = 1 \/ (Z.abs c < nxt G /\ reach G root (Z.abs c)) \/ (nxt G <= Z.abs c /\ reach G root p)).
    { intros k' z' c' Ek' Ic' Rk'. right; left. split; [apply (BND k' z' c' Ek' Ic')|eapply reach_arg; eauto]. }
    assert (MINE : mine G1 p k -> reach G root p -> Z.abs c = 1 \/ (Z.abs c < nxt G /\ reach G root (Z.abs c)) \/ (nxt G <= Z.abs c /\ reach G root p)).
    { intros M RP. destruct (a5 k z c M Ek Ic) as [Lc|[Lc|Lc]]; [|auto|rewrite HN1 in Lc; auto]. destruct (LA c Lc) as (k' & z' & c' & Ek' & Ic' & Qc & Rk'). rewrite <- Qc. apply (OA k' z' c' Ek' Ic' (Rk' RP)). }
    destruct IH as [Q1|[[Lk' Rk]|[Lk' Rk]]]; [lia| |apply MINE; [right; rewrite HN1; auto|auto]]. destruct (Z.eq_dec k p) as [Qk|Nk]; [subst k; apply MINE; [left; auto|auto]|]. rewrite OLD in Ek by auto. apply (OA k z c Ek Ic Rk). }
  assert (MAIN : forall k z c w, reach G' root k -> gs G' !! k = Some z -> In c (g_args z) -> gs G' !! Z.abs c = Some w -> g_type w = kNull -> Z.abs c = p \/ In (Z.abs c) l).
  { intros k z c w Rk Ek Ic Ew Tw. destruct (Z.eq_dec (Z.abs c) p) as [Qc|Nc]; [auto|]. right.
    assert (OA : forall k z c', gs G !! k = Some z -> In c' (g_args z) -> Z.abs c' = Z.abs c -> reach G root k -> In (Z.abs c) l).
    { intros k' z' c' Ek' Ic' Qc Rk'. rewrite OLD in Ew by (auto; rewrite <- Qc; apply (BND k' z' c' Ek' Ic')). rewrite <- Qc in *. apply (PE k' z' c' w); auto. }
    assert (MINE : mine G1 p k -> reach G root p -> In (Z.abs c) l).
    { intros M RP. destruct (a5 k z c M Ek Ic) as [Lc|[Lc|Lc]]; [|rewrite Lc in Ew; congruence|].
      - destruct (LA c Lc) as (k' & z' & c' & Ek' & Ic' & Qc & Rk'). apply (OA k' z' c' Ek' Ic' Qc (Rk' RP)).
      - rewrite HN1 in Lc. destruct (a4 _ _ Lc Ew) as [PL _]. rewrite Tw in PL. destruct PL as (_ & PL & _). congruence. }
    pose proof (a0 k z Ek) as Lk. destruct (RCH k Rk) as [Q1|[[Lk' Rk']|[Lk' Rk']]]; [lia| |apply MINE; [right; rewrite HN1; auto|auto]]. destruct (Z.eq_dec k p) as [Qk|Nk]; [subst k; apply MINE; [left; auto|auto]|]. rewrite OLD in Ek by auto. apply (OA k z c Ek Ic eq_refl Rk'). }
  split.
  - intros NT k z c w Rk Ek Ic Ew Tw. destruct (MAIN k z c w Rk Ek Ic Ew Tw) as [Qc|]; [|auto]. rewrite Qc in Ew. congruence.
  - intros k z c w Rk Ek Ic Ew Tw. destruct (MAIN k z c w Rk Ek Ic Ew Tw) as [Qc|]; [left; auto|right; auto].
Qed.
Lemma propagate_null_pend G0 : (forall H, rtc joins G0 H -> no_clash H) ->
  forall fuel g l G G', rtc joins G0 G -> wf G -> acyclic G -> roomy G -> 1 < root < nxt G -> propagate_null parents fuel g G = Some G' -> pend G (g :: l) -> pend G' l.
Proof.
  intros NC. induction fuel as [|fuel IH]; intros g l G G' J W AC R LR Q PE; cbn [propagate_null] in Q; [discriminate|]. apply bind_inv in Q as (y & Ey & Q). destruct (negb _); [discriminate|].
  pose proof (fun p x => PARENTS G p g x) as PR. destruct (parents G g) as [|p ps].
  { injection Q as <-. intros p x a z Rp Ep Ia Ez Tz. destruct (PE p x a z Rp Ep Ia Ez Tz) as [Qa|]; [|auto]. exfalso. apply (PR p x Rp Ep). unfold arg_in. destruct (Z.abs_spec a) as [[_ H]|[_ H]]; [left|right]; rewrite Qa, H; [auto|rewrite Z.opp_involutive; auto]. }
  clear PR. apply bind_inv in Q as (x & Ex & Q). apply bind_inv in Q as (G1 & E1 & Q). pose proof (join_keeps _ _ _ _ W AC (proj1 R) (NC G J) E1) as K1. pose proof (join_roomy _ _ _ _ R E1) as R1. assert (J1 : rtc joins G0 G1) by (eapply rtc_joins_r; [exact J|eexists; eexists; exact E1]).
  apply bind_inv in Q as (x1 & Ex1 & Q). apply bind_inv in Q as (G2 & E2 & Q). pose proof (k_wf _ _ K1) as W1. pose proof (k_acyclic _ _ K1 AC) as AC1. pose proof (k_nxt _ _ K1) as N1.
  destruct (join_pend _ _ G G1 (g :: l) W R LR K1 E1 PE) as (x1' & Ex1' & P1 & P2). assert (x1' = x1) as -> by congruence.
  assert (X2 : keeps G1 G2 /\ roomy G2 /\ rtc joins G0 G2 /\ pend G2 (g :: l)).
  { destruct (conn_eqb (g_type x1) kNull) eqn:T.
    - destruct (propagate_null_keeps G0 NC fuel p G1 G2 J1 W1 AC1 R1 E2) as (K2 & R2 & J2). split; [auto|]. split; [auto|]. split; [auto|]. apply (IH p (g :: l) G1 G2 J1 W1 AC1 R1); [lia|exact E2|exact P2].
    - injection E2 as <-. split; [apply keeps_refl; auto|]. split; [auto|]. split; [auto|]. apply P1. intros T'. rewrite T' in T. discriminate. }
  destruct X2 as (K2 & R2 & J2 & PE2). pose proof (k_nxt _ _ K2). apply (IH g l G2 G' J2 (k_wf _ _ K2) (k_acyclic _ _ K2 AC1) R2); [lia|exact Q|exact PE2].
Qed.
Lemma propagate_each_pend G0 fuel : (forall H, rtc joins G0 H -> no_clash H) ->
  forall l G G', rtc joins G0 G -> wf G -> acyclic G -> roomy G -> 1 < root < nxt G -> propagate_each parents expired fuel l G = Some G' -> pend G l -> pend G' [].
Proof.
  intros NC. induction l as [|g l IH]; intros G G' J W AC R LR Q PE; cbn [propagate_each] in Q; [injection Q as <-; auto|]. apply bind_inv in Q as (G1 & E1 & Q).
  assert (X1 : keeps G G1 /\ roomy G1 /\ rtc joins G0 G1 /\ pend G1 l).
  { destruct (expired G g) eqn:EX.
    - injection E1 as <-. split; [apply keeps_refl; auto|]. split; [auto|]. split; [auto|]. intros p x a z Rp Ep Ia Ez Tz. destruct (PE p x a z Rp Ep Ia Ez Tz) as [Qa|]; [|auto]. exfalso. apply (EXPIRED G p g x EX Rp Ep). unfold arg_in. destruct (Z.abs_spec a) as [[_ H]|[_ H]]; [left|right]; rewrite Qa, H; [auto|rewrite Z.opp_involutive; auto].
    - destruct (propagate_null_keeps G0 NC fuel g G G1 J W AC R E1) as (K2 & R2 & J2). split; [auto|]. split; [auto|]. split; [auto|]. apply (propagate_null_pend G0 NC fuel g l G G1 J W AC R LR E1 PE). }
  destruct X1 as (K1 & R1 & J1 & P1). pose proof (k_nxt _ _ K1). apply (IH G1 G' J1 (k_wf _ _ K1) (k_acyclic _ _ K1 AC) R1); [lia|exact Q|exact P1].
Qed.
(** 805-808: below the root no NULL gate and no constant is left. *)
Theorem remove_null_complete fuel G G' : wf G -> acyclic G -> roomy G -> 1 < root < nxt G -> (forall H, rtc joins (unregistered G) H -> no_clash H) ->
  pend G (nulls G) -> remove_null_gates parents expired fuel G = Some G' ->
  forall j y, reach G' root j -> gs G' !! j = Some y -> j <> root -> g_type y <> kNull /\ constant y = false.
Proof.
  intros W AC R LR NC PE Q. pose proof (remove_null_keeps fuel G G' W AC R NC Q) as (KK & RR & _). unfold remove_null_gates in Q. apply bind_inv in Q as (G1 & E1 & Q). injection Q as <-.
  assert (P0 : pend (unregistered G) (nulls G)).
  { intros p x a y Rp. apply PE. revert Rp. clear. induction 1; [constructor|eapply reach_arg; eauto]. }
  pose proof (propagate_each_pend (unregistered G) fuel NC (nulls G) (unregistered G) G1 (rtc_refl _ _) W AC R LR E1 P0) as P1.
  assert (NN : forall j y, reach G1 root j -> gs G1 !! j = Some y -> j <> root -> g_type y <> kNull).
  { intros j y Rj Ej Nj T. inversion Rj as [|k z c Rk Ek Ic]; subst; [congruence|]. exact (P1 k z c y Rk Ek Ic Ej T). }
  intros j y Rj Ej Nj. cbn [gs] in Ej. assert (T : g_type y <> kNull) by (apply (NN j y); auto; revert Rj; clear; induction 1; [constructor|eapply reach_arg; eauto]).
  split; [auto|]. destruct (constant y) eqn:C; [|auto]. destruct (good_at _ j y (proj1 RR) Ej) as [_ [TD _]]. exfalso. apply T. apply TD. exact C.
Qed.
End Complete.
End Removal.

(** ** The root *)
(** The graphs with these roots and complement flags have the same function and the same variables. *)
Record same_graph (root : Z) (comp : bool) (G : graph) (root' : Z) (comp' : bool) (G' : graph) : Prop := {
  g_wf : wf G';
  g_acyclic : acyclic G';
  g_nxt : nxt G <= nxt G';
  g_root : is_Some (gs G' !! root');
  g_vars : forall j, 1 < j < nxt G' -> (gs G' !! j = None <-> j < nxt G /\ gs G !! j = None);
  g_value : forall σ b, node_value G' σ root' (xorb b comp') <-> node_value G σ root (xorb b comp) }.
Lemma same_function_graph root comp G root' G' : same_function root G root' G' -> same_graph root comp G root' comp G'.
Proof. intros [a1 a2 a3 a4 a5 a6]. constructor; auto. Qed.
Lemma same_graph_refl root comp G : wf G -> acyclic G -> is_Some (gs G !! root) -> same_graph root comp G root comp G.
Proof. intros W A Sr. apply same_function_graph, same_refl; auto. Qed.
Lemma same_graph_trans r1 c1 G1 r2 c2 G2 r3 c3 G3 : same_graph r1 c1 G1 r2 c2 G2 -> same_graph r2 c2 G2 r3 c3 G3 -> same_graph r1 c1 G1 r3 c3 G3.
Proof.
  intros A B. pose proof (g_nxt _ _ _ _ _ _ A). pose proof (g_nxt _ _ _ _ _ _ B). constructor; [apply B|apply B|lia|apply B| |].
  - intros j L. rewrite (g_vars _ _ _ _ _ _ B) by auto. split; intros [L1 N].
    + apply (g_vars _ _ _ _ _ _ A) in N; [|lia]. tauto.
    + split; [lia|]. apply (g_vars _ _ _ _ _ _ A); [lia|auto].
  - intros σ b. rewrite (g_value _ _ _ _ _ _ B). apply A.
Qed.
Lemma lit_abs ν a : lit ν a = xorb (ν (Z.abs a)) (a <? 0).
Proof. unfold lit. destruct (Z.ltb_spec a 0); [rewrite Z.abs_neq by lia; rewrite xorb_true_r; auto|rewrite Z.abs_eq by lia; rewrite xorb_false_r; auto]. Qed.
Lemma null_value G root x a : wf G -> gs G !! root = Some x -> g_type x = kNull -> g_args x = [a] -> forall ν, consistent G ν -> ν root = xorb (ν (Z.abs a)) (a <? 0).
Proof. intros W E T EA ν [_ C]. rewrite (C root x E). unfold gate_value. rewrite T, EA. cbn [map conn_value]. apply lit_abs. Qed.
Lemma is_trivial_ok parents expired fuel root comp G t root' comp' G' : wf G -> acyclic G -> roomy G -> is_Some (gs G !! root) ->
  (forall H, rtc joins (unregistered G) H -> no_clash H) ->
  is_trivial parents expired fuel root comp G = Some (t, root', comp', G') ->
  same_graph root comp G root' comp' G' /\ roomy G' /\
  (t = true -> comp' = false /\ exists x a, gs G' !! root' = Some x /\ g_type x = kNull /\ g_args x = [a] /\ gs G' !! Z.abs a = None) /\
  (t = false -> exists x, gs G' !! root' = Some x /\ g_type x <> kNull).
Proof.
  intros W AC R Sr NC Q. unfold is_trivial in Q. apply bind_inv in Q as (x & Ex & Q). destruct (conn_eqb (g_type x) kNull) eqn:T.
  2: { cbn [negb] in Q. injection Q as <- <- <- <-. split; [apply same_graph_refl; auto|]. split; [auto|]. split; [discriminate|]. intros _. exists x. split; [auto|]. intros K. rewrite K in T. discriminate. }
  cbn [negb] in Q. assert (Tx : g_type x = kNull) by (destruct (g_type x); try discriminate; auto). clear T.
  apply bind_inv in Q as (G1 & E1 & Q). destruct (remove_null_keeps parents expired fuel G G1 W AC R NC E1) as (K & R1 & _).
  assert (X : exists x1, gs G1 !! root = Some x1 /\ g_type x1 = kNull).
  { unfold remove_null_gates in E1. apply bind_inv in E1 as (G0 & E0 & E1). injection E1 as <-. cbn [gs]. eapply (propagate_each_stays parents expired (unregistered G) root fuel NC (nulls G) (unregistered G) G0 x); [apply rtc_refl|exact W|exact AC|exact R|exact E0|exact Ex|exact Tx]. }
  destruct X as (x1 & Ex1 & Tx1). rewrite Ex1 in Q. cbn [mbind option_bind] in Q. pose proof (k_wf _ _ K) as W1. pose proof (k_acyclic _ _ K AC) as AC1.
  pose proof (same_function_graph root comp G root G1 (keeps_same_function root G G1 W AC Sr K)) as S1.
  destruct (g_args x1) as [|a [|]] eqn:EA; try discriminate. pose proof (null_value G1 root x1 a W1 Ex1 Tx1 EA) as NV.
  assert (La : 1 <= Z.abs a < nxt G1) by (apply W1 in Ex1 as [_ [_ A]]; destruct (A a ltac:(rewrite EA; left; auto)) as (A1 & A2 & _); lia).
  destruct (gs G1 !! Z.abs a) as [y|] eqn:Ey.
  - destruct (_ || _) eqn:C; [discriminate|]. injection Q as <- <- <- <-. apply orb_false_elim in C as [C _]. apply orb_false_elim in C as [_ C]. split; [|split; [auto|split; [discriminate|]]].
    + apply (same_graph_trans _ _ _ _ _ _ _ _ _ S1). constructor; [auto|auto|lia|eauto| |].
      * intros j L. split; [intros N; split; [lia|auto]|tauto].
      * intros σ b. split; intros (ν & C1 & C2 & C3); exists ν; (split; [auto|]; split; [auto|]); rewrite (NV ν C1) in *; destruct (ν (Z.abs a)), (a <? 0), b, comp; cbn in *; congruence.
    + intros _. exists y. split; [auto|]. intros K'. rewrite K' in C. discriminate.
  - destruct comp.
    + apply bind_inv in Q as (G2 & E2 & Q). injection Q as <- <- <- <-. pose proof (negate_args_roomy _ _ _ R1 E2) as R2. unfold negate_args in E2. rewrite Ex1 in E2. cbn [mbind option_bind] in E2. injection E2 as <-. rewrite EA in *. cbn [map rev app] in *.
      set (x2 := with_args x1 [- a]). set (G2 := put root x2 G1). assert (E2 : gs G2 !! root = Some x2) by apply lookup_insert. assert (OLD : forall j, j <> root -> gs G2 !! j = gs G1 !! j) by (intros j N; apply lookup_insert_ne; auto). assert (NR : Z.abs a <> root) by (intros Q; rewrite Q in Ey; congruence). assert (LR : 1 < root < nxt G1) by (apply W1 in Ex1; lia).
      assert (W2 : wf G2).
      { destruct W1 as [w1 w2]. split; [exact w1|]. intros j z Ej. destruct (Z.eq_dec j root) as [->|N]; [rewrite E2 in Ej; injection Ej as <-|rewrite OLD in Ej by auto; apply w2; auto]. split; [exact LR|]. cbn [g_args with_args x2]. split; [constructor; [intros []|constructor]|]. intros b [<-|[]]. change (nxt G2) with (nxt G1). split; [lia|]. split; [lia|]. intros [Q|[]]. lia. }
      assert (A2 : acyclic G2).
      { destruct AC1 as [r RK]. exists r. intros j z c Ej Ic Sc. assert (Sc' : is_Some (gs G1 !! Z.abs c)) by (destruct (Z.eq_dec (Z.abs c) root) as [Qc|Nc]; [rewrite Qc; eauto|rewrite <- OLD by auto; auto]). destruct (Z.eq_dec j root) as [->|N]; [|rewrite OLD in Ej by auto; apply (RK j z c); auto]. rewrite E2 in Ej. injection Ej as <-. cbn in Ic. destruct Ic as [<-|[]]. rewrite Z.abs_opp, Ey in Sc'. destruct Sc'. congruence. }
      assert (V2 : forall j, gs G2 !! j = None <-> gs G1 !! j = None) by (intros j; destruct (Z.eq_dec j root) as [->|N]; [rewrite E2, Ex1; split; discriminate|rewrite OLD by auto; tauto]).
      pose proof (null_value G2 root x2 (- a) W2 E2 Tx1 eq_refl) as NV2. rewrite Z.abs_opp in NV2.
      assert (LIT : forall G3 σ ν, (nxt G3 = nxt G1) -> (gs G3 !! Z.abs a = None) -> consistent G3 ν -> (forall j, 1 < j < nxt G3 -> gs G3 !! j = None -> ν j = σ j) -> ν (Z.abs a) = if Z.abs a =? 1 then true else σ (Z.abs a)).
      { intros G3 σ ν N3 E3 C3 V3. destruct (Z.eqb_spec (Z.abs a) 1) as [Q|N]; [rewrite Q; apply C3|]. apply V3; [lia|auto]. }
      assert (SGN : (- a <? 0) = negb (a <? 0)) by (destruct (Z.ltb_spec a 0), (Z.ltb_spec (- a) 0); auto; lia).
      split; [|split; [exact R2|split; [|discriminate]]].
      * apply (same_graph_trans _ _ _ _ _ _ _ _ _ S1). constructor; [auto|auto|change (nxt G2) with (nxt G1); lia|eauto| |].
        -- intros j L. rewrite V2. split; [intros N; split; [apply L|auto]|tauto].
        -- intros σ b. rewrite xorb_false_r, xorb_true_r. split.
           ++ intros (ν & C1 & C2 & C3). destruct AC1 as [r RK]. destruct (labelling_exists G1 r σ W1 RK) as (μ & M1 & M2). exists μ. split; [auto|]. split; [auto|]. rewrite (NV μ M1). rewrite (NV2 ν C1) in C3. rewrite (LIT G1 σ μ eq_refl Ey M1 M2). rewrite (LIT G2 σ ν eq_refl ltac:(apply V2; exact Ey) C1 C2) in C3. rewrite <- C3, SGN. destruct (if Z.abs a =? 1 then true else σ (Z.abs a)), (a <? 0); auto.
           ++ intros (ν & C1 & C2 & C3). destruct A2 as [r RK]. destruct (labelling_exists G2 r σ W2 RK) as (μ & M1 & M2). exists μ. split; [auto|]. split; [auto|]. rewrite (NV2 μ M1). rewrite (NV ν C1) in C3. rewrite (LIT G2 σ μ eq_refl ltac:(apply V2; exact Ey) M1 M2). rewrite (LIT G1 σ ν eq_refl Ey C1 C2) in C3. rewrite SGN. destruct (if Z.abs a =? 1 then true else σ (Z.abs a)), (a <? 0), b; auto.
      * intros _. split; [auto|]. exists x2, (- a). split; [exact E2|]. split; [exact Tx1|]. split; [auto|]. rewrite Z.abs_opp. apply V2. exact Ey.
    + injection Q as <- <- <- <-. split; [exact S1|]. split; [exact R1|]. split; [|discriminate]. intros _. split; [auto|]. exists x1, a. auto.
Qed.
