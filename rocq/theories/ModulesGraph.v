(** What the creation of a module does to the graph, and to the modules and closed groups in it. *)
From stdpp Require Import gmap.
From Coq Require Import List ZArith Lia Bool Permutation.
Import ListNotations.
From Verif Require Import Pdag PdagProofs PdagAdd PdagSem PdagKeeps ZbddGraph ZbddModules ZbddModulesProofs Preproc PreprocProofs PreprocNorm PreprocMerge Order Modules ModulesTiming.
Open Scope Z_scope.

(** ** The run of CreateNewModule *)
Record created (i : Z) (l : list Z) (H H' : graph) (x : gate) : Prop := {
  c_nxt : nxt H' = nxt H + 1;
  c_new : exists t l', gs H' !! nxt H = Some (Gate t 0 l') /\ Permutation l' l /\ (t = kAnd \/ t = kOr);
  c_gate : gs H' !! i = Some (with_args x (set_insert (nxt H) (erase_list l (g_args x))));
  c_other : forall j, j <> nxt H -> j <> i -> gs H' !! j = gs H !! j }.
Lemma has_erase a l1 l2 : has a l2 = false -> has a (erase_list l1 l2) = false.
Proof. rewrite !has_false, erase_list_In. tauto. Qed.
Lemma transfer_all_run i m : i <> m -> forall l G x y, gs G !! i = Some x -> gs G !! m = Some y -> List.NoDup l -> constant x = false ->
  (forall a, In a l -> In a (g_args x) /\ a <> 0 /\ a <> 1 /\ a <> -1 /\ ~ In (- a) l /\ ~ In a (g_args y) /\ ~ In (-a) (g_args y)) ->
  (g_type y = kAnd \/ g_type y = kOr) -> g_min y = 0 -> constant y = false -> exists G', transfer_all i l m G = Some G'.
Proof.
  intros Him. induction l as [|a l IH]; intros G x y Ex Ey Hnd Cx Hl Ty My Cy; cbn [transfer_all]; [eauto|].
  inversion Hnd as [|? ? Ha Hnd']; subst. destruct (Hl a ltac:(left; auto)) as (A1 & A2 & A3 & A4 & A5 & A6 & A7).
  unfold transfer_arg. rewrite Ex. cbn [mbind option_bind]. rewrite Cx. unfold erase_arg. rewrite Ex. cbn [mbind option_bind].
  rewrite (proj2 (has_In a (g_args x)) A1). cbn [mbind option_bind]. set (G1 := put i _ G).
  assert (Ey1 : gs G1 !! m = Some y) by (unfold G1, put; cbn [gs]; now rewrite lookup_insert_ne by auto).
  assert (AS : add_asserts y = true).
  { unfold add_asserts. rewrite Cy, My. destruct Ty as [-> | ->]; reflexivity. }
  assert (AA : add_arg m a G1 = Some (put m (with_args y (set_insert a (g_args y))) G1)).
  { unfold add_arg. rewrite Ey1. cbn [mbind option_bind]. rewrite AS, (proj2 (Z.eqb_neq a 0) A2). cbn [negb orb].
    rewrite (proj2 (has_false _ _) A6), (proj2 (has_false _ _) A7). unfold add_new. rewrite Ey1. cbn [mbind option_bind].
    rewrite AS, (proj2 (has_false _ _) A6), (proj2 (has_false _ _) A7). reflexivity. }
  rewrite AA. cbn [mbind option_bind]. set (G2 := put m _ G1).
  apply (IH G2 (with_args x (set_erase a (g_args x))) (with_args y (set_insert a (g_args y)))); auto.
  - unfold G2, put; cbn [gs]. rewrite lookup_insert_ne by auto. unfold G1, put; cbn [gs]. apply lookup_insert.
  - unfold G2, put; cbn [gs]. apply lookup_insert.
  - unfold constant in *. cbn [with_args g_args]. apply orb_false_iff in Cx as [C1 C2]. apply orb_false_iff. rewrite !has_false in *. split; rewrite set_erase_In; tauto.
  - intros b Hb. destruct (Hl b ltac:(right; auto)) as (B1 & B2 & B3 & B4 & B5 & B6 & B7). cbn [with_args g_args]. rewrite set_erase_In, !set_insert_In.
    assert (b <> a) by (intros ->; auto). assert (- b <> a) by (intros Eb; apply B5; left; auto).
    repeat (split; [tauto|]). split; [intros Hc; apply B5; right; auto|]. tauto.
  - unfold constant in *. cbn [with_args g_args]. apply orb_false_iff in Cy as [C1 C2]. apply orb_false_iff. rewrite !has_false in *. split; rewrite set_insert_In; intuition congruence.
Qed.
Lemma create_module_run i l G x : wf G -> gs G !! i = Some x -> constant x = false -> 0 <= g_min x -> List.NoDup l -> (forall a, In a l -> In a (g_args x)) ->
  exists G', create_module i l G = Some G' /\ keeps G G' /\ ((G' = G /\ (size l <= 1 \/ size (g_args x) <= size l \/ coalesce_type (g_type x) = None)) \/ (created i l G G' x /\ is_Some (coalesce_type (g_type x)))).
Proof.
  intros W Ex Cx Mx Hnd Hsub. unfold create_module. rewrite Ex. cbn [mbind option_bind].
  destruct ((size l <=? 1) || (size (g_args x) <=? size l)) eqn:SZ; [exists G; split; [auto|]; split; [now apply keeps_refl|left; split; [auto|]; apply orb_true_iff in SZ as [SZ|SZ]; apply Z.leb_le in SZ; auto]|].
  destruct (coalesce_type (g_type x)) as [t|] eqn:Et; [|exists G; split; [auto|]; split; [now apply keeps_refl|auto]].
  unfold new_gate. cbn [nxt]. set (n := nxt G) in *. assert (Wn : 1 < n) by apply W.
  destruct (proj2 W _ _ Ex) as [Hi [Hndx Hokx]]. fold n in Hi.
  assert (Ht : t = kAnd \/ t = kOr) by (destruct (g_type x); try discriminate; injection Et as <-; auto).
  set (G0 := Graph (<[n := Gate t 0 []]> (gs G)) (n + 1) (nulls G) (reg G)).
  assert (Ex0 : gs G0 !! i = Some x) by (unfold G0; cbn [gs]; rewrite lookup_insert_ne by lia; exact Ex).
  assert (Ey0 : gs G0 !! n = Some (Gate t 0 [])) by (unfold G0; cbn [gs]; apply lookup_insert).
  pose proof Cx as Cx'. unfold constant in Cx'. apply orb_false_iff in Cx' as [C1 C2]. rewrite has_false in C1, C2.
  assert (Hall : forall a, In a l -> In a (g_args x)) by auto.
  destruct (transfer_all_run i n ltac:(lia) l G0 x (Gate t 0 [])) as [G1 E1]; auto.
  { intros a Ha. specialize (Hsub a Ha). destruct (Hokx a Hsub) as (A1 & A2 & A3). split; [auto|]. split; [auto|]. split; [intros ->; auto|]. split; [intros ->; auto|]. simpl. split; [|auto].
    intros Hc. apply A3. specialize (Hall _ Hc). auto. }
  rewrite E1. cbn [mbind option_bind].
  destruct (transfer_all_spec i n ltac:(lia) l G0 G1 x (Gate t 0 [])) as (N1 & O1 & _ & Ei & l' & El & Pl); auto.
  { intros a Ha. destruct (Hokx a (Hsub a Ha)) as (? & ? & Hna). simpl. split; [intros Hc; apply Hna; auto|auto]. }
  unfold G0 in *; cbn [gs nxt with_args g_type g_min g_args] in *. rewrite app_nil_r in Pl.
  assert (Hni : forall b, In b (erase_list l (g_args x)) -> Z.abs b < n) by (intros b Hb; apply erase_list_In in Hb as [Hb _]; now apply Hokx in Hb).
  assert (F1 : ~ In n (erase_list l (g_args x))) by (intros Hc; apply Hni in Hc; lia).
  assert (F2 : ~ In (- n) (erase_list l (g_args x))) by (intros Hc; apply Hni in Hc; lia).
  assert (AS : add_asserts (with_args x (erase_list l (g_args x))) = true).
  { unfold add_asserts, constant. cbn [with_args g_args g_type g_min]. rewrite (has_erase 1), (has_erase (-1)) by (rewrite has_false; auto).
    destruct (g_type x); try discriminate; simpl; apply Z.leb_le; lia. }
  assert (AA : exists G2, add_arg i n G1 = Some G2).
  { unfold add_arg. rewrite Ei. cbn [mbind option_bind]. rewrite AS. destruct (Z.eqb_spec n 0); [lia|]. cbn [negb orb with_args g_args].
    rewrite (proj2 (has_false _ _) F1), (proj2 (has_false _ _) F2). unfold add_new. rewrite Ei. cbn [mbind option_bind with_args g_args].
    rewrite AS, (proj2 (has_false _ _) F1), (proj2 (has_false _ _) F2). cbn [negb andb]. eauto. }
  destruct AA as [G2 AA]. exists G2. split; [exact AA|]. pose proof AA as AA'.
  eapply (add_arg_fresh i) in AA as [HG' N']; [|exact Ei|exact F1|exact F2]. cbn [with_args g_args g_type g_min] in *.
  split.
  - apply (create_module_keeps i l G G2 x); auto. unfold create_module. rewrite Ex. cbn [mbind option_bind]. rewrite SZ, Et. unfold new_gate. cbn [nxt]. fold n. rewrite E1. exact AA'.
  - right. split; [|eauto]. split; fold n.
    + lia.
    + exists t, l'. rewrite HG', lookup_insert_ne by lia. auto.
    + rewrite HG'. apply lookup_insert.
    + intros j J1 J2. rewrite HG', lookup_insert_ne by auto. rewrite O1 by auto. apply lookup_insert_ne; auto.
Qed.

(** ** Modules and closed groups *)
(** The arguments [S] of gate i are closed: whatever is below them is reached only through them. *)
Definition closed (G : graph) (i : Z) (l : list Z) : Prop :=
  forall a j p, In a l -> under G (Z.abs a) j -> edge G p j ->
    (p = i /\ In j (map Z.abs l)) \/ exists b, In b l /\ under G (Z.abs b) p.

Section Step.
Context (H H' : graph) (i : Z) (l : list Z) (x : gate) (W : wf H) (Ex : gs H !! i = Some x) (C : created i l H H' x) (SUB : forall a, In a l -> In a (g_args x)).
Notation n := (nxt H).
Lemma i_lt : 1 < i < n. Proof. apply W in Ex. tauto. Qed.
Lemma edge_lt p j : edge H p j -> j <> n /\ p <> n.
Proof.
  intros (y & a & Ey & J & <-). apply W in Ey as [P [_ OK]]. destruct (OK a J) as (_ & L & _). lia.
Qed.
Lemma abs_inj a b : In a (g_args x) -> In b (g_args x) -> Z.abs a = Z.abs b -> a = b.
Proof.
  intros A B E. destruct (proj2 W _ _ Ex) as [_ [_ OK]]. destruct (OK a A) as (_ & _ & N). destruct (Z.eq_dec a b); auto. elim N. replace (- a) with b by lia. auto.
Qed.
Lemma edge_new j : edge H' n j <-> In j (map Z.abs l).
Proof.
  destruct (c_new _ _ _ _ _ C) as (t & l' & E & P & _). split.
  - intros (y & a & Ey & J & <-). rewrite E in Ey. injection Ey as <-. apply in_map. exact (Permutation_in _ P J).
  - intros J. apply in_map_iff in J as (a & <- & J). eexists _, a. split; [exact E|]. split; auto. exact (Permutation_in _ (Permutation_sym P) J).
Qed.
Lemma edge_gate j : edge H' i j <-> j = n \/ (edge H i j /\ ~ In j (map Z.abs l)).
Proof.
  pose proof i_lt. split.
  - intros (y & a & Ey & J & <-). rewrite (c_gate _ _ _ _ _ C) in Ey. injection Ey as <-. cbn [with_args g_args] in J. apply set_insert_In in J as [->|J]; [left; lia|]. right.
    apply erase_list_In in J as [J N]. split; [exists x, a; auto|]. intros K. apply in_map_iff in K as (b & E & K). apply N. rewrite <- (abs_inj b a); auto.
  - intros [->|[(y & a & Ey & J & <-) N]].
    + eexists _, n. split; [apply (c_gate _ _ _ _ _ C)|]. cbn [with_args g_args]. rewrite set_insert_In. split; [auto|lia].
    + rewrite Ex in Ey. injection Ey as <-. eexists _, a. split; [apply (c_gate _ _ _ _ _ C)|]. cbn [with_args g_args]. rewrite set_insert_In, erase_list_In. split; [|auto]. right. split; auto.
      intros K. apply N. apply in_map. auto.
Qed.
Lemma edge_other p j : p <> i -> p <> n -> edge H' p j <-> edge H p j.
Proof. intros A B. unfold edge. rewrite (c_other _ _ _ _ _ C p B A). tauto. Qed.
Lemma edge_sub j : In j (map Z.abs l) -> edge H i j.
Proof. intros J. apply in_map_iff in J as (a & <- & J). exists x, a. auto. Qed.
Lemma edge_back p j : j <> n -> p <> n -> edge H' p j -> edge H p j.
Proof.
  intros J P E. destruct (Z.eq_dec p i) as [->|N]; [apply edge_gate in E as [|[E _]]; [contradiction|auto]|]. apply edge_other in E; auto.
Qed.
Lemma edge_to_new p : edge H' p n -> p = i.
Proof.
  intros E. destruct (Z.eq_dec p n) as [->|N].
  - apply edge_new, edge_sub, edge_lt in E. tauto.
  - destruct (Z.eq_dec p i) as [->|N']; auto. apply edge_other in E; auto. apply edge_lt in E. tauto.
Qed.
Lemma under_back a j : a <> n -> under H' a j -> (j <> n -> under H a j) /\ (j = n -> under H a i).
Proof.
  intros NA U. induction U as [|k y e U IH Ek Je].
  - split; [constructor|contradiction].
  - destruct IH as [I1 I2]. assert (E : edge H' k (Z.abs e)) by (exists y, e; auto). split.
    + intros NJ. destruct (Z.eq_dec k n) as [->|NK]; [|apply (edge_under H a k); [apply edge_back; auto|auto]].
      apply edge_new in E. apply (edge_under H a i); [apply edge_sub; auto|auto].
    + intros EJ. rewrite EJ in E. apply edge_to_new in E as ->. pose proof i_lt. apply I1. lia.
Qed.
Lemma under_forth a j : under H a j -> under H' a j.
Proof.
  intros U. induction U as [|k y e U IH Ek Je]; [constructor|]. assert (E : edge H k (Z.abs e)) by (exists y, e; auto).
  destruct (Z.eq_dec k i) as [->|NK].
  - destruct (in_dec Z.eq_dec (Z.abs e) (map Z.abs l)) as [K|K].
    + apply (edge_under H' a n); [apply edge_new; auto|]. apply (edge_under H' a i); [apply edge_gate; auto|auto].
    + apply (edge_under H' a i); [apply edge_gate; auto|auto].
  - apply (edge_under H' a k); auto. apply edge_other; auto. apply edge_lt in E. tauto.
Qed.
Lemma under_to_new a : under H a i -> under H' a n.
Proof. intros U. apply (edge_under H' a i); [apply edge_gate; auto|apply under_forth; auto]. Qed.
Lemma modular_edges G m : modular G m <-> forall p j, edge G p j -> under G m j -> j = m \/ under G m p.
Proof.
  split.
  - intros M p j (y & a & Ey & J & <-) U. eapply M; eauto.
  - intros M p y a Ey J U. apply (M p); auto. exists y, a. auto.
Qed.
Lemma modular_step m : m <> n -> modular H m -> modular H' m.
Proof.
  rewrite !modular_edges. intros NM M p j E U. destruct (under_back m j NM U) as [B1 B2]. destruct (Z.eq_dec j n) as [->|NJ].
  - right. apply edge_to_new in E as ->. apply under_forth, B2. auto.
  - specialize (B1 NJ). destruct (Z.eq_dec p n) as [->|NP].
    + apply edge_new in E. destruct (M i j (edge_sub j E) B1) as [|U']; auto. right. apply under_to_new. auto.
    + destruct (M p j (edge_back p j NJ NP E) B1) as [|U']; auto. right. apply under_forth. auto.
Qed.
Lemma l_not_new a : In a l -> Z.abs a <> n.
Proof. intros J. apply (edge_lt i). exists x, a. auto. Qed.
Lemma under_new j : under H' n j -> j = n \/ exists a, In a l /\ under H (Z.abs a) j.
Proof.
  intros U. destruct (c_new _ _ _ _ _ C) as (t & l' & E & P & _).
  destruct (under_step H' n _ j E U) as [|(a & J & U')]; auto. cbn [g_args] in J. apply (Permutation_in _ P) in J.
  destruct (under_back _ _ (l_not_new a J) U') as [B _]. destruct (Z.eq_dec j n); auto. right. exists a. auto.
Qed.
Lemma under_group a j : In a l -> under H (Z.abs a) j -> under H' n j.
Proof. intros J U. apply (under_trans H' n (Z.abs a)); [|apply under_forth; auto]. apply (edge_under H' n n); [|constructor]. apply edge_new. apply in_map. auto. Qed.
Lemma modular_new : closed H i l -> modular H' n.
Proof.
  intros CL. apply modular_edges. intros p j E U. destruct (under_new j U) as [->|(a & J & U')]; auto. right.
  destruct (Z.eq_dec p n) as [->|NP]; [constructor|].
  destruct (Z.eq_dec j n) as [->|NJ].
  - apply edge_to_new in E as ->. destruct (under_back _ _ (l_not_new a J) (under_forth _ _ U')) as [_ B]. specialize (B eq_refl). apply (under_group a); auto.
  - destruct (CL a j p J U' (edge_back p j NJ NP E)) as [[-> K]|(b & Jb & Ub)].
    + apply edge_gate in E as [|[_ N]]; contradiction.
    + apply (under_group b); auto.
Qed.
Lemma closed_step i0 l0 : (forall a, In a l0 -> Z.abs a <> n) -> (i0 = i -> forall a b, In a l0 -> In b l -> Z.abs a <> Z.abs b) -> closed H i0 l0 -> closed H' i0 l0.
Proof.
  intros L0 DIS CL a j p J U E. destruct (under_back _ j (L0 a J) U) as [B1 B2]. destruct (Z.eq_dec j n) as [->|NJ].
  - right. exists a. split; auto. apply edge_to_new in E as ->. apply under_forth. auto.
  - specialize (B1 NJ). destruct (Z.eq_dec p n) as [->|NP].
    + apply edge_new in E. destruct (CL a j i J B1 (edge_sub j E)) as [[E0 K]|(b & Jb & Ub)].
      * exfalso. apply in_map_iff in E as (b & Eb & Jb). apply in_map_iff in K as (c & Ec & Jc). apply (DIS (eq_sym E0) c b); congruence.
      * right. exists b. split; auto. apply under_to_new. auto.
    + destruct (CL a j p J B1 (edge_back p j NJ NP E)) as [|(b & Jb & Ub)]; auto. right. exists b. split; auto. apply under_forth. auto.
Qed.
Lemma closed_inside l0 : (forall a, In a l0 -> In a l) -> closed H i l0 -> closed H' n l0.
Proof.
  intros L0 CL a j p J U E. destruct (under_back _ j (l_not_new a (L0 a J)) U) as [B1 B2]. destruct (Z.eq_dec j n) as [->|NJ].
  - right. exists a. split; auto. apply edge_to_new in E as ->. apply under_forth. auto.
  - specialize (B1 NJ). destruct (Z.eq_dec p n) as [->|NP].
    + apply edge_new in E. destruct (CL a j i J B1 (edge_sub j E)) as [[_ K]|(b & Jb & Ub)]; auto. right. exists b. split; auto. apply under_to_new. auto.
    + destruct (CL a j p J B1 (edge_back p j NJ NP E)) as [[-> K]|(b & Jb & Ub)].
      * exfalso. apply edge_gate in E as [|[_ N]]; [contradiction|]. apply N. apply in_map_iff in K as (c & <- & Jc). apply in_map. auto.
      * right. exists b. split; auto. apply under_forth. auto.
Qed.
End Step.
