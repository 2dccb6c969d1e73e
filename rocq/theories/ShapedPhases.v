(** The shape of the gates through the larger rewrites: complements, decomposition, Boolean optimization,
    distributivity. *)
From stdpp Require Import gmap.
From Coq Require Import Lia Permutation List.
From Verif Require Import Pdag PdagProofs PdagAdd PdagSem PdagKeeps Preproc Decompose Rooted BoolOpt BoolOptProofs BoolOptEdits Distribute Complement Shaped ShapedOps.
Import ListNotations.
Open Scope Z_scope.

(** ** Complements (Complement.v) *)
Lemma negate_gate_roomy g G G' : roomy G -> negate_gate g G = Some G' -> roomy G' /\ 1 < g.
Proof.
  intros R Q. unfold negate_gate in Q. apply bind_inv in Q as (x & E & Q). apply bind_inv in Q as (t & T & Q). apply bind_inv in Q as (G1 & E1 & Q). split; [|apply (key G g x (proj1 R) E)]. apply (negate_args_roomy g G1); auto. apply (set_plain_roomy g t G G1 x); auto; destruct (g_type x); try discriminate T; injection T as <-; try discriminate; repeat split; discriminate.
Qed.
Definition comps_ok (C : gmap Z Z) : Prop := forall g c, C !! g = Some c -> 1 < c.
Definition st_ok (s : Complement.pstate) : Prop := roomy (Complement.p_graph s) /\ comps_ok (p_comps s).
Lemma complement_args_roomy single rec : (forall g s s', st_ok s -> rec g s = Some s' -> st_ok s') ->
  forall l s s' sw, st_ok s -> Complement.args_loop single rec l s = Some (s', sw) -> st_ok s' /\ forall a c, In (a, c) sw -> 1 < c.
Proof.
  intros HR. induction l as [|a l IH]; intros s s' sw SO Q; cbn [Complement.args_loop] in Q; [injection Q as <- <-; split; [auto|intros ? ? []]|].
  destruct (0 <? a).
  { apply bind_inv in Q as (s1 & E1 & Q). apply (IH s1 s' sw); auto. apply (HR _ _ _ SO E1). }
  destruct (p_comps s !! (- a)) as [c|] eqn:EC.
  { destruct (decide _); [|discriminate]. apply bind_inv in Q as ([s1 sw1] & E1 & Q). injection Q as <- <-. destruct (IH s s1 sw1 SO E1) as [S1 B1]. split; [auto|]. intros a' c' [K|K]; [injection K as <- <-; apply (proj2 SO _ _ EC)|apply (B1 a' c' K)]. }
  destruct (single _ _ _).
  - apply bind_inv in Q as (G1 & E1 & Q). destruct (negate_gate_roomy _ _ _ (proj1 SO) E1) as [R1 L1]. apply bind_inv in Q as (s1 & E2 & Q). assert (S1 : st_ok s1) by (apply (HR _ _ _ (conj R1 (proj2 SO) : st_ok (Complement.with_graph s G1)) E2)).
    apply bind_inv in Q as ([s2 sw2] & E3 & Q). injection Q as <- <-. destruct (IH s1 s2 sw2 S1 E3) as [S2 B2]. split; [auto|]. intros a' c' [K|K]; [injection K as <- <-; auto|apply (B2 a' c' K)].
  - apply bind_inv in Q as ([G1 c] & E1 & Q). destruct (clone_shaped _ _ _ _ (proj1 SO) E1) as (R1 & _ & L1). apply bind_inv in Q as (G2 & E2 & Q). destruct (negate_gate_roomy _ _ _ R1 E2) as [R2 _]. apply bind_inv in Q as (s1 & E3 & Q).
    assert (S0 : st_ok (Complement.PSt G2 (Complement.p_marks s) (<[(- a) := c]> (p_comps s)))) by (split; [exact R2|]; intros g' c' K; cbn in K; apply lookup_insert_Some in K as [[_ <-]|[_ K]]; [auto|apply (proj2 SO _ _ K)]).
    pose proof (HR _ _ _ S0 E3) as S1. apply bind_inv in Q as ([s2 sw2] & E4 & Q). injection Q as <- <-. destruct (IH s1 s2 sw2 S1 E4) as [S2 B2]. split; [auto|]. intros a' c' [K|K]; [injection K as <- <-; auto|apply (B2 a' c' K)].
Qed.
Lemma complement_swap_roomy i : forall sw G G', roomy G -> (forall a c, In (a, c) sw -> 1 < c) -> Complement.swap_loop i sw G = Some G' -> roomy G'.
Proof.
  induction sw as [|[a c] sw IH]; intros G G' R HL Q; cbn [Complement.swap_loop] in Q; [injection Q as <-; auto|]. destruct (0 <=? a); [discriminate|]. apply bind_inv in Q as (G1 & E1 & Q). apply bind_inv in Q as (G2 & E2 & Q). apply bind_inv in Q as (x & Ex & Q). destruct (constant x); [discriminate|].
  apply (IH G2); [|intros a' c' I; apply (HL a' c'); right; auto|auto]. specialize (HL a c ltac:(left; auto)). apply (add_arg_roomy i c G1); [apply (erase_arg_roomy i a G); auto|lia|auto].
Qed.
Lemma complement_roomy single order : forall fuel i s s', st_ok s -> Complement.propagate single order fuel i s = Some s' -> st_ok s'.
Proof.
  induction fuel as [|fuel IH]; intros i s s' SO Q; cbn [Complement.propagate] in Q; [discriminate|]. destruct (decide _); [injection Q as <-; auto|]. apply bind_inv in Q as ([s1 sw] & E1 & Q). apply bind_inv in Q as (G & E2 & Q). injection Q as <-.
  destruct (complement_args_roomy single _ IH _ _ _ _ (SO : st_ok (Complement.PSt (Complement.p_graph s) _ (p_comps s))) E1) as [S1 B1]. split; [|apply S1]. cbn. eapply complement_swap_roomy; [apply S1|exact B1|exact E2].
Qed.
Lemma phase_four_roomy single order fuel root comp G G' : roomy G -> phase_four single order fuel root comp G = Some G' -> roomy G'.
Proof.
  intros R Q. unfold phase_four in Q. apply bind_inv in Q as (G1 & E1 & Q). apply bind_inv in Q as (s & E2 & Q). injection Q as <-. apply (complement_roomy single order fuel root (Complement.PSt G1 ∅ ∅)); [|exact E2]. split; [|intros g c K; cbn in K; rewrite lookup_empty in K; discriminate]. cbn.
  destruct comp; [|injection E1 as <-; auto]. unfold complement_root in E1. apply bind_inv in E1 as (x & E & E1). apply bind_inv in E1 as (G0 & E0 & E1). apply (negate_args_roomy root G0); auto.
  destruct (g_type x) eqn:T; try discriminate; [| |injection E0 as <-; auto]; (eapply set_plain_roomy; [exact R|exact E|rewrite T; discriminate| |exact E0]; repeat split; discriminate).
Qed.

(** ** Decomposition (Decompose.v) *)
Section Decomposed.
Context (parents : graph -> Z -> list Z) (timed : Z -> Z -> bool) (order : graph -> Z -> list Z) (P n : Z) (state : bool) (Ln : 1 < n).
Lemma decompose_args_roomy fuel rec : (forall g s s', roomy (d_graph s) -> rec g s = Some s' -> roomy (d_graph s')) ->
  forall l s s' sw, roomy (d_graph s) -> Decompose.args_loop parents timed P n state fuel rec l s = Some (s', sw) -> roomy (d_graph s') /\ forall a c, In (a, c) sw -> 1 < c.
Proof.
  intros HR. induction l as [|a l IH]; intros s s' sw R Q; cbn [Decompose.args_loop] in Q; [injection Q as <- <-; split; [auto|intros ? ? []]|].
  apply bind_inv in Q as (x & Ex & Q). apply bind_inv in Q as ([[s1 g] sw1] & E1 & Q).
  assert (K1 : roomy (d_graph s1) /\ forall a c, In (a, c) sw1 -> 1 < c).
  { destruct (has_node n x); [|injection E1 as <- <- <-; split; [auto|intros ? ? []]]. apply bind_inv in E1 as ([b A] & Ew & E1). destruct b.
    - apply bind_inv in E1 as (G1 & Ep & E1). injection E1 as <- <- <-. split; [cbn; apply (process_constant_roomy _ _ _ _ _ R Ln Ep)|intros ? ? []].
    - apply bind_inv in E1 as ([G1 c] & Ec & E1). destruct (clone_shaped _ _ _ _ R Ec) as (R1 & _ & L1). apply bind_inv in E1 as (y & Ey & E1). destruct (registered y).
      + apply bind_inv in E1 as (G2 & Ep & E1). injection E1 as <- <- <-. split; [cbn; apply (process_constant_roomy _ _ _ _ _ R1 Ln Ep)|]. intros a' c' [K|[]]. injection K as <- <-. auto.
      + injection E1 as <- <- <-. split; [auto|intros ? ? []]. }
  clear E1. destruct K1 as [R1 B1]. apply bind_inv in Q as (s2 & E2 & Q).
  assert (R2 : roomy (d_graph s2)).
  { destruct (decide _); [|injection E2 as <-; auto]. apply bind_inv in E2 as ([b A] & Ew & E2). destruct b; [|injection E2 as <-; auto]. eapply HR; [|exact E2]. exact R1. }
  apply bind_inv in Q as ([s3 sw3] & E3 & Q). injection Q as <- <-. destruct (IH s2 s3 sw3 R2 E3) as [R3 B3]. split; [auto|]. intros a' c' K. apply in_app_or in K as [K|K]; eauto.
Qed.
Lemma decompose_swap_roomy i : forall sw G G', roomy G -> (forall a c, In (a, c) sw -> 1 < c) -> Decompose.swap_loop i sw G = Some G' -> roomy G'.
Proof.
  induction sw as [|[a c] sw IH]; intros G G' R HL Q; cbn [Decompose.swap_loop] in Q; [injection Q as <-; auto|]. apply bind_inv in Q as (G1 & E1 & Q). apply bind_inv in Q as (G2 & E2 & Q).
  apply (IH G2); [|intros a' c' I; apply (HL a' c'); right; auto|auto]. specialize (HL a c ltac:(left; auto)). eapply (add_arg_roomy i _ G1); [apply (erase_arg_roomy i a G); auto| |exact E2]. destruct (_ <? 0); lia.
Qed.
Lemma process_ancestors_roomy : forall fuel i s s', roomy (d_graph s) -> process_ancestors parents timed order P n state fuel i s = Some s' -> roomy (d_graph s').
Proof.
  induction fuel as [|fuel IH]; intros i s s' R Q; cbn [process_ancestors] in Q; [discriminate|]. destruct (decide _); [injection Q as <-; auto|]. apply bind_inv in Q as ([s1 sw] & E1 & Q). apply bind_inv in Q as (A & EA & Q). apply bind_inv in Q as (G & E2 & Q). apply bind_inv in Q as (x & Ex & Q). injection Q as <-.
  match type of E1 with Decompose.args_loop _ _ _ _ _ _ _ _ ?s0 = _ => destruct (decompose_args_roomy fuel _ IH _ s0 _ _ R E1) as [R1 B1] end. cbn. eapply decompose_swap_roomy; [exact R1|exact B1|exact E2].
Qed.
End Decomposed.
Lemma process_destinations_roomy parents timed order fuel n : 1 < n -> forall dest desc G G', roomy G -> process_destinations parents timed order fuel n dest desc G = Some G' -> roomy G'.
Proof.
  intros Ln. induction dest as [|P dest IH]; intros desc G G' R Q; cbn [process_destinations] in Q; [injection Q as <-; auto|]. apply bind_inv in Q as (x & Ex & Q). destruct (has_node n x); [|apply (IH desc G); auto]. apply bind_inv in Q as (st & Es & Q). apply bind_inv in Q as (s & E & Q).
  apply (IH (d_desc s) (d_graph s)); auto. eapply process_ancestors_roomy; [exact Ln| |exact E]. exact R.
Qed.

(** ** Boolean optimization (BoolOpt.v) *)
Lemma fix_redundants_roomy n : 1 < n -> forall l G G', roomy G -> fix_redundants n l G = Some G' -> roomy G'.
Proof. intros Ln. induction l as [|p l IH]; intros G G' R Q; cbn [fix_redundants] in Q; [injection Q as <-; auto|]. apply bind_inv in Q as (G1 & E1 & Q). apply (IH G1); auto. eapply process_constant_roomy; [exact R|exact Ln|exact E1]. Qed.
Lemma replace_all_roomy g g' : 1 < g' -> forall l G G', roomy G -> replace_all l g g' G = Some G' -> roomy G'.
Proof. intros L. induction l as [|p l IH]; intros G G' R Q; cbn [replace_all] in Q; [injection Q as <-; auto|]. apply bind_inv in Q as (G1 & E1 & Q). apply (IH G1); auto. eapply replace_roomy; [exact R|exact L|exact E1]. Qed.
Lemma signed_far n v : 1 < n -> Z.abs (signed_node n v) <> 1.
Proof. intros L. unfold signed_node. destruct (v <? 0); lia. Qed.
Lemma fix_targets_roomy users V n : 1 < n -> forall l st st', roomy st.2 -> fix_targets users V n l st = Some st' -> roomy st'.2.
Proof.
  intros Ln. induction l as [|d l IH]; intros [root G] st' R Q; cbn [fix_targets] in Q; [injection Q as <-; auto|]. cbn in R. apply bind_inv in Q as (x & Ex & Q). apply bind_inv in Q as (st1 & E1 & Q). apply (IH st1); auto. clear Q IH. pose proof (key G d x (proj1 R) Ex) as Ld.
  destruct (conn_eqb _ _).
  - destruct (constant x); [injection E1 as <-; auto|]. apply bind_inv in E1 as (G1 & E2 & E1). injection E1 as <-. cbn. eapply add_arg_roomy; [exact R|apply signed_far; exact Ln|exact E2].
  - destruct (new_gate _ G) as [G1 m] eqn:N. destruct (new_shaped _ G G1 m R N) as (R1 & _ & L). apply bind_inv in E1 as (G2 & E2 & E1). assert (R2 : roomy G2) by (eapply add_arg_roomy; [exact R1|apply signed_far; exact Ln|exact E2]).
    apply bind_inv in E1 as ([root1 G3] & E3 & E1). assert (R3 : roomy G3) by (destruct (_ =? _); [injection E3 as <- <-; auto|apply bind_inv in E3 as (G4 & E4 & E3); injection E3 as <- <-; eapply replace_all_roomy; [exact L|exact R2|exact E4]]).
    apply bind_inv in E1 as (G5 & E5 & E1). injection E1 as <-. cbn. eapply add_arg_roomy; [exact R3| |exact E5]. lia.
Qed.
Lemma common_node_roomy parents order users arrange mods fuel n worthwhile root G root' G' : 1 < n -> roomy G -> process_common_node parents order users arrange mods fuel n worthwhile root G = Some (root', G') -> roomy G'.
Proof.
  intros Ln R Q. unfold process_common_node in Q. apply bind_inv in Q as ([marks om] & _ & Q). apply bind_inv in Q as (M & _ & Q). apply bind_inv in Q as (s & _ & Q). apply bind_inv in Q as ([V D] & _ & Q). destruct worthwhile; [|injection Q as <- <-; auto].
  apply bind_inv in Q as ([D' Rd] & _ & Q). destruct Rd; [injection Q as <- <-; auto|]. apply bind_inv in Q as (G1 & E1 & Q). change G' with ((root', G').2). eapply fix_targets_roomy; [exact Ln| |exact Q]. cbn. eapply fix_redundants_roomy; [exact Ln|exact R|exact E1].
Qed.

(** ** Distributivity (Distribute.v) *)
Lemma share_list_roomy rep j : forall l G G', roomy G -> share_list rep l j G = Some G' -> roomy G'.
Proof. induction l as [|a l IH]; intros G G' R Q; cbn [share_list] in Q; [injection Q as <-; auto|]. apply bind_inv in Q as (G1 & E1 & Q). apply (IH G1); auto. eapply share_arg_roomy; [exact R|exact E1]. Qed.
Lemma move_members_roomy i s cs : forall ms G G', roomy G -> (forall m, In m ms -> 1 < m) -> move_members i s cs ms G = Some G' -> roomy G'.
Proof.
  induction ms as [|m ms IH]; intros G G' R HM Q; cbn [move_members] in Q; [injection Q as <-; auto|]. apply bind_inv in Q as (G1 & E1 & Q). apply bind_inv in Q as (G2 & E2 & Q). apply bind_inv in Q as (G3 & E3 & Q). apply bind_inv in Q as (x & Ex & Q). destruct (_ =? 0); [discriminate|]. apply bind_inv in Q as (G4 & E4 & Q).
  specialize (HM m ltac:(left; auto)) as Lm. assert (R3 : roomy G3) by (eapply erase_all_roomy; [|exact E3]; eapply add_arg_roomy; [eapply erase_arg_roomy; [exact R|exact E1]| |exact E2]; lia).
  apply (IH G4); auto; [|intros k Ik; apply HM; right; auto]. destruct (Z.eqb_spec (size (g_args x)) 1) as [S1|S1]; [|injection E4 as <-; auto]. apply (set_null_roomy m G3 G4 x R3 Ex); [rewrite S1; lia|exact E4].
Qed.
Lemma transform_once_roomy i u o G G' s : u = kAnd \/ u = kOr -> roomy G -> (forall m, In m o.2 -> 1 < m) -> transform_once i u o G = Some (G', s) -> roomy G'.
Proof.
  intros Hu R HM Q. destruct o as [cs ms]. cbn [transform_once] in Q. cbn in HM. apply bind_inv in Q as (x & E & Q). apply bind_inv in Q as ([G1 p] & E1 & Q).
  assert (R1 : roomy G1).
  { destruct (_ =? _).
    - apply bind_inv in E1 as (t & T & E1). apply bind_inv in E1 as (G2 & E2 & E1). injection E1 as <- <-. apply (set_plain_roomy i t G G2 x); auto; destruct Hu as [-> | ->]; destruct (g_type x); try discriminate T; injection T as <-; try discriminate; repeat split; discriminate.
    - destruct (new_gate u G) as [G2 q] eqn:N. destruct (new_shaped _ G G2 q R N) as (R2 & _ & L). apply bind_inv in E1 as (G3 & E3 & E1). injection E1 as <- <-. eapply add_arg_roomy; [exact R2| |exact E3]. lia. }
  destruct (new_gate (Distribute.dual u) G1) as [G2 q] eqn:N. destruct (new_shaped _ G1 G2 q R1 N) as (R2 & _ & L). apply bind_inv in Q as (G3 & E3 & Q). assert (R3 : roomy G3) by (eapply add_arg_roomy; [exact R2| |exact E3]; lia).
  destruct ms as [|rep ms]; [discriminate|]. apply bind_inv in Q as (G4 & E4 & Q). apply bind_inv in Q as (G5 & E5 & Q). injection Q as <- <-. eapply (move_members_roomy _ _ _ (rep :: ms)); [|exact HM|exact E5]. eapply share_list_roomy; [exact R3|exact E4].
Qed.
Lemma transform_roomy u : u = kAnd \/ u = kOr -> forall k i group G G', roomy G -> (forall o m, In o group -> In m o.2 -> 1 < m) -> transform k i u group G = Some G' -> roomy G'.
Proof.
  intros Hu. induction k as [|k IH]; intros i group G G' R HM Q; destruct group as [|o group]; cbn [transform] in Q; try discriminate; try (injection Q as <-; exact R).
  apply bind_inv in Q as ([G1 s] & E1 & Q). eapply (IH s); [| |exact Q]. 
  - eapply transform_once_roomy; [exact Hu|exact R| |exact E1]. intros m Im. apply (HM o m); [left; auto|auto].
  - intros p m Ip Im. apply in_map_iff in Ip as (p0 & <- & I0). cbn in Im. apply (HM p0 m); [right; auto|auto].
Qed.
Lemma exclusive_roomy i : forall k cands G G' ex, roomy G -> exclusive k i cands G = Some (G', ex) -> roomy G' /\ incl ex cands.
Proof.
  induction k as [|k IH]; intros cands G G' ex R Q; destruct cands as [|c cands]; cbn [exclusive] in Q; try discriminate; try (injection Q as <- <-; split; [exact R|intros a []]).
  apply bind_inv in Q as (G1 & E1 & Q). apply bind_inv in Q as ([G2 ex2] & E2 & Q). injection Q as <- <-. destruct (IH _ _ _ _ (erase_all_roomy _ _ _ _ R E1) E2) as [R2 I2]. split; [auto|]. intros a [<-|Ia]; [left; auto|]. right. apply I2, filter_In in Ia. tauto.
Qed.
Lemma clone_members_roomy parents : forall ms G G' sws, roomy G -> clone_members parents ms G = Some (G', sws) -> roomy G' /\ forall m c, In (m, c) sws -> 1 < c.
Proof.
  induction ms as [|m ms IH]; intros G G' sws R Q; cbn [clone_members] in Q; [injection Q as <- <-; split; [auto|intros ? ? []]|]. apply bind_inv in Q as ([G1 sw] & E1 & Q). apply bind_inv in Q as ([G2 sws2] & E2 & Q). injection Q as <- <-.
  assert (K : roomy G1 /\ forall m c, In (m, c) sw -> 1 < c).
  { destruct (1 <? _); [|injection E1 as <- <-; split; [auto|intros ? ? []]]. apply bind_inv in E1 as ([G3 c] & Ec & E1). injection E1 as <- <-. destruct (clone_shaped _ _ _ _ R Ec) as (R3 & _ & L). split; [auto|]. intros m' c' [K|[]]. injection K as <- <-. auto. }
  destruct K as [R1 B1]. destruct (IH _ _ _ R1 E2) as [R2 B2]. split; [auto|]. intros m' c' K. apply in_app_or in K as [K|K]; eauto.
Qed.
Lemma swap_members_roomy i : forall sws G G', roomy G -> (forall m c, In (m, c) sws -> 1 < c) -> swap_members i sws G = Some G' -> roomy G'.
Proof.
  induction sws as [|[m c] sws IH]; intros G G' R HL Q; cbn [swap_members] in Q; [injection Q as <-; auto|]. apply bind_inv in Q as (G1 & E1 & Q). apply bind_inv in Q as (G2 & E2 & Q).
  apply (IH G2); [|intros a' c' I; apply (HL a' c'); right; auto|auto]. specialize (HL m c ltac:(left; auto)). eapply add_arg_roomy; [eapply erase_arg_roomy; [exact R|exact E1]| |exact E2]. lia.
Qed.
Lemma renamed_far sws m : 1 < m -> (forall m c, In (m, c) sws -> 1 < c) -> 1 < renamed sws m.
Proof. intros L H. unfold renamed. destruct (List.find _ sws) as [[m' c]|] eqn:F; [|auto]. apply find_some in F as [F _]. apply (H _ _ F). Qed.
Definition far_groups (groups : list (list moption)) : Prop := forall g o m, In g groups -> In o g -> In m o.2 -> 1 < m.
Lemma sanitize_all_roomy parents i : forall groups G G' groups', roomy G -> far_groups groups -> sanitize_all parents i groups G = Some (G', groups') -> roomy G' /\ far_groups groups'.
Proof.
  induction groups as [|g groups IH]; intros G G' groups' R F Q; cbn [sanitize_all] in Q; [injection Q as <- <-; split; [auto|intros ? ? ? []]|]. apply bind_inv in Q as ([G1 g1] & E1 & Q). apply bind_inv in Q as ([G2 gs2] & E2 & Q). injection Q as <- <-.
  unfold sanitize in E1. destruct g as [|o g]; [discriminate|]. apply bind_inv in E1 as ([G3 sws] & E3 & E1). apply bind_inv in E1 as (G4 & E4 & E1). injection E1 as <- <-. destruct (clone_members_roomy _ _ _ _ _ R E3) as [R3 B3]. pose proof (swap_members_roomy _ _ _ _ R3 B3 E4) as R4.
  destruct (IH G4 G2 gs2 R4 ltac:(intros g' o' m' I1; apply F; right; auto) E2) as [R2 F2]. split; [auto|]. intros g' o' m' [<-|I1] I2 I3; [|apply (F2 g' o' m' I1 I2 I3)].
  change ((o.1, map (renamed sws) o.2) :: map (fun p : moption => (p.1, map (renamed sws) p.2)) g) with (map (fun p : moption => (p.1, map (renamed sws) p.2)) (o :: g)) in I2. apply in_map_iff in I2 as (p & <- & Ip). cbn in I3. apply in_map_iff in I3 as (m0 & <- & I0). apply renamed_far; [|exact B3]. apply (F (o :: g) p m0); [left; auto|auto|auto].
Qed.
Lemma transform_all_roomy i u : u = kAnd \/ u = kOr -> forall groups G G', roomy G -> far_groups groups -> transform_all i u groups G = Some G' -> roomy G'.
Proof.
  intros Hu. induction groups as [|g groups IH]; intros G G' R F Q; cbn [transform_all] in Q; [injection Q as <-; auto|]. apply bind_inv in Q as (G1 & E1 & Q). apply (IH G1); [|intros g' o' m' I1; apply F; right; auto|auto]. eapply transform_roomy; [exact Hu|exact R| |exact E1]. intros o m Io Im. apply (F g o m); [left; auto|auto|auto].
Qed.
Lemma handle_distributive_roomy parents sorted arranged best i u cands G G' : u = kAnd \/ u = kOr -> (forall G l, Permutation (sorted G l) l) -> (forall l, Permutation (arranged l) l) -> (forall c, In c cands -> 1 < c) ->
  roomy G -> handle_distributive parents sorted arranged best i u cands G = Some G' -> roomy G'.
Proof.
  intros Hu SRT ARR HC R Q. unfold handle_distributive in Q. destruct cands as [|c0 cands0] eqn:EC; [injection Q as <-; auto|]. rewrite <- EC in *. clear c0 cands0 EC. apply bind_inv in Q as ([G1 ex] & E1 & Q).
  assert (K : roomy G1 /\ incl ex cands).
  { unfold filter_distributive in E1. apply bind_inv in E1 as (G2 & E2 & E1). apply bind_inv in E1 as ([G3 ex3] & E3 & E1). apply bind_inv in E1 as (G4 & E4 & E1). injection E1 as <- <-. destruct (exclusive_roomy _ _ _ _ _ _ (erase_all_roomy _ _ _ _ R E2) E3) as [R3 I3]. split; [eapply fix_single_roomy; [exact R3|exact E4]|]. intros a Ia. apply I3 in Ia. apply (Permutation_in _ (SRT _ _)) in Ia. apply filter_In in Ia. tauto. }
  destruct K as [R1 I1]. destruct (_ <? 2); [injection Q as <-; auto|]. destruct (group_common_parents 1 _ []) as [|o0 opts0] eqn:EO; [injection Q as <-; auto|]. rewrite <- EO in *. clear EO o0 opts0. apply bind_inv in Q as (groups & E2 & Q). apply bind_inv in Q as ([G2 groups2] & E3 & Q).
  assert (GO : forall o, In o (arranged (group_common_parents 1 (map (fun c => (c, args_of G1 c)) ex) [])) -> forall m, In m o.2 -> In m ex).
  { intros o Io m Im. apply (Permutation_in _ (ARR _)) in Io. revert o Io m Im.
    assert (INS : forall key g h t, In g ex -> In h ex -> (forall o : moption, In o t -> forall m, In m o.2 -> In m ex) -> forall o, In o (insert_option key g h t) -> forall m, In m o.2 -> In m ex).
    { assert (AG : forall a q m, In m (add_gate a q) -> m = a \/ In m q) by (intros a q m I; unfold add_gate in I; destruct (has a q); [auto|]; apply in_app_or in I as [I|[I|[]]]; auto).
      intros key g h t Ig Ih. induction t as [|[k q] t IHt]; intros HT o Io m Im; cbn [insert_option] in Io.
      - destruct Io as [<-|[]]. cbn [snd] in Im. apply AG in Im as [->|Im]; [auto|]. apply AG in Im as [->|[]]. auto.
      - destruct (decide _).
        + destruct Io as [<-|Io]; [|apply (HT o); [right; auto|auto]]. cbn in Im. apply AG in Im as [->|Im]; [auto|]. apply AG in Im as [->|Im]; [auto|]. apply (HT (k, q)); [left; auto|auto].
        + destruct Io as [<-|Io]; [apply (HT (k, q)); [left; auto|auto]|]. apply (IHt ltac:(intros; eapply HT; [right; eassumption|eassumption]) o Io m Im). }
    assert (PW : forall k g l others t, In g ex -> (forall h l', In (h, l') others -> In h ex) -> (forall o : moption, In o t -> forall m, In m o.2 -> In m ex) -> forall o, In o (pair_with k g l others t) -> forall m, In m o.2 -> In m ex).
    { intros k g l. induction others as [|[h l'] others IHo]; intros t Ig HO HT; cbn [pair_with]; [auto|]. apply IHo; [auto|intros h0 l0 I0; apply (HO h0 l0); right; auto|]. destruct (_ <? k); [auto|]. apply INS; auto. apply (HO h l'). left. auto. }
    assert (GC : forall k group t, (forall h l', In (h, l') group -> In h ex) -> (forall o : moption, In o t -> forall m, In m o.2 -> In m ex) -> forall o, In o (group_common_parents k group t) -> forall m, In m o.2 -> In m ex).
    { intros k. induction group as [|[g l] group IHg]; intros t HO HT; cbn [group_common_parents]; [auto|]. apply IHg; [intros h0 l0 I0; apply (HO h0 l0); right; auto|]. apply PW; auto; [apply (HO g l); left; auto|intros h0 l0 I0; apply (HO h0 l0); right; auto]. }
    apply GC; [|intros o []]. intros h l' I. apply in_map_iff in I as (c & Ec & Ic). injection Ec as <- _. auto. }
  assert (GD : forall k opts groups, (forall o, In o opts -> forall m, In m o.2 -> In m ex) -> group_distributive best k opts = Some groups -> forall g o m, In g groups -> In o g -> In m o.2 -> In m ex).
  { induction k as [|k IHk]; intros opts gr HO EQ g o m Ig Io Im; destruct opts as [|o1 opts1] eqn:EO; cbn [group_distributive] in EQ; try discriminate; try (injection EQ as <-; destruct Ig). rewrite <- EO in *. destruct (drop (best opts) opts) as [|b rest] eqn:ED; [discriminate|]. apply bind_inv in EQ as (gr' & E' & EQ). injection EQ as <-.
    assert (SUB : forall p, In p (b :: rest) -> In p opts) by (intros p Ip; rewrite <- ED in Ip; rewrite <- (firstn_skipn (best opts) opts); apply in_or_app; right; exact Ip).
    destruct Ig as [<-|Ig].
    - assert (CH : forall l back p, In p (chain back l) -> In p l) by (induction l as [|q l IHl]; intros back p Ip; cbn in Ip; [auto|]; destruct (_ && _); [destruct Ip as [<-|Ip]; [left; auto|right; eauto]|right; eauto]). apply (HO o); [|auto]. apply SUB. destruct Io as [<-|Io]; [left; auto|right; eapply CH; eauto].
    - eapply (IHk _ _ _ E' g o m Ig Io Im). Unshelve. intros p Ip m' Im'. apply filter_In in Ip as [Ip _]. apply in_map_iff in Ip as (p0 & <- & I0). cbn in Im'. unfold minus in Im'. apply filter_In in Im' as [Im' _]. apply (HO p0 I0 m' Im'). }
  destruct (sanitize_all_roomy parents i groups G1 G2 groups2 R1) as [R2 F2]; [|exact E3|eapply transform_all_roomy; [exact Hu|exact R2|exact F2|exact Q]].
  intros g o m Ig Io Im. apply HC, I1. apply (GD _ _ _ GO E2 g o m Ig Io Im).
Qed.
