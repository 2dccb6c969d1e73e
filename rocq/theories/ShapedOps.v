(** The shape of the gates through the rewriting steps of the preprocessor. *)
From stdpp Require Import gmap.
From Coq Require Import Lia Permutation List.
From Verif Require Import Pdag PdagProofs PdagAdd PdagSem PdagKeeps Preproc PreprocNeg Decompose Rooted BoolOpt BoolOptProofs BoolOptEdits Distribute Complement Shaped P_Preproc.
Import ListNotations.
Open Scope Z_scope.

Lemma put_shaped G G' p x' : shaped G -> gs G' = <[p := x']> (gs G) -> nxt G <= nxt G' -> 1 < p < nxt G' -> good x' -> shaped G'.
Proof. intros H HG HN KP GD j x E. rewrite HG in E. apply lookup_insert_Some in E as [[-> <-]|[_ E]]; [auto|]. apply H in E as [? ?]. split; [lia|auto]. Qed.
Lemma key G i x : shaped G -> gs G !! i = Some x -> 1 < i < nxt G.
Proof. intros H E. apply (H i x E). Qed.
Lemma good_at G i x : shaped G -> gs G !! i = Some x -> good x.
Proof. intros H E. apply (H i x E). Qed.
Lemma type_nonconst G i x : shaped G -> gs G !! i = Some x -> g_type x <> kNull -> constant x = false.
Proof. intros H E N. apply nonconstant_type; [apply (H i x E)|auto]. Qed.
Lemma arg_far x a : constant x = false -> In a (g_args x) -> Z.abs a <> 1.
Proof. intros C I Q. apply not_true_iff_false in C. apply C, constant_In. assert (K : a = 1 \/ a = -1) by lia. destruct K as [-> | ->]; auto. Qed.
Lemma set_plain_shaped i t G G' x : shaped G -> gs G !! i = Some x -> constant x = false -> plain t -> set_type i t G = Some G' -> shaped G'.
Proof. intros H E C P Q. apply set_type_spec in Q as (y & Ey & HG & HN). rewrite E in Ey. injection Ey as <-. apply (put_shaped G G' i _ H HG); [lia|rewrite HN; apply (key G i x H E)|]. apply plain_good; auto. apply (good_at G i x H E). Qed.
Lemma set_small_shaped i t G G' x : shaped G -> gs G !! i = Some x -> constant x = false -> size (g_args x) <= 1 -> set_type i t G = Some G' -> shaped G'.
Proof. intros H E C P Q. apply set_type_spec in Q as (y & Ey & HG & HN). rewrite E in Ey. injection Ey as <-. apply (put_shaped G G' i _ H HG); [lia|rewrite HN; apply (key G i x H E)|]. apply small_good; auto. unfold size in P. lia. Qed.
Lemma set_null_shaped i G G' x : shaped G -> gs G !! i = Some x -> size (g_args x) <= 1 -> set_type i kNull G = Some G' -> shaped G'.
Proof.
  intros H E P Q. apply set_type_spec in Q as (y & Ey & HG & HN). rewrite E in Ey. injection Ey as <-. apply (put_shaped G G' i _ H HG); [lia|rewrite HN; apply (key G i x H E)|].
  split; [split; [intros _; cbn; unfold size in P; lia|intros K; discriminate K]|]. split; [intros _; reflexivity|]. cbn. apply small_NoDup. unfold size in P. lia.
Qed.
Lemma add_arg_shaped i a G G' : shaped G -> Z.abs a <> 1 -> add_arg i a G = Some G' -> shaped G'.
Proof.
  intros H NC Q. assert (E : exists x, gs G !! i = Some x) by (unfold add_arg in Q; apply bind_inv in Q as (x & E & _); eauto). destruct E as [x E].
  apply (spread_shaped G i (fun _ => True) G' H). apply (add_arg_spread G i _ (key G i x H E) a G G' x); auto; [apply (spread_start G i _ x H E); auto|left; auto].
Qed.
Lemma add_any_shaped i a G G' : shaped G -> add_any i a G = Some G' -> shaped G'.
Proof.
  intros H Q. assert (E : exists x, gs G !! i = Some x) by (unfold add_any in Q; apply bind_inv in Q as (x & E & _); eauto). destruct E as [x E].
  apply (spread_shaped G i (fun _ => True) G' H). apply (add_any_spread G i _ (key G i x H E) a G G' x); auto; [apply (spread_start G i _ x H E); auto|left; auto].
Qed.
Lemma erase_arg_shaped i a G G' : shaped G -> erase_arg i a G = Some G' -> shaped G'.
Proof. intros H Q. apply erase_arg_inv in Q as (x & E & _ & HG & HN). apply (put_shaped G G' i _ H HG); [lia|rewrite HN; apply (key G i x H E)|]. apply good_erase, (good_at G i x H E). Qed.
Lemma erase_args_shaped i G G' : shaped G -> erase_args i G = Some G' -> shaped G'.
Proof.
  intros H Q. apply erase_args_inv in Q as (x & E & HG & HN). apply (put_shaped G G' i _ H HG); [lia|rewrite HN; apply (key G i x H E)|].
  split; [split; [intros _; cbn; lia|intros _; cbn; lia]|split; [intros Q; discriminate Q|constructor]].
Qed.
Lemma set_min_shaped i k G G' : shaped G -> set_min i k G = Some G' -> shaped G'.
Proof. intros H Q. apply set_min_inv in Q as (x & E & HG & HN). apply (put_shaped G G' i _ H HG); [lia|rewrite HN; apply (key G i x H E)|]. exact (good_at G i x H E). Qed.
(** The next index is beyond the constant. *)
Definition roomy (G : graph) : Prop := shaped G /\ 1 < nxt G.
Lemma new_shaped t G G' c : roomy G -> new_gate t G = (G', c) -> roomy G' /\ c = nxt G /\ 1 < c.
Proof.
  intros [H N] Q. unfold new_gate in Q. injection Q as <- <-. split; [|auto]. split; [|cbn; lia]. eapply (put_shaped G _ (nxt G) (Gate t 0 []) H); [reflexivity|cbn; lia|cbn; lia|].
  split; [split; [intros _; cbn; lia|intros _; cbn; lia]|split; [intros Q; discriminate Q|constructor]].
Qed.
Lemma clone_shaped i G G' c : roomy G -> clone i G = Some (G', c) -> roomy G' /\ c = nxt G /\ 1 < c.
Proof. intros [H N] Q. apply clone_inv in Q as (x & E & C & _ & -> & HG & HN). split; [|auto]. split; [|lia]. apply (put_shaped G G' (nxt G) x H HG); [lia|lia|apply (good_at G i x H E)]. Qed.
Lemma roomy_same G G' : roomy G -> shaped G' -> nxt G <= nxt G' -> roomy G'. Proof. intros [_ ?] ? ?. split; [auto|lia]. Qed.
(** Edits that do not lower the next index. *)
Lemma set_type_nxt i t G G' : set_type i t G = Some G' -> nxt G' = nxt G. Proof. intros Q. apply set_type_spec in Q as (y & _ & _ & HN). auto. Qed.
Lemma make_constant_nxt i s G G' : make_constant i s G = Some G' -> nxt G' = nxt G. Proof. intros Q. apply make_constant_spec in Q as (y & _ & _ & _ & HN). auto. Qed.
Lemma add_arg_nxt i a G G' : shaped G -> Z.abs a <> 1 -> add_arg i a G = Some G' -> nxt G <= nxt G'.
Proof.
  intros H NC Q. assert (E : exists x, gs G !! i = Some x) by (unfold add_arg in Q; apply bind_inv in Q as (x & E & _); eauto). destruct E as [x E].
  apply (sp_nxt G i (fun _ => True) G'). apply (add_arg_spread G i _ (key G i x H E) a G G' x); auto; [apply (spread_start G i _ x H E); auto|left; auto].
Qed.
Lemma add_any_nxt i a G G' : shaped G -> add_any i a G = Some G' -> nxt G <= nxt G'.
Proof.
  intros H Q. assert (E : exists x, gs G !! i = Some x) by (unfold add_any in Q; apply bind_inv in Q as (x & E & _); eauto). destruct E as [x E].
  apply (sp_nxt G i (fun _ => True) G'). apply (add_any_spread G i _ (key G i x H E) a G G' x); auto; [apply (spread_start G i _ x H E); auto|left; auto].
Qed.
Lemma add_arg_roomy i a G G' : roomy G -> Z.abs a <> 1 -> add_arg i a G = Some G' -> roomy G'.
Proof. intros R NC Q. apply (roomy_same G); [auto|apply (add_arg_shaped i a G); auto; apply R|apply (add_arg_nxt i a G); auto; apply R]. Qed.
Lemma add_any_roomy i a G G' : roomy G -> add_any i a G = Some G' -> roomy G'.
Proof. intros R Q. apply (roomy_same G); [auto|apply (add_any_shaped i a G); auto; apply R|apply (add_any_nxt i a G); auto; apply R]. Qed.
Lemma erase_arg_roomy i a G G' : roomy G -> erase_arg i a G = Some G' -> roomy G'.
Proof. intros R Q. apply (roomy_same G); [auto|apply (erase_arg_shaped i a G); auto; apply R|]. apply erase_arg_inv in Q as (x & _ & _ & _ & HN). lia. Qed.
Lemma erase_args_roomy i G G' : roomy G -> erase_args i G = Some G' -> roomy G'.
Proof. intros R Q. apply (roomy_same G); [auto|apply (erase_args_shaped i G); auto; apply R|]. apply erase_args_inv in Q as (x & _ & _ & HN). lia. Qed.
Lemma set_min_roomy i k G G' : roomy G -> set_min i k G = Some G' -> roomy G'.
Proof. intros R Q. apply (roomy_same G); [auto|apply (set_min_shaped i k G); auto; apply R|]. apply set_min_inv in Q as (x & _ & _ & HN). lia. Qed.
Lemma set_plain_roomy i t G G' x : roomy G -> gs G !! i = Some x -> g_type x <> kNull -> plain t -> set_type i t G = Some G' -> roomy G'.
Proof. intros R E N P Q. apply (roomy_same G); [auto|apply (set_plain_shaped i t G G' x); auto; [apply R|apply (type_nonconst G i x); auto; apply R]|]. rewrite (set_type_nxt _ _ _ _ Q). lia. Qed.
Lemma set_small_roomy i t G G' x : roomy G -> gs G !! i = Some x -> g_type x <> kNull -> size (g_args x) <= 1 -> set_type i t G = Some G' -> roomy G'.
Proof. intros R E N P Q. apply (roomy_same G); [auto|apply (set_small_shaped i t G G' x); auto; [apply R|apply (type_nonconst G i x); auto; apply R]|]. rewrite (set_type_nxt _ _ _ _ Q). lia. Qed.
Lemma set_null_roomy i G G' x : roomy G -> gs G !! i = Some x -> size (g_args x) <= 1 -> set_type i kNull G = Some G' -> roomy G'.
Proof. intros R E P Q. apply (roomy_same G); [auto|apply (set_null_shaped i G G' x); auto; apply R|]. rewrite (set_type_nxt _ _ _ _ Q). lia. Qed.
Lemma share_arg_roomy i a j G G' : roomy G -> share_arg i a j G = Some G' -> roomy G'.
Proof. intros R Q. unfold share_arg in Q. apply bind_inv in Q as (x & E & Q). destruct (constant x || _) eqn:C; [discriminate|]. apply orb_false_iff in C as [C I]. apply negb_false_iff, has_In in I. apply (add_arg_roomy j a G); auto. apply (arg_far x a C I). Qed.
Lemma transfer_arg_roomy i a j G G' : roomy G -> transfer_arg i a j G = Some G' -> roomy G'.
Proof.
  intros R Q. unfold transfer_arg in Q. apply bind_inv in Q as (x & E & Q). destruct (constant x) eqn:C; [discriminate|]. apply bind_inv in Q as (G1 & E1 & Q).
  assert (I : In a (g_args x)) by (apply erase_arg_inv in E1 as (y & Ey & I & _); rewrite E in Ey; injection Ey as <-; auto). apply (add_arg_roomy j a G1); auto; [apply (erase_arg_roomy i a G); auto|apply (arg_far x a C I)].
Qed.
Lemma erase_all_roomy i : forall l G G', roomy G -> erase_all i l G = Some G' -> roomy G'.
Proof. induction l as [|a l IH]; intros G G' R Q; cbn in Q; [injection Q as <-; auto|]. apply bind_inv in Q as (G1 & E1 & Q). apply (IH G1); auto. apply (erase_arg_roomy i a G); auto. Qed.
Lemma opp_good x l : good x -> Permutation l (map Z.opp (g_args x)) -> good (with_args x l).
Proof.
  intros [[A X] [T N]] P. pose proof (Permutation_length P) as PL. rewrite map_length in PL. split; [split; [intros Q; cbn in *; specialize (A Q); lia|intros Q; cbn in *; specialize (X Q); lia]|]. split.
  - intros Q. apply T. apply constant_In in Q. apply constant_In. cbn in Q. destruct Q as [Q|Q]; apply (Permutation_in _ P) in Q; apply in_map_iff in Q as (b & Eb & Ib); [right; replace (-1) with b by lia; auto|left; replace 1 with b by lia; auto].
  - cbn. apply (Permutation_NoDup (Permutation_sym P)). apply FinFun.Injective_map_NoDup; [intros a b E; lia|auto].
Qed.
Lemma negate_args_roomy i G G' : roomy G -> negate_args i G = Some G' -> roomy G'.
Proof.
  intros R Q. unfold negate_args in Q. apply bind_inv in Q as (x & E & Q). injection Q as <-. apply (roomy_same G); [auto| |cbn; lia]. eapply (put_shaped G _ i); [apply R|reflexivity|cbn; lia|cbn; apply (key G i x); [apply R|auto]|]. apply opp_good; [apply (good_at G i x); [apply R|auto]|]. symmetry. apply Permutation_rev.
Qed.
Lemma negate_arg_roomy i a G G' : roomy G -> negate_arg i a G = Some G' -> roomy G'.
Proof.
  intros R Q. unfold negate_arg in Q. apply bind_inv in Q as (x & E & Q). destruct (constant x || _ || _) eqn:C; [discriminate|]. injection Q as <-. apply orb_false_iff in C as [C NI]. apply orb_false_iff in C as [C I]. apply negb_false_iff, has_In in I. apply has_false in NI.
  apply (roomy_same G); [auto| |cbn; lia]. eapply (put_shaped G _ i); [apply R|reflexivity|cbn; lia|cbn; apply (key G i x); [apply R|auto]|]. destruct (good_at G i x (proj1 R) E) as [[A X] [T N]].
  assert (NI' : ~ In (- a) (set_erase a (g_args x))) by (intros K; apply set_erase_In in K; tauto). pose proof (Permutation_length (set_erase_perm a _ N I)) as L1. pose proof (Permutation_length (set_insert_perm (- a) _ NI')) as L2. cbn in L1, L2.
  split; [split; [intros Q; cbn in *; specialize (A Q); lia|intros Q; cbn in *; specialize (X Q); lia]|]. split.
  - intros Q. exfalso. pose proof (arg_far x a C I). apply constant_In in Q. cbn in Q. rewrite !set_insert_In, !set_erase_In in Q. apply not_true_iff_false in C. apply C, constant_In. destruct Q as [[Q|[Q _]]|[Q|[Q _]]]; auto; lia.
  - cbn. apply (Permutation_NoDup (Permutation_sym (set_insert_perm (- a) _ NI'))). constructor; [auto|apply set_erase_NoDup, N].
Qed.
Lemma process_constant_roomy i n s G G' : roomy G -> 1 < n -> process_constant_arg i n s G = Some G' -> roomy G'.
Proof.
  intros R Ln Q. unfold process_constant_arg in Q. apply bind_inv in Q as (x & E & Q). apply bind_inv in Q as (G1 & E1 & Q). assert (R1 : roomy G1) by (eapply (erase_arg_roomy i _ G); eauto).
  apply erase_arg_inv in E1 as (y & Ey & I & HG & _). rewrite E in Ey. injection Ey as <-. set (a := if has n (g_args x) then n else - n) in *. assert (Ha : Z.abs a = n) by (unfold a; destruct (has n (g_args x)); lia).
  assert (C : constant x = false).
  { apply not_true_iff_false. intros K. destruct (good_at G i x (proj1 R) E) as [[A _] [T _]]. specialize (A (or_intror (T K))). apply constant_In in K. destruct (g_args x) as [|b [|]]; [destruct K as [[]|[]]| |cbn in A; lia]. cbn in K, I. lia. }
  set (x1 := with_args x (set_erase a (g_args x))) in *. assert (E1 : gs G1 !! i = Some x1) by (rewrite HG; apply lookup_insert).
  assert (SP : spread G1 i (fun _ => True) G') by (eapply (add_constant_spread G1 i _ (key G1 i x1 (proj1 R1) E1) _ G1 G' x1); [apply (spread_start G1 i _ x1 (proj1 R1) E1); auto|auto|apply constant_erase; auto|exact Q]).
  apply (roomy_same G1); [auto|apply (spread_shaped G1 i _ G' (proj1 R1) SP)|apply (sp_nxt _ _ _ _ SP)].
Qed.
(** A gate still of some type after an argument was added is not constant. *)

(** ** Steps *)
Lemma join_roomy i a G G' : roomy G -> join_null_gate i a G = Some G' -> roomy G'.
Proof. intros R Q. unfold join_null_gate in Q. apply bind_inv in Q as (y & Ey & Q). destruct (g_type y); try discriminate. destruct (g_args y) as [|b [|]]; try discriminate. apply bind_inv in Q as (G1 & E1 & Q). apply (add_any_roomy i (b * Z.sgn a) G1); auto. apply (erase_arg_roomy i a G); auto. Qed.
Lemma add_until_roomy i : forall l G G', roomy G -> (forall a, In a l -> Z.abs a <> 1) -> add_until_constant i l G = Some G' -> roomy G'.
Proof.
  induction l as [|a l IH]; intros G G' R HL Q; cbn [add_until_constant] in Q; [injection Q as <-; auto|]. apply bind_inv in Q as (G1 & E1 & Q). assert (R1 : roomy G1) by (apply (add_arg_roomy i a G); auto; apply HL; left; auto). apply bind_inv in Q as (x & E & Q). destruct (constant x); [injection Q as <-; auto|].
  apply (IH G1); auto. intros b Ib. apply HL. right. auto.
Qed.
Lemma coalesce_roomy i c l G G' y : roomy G -> gs G !! c = Some y -> Permutation l (g_args y) -> coalesce_gate i c l G = Some G' -> roomy G'.
Proof.
  intros R Ey P Q. unfold coalesce_gate in Q. apply bind_inv in Q as (x & Ex & Q). rewrite Ey in Q. cbn [mbind option_bind] in Q. destruct (constant x || _ || _ || _) eqn:C; [discriminate|]. apply orb_false_iff in C as [C _]. apply orb_false_iff in C as [_ C].
  apply bind_inv in Q as (G1 & E1 & Q). assert (R1 : roomy G1) by (apply (add_until_roomy i l G); auto; intros a Ia; apply (arg_far y a C); apply (Permutation_in _ P); auto). apply bind_inv in Q as (x1 & Ex1 & Q). destruct (constant x1); [injection Q as <-; auto|]. apply (erase_arg_roomy i c G1); auto.
Qed.
Lemma replace_roomy p g g' G G' : roomy G -> 1 < g' -> replace_in_parent p g g' G = Some G' -> roomy G'.
Proof. intros R L Q. unfold replace_in_parent in Q. apply bind_inv in Q as (x & E & Q). apply bind_inv in Q as (G1 & E1 & Q). eapply (add_arg_roomy p _ G1); [eapply (erase_arg_roomy p _ G); eauto| |exact Q]. destruct (_ <? 0); lia. Qed.
Lemma normalize_xor_roomy i G G' x : roomy G -> gs G !! i = Some x -> g_type x = kXor -> normalize_xor i G = Some G' -> roomy G'.
Proof.
  intros R E T Q. unfold normalize_xor in Q. rewrite E in Q. cbn [mbind option_bind] in Q. destruct (g_args x) as [|a [|b [|]]]; try discriminate.
  destruct (new_gate kAnd G) as [G1 one] eqn:N1. destruct (new_shaped kAnd G G1 one R N1) as (R1 & E1 & L1). destruct (new_gate kAnd G1) as [G2 two] eqn:N2. destruct (new_shaped kAnd G1 G2 two R1 N2) as (R2 & E2 & L2).
  assert (Li : i < nxt G) by (apply (key G i x (proj1 R) E)).
  assert (Ei : gs G2 !! i = Some x) by (unfold new_gate in N1, N2; injection N1 as <- _; injection N2 as <- _; cbn; rewrite !lookup_insert_ne by lia; auto).
  apply bind_inv in Q as (G3 & E3 & Q). assert (R3 : roomy G3) by (apply (set_plain_roomy i kOr G2 G3 x); auto; [rewrite T; discriminate|repeat split; discriminate]).
  apply bind_inv in Q as (G4 & E4 & Q). pose proof (share_arg_roomy _ _ _ _ _ R3 E4) as R4. apply bind_inv in Q as (G5 & E5 & Q). pose proof (share_arg_roomy _ _ _ _ _ R4 E5) as R5.
  apply bind_inv in Q as (G6 & E6 & Q). pose proof (negate_arg_roomy _ _ _ _ R5 E6) as R6. apply bind_inv in Q as (G7 & E7 & Q). pose proof (share_arg_roomy _ _ _ _ _ R6 E7) as R7.
  apply bind_inv in Q as (G8 & E8 & Q). pose proof (negate_arg_roomy _ _ _ _ R7 E8) as R8. apply bind_inv in Q as (G9 & E9 & Q). pose proof (share_arg_roomy _ _ _ _ _ R8 E9) as R9.
  apply bind_inv in Q as (G10 & E10 & Q). pose proof (erase_args_roomy _ _ _ R9 E10) as R10. apply bind_inv in Q as (G11 & E11 & Q).
  apply (add_arg_roomy i two G11); auto; [apply (add_arg_roomy i one G10); auto; lia|lia].
Qed.
Lemma share_all_roomy i g1 g2 : forall l G G', roomy G -> share_all i l g1 g2 G = Some G' -> roomy G'.
Proof. induction l as [|a l IH]; intros G G' R Q; cbn [share_all] in Q; [injection Q as <-; auto|]. apply bind_inv in Q as (G1 & E1 & Q). apply bind_inv in Q as (G2 & E2 & Q). apply (IH G2); auto. eapply share_arg_roomy; [|exact E2]. eapply share_arg_roomy; [|exact E1]. auto. Qed.

Lemma add_arg_other i a j G G' : roomy G -> Z.abs a <> 1 -> add_arg i a G = Some G' -> j <> i -> j < nxt G -> gs G' !! j = gs G !! j.
Proof.
  intros R NC Q J1 J2. assert (E : exists x, gs G !! i = Some x) by (unfold add_arg in Q; apply bind_inv in Q as (x & E & _); eauto). destruct E as [x E].
  apply (sp_old G i (fun _ => True) G'); auto. apply (add_arg_spread G i _ (key G i x (proj1 R) E) a G G' x); auto; [apply (spread_start G i _ x (proj1 R) E); auto|left; auto].
Qed.
Lemma share_arg_other i a k j G G' : roomy G -> share_arg i a k G = Some G' -> j <> k -> j < nxt G -> gs G' !! j = gs G !! j /\ nxt G <= nxt G'.
Proof. intros R Q J1 J2. unfold share_arg in Q. apply bind_inv in Q as (x & E & Q). destruct (constant x || _) eqn:C; [discriminate|]. apply orb_false_iff in C as [C I]. apply negb_false_iff, has_In in I. pose proof (arg_far x a C I). split; [apply (add_arg_other k a j G G'); auto|apply (add_arg_nxt k a G); auto; apply R]. Qed.
Lemma share_all_other i g1 g2 j : forall l G G', roomy G -> j <> g1 -> j <> g2 -> j < nxt G -> share_all i l g1 g2 G = Some G' -> gs G' !! j = gs G !! j.
Proof.
  induction l as [|a l IH]; intros G G' R J1 J2 L Q; cbn [share_all] in Q; [injection Q as <-; auto|]. apply bind_inv in Q as (G1 & E1 & Q). apply bind_inv in Q as (G2 & E2 & Q).
  pose proof (share_arg_roomy _ _ _ _ _ R E1) as R1. pose proof (share_arg_roomy _ _ _ _ _ R1 E2) as R2. destruct (share_arg_other i a g1 j G G1 R E1 J1 L) as [A1 B1]. destruct (share_arg_other i a g2 j G1 G2 R1 E2 J2 ltac:(lia)) as [A2 B2].
  rewrite (IH G2 G' R2 J1 J2 ltac:(lia) Q), A2. auto.
Qed.
Lemma new_other t G G' c j : roomy G -> new_gate t G = (G', c) -> j < nxt G -> gs G' !! j = gs G !! j /\ nxt G' = nxt G + 1.
Proof. intros R Q L. unfold new_gate in Q. injection Q as <- <-. cbn. rewrite lookup_insert_ne by lia. auto. Qed.
Lemma atleast_once_roomy i k a G G1 g1 g2 x : roomy G -> gs G !! i = Some x -> g_type x = kAtleast -> atleast_once i k a G = Some (G1, g1, g2) -> roomy G1.
Proof.
  intros R E T Q. unfold atleast_once in Q. assert (Li : 1 < i < nxt G) by (apply (key G i x (proj1 R) E)).
  destruct (new_gate kAnd G) as [Ga first] eqn:N1. destruct (new_shaped kAnd G Ga first R N1) as (Ra & Ea & La). destruct (new_other kAnd G Ga first i R N1 ltac:(lia)) as [Oa Na].
  apply bind_inv in Q as (Gb & Eb & Q). pose proof (transfer_arg_roomy _ _ _ _ _ Ra Eb) as Rb.
  assert (Ob : exists y, gs Gb !! i = Some y /\ g_type y = kAtleast /\ nxt Ga <= nxt Gb).
  { unfold transfer_arg in Eb. apply bind_inv in Eb as (y & Ey & Eb). destruct (constant y) eqn:C; [discriminate|]. apply bind_inv in Eb as (Gx & Ex & Eb). pose proof (erase_arg_roomy _ _ _ _ Ra Ex) as Rx. apply erase_arg_inv in Ex as (z & Ez & I & HG & HN). rewrite Ey in Ez. injection Ez as <-. pose proof (arg_far y a C I) as NC.
    rewrite (add_arg_other first a i Gx Gb Rx NC Eb) by lia. exists (with_args y (set_erase a (g_args y))). rewrite HG, lookup_insert. split; [auto|]. split; [cbn; rewrite Oa, E in Ey; injection Ey as <-; auto|]. pose proof (add_arg_nxt first a Gx Gb (proj1 Rx) NC Eb). lia. }
  destruct Ob as (y & Ey & Ty & Nb).
  destruct (new_gate kAtleast Gb) as [Gc grand] eqn:N2. destruct (new_shaped kAtleast Gb Gc grand Rb N2) as (Rc & Ec & Lc). destruct (new_other kAtleast Gb Gc grand i Rb N2 ltac:(lia)) as [Oc Nc].
  apply bind_inv in Q as (Gd & Ed & Q). assert (Rd : roomy Gd) by (apply (add_arg_roomy first grand Gc); auto; lia). pose proof (add_arg_other first grand i Gc Gd Rc ltac:(lia) Ed ltac:(lia) ltac:(lia)) as Od. pose proof (add_arg_nxt first grand Gc Gd (proj1 Rc) ltac:(lia) Ed) as Nd.
  apply bind_inv in Q as (Ge & Ee & Q). pose proof (set_min_roomy _ _ _ _ Rd Ee) as Re. apply set_min_inv in Ee as (ye & _ & HGe & HNe).
  destruct (new_gate kAtleast Ge) as [Gf second] eqn:N3. destruct (new_shaped kAtleast Ge Gf second Re N3) as (Rf & Ef & Lf). destruct (new_other kAtleast Ge Gf second i Re N3 ltac:(lia)) as [Of Nf].
  apply bind_inv in Q as (Gg & Eg & Q). pose proof (set_min_roomy _ _ _ _ Rf Eg) as Rg. apply set_min_inv in Eg as (yg & _ & HGg & HNg).
  apply bind_inv in Q as (x1 & Ex1 & Q). apply bind_inv in Q as (Gh & Eh & Q). pose proof (share_all_roomy _ _ _ _ _ _ Rg Eh) as Rh. pose proof (share_all_other i grand second i _ Gg Gh Rg ltac:(lia) ltac:(lia) ltac:(lia) Eh) as Oh.
  assert (Ei : gs Gh !! i = Some y) by (rewrite Oh, HGg, lookup_insert_ne, Of, HGe, lookup_insert_ne, Od, Oc by lia; auto).
  apply bind_inv in Q as (Gi & EGi & Q). assert (Ri : roomy Gi) by (apply (set_plain_roomy i kOr Gh Gi y); auto; [rewrite Ty; discriminate|repeat split; discriminate]).
  apply bind_inv in Q as (Gj & Ej & Q). pose proof (erase_args_roomy _ _ _ Ri Ej) as Rj. apply bind_inv in Q as (Gk & Ek & Q). assert (Rk : roomy Gk) by (apply (add_arg_roomy i first Gj); auto; lia). apply bind_inv in Q as (Gl & El & Q). injection Q as <- <- <-. apply (add_arg_roomy i second Gk); auto; lia.
Qed.
Lemma normalize_atleast_roomy pick : forall fuel i G G', roomy G -> normalize_atleast fuel pick i G = Some G' -> roomy G'.
Proof.
  induction fuel as [|fuel IH]; intros i G G' R Q; cbn [normalize_atleast] in Q; [discriminate|]. apply bind_inv in Q as (x & E & Q). destruct (negb (conn_eqb (g_type x) kAtleast) || _ || _) eqn:C; [discriminate|]. apply orb_false_iff in C as [C _]. apply orb_false_iff in C as [C _].
  assert (T : g_type x = kAtleast) by (destruct (g_type x); try discriminate; auto).
  destruct (_ =? g_min x); [apply (set_plain_roomy i kAnd G G' x); auto; [rewrite T; discriminate|repeat split; discriminate]|]. destruct (_ =? 1); [apply (set_plain_roomy i kOr G G' x); auto; [rewrite T; discriminate|repeat split; discriminate]|].
  apply bind_inv in Q as ([[G1 g1] g2] & E1 & Q). pose proof (atleast_once_roomy i _ _ G G1 g1 g2 x R E T E1) as R1. apply bind_inv in Q as (G2 & E2 & Q). apply (IH g2 G2); auto. apply (IH g1 G1); auto.
Qed.
Lemma erase_in_all_roomy a : forall ps G G', roomy G -> erase_in_all ps a G = Some G' -> roomy G'.
Proof. induction ps as [|p ps IH]; intros G G' R Q; cbn in Q; [injection Q as <-; auto|]. apply bind_inv in Q as (G1 & E1 & Q). apply (IH G1); auto. apply (erase_arg_roomy p a G); auto. Qed.
Lemma move_common_roomy p0 m ps : forall cs G G', roomy G -> move_common p0 cs ps m G = Some G' -> roomy G'.
Proof. induction cs as [|a cs IH]; intros G G' R Q; cbn [move_common] in Q; [injection Q as <-; auto|]. apply bind_inv in Q as (G1 & E1 & Q). apply bind_inv in Q as (G2 & E2 & Q). apply (IH G2); auto. eapply erase_in_all_roomy; [|exact E2]. eapply share_arg_roomy; [|exact E1]. auto. Qed.
Lemma add_to_all_roomy m : 1 < m -> forall ps G G', roomy G -> add_to_all ps m G = Some G' -> roomy G'.
Proof.
  intros L. induction ps as [|p ps IH]; intros G G' R Q; cbn [add_to_all] in Q; [injection Q as <-; auto|]. apply bind_inv in Q as (G1 & E1 & Q). assert (R1 : roomy G1) by (apply (add_arg_roomy p m G); auto; lia). apply bind_inv in Q as (x & Ex & Q). apply bind_inv in Q as (G2 & E2 & Q). apply (IH G2); auto.
  destruct (Z.eqb_spec (size (g_args x)) 1); [|injection E2 as <-; auto]. apply (set_null_roomy p G1 G2 x); auto. lia.
Qed.
Lemma merge_common_roomy cs ps G G' : roomy G -> merge_common cs ps G = Some G' -> roomy G'.
Proof.
  intros R Q. destruct ps as [|p0 ps]; cbn [merge_common] in Q; [discriminate|]. apply bind_inv in Q as (x & E & Q). destruct (new_gate (g_type x) G) as [G1 m] eqn:N. destruct (new_shaped _ G G1 m R N) as (R1 & _ & L). apply bind_inv in Q as (G2 & E2 & Q). apply (add_to_all_roomy m L (p0 :: ps) G2); auto. eapply move_common_roomy; [|exact E2]. auto.
Qed.
Lemma transfer_all_roomy i m : forall l G G', roomy G -> transfer_all i l m G = Some G' -> roomy G'.
Proof. induction l as [|a l IH]; intros G G' R Q; cbn in Q; [injection Q as <-; auto|]. apply bind_inv in Q as (G1 & E1 & Q). apply (IH G1); auto. apply (transfer_arg_roomy i a m G); auto. Qed.
Lemma create_module_roomy i l G G' : roomy G -> create_module i l G = Some G' -> roomy G'.
Proof.
  intros R Q. unfold create_module in Q. apply bind_inv in Q as (x & E & Q). destruct (_ || _); [injection Q as <-; auto|]. destruct (coalesce_type (g_type x)) as [t|]; [|injection Q as <-; auto]. destruct (new_gate t G) as [G1 m] eqn:N. destruct (new_shaped _ G G1 m R N) as (R1 & _ & L). apply bind_inv in Q as (G2 & E2 & Q).
  apply (add_arg_roomy i m G2); auto; [|lia]. eapply transfer_all_roomy; [|exact E2]. auto.
Qed.
Lemma fix_single_roomy i G G' : roomy G -> fix_single i G = Some G' -> roomy G'.
Proof.
  intros R Q. unfold fix_single in Q. apply bind_inv in Q as (x & E & Q). destruct (Z.eqb_spec (size (g_args x)) 1) as [S1|]; [|injection Q as <-; auto].
  destruct (g_type x) eqn:T; try discriminate; (eapply (set_small_roomy i _ G G' x); [auto|auto|rewrite T; discriminate|lia|exact Q]).
Qed.
Lemma merge_candidate_roomy c g G G' : roomy G -> merge_candidate c g G = Some G' -> roomy G'.
Proof.
  intros R Q. unfold merge_candidate in Q. apply bind_inv in Q as (y & Ey & Q). pose proof (key G g y (proj1 R) Ey) as L. apply bind_inv in Q as (G1 & E1 & Q). pose proof (erase_all_roomy _ _ _ _ R E1) as R1. apply bind_inv in Q as (G2 & E2 & Q). assert (R2 : roomy G2) by (apply (add_arg_roomy c g G1); auto; lia).
  apply bind_inv in Q as (x & Ex & Q). destruct (constant x); [injection Q as <-; auto|]. destruct (Z.eqb_spec (size (g_args x)) 1); [|injection Q as <-; auto]. apply (set_null_roomy c G2 G' x); auto. lia.
Qed.
(** Every step of the rewriting (P_Preproc.v). *)
Lemma step_roomy G G' : roomy G -> step G G' -> roomy G'.
Proof.
  intros R H. destruct H.
  - eapply join_roomy; eauto.
  - eapply (coalesce_roomy i c l G G' y); eauto.
  - eapply replace_roomy; eauto. apply (key G g' y'); auto. apply R.
  - eapply replace_roomy; eauto. apply (key G g' y'); auto. apply R.
  - eapply normalize_xor_roomy; eauto.
  - eapply normalize_atleast_roomy; eauto.
  - eapply merge_common_roomy; eauto.
  - eapply create_module_roomy; eauto.
  - eapply erase_arg_roomy; eauto.
  - eapply fix_single_roomy; eauto.
  - eapply process_constant_roomy; eauto.
  - eapply merge_candidate_roomy; eauto.
Qed.
(** ** Negative gates *)
Lemma negative_roomy root comp G : wf G -> acyclic G -> roomy G -> roomy (fst (normalize_negative root comp G)).
Proof.
  intros W AC R. split; [|cbn; apply R]. assert (W' : wf (fst (normalize_negative root comp G))) by (apply neg_wf; auto).
  intros j x E. destruct (proj2 W' j x E) as [K A]. split; [exact K|]. cbn in E. rewrite lookup_fmap in E. destruct (gs G !! j) as [y|] eqn:Ey; [|discriminate]. cbn in E. injection E as <-. destruct (good_at G j y (proj1 R) Ey) as [[AR X] [T N]].
  assert (LEN : (length (g_args (positive_gate G y)) <= length (g_args y))%nat).
  { unfold positive_gate. cbn [g_args]. generalize (g_args y) as l. induction l as [|a l IHl]; cbn [map fold_right]; [lia|]. pose proof (insert_length (notify_arg G a) (fold_right set_insert [] (map (notify_arg G) l))). cbn [length]. lia. }
  split; [split|split; [|apply A]].
  - intros Q. destruct (Z.le_gt_cases 0 0) as [_|?]; [|lia]. cbn [positive_gate g_type] in Q. destruct (g_type y) eqn:TY; cbn in Q; try (destruct Q; discriminate); specialize (AR ltac:(rewrite TY; auto)); lia.
  - intros Q. cbn [positive_gate g_type] in Q. destruct (g_type y) eqn:TY; cbn in Q; try discriminate. specialize (X eq_refl). lia.
  - intros Q. assert (CY : constant y = true).
    { apply constant_In in Q. apply constant_In. assert (MEM : forall b l, In b (fold_right set_insert [] (map (notify_arg G) l)) -> exists a, In a l /\ b = notify_arg G a).
      { intros b l. induction l as [|a l IHl]; cbn; [intros []|]. intros I. apply set_insert_In in I as [->|I]; [eauto|]. destruct (IHl I) as (c & ? & ?). eauto. }
      cbn [positive_gate g_args] in Q. destruct Q as [Q|Q]; apply MEM in Q as (a & Ia & Ea); unfold notify_arg in Ea; destruct (negative_gate G (Z.abs a)); [right; replace (-1) with a by lia; auto|left; rewrite Ea; auto|left; replace 1 with a by lia; auto|right; rewrite Ea; auto]. }
    cbn. rewrite (T CY). reflexivity.
Qed.
