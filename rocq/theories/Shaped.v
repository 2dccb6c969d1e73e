(** The shape of gates that the code relies on (NOT and NULL gates have at most one argument, XOR gates at
    most two, a gate with the constant is a NULL gate) is kept by every edit of the graph, and an added
    argument changes one gate only. *)
From stdpp Require Import gmap.
From Coq Require Import Lia Permutation List.
From Verif Require Import Pdag PdagProofs PdagAdd PdagSem PdagKeeps Preproc Decompose Rooted BoolOpt BoolOptProofs BoolOptEdits.
Import ListNotations.
Open Scope Z_scope.

Definition good (x : gate) : Prop := shape x /\ tidy x /\ List.NoDup (g_args x).
Definition shaped (G : graph) : Prop := forall j x, gs G !! j = Some x -> 1 < j < nxt G /\ good x.
(** A type without a bound on the number of arguments. *)
Definition plain (t : conn) : Prop := t <> kNot /\ t <> kNull /\ t <> kXor.

Lemma constant_erase x a : constant x = false -> constant (with_args x (set_erase a (g_args x))) = false.
Proof. intros C. apply not_true_iff_false. intros Q. apply constant_In in Q. cbn in Q. rewrite !set_erase_In in Q. apply not_true_iff_false in C. apply C, constant_In. tauto. Qed.
Lemma constant_insert x a : constant x = false -> Z.abs a <> 1 -> constant (with_args x (set_insert a (g_args x))) = false.
Proof. intros C N. apply not_true_iff_false. intros Q. apply constant_In in Q. cbn in Q. rewrite !set_insert_In in Q. apply not_true_iff_false in C. apply C, constant_In. destruct Q as [[<-|]|[<-|]]; auto; cbn in N; lia. Qed.
Lemma erase_length a l : (length (set_erase a l) <= length l)%nat.
Proof. unfold set_erase. induction l as [|b l IH]; cbn; [lia|]. destruct (negb _); cbn; lia. Qed.
Lemma insert_length a l : (length (set_insert a l) <= S (length l))%nat.
Proof. induction l as [|b l IH]; [unfold set_insert; cbn; lia|]. cbn. unfold set_insert; fold set_insert. destruct (_ <? _); [cbn; lia|]. destruct (_ =? _); cbn; lia. Qed.
Lemma plain_good t k l : plain t -> constant (Gate t k l) = false -> List.NoDup l -> good (Gate t k l).
Proof. intros (P1 & P2 & P3) C N. split; [split; [intros [Q|Q]; cbn in Q; contradiction|intros Q; cbn in Q; contradiction]|split; [intros Q; congruence|exact N]]. Qed.
Lemma small_NoDup (l : list Z) : (length l <= 1)%nat -> List.NoDup l.
Proof. destruct l as [|a [|b l]]; intros H; [constructor|constructor; [intros []|constructor]|cbn in H; lia]. Qed.
Lemma small_good t k l : (length l <= 1)%nat -> constant (Gate t k l) = false -> good (Gate t k l).
Proof. intros L C. split; [split; [intros _; exact L|intros _; cbn; lia]|split; [intros Q; congruence|apply small_NoDup, L]]. Qed.
Lemma nonconstant_type x : good x -> g_type x <> kNull -> constant x = false.
Proof. intros [_ [T _]] N. apply not_true_iff_false. intros Q. apply N, T, Q. Qed.
Lemma good_erase x a : good x -> good (with_args x (set_erase a (g_args x))).
Proof.
  intros [[A X] [T N]]. pose proof (erase_length a (g_args x)). split; [split|split; [|apply set_erase_NoDup, N]].
  - intros Q. cbn in *. specialize (A Q). lia.
  - intros Q. cbn in *. specialize (X Q). lia.
  - intros Q. cbn. apply T. destruct (constant x) eqn:C; [auto|]. apply (constant_erase x a) in C. congruence.
Qed.

Section Spread.
(** The gates that may change are [i] and the fresh ones; their arguments are allowed by [L], constants or fresh. *)
Context (G0 : graph) (i : Z) (L : Z -> Prop) (Hi : 1 < i < nxt G0).
Definition mine (j : Z) : Prop := j = i \/ nxt G0 <= j.
Definition allowed (b : Z) : Prop := L b \/ Z.abs b = 1 \/ nxt G0 <= Z.abs b.
Record spread (G : graph) : Prop := {
  sp_nxt : nxt G0 <= nxt G;
  sp_keys : forall j x, gs G !! j = Some x -> 1 < j < nxt G;
  sp_old : forall j, j <> i -> j < nxt G0 -> gs G !! j = gs G0 !! j;
  sp_good : forall j x, mine j -> gs G !! j = Some x -> good x;
  sp_fresh : forall j x, nxt G0 <= j -> gs G !! j = Some x -> plain (g_type x) /\ constant x = false;
  sp_args : forall j x b, mine j -> gs G !! j = Some x -> In b (g_args x) -> allowed b }.
Lemma put_spread G G' p x' : spread G -> mine p -> good x' -> (nxt G0 <= p -> plain (g_type x') /\ constant x' = false) -> (forall b, In b (g_args x') -> allowed b) ->
  gs G' = <[p := x']> (gs G) -> nxt G <= nxt G' -> 1 < p < nxt G' -> spread G'.
Proof.
  intros [a1 a0 a2 a3 a4 a5] M GD FR AL HG HN KP. constructor.
  - lia.
  - intros j x E. rewrite HG in E. apply lookup_insert_Some in E as [[-> <-]|[_ E]]; [auto|]. apply a0 in E. lia.
  - intros j J1 J2. rewrite HG, lookup_insert_ne; [auto|]. intros ->. destruct M; [contradiction|lia].
  - intros j x Mj E. rewrite HG in E. apply lookup_insert_Some in E as [[-> <-]|[_ E]]; [auto|]. apply (a3 j x); auto.
  - intros j x Lj E. rewrite HG in E. apply lookup_insert_Some in E as [[-> <-]|[_ E]]; [auto|]. apply (a4 j x); auto.
  - intros j x b Mj E. rewrite HG in E. apply lookup_insert_Some in E as [[-> <-]|[_ E]]; [auto|]. apply (a5 j x b); auto.
Qed.
Lemma set_type_spread p t G G' x : spread G -> mine p -> gs G !! p = Some x -> constant x = false -> plain t -> set_type p t G = Some G' -> spread G'.
Proof.
  intros SP M E C P H. apply set_type_spec in H as (y & Ey & HG & HN). rewrite E in Ey. injection Ey as <-. apply (put_spread G G' p (Gate t (g_min x) (g_args x))); auto; [apply plain_good; auto; apply (sp_good _ SP p x M E)|intros b Ib; apply (sp_args _ SP p x b M E Ib)|lia|rewrite HN; apply (sp_keys _ SP p x E)].
Qed.
Lemma set_type_small t G G' x : spread G -> gs G !! i = Some x -> constant x = false -> (length (g_args x) <= 1)%nat -> set_type i t G = Some G' -> spread G'.
Proof.
  intros SP E C P H. apply set_type_spec in H as (y & Ey & HG & HN). rewrite E in Ey. injection Ey as <-. apply (put_spread G G' i (Gate t (g_min x) (g_args x))); auto; [left; auto|apply small_good; auto|lia|intros b Ib; apply (sp_args _ SP i x b ltac:(left; auto) E Ib)|lia|rewrite HN; apply (sp_keys _ SP i x E)].
Qed.
Lemma make_constant_spread s G G' : spread G -> make_constant i s G = Some G' -> spread G'.
Proof.
  intros SP H. apply make_constant_spec in H as (y & Ey & C & HG & HN). eapply (put_spread G G' i _ SP); [left; auto| |lia| |exact HG|lia|rewrite HN; apply (sp_keys _ SP i y Ey)].
  - split; [split; [intros _; cbn; lia|intros Q; cbn in Q; discriminate]|split; [intros _; reflexivity|apply small_NoDup; cbn; lia]].
  - cbn. intros b [<-|[]]. right. left. destruct s; reflexivity.
Qed.
Lemma erase_arg_spread p a G G' : spread G -> mine p -> erase_arg p a G = Some G' -> spread G'.
Proof.
  intros SP M H. apply erase_arg_inv in H as (x & E & _ & HG & HN). apply (put_spread G G' p (with_args x (set_erase a (g_args x)))); auto; [apply good_erase, (sp_good _ SP p x M E)| | |lia|rewrite HN; apply (sp_keys _ SP p x E)].
  - intros Lp. destruct (sp_fresh _ SP p x Lp E) as [F1 F2]. split; [auto|apply constant_erase; auto].
  - cbn. intros b Ib. apply set_erase_In in Ib. apply (sp_args _ SP p x b M E). tauto.
Qed.
Lemma erase_args_spread p G G' : spread G -> mine p -> erase_args p G = Some G' -> spread G' /\ exists x, gs G' !! p = Some x /\ g_args x = [].
Proof.
  intros SP M H. apply erase_args_inv in H as (x & E & HG & HN). split; [|eexists; rewrite HG, lookup_insert; split; [reflexivity|reflexivity]].
  apply (put_spread G G' p (with_args x [])); auto; [split; [split; [intros _; cbn; lia|intros _; cbn; lia]|split; [intros Q; discriminate Q|constructor]]| |intros b []|lia|rewrite HN; apply (sp_keys _ SP p x E)].
  intros Lp. destruct (sp_fresh _ SP p x Lp E) as [F1 F2]. split; [auto|reflexivity].
Qed.
Lemma set_min_spread p k G G' : spread G -> mine p -> set_min p k G = Some G' -> spread G'.
Proof.
  intros SP M H. apply set_min_inv in H as (x & E & HG & HN). apply (put_spread G G' p (with_min x k)); auto; [exact (sp_good _ SP p x M E)|intros Lp; exact (sp_fresh _ SP p x Lp E)|intros b Ib; apply (sp_args _ SP p x b M E Ib)|lia|rewrite HN; apply (sp_keys _ SP p x E)].
Qed.
Lemma add_new_spread p a G G' : spread G -> mine p -> allowed a -> Z.abs a <> 1 -> add_new p a G = Some G' -> spread G'.
Proof.
  intros SP M AL NC H. assert (H' := H). apply add_new_inv in H' as (x & E & N1 & N2 & HG & HN). unfold add_new in H. rewrite E in H. cbn [mbind option_bind] in H.
  destruct (add_asserts x && _ && _) eqn:EA; [|discriminate]. clear H. apply andb_true_iff in EA as [EA _]. apply andb_true_iff in EA as [EA _]. unfold add_asserts in EA. rewrite !andb_true_iff, !negb_true_iff in EA. destruct EA as [[[A1 A2] A3] _].
  pose proof (insert_length a (g_args x)) as LI. apply (put_spread G G' p (with_args x (set_insert a (g_args x)))); auto; [| | |lia|rewrite HN; apply (sp_keys _ SP p x E)].
  - split; [split|split; [|cbn; apply (Permutation_NoDup (Permutation_sym (set_insert_perm a (g_args x) N1))); constructor; [auto|apply (sp_good _ SP p x M E)]]].
    + intros Q. cbn in *. apply andb_false_iff in A2. destruct A2 as [A2|A2]; [destruct Q as [Q|Q]; rewrite Q in A2; discriminate|]. apply negb_false_iff, Z.eqb_eq in A2. unfold size in A2. lia.
    + intros Q. cbn in *. apply andb_false_iff in A3. destruct A3 as [A3|A3]; [rewrite Q in A3; discriminate|]. apply Z.ltb_ge in A3. unfold size in A3. lia.
    + intros Q. rewrite (constant_insert x a A1 NC) in Q. discriminate.
  - intros Lp. split; [apply (sp_fresh _ SP p x Lp E)|apply constant_insert; auto].
  - cbn. intros b Ib. apply set_insert_In in Ib as [->|Ib]; [auto|]. apply (sp_args _ SP p x b M E Ib).
Qed.
Lemma clone_spread p G G' c x : spread G -> mine p -> gs G !! p = Some x -> plain (g_type x) -> clone p G = Some (G', c) -> spread G' /\ c = nxt G /\ mine c /\ gs G' = <[c := x]> (gs G).
Proof.
  intros SP M E P H. apply clone_inv in H as (y & Ey & C & _ & -> & HG & HN). rewrite E in Ey. injection Ey as <-. assert (MC : mine (nxt G)) by (right; apply SP). split; [|auto].
  apply (put_spread G G' (nxt G) x SP MC (sp_good _ SP p x M E) ltac:(auto) (fun b Ib => sp_args _ SP p x b M E Ib) HG ltac:(lia)). pose proof (sp_nxt _ SP). lia.
Qed.
Lemma new_spread t G G' c : spread G -> plain t -> new_gate t G = (G', c) -> spread G' /\ c = nxt G /\ mine c.
Proof.
  intros SP P H. unfold new_gate in H. injection H as <- <-. assert (MC : mine (nxt G)) by (right; apply SP). split; [|auto].
  eapply (put_spread G _ (nxt G) (Gate t 0 []) SP MC); [apply plain_good; [auto|reflexivity|constructor]|auto|intros b []|reflexivity|cbn; lia|cbn; pose proof (sp_nxt _ SP); lia].
Qed.
Lemma transfer_new_spread p a q G G' : spread G -> mine p -> mine q -> allowed a -> Z.abs a <> 1 -> transfer_new p a q G = Some G' -> spread G'.
Proof.
  intros SP M1 M2 AL NC H. unfold transfer_new in H. apply bind_inv in H as (x & E & H). destruct (constant x); [discriminate|]. apply bind_inv in H as (G1 & E1 & H).
  apply (add_new_spread q a G1 G'); auto. apply (erase_arg_spread p a G G1); auto.
Qed.
Lemma fresh_type p t G G' : spread G -> nxt G0 <= p -> plain t -> set_type p t G = Some G' -> spread G'.
Proof.
  intros SP Lp P H. assert (H' := H). apply set_type_spec in H' as (y & Ey & _). apply (set_type_spread p t G G' y); auto; [right; auto|]. apply (sp_fresh _ SP p y Lp Ey).
Qed.
Lemma plain_and : plain kAnd. Proof. repeat split; discriminate. Qed.
Lemma plain_or : plain kOr. Proof. repeat split; discriminate. Qed.
Lemma plain_atleast : plain kAtleast. Proof. repeat split; discriminate. Qed.
Local Hint Resolve plain_and plain_or plain_atleast : core.

Lemma atleast_duplicate_spread a G G' x : spread G -> gs G !! i = Some x -> g_type x = kAtleast -> In a (g_args x) -> atleast_duplicate i a G = Some G' -> spread G'.
Proof.
  intros SP E T Ia H. unfold atleast_duplicate in H. rewrite E in H. cbn [mbind option_bind] in H. destruct (_ || _); [discriminate|].
  assert (MI : mine i) by (left; auto). assert (GX : good x) by (apply (sp_good _ SP i x MI E)). assert (CX : constant x = false) by (apply nonconstant_type; [auto|rewrite T; discriminate]).
  assert (AL : allowed a) by (apply (sp_args _ SP i x a MI E Ia)). assert (NC : Z.abs a <> 1).
  { intros Q. apply not_true_iff_false in CX. apply CX, constant_In. assert (K : a = 1 \/ a = -1) by lia. destruct K as [-> | ->]; auto. }
  assert (FA : forall c, nxt G0 <= c -> allowed c /\ Z.abs c <> 1) by (intros c Lc; split; [right; right; lia|lia]).
  destruct (Z.eqb_spec (size (g_args x)) 2) as [S2|S2].
  - destruct (_ =? 2); [|discriminate]. apply bind_inv in H as (G1 & E1 & H). pose proof (erase_arg_spread i a G G1 SP MI E1) as SP1. apply erase_arg_inv in E1 as (y & Ey & _ & HG & HN). rewrite E in Ey. injection Ey as <-.
    apply (set_type_small kNull G1 G' (with_args x (set_erase a (g_args x)))); auto; [rewrite HG; apply lookup_insert|apply constant_erase; auto|].
    cbn. destruct GX as (_ & _ & ND). pose proof (Permutation_length (set_erase_perm a (g_args x) ND Ia)) as PL. cbn in PL. unfold size in S2. lia.
  - destruct (Z.eqb_spec (g_min x) (size (g_args x))) as [KN|KN].
    + destruct (_ <=? 2); [discriminate|]. apply bind_inv in H as ([G1 c] & E1 & H). destruct (clone_spread i G G1 c x SP MI E ltac:(rewrite T; auto) E1) as (SP1 & Ec & MC & HG1).
      assert (Lc : nxt G0 <= c) by (rewrite Ec; apply SP). destruct (FA c Lc) as [FA1 FA2].
      apply bind_inv in H as (G2 & E2 & H). pose proof (set_min_spread c _ G1 G2 SP1 MC E2) as SP2.
      apply bind_inv in H as (G3 & E3 & H). destruct (erase_args_spread i G2 G3 SP2 MI E3) as (SP3 & x3 & Ex3 & Ax3).
      apply bind_inv in H as (G4 & E4 & H). assert (SP4 : spread G4) by (apply (set_type_spread i kAnd G3 G4 x3); auto; unfold constant; rewrite Ax3; auto).
      apply bind_inv in H as (G5 & E5 & H). assert (SP5 : spread G5) by (apply (transfer_new_spread c a i G4 G5); auto).
      apply bind_inv in H as (G6 & E6 & H). assert (SP6 : spread G6) by (destruct (_ =? 1); [apply (fresh_type c kOr G5 G6); auto|injection E6 as <-; auto]).
      apply (add_new_spread i c G6 G'); auto.
    + destruct (_ <=? 2); [discriminate|]. apply bind_inv in H as ([G1 c] & E1 & H). destruct (clone_spread i G G1 c x SP MI E ltac:(rewrite T; auto) E1) as (SP1 & Ec & MC & HG1).
      assert (Lc : nxt G0 <= c) by (rewrite Ec; apply SP). destruct (FA c Lc) as [FA1 FA2].
      apply bind_inv in H as (G2 & E2 & H). destruct (erase_args_spread i G1 G2 SP1 MI E2) as (SP2 & x2 & Ex2 & Ax2).
      apply bind_inv in H as (G3 & E3 & H). assert (SP3 : spread G3) by (apply (set_type_spread i kOr G2 G3 x2); auto; unfold constant; rewrite Ax2; auto).
      apply bind_inv in H as (G4 & E4 & H). assert (SP4 : spread G4) by (apply (add_new_spread i c G3 G4); auto).
      apply bind_inv in H as (G8 & E8 & H). assert (SP8 : spread G8).
      { destruct (_ =? 2); [apply (transfer_new_spread c a i G4 G8); auto|]. destruct (new_gate kAnd G4) as [G5 ag] eqn:E5. destruct (new_spread kAnd G4 G5 ag SP4 ltac:(auto) E5) as (SP5 & Eag & MA). assert (La : nxt G0 <= ag) by (rewrite Eag; apply SP4). destruct (FA ag La) as [FB1 FB2].
        apply bind_inv in E8 as (G5' & E5' & E8). assert (SP5' : spread G5') by (apply (add_new_spread i ag G5 G5'); auto).
        apply bind_inv in E8 as (G6 & E6 & E8). assert (SP6 : spread G6) by (apply (transfer_new_spread c a ag G5' G6); auto).
        apply bind_inv in E8 as ([G7 c2] & E7 & E8). assert (XC : exists y, gs G6 !! c = Some y) by (unfold clone in E7; destruct (gs G6 !! c) eqn:Q; [eauto|discriminate]). destruct XC as [y Ey].
        destruct (clone_spread c G6 G7 c2 y SP6 MC Ey ltac:(apply (sp_fresh _ SP6 c y Lc Ey)) E7) as (SP7 & Ec2 & MC2 & _). assert (Lc2 : nxt G0 <= c2) by (rewrite Ec2; apply SP6). destruct (FA c2 Lc2) as [FD1 FD2].
        apply bind_inv in E8 as (G7' & E7' & E8). pose proof (set_min_spread c2 _ G7 G7' SP7 MC2 E7') as SP7'.
        apply bind_inv in E8 as (G7'' & E7'' & E8). assert (SP7'' : spread G7'') by (destruct (_ =? 1); [apply (fresh_type c2 kOr G7' G7''); auto|injection E7'' as <-; auto]).
        apply (add_new_spread ag c2 G7'' G8); auto. }
      clear E8. apply bind_inv in H as (x1 & Ex1 & H). destruct (_ <? _); [discriminate|]. destruct (_ =? _); [apply (fresh_type c kAnd G8 G'); auto|injection H as <-; auto].
Qed.
Lemma reduce_spread t G G' x m : spread G -> gs G !! i = Some x -> constant x = false -> (plain t \/ m = 1) -> reduce_logic i t m G = Some G' -> spread G'.
Proof.
  intros SP E C PT H. unfold reduce_logic in H. rewrite E in H. cbn [mbind option_bind] in H. destruct (g_args x) eqn:Ea; [discriminate|]. rewrite <- Ea in *. destruct (Z.eqb_spec (size (g_args x)) m) as [Em|]; [|injection H as <-; auto].
  destruct PT as [PT|PT]; [apply (set_type_spread i t G G' x); auto; left; auto|apply (set_type_small t G G' x); auto; unfold size in Em; lia].
Qed.
Lemma add_constant_spread s G G' x : spread G -> gs G !! i = Some x -> constant x = false -> add_constant_arg i s G = Some G' -> spread G'.
Proof.
  intros SP E C H. unfold add_constant_arg in H. rewrite E in H. cbn [mbind option_bind] in H.
  assert (XS : forall t, (if size (g_args x) =? 1 then set_type i t G else None) = Some G' -> spread G').
  { intros t Q. destruct (Z.eqb_spec (size (g_args x)) 1) as [S1|]; [|discriminate]. apply (set_type_small t G G' x); auto. unfold size in S1. lia. }
  destruct s; destruct (g_type x) eqn:T; try (apply (make_constant_spread _ G G' SP H)); try (eapply reduce_spread; [exact SP|exact E|exact C|right; reflexivity|exact H]); try (apply (XS _ H)).
  - destruct (_ || _); [discriminate|]. apply bind_inv in H as (G1 & E1 & H). pose proof (set_min_spread i _ G G1 SP ltac:(left; auto) E1) as SP1. apply set_min_inv in E1 as (y & Ey & HG & _). rewrite E in Ey. injection Ey as <-.
    destruct (_ =? 1); [|injection H as <-; auto]. apply (set_type_spread i kOr G1 G' (with_min x (g_min x - 1))); auto; [left; auto|rewrite HG; apply lookup_insert].
  - destruct (_ <? 2); [discriminate|]. eapply reduce_spread; [exact SP|exact E|exact C|left; exact plain_and|exact H].
Qed.
Lemma add_arg_spread a G G' x : spread G -> gs G !! i = Some x -> allowed a -> Z.abs a <> 1 -> add_arg i a G = Some G' -> spread G'.
Proof.
  intros SP E AL NC H. unfold add_arg in H. rewrite E in H. cbn [mbind option_bind] in H. destruct (negb (add_asserts x) || _) eqn:EA; [discriminate|].
  apply orb_false_iff in EA as [EA _]. apply negb_false_iff in EA. unfold add_asserts in EA. rewrite !andb_true_iff, !negb_true_iff in EA. destruct EA as [[[C _] _] _].
  assert (S1 : forall t, size (g_args x) =? 1 = true -> set_type i t G = Some G' -> spread G').
  { intros t S1 Q. apply Z.eqb_eq in S1. apply (set_type_small t G G' x); auto. unfold size in S1. lia. }
  destruct (has a (g_args x)) eqn:HA.
  - apply has_In in HA. unfold process_duplicate in H. rewrite E in H. cbn [mbind option_bind] in H. destruct (g_type x) eqn:T; try discriminate; try (apply (atleast_duplicate_spread a G G' x); auto; fail);
      destruct (size (g_args x) =? 1) eqn:Q; try (injection H as <-; exact SP); try (apply (S1 _ eq_refl H)); apply (make_constant_spread _ G G' SP H).
  - destruct (has (- a) (g_args x)) eqn:HB; [|apply (add_new_spread i a G G'); auto; left; auto]. apply has_In in HB.
    unfold process_complement in H. rewrite E in H. cbn [mbind option_bind] in H. destruct (g_type x) eqn:T; try discriminate; try (apply (make_constant_spread _ G G' SP H)).
    destruct (_ || _); [discriminate|]. apply bind_inv in H as (G1 & E1 & H). pose proof (erase_arg_spread i (- a) G G1 SP ltac:(left; auto) E1) as SP1. apply erase_arg_inv in E1 as (y & Ey & _ & HG1 & _). rewrite E in Ey. injection Ey as <-.
    apply bind_inv in H as (G2 & E2 & H). pose proof (set_min_spread i _ G1 G2 SP1 ltac:(left; auto) E2) as SP2. apply set_min_inv in E2 as (y & Ey & HG2 & _). rewrite HG1, lookup_insert in Ey. injection Ey as <-.
    apply bind_inv in H as (x2 & Ex2 & H). assert (C2 : constant x2 = false) by (rewrite HG2, lookup_insert in Ex2; injection Ex2 as <-; apply (constant_erase x (- a) C)).
    destruct (Z.eqb_spec (size (g_args x2)) 1) as [Q|Q]; [apply (set_type_small kNull G2 G' x2); auto; unfold size in Q; lia|]. destruct (_ =? 1); [apply (set_type_spread i kOr G2 G' x2); auto; left; auto|]. destruct (_ =? _); [apply (set_type_spread i kAnd G2 G' x2); auto; left; auto|injection H as <-; auto].
Qed.
Lemma add_any_spread a G G' x : spread G -> gs G !! i = Some x -> allowed a -> add_any i a G = Some G' -> spread G'.
Proof.
  intros SP E AL H. unfold add_any in H. rewrite E in H. cbn [mbind option_bind] in H. destruct (Z.eqb_spec a 1) as [->|N1]; [|destruct (Z.eqb_spec a (-1)) as [->|N2]]; cbn [orb] in H.
  - destruct (constant x) eqn:C; [discriminate|]. apply (add_constant_spread _ G G' x SP E C H).
  - destruct (constant x) eqn:C; [discriminate|]. apply (add_constant_spread _ G G' x SP E C H).
  - apply (add_arg_spread a G G' x); auto. lia.
Qed.
End Spread.
Lemma spread_start G i (L : Z -> Prop) x : shaped G -> gs G !! i = Some x -> (forall b, In b (g_args x) -> L b) -> spread G i L G.
Proof.
  intros S E HL. assert (FR : forall j y, nxt G <= j -> gs G !! j = Some y -> False) by (intros j y Lj Ej; apply S in Ej; lia). constructor; auto; [lia|intros j y Ej; apply (S j y Ej)|intros j y _ Ej; apply (S j y Ej)| |].
  - intros j y Lj Ej. destruct (FR j y Lj Ej).
  - intros j y b [->|Lj] Ej Ib; [|destruct (FR j y Lj Ej)]. rewrite E in Ej. injection Ej as <-. left. auto.
Qed.
Lemma spread_shaped G i L G' : shaped G -> spread G i L G' -> shaped G'.
Proof. intros S [a1 a0 a2 a3 a4 a5] j x E. split; [apply (a0 j x E)|]. destruct (Z.eq_dec j i) as [->|N]; [apply (a3 i x); auto; left; auto|]. destruct (Z.lt_ge_cases j (nxt G)) as [Lj|Lj]; [rewrite a2 in E by auto; apply (S j x E)|apply (a3 j x); auto; right; auto]. Qed.
