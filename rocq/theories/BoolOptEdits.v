(** Boolean optimization: the edits of the graph. *)
From stdpp Require Import gmap.
From Coq Require Import Lia Permutation List.
From Verif Require Import Pdag PdagProofs PdagAdd PdagSem PdagKeeps Preproc Decompose Rooted BoolOpt BoolOptProofs.
Import ListNotations.
Open Scope Z_scope.

Definition tidy (x : gate) : Prop := constant x = true -> g_type x = kNull.
Lemma constant_In x : constant x = true <-> In 1 (g_args x) \/ In (-1) (g_args x).
Proof. unfold constant. rewrite orb_true_iff, !has_In. tauto. Qed.
Lemma set_type_tidy i t G G' x x' : gs G !! i = Some x -> constant x = false -> set_type i t G = Some G' -> gs G' !! i = Some x' -> tidy x'.
Proof. intros E C H E'. apply set_type_spec in H as (y & Ey & HG & _). rewrite HG, lookup_insert in E'. injection E' as <-. rewrite E in Ey. injection Ey as <-. intros Q. unfold constant in *. cbn [g_args with_min] in Q. congruence. Qed.
Lemma make_constant_tidy i s G G' x' : make_constant i s G = Some G' -> gs G' !! i = Some x' -> tidy x'.
Proof. intros H E'. apply make_constant_spec in H as (y & Ey & _ & HG & _). rewrite HG, lookup_insert in E'. injection E' as <-. intros _. reflexivity. Qed.
Lemma reduce_logic_tidy i t m G G' x x' : gs G !! i = Some x -> constant x = false -> reduce_logic i t m G = Some G' -> gs G' !! i = Some x' -> tidy x'.
Proof.
  intros E C H E'. unfold reduce_logic in H. rewrite E in H. cbn [mbind option_bind] in H. destruct (g_args x) eqn:Ea; [discriminate|]. rewrite <- Ea in *. destruct (Z.eqb_spec (size (g_args x)) m); [eapply set_type_tidy; [exact E|exact C|exact H|exact E']|]. 
 injection H as <-. rewrite E in E'. injection E' as <-. intros Q. congruence.
Qed.
Lemma add_constant_tidy i s G G' x x' : gs G !! i = Some x -> constant x = false -> add_constant_arg i s G = Some G' -> gs G' !! i = Some x' -> tidy x'.
Proof.
  intros E C H E'. unfold add_constant_arg in H. rewrite E in H. cbn [mbind option_bind] in H.
  destruct s; destruct (g_type x) eqn:T; try (eapply make_constant_tidy; now eauto); try (eapply reduce_logic_tidy; [exact E|exact C|exact H|exact E']).
  - destruct (_ || _); [discriminate|]. unfold set_min in H. rewrite E in H. cbn [mbind option_bind] in H. destruct (_ =? 1).
    + eapply (set_type_tidy i kOr (put i (with_min x (g_min x - 1)) G) G' (with_min x (g_min x - 1)) x'); [cbn; apply lookup_insert|exact C|exact H|exact E'].
    + injection H as <-. cbn in E'. rewrite lookup_insert in E'. injection E' as <-. intros Q. unfold constant in *. cbn [g_args with_min] in Q. congruence.
  - destruct (_ =? 1); [|discriminate]. eapply set_type_tidy; [exact E|exact C|exact H|exact E'].
  - destruct (_ <? 2); [discriminate|]. eapply reduce_logic_tidy; [exact E|exact C|exact H|exact E'].
  - destruct (_ =? 1); [|discriminate]. eapply set_type_tidy; [exact E|exact C|exact H|exact E'].
Qed.
Lemma process_constant_tidy i n s G G' x x' : gs G !! i = Some x -> arity x -> tidy x -> 1 < n -> arg_in n x -> process_constant_arg i n s G = Some G' -> gs G' !! i = Some x' -> tidy x'.
Proof.
  intros E A Ty L IN H E'. unfold process_constant_arg in H. rewrite E in H. cbn [mbind option_bind] in H. apply bind_inv in H as (G1 & E1 & H). apply erase_arg_inv in E1 as (x0 & Ex0 & _ & HG1 & N1). rewrite E in Ex0. injection Ex0 as <-.
  assert (C : constant x = false).
  { apply not_true_iff_false. intros Q. specialize (A (or_intror (Ty Q))). apply constant_In in Q. destruct (g_args x) as [|b [|]] eqn:Eb; [destruct Q as [[]|[]]| |cbn in A; lia]. unfold arg_in in IN. rewrite Eb in IN. cbn in IN, Q. lia. }
  eapply add_constant_tidy; [rewrite HG1; apply lookup_insert| |exact H|exact E']. apply not_true_iff_false. intros Q. apply constant_In in Q. cbn in Q. rewrite !set_erase_In in Q. apply not_true_iff_false in C. apply C. apply constant_In. tauto.
Qed.

(** ** ProcessRedundantParents *)
Lemma fix_ok n : 1 < n -> forall R G H, wf G -> List.NoDup R -> (forall p, In p R -> exists x, gs G !! p = Some x /\ arg_in n x /\ arity x /\ tidy x) -> fix_redundants n R G = Some H ->
  wf H /\ nxt H = nxt G /\ (forall r, ranked G r -> ranked H r) /\ (forall i, ~ In i R -> gs H !! i = gs G !! i) /\
  (forall i x, In i R -> gs G !! i = Some x -> exists y, gs H !! i = Some y /\ tidy y /\ forall f, f 1 = true -> gate_value f y = gate_value (fixed f n false) x).
Proof.
  intros Ln. induction R as [|p R IH]; intros G H W ND HP E; cbn [fix_redundants] in E.
  { injection E as <-. split; [auto|]. split; [auto|]. split; [auto|]. split; [auto|]. intros i x []. }
  apply bind_inv in E as (G1 & E1 & E). inversion ND as [|? ? NI ND']; subst. destruct (HP p ltac:(left; auto)) as (x & Ex & IN & AR & TD).
  destruct (constant_edits p n false G G1 x W Ex Ln IN AR E1) as (y & HG & HN & OK & SUB & SEM).
  assert (SUB' : forall b, In b (g_args y) -> In b (g_args x) \/ Z.abs b = 1) by (intros b Hb; destruct (SUB b Hb) as [[? _]|]; auto).
  assert (W1 : wf G1) by (eapply put_wf; eauto).
  destruct (IH G1 H W1 ND') as (a & b & c & d & e); [|exact E|].
  { intros q Iq. rewrite HG, lookup_insert_ne by (intros ->; contradiction). apply HP. right; auto. }
  split; [auto|]. split; [lia|]. split; [intros r R0; apply c; exact (put_ranked G G1 p x y r W Ex HG SUB' R0)|]. split.
  - intros i NIi. rewrite d by (intros Q; apply NIi; right; auto). rewrite HG, lookup_insert_ne; auto. intros ->. apply NIi. left; auto.
  - intros i z [<-|Ii] Ez.
    + rewrite d by auto. exists y. rewrite HG, lookup_insert. rewrite Ex in Ez. injection Ez as <-. split; [auto|]. split; [|auto]. eapply process_constant_tidy; [exact Ex|exact AR|exact TD|exact Ln|exact IN|exact E1|rewrite HG; apply lookup_insert].
    + apply e; auto. rewrite HG, lookup_insert_ne; auto. intros ->. contradiction.
Qed.

(** ** ReplaceGate with a gate made just before *)
Definition swapped (f : Z -> bool) (d m : Z) : Z -> bool := fun k => if k =? d then f m else f k.
Lemma replace_fresh p d m G G' x : wf G -> gs G !! p = Some x -> arg_in d x -> 0 < d -> 1 < m < nxt G -> (forall a, In a (g_args x) -> Z.abs a <> m) -> replace_in_parent p d m G = Some G' ->
  exists x', gs G' = <[p := x']> (gs G) /\ nxt G' = nxt G /\ args_ok (nxt G) (g_args x') /\ (tidy x -> tidy x') /\
    (forall b, In b (g_args x') -> (In b (g_args x) /\ Z.abs b <> d) \/ Z.abs b = m) /\ forall f, gate_value f x' = gate_value (swapped f d m) x.
Proof.
  intros W Ex IN Ld Lm NM H. unfold replace_in_parent in H. rewrite Ex in H. cbn [mbind option_bind] in H. set (a := arg_of x d) in *. apply bind_inv in H as (G1 & E1 & H). apply erase_arg_inv in E1 as (x0 & Ex0 & _ & HG1 & N1). rewrite Ex in Ex0. injection Ex0 as <-.
  assert (Ha : In a (g_args x) /\ Z.abs a = d). { unfold a, arg_of. destruct (has d (g_args x)) eqn:Q; [apply has_In in Q; split; [auto|lia]|]. apply has_false in Q. destruct IN as [|IN]; [contradiction|]. split; [auto|lia]. }
  destruct Ha as [Ha Ea]. destruct (proj2 W p x Ex) as [Lp OK]. set (x1 := with_args x (set_erase a (g_args x))) in *. set (c := if a <? 0 then - m else m) in *. assert (Ec : Z.abs c = m) by (unfold c; destruct (a <? 0); lia).
  unfold add_arg in H. rewrite HG1, lookup_insert in H. cbn [mbind option_bind] in H.
  assert (N1c : forall b, In b (g_args x1) -> Z.abs b <> m) by (intros b Q; cbn in Q; apply set_erase_In in Q as [Q _]; apply NM; auto).
  assert (H1 : has c (g_args x1) = false) by (apply has_false; intros Q; apply (N1c c Q); auto).
  assert (H2 : has (- c) (g_args x1) = false) by (apply has_false; intros Q; apply (N1c (- c) Q); rewrite Z.abs_opp; auto).
  destruct (negb (add_asserts x1) || (c =? 0)); [discriminate|]. rewrite H1, H2 in H. apply add_new_inv in H as (x2 & Ex2 & _ & _ & HG & HN). rewrite HG1, lookup_insert in Ex2. injection Ex2 as <-.
  exists (with_args x1 (set_insert c (g_args x1))). rewrite HG1, insert_insert in HG. split; [auto|]. split; [lia|]. split; [|split; [|split]].
  - cbn. apply args_ok_insert; [now apply args_ok_erase|lia|lia|apply has_false; exact H1|apply has_false; exact H2].
  - intros T Q. apply T. apply constant_In in Q. cbn in Q. rewrite !set_insert_In, !set_erase_In in Q. apply constant_In. destruct Q as [[Q|Q]|[Q|Q]]; try tauto; exfalso; rewrite <- Q in Ec; lia.
  - intros b Q. cbn in Q. apply set_insert_In in Q as [->|Q]; [auto|]. apply set_erase_In in Q as [Q N]. left. split; [auto|]. intros E. destruct (proj2 OK b Q) as (_ & _ & NO). apply NO. replace (- b) with a by lia. auto.
  - intros f. unfold gate_value. cbn [g_type g_min with_args x1 g_args].
    rewrite (value_perm f _ _ _ _ (set_insert_perm c _ (proj1 (has_false _ _) H1))). rewrite (value_perm (swapped f d m) _ _ _ _ (set_erase_perm a _ (proj1 OK) Ha)). cbn [map]. f_equal. f_equal.
    + rewrite !lit_abs. rewrite Ec, Ea. unfold swapped. rewrite Z.eqb_refl. unfold c. destruct (Z.ltb_spec a 0); [destruct (Z.ltb_spec (- m) 0); [auto|lia]|destruct (Z.ltb_spec m 0); [lia|auto]].
    + apply map_ext_in. intros b Q. apply set_erase_In in Q as [Q N]. rewrite !lit_abs. unfold swapped. destruct (Z.eqb_spec (Z.abs b) d) as [E|]; auto. exfalso. destruct (proj2 OK b Q) as (_ & _ & NO). apply NO. replace (- b) with a by lia. auto.
Qed.
Lemma replace_all_ok d m : 0 < d -> d <> m -> 1 < m -> forall l G G', wf G -> m < nxt G -> List.NoDup l ->
  (forall p, In p l -> exists x, gs G !! p = Some x /\ arg_in d x /\ (forall a, In a (g_args x) -> Z.abs a <> m)) -> replace_all l d m G = Some G' ->
  wf G' /\ nxt G' = nxt G /\ (forall i, ~ In i l -> gs G' !! i = gs G !! i) /\
  (forall i x, In i l -> gs G !! i = Some x -> exists x', gs G' !! i = Some x' /\ (tidy x -> tidy x') /\ (forall b, In b (g_args x') -> (In b (g_args x) /\ Z.abs b <> d) \/ Z.abs b = m) /\ forall f, gate_value f x' = gate_value (swapped f d m) x).
Proof.
  intros Ld NE Lm. induction l as [|p l IH]; intros G G' W Lt ND HP E; cbn [replace_all] in E.
  { injection E as <-. split; [auto|]. split; [auto|]. split; [auto|]. intros i x []. }
  apply bind_inv in E as (G1 & E1 & E). inversion ND as [|? ? NI ND']; subst. destruct (HP p ltac:(left; auto)) as (x & Ex & IN & NM).
  destruct (replace_fresh p d m G G1 x W Ex IN Ld (conj Lm Lt) NM E1) as (y & HG & HN & OK & TD & SUB & SEM).
  assert (W1 : wf G1) by (eapply put_wf; eauto).
  destruct (IH G1 G' W1 ltac:(lia) ND') as (a & b & c & e); [|exact E|].
  { intros q Iq. rewrite HG, lookup_insert_ne by (intros ->; contradiction). apply HP. right; auto. }
  split; [auto|]. split; [lia|]. split.
  - intros i NIi. rewrite c by (intros Q; apply NIi; right; auto). rewrite HG, lookup_insert_ne; auto. intros ->. apply NIi. left; auto.
  - intros i z [<-|Ii] Ez.
    + rewrite c by auto. exists y. rewrite HG, lookup_insert. rewrite Ex in Ez. injection Ez as <-. auto.
    + apply e; auto. rewrite HG, lookup_insert_ne; auto. intros ->. contradiction.
Qed.

(** ** AddArg to an AND or OR gate *)
Lemma add_logic i a G G' x : wf G -> gs G !! i = Some x -> constant x = false -> g_type x = kAnd \/ g_type x = kOr -> 1 < Z.abs a < nxt G -> add_arg i a G = Some G' ->
  exists x', gs G' = <[i := x']> (gs G) /\ nxt G' = nxt G /\ args_ok (nxt G) (g_args x') /\ tidy x' /\ (forall b, In b (g_args x') -> In b (g_args x) \/ b = a \/ Z.abs b = 1) /\
    forall f, f 1 = true -> gate_value f x' = plus x a f.
Proof.
  intros W Ex NC Ty La H. unfold add_arg in H. rewrite Ex in H. cbn [mbind option_bind] in H. destruct (proj2 W i x Ex) as [Li OK].
  destruct (negb (add_asserts x) || (a =? 0)) eqn:AS; [discriminate|]. destruct (has a (g_args x)) eqn:H1.
  - apply has_In in H1. unfold process_duplicate in H. rewrite Ex in H. cbn [mbind option_bind] in H.
    assert (DUP : forall f, plus x a f = gate_value f x).
    { intros f. unfold plus, gate_value. destruct Ty as [-> | ->]; cbn; [apply forallb_dup|apply existsb_dup]; now apply in_map_lit. }
    assert (ID : G' = G -> exists x', gs G' = <[i := x']> (gs G) /\ nxt G' = nxt G /\ args_ok (nxt G) (g_args x') /\ tidy x' /\ (forall b, In b (g_args x') -> In b (g_args x) \/ b = a \/ Z.abs b = 1) /\ forall f, f 1 = true -> gate_value f x' = plus x a f).
    { intros ->. exists x. rewrite insert_id by auto. split; [auto|]. split; [auto|]. split; [auto|]. split; [intros Q; congruence|]. split; [auto|]. intros f _. auto. }
    assert (ST : size (g_args x) = 1 -> set_type i kNull G = Some G' -> exists x', gs G' = <[i := x']> (gs G) /\ nxt G' = nxt G /\ args_ok (nxt G) (g_args x') /\ tidy x' /\ (forall b, In b (g_args x') -> In b (g_args x) \/ b = a \/ Z.abs b = 1) /\ forall f, f 1 = true -> gate_value f x' = plus x a f).
    { intros S1 Q. apply set_type_spec in Q as (y & Ey & HG & HN). rewrite Ex in Ey. injection Ey as <-. exists (Gate kNull (g_min x) (g_args x)). split; [auto|]. split; [auto|]. split; [auto|]. split; [intros _; reflexivity|]. split; [auto|]. intros f _. rewrite DUP. apply size1 in S1 as (b & Eb). unfold gate_value. cbn [g_type g_min g_args]. rewrite Eb. destruct Ty as [-> | ->]; cbn; destruct (lit f b); auto. }
    destruct Ty as [Q|Q]; rewrite Q in H; (destruct (Z.eqb_spec (size (g_args x)) 1); [auto|injection H as <-; auto]).
  - destruct (has (- a) (g_args x)) eqn:H2.
    + apply has_In in H2. unfold process_complement in H. rewrite Ex in H. cbn [mbind option_bind] in H.
      assert (MC : forall s, make_constant i s G = Some G' -> (forall f, plus x a f = s) -> exists x', gs G' = <[i := x']> (gs G) /\ nxt G' = nxt G /\ args_ok (nxt G) (g_args x') /\ tidy x' /\ (forall b, In b (g_args x') -> In b (g_args x) \/ b = a \/ Z.abs b = 1) /\ forall f, f 1 = true -> gate_value f x' = plus x a f).
      { intros s Q HS. apply make_constant_spec in Q as (y & Ey & _ & HG & HN). eexists. split; [exact HG|]. split; [auto|]. cbn [g_args]. split; [destruct s; apply args_ok_single; lia|]. split; [intros _; reflexivity|]. split; [intros b [<-|[]]; right; right; destruct s; auto|]. intros f F1. rewrite HS. unfold gate_value. cbn. now apply const_value. }
      destruct Ty as [Q|Q]; rewrite Q in H; apply (MC _ H); intros f; unfold plus; rewrite Q; cbn [conn_value forallb existsb].
      * apply forallb_compl. rewrite <- lit_opp by lia. now apply in_map_lit.
      * apply existsb_compl. rewrite <- lit_opp by lia. now apply in_map_lit.
    + apply add_new_inv in H as (x2 & Ex2 & _ & _ & HG & HN). rewrite Ex in Ex2. injection Ex2 as <-. eexists. split; [exact HG|]. split; [auto|]. cbn [g_args with_args]. split; [apply args_ok_insert; auto; [lia|lia|now apply has_false|now apply has_false]|]. split; [|split].
      * intros Q. apply constant_In in Q. cbn in Q. rewrite !set_insert_In in Q. exfalso. apply not_true_iff_false in NC. apply NC. apply constant_In. destruct Q as [[Q|Q]|[Q|Q]]; auto; lia.
      * intros b Q. apply set_insert_In in Q as [->|Q]; auto.
      * intros f _. unfold gate_value, plus. cbn [g_type g_min g_args with_args]. rewrite (value_perm f _ _ _ _ (set_insert_perm a _ (proj1 (has_false _ _) H1))). reflexivity.
Qed.
