(** C43: the intersection test on sorted ranges. *)
From Coq Require Import List Arith Lia Bool Sorting.Sorted ZArith.
From Verif Require Import Intersects.
Import ListNotations.

(** For every strict weak order and all sorted ranges of any lengths (duplicates allowed)
    the test ends, and says true iff an element of the first range is equivalent to an
    element of the second. *)
Theorem C43_intersects_exact : forall (A : Type) (lt : A -> A -> bool), strict_weak lt ->
  forall l1 l2, sorted lt l1 -> sorted lt l2 ->
  exists b, intersects lt l1 l2 = Some b /\
    (b = true <-> exists x y, In x l1 /\ In y l2 /\ lt x y = false /\ lt y x = false).
Proof. intros A lt SW l1 l2 S1 S2. apply loop_exact; auto. Qed.
Print Assumptions C43_intersects_exact.

Lemma Zlt_strict_weak : strict_weak Z.ltb.
Proof.
  constructor; intros.
  - apply Z.ltb_irrefl.
  - rewrite Z.ltb_lt in *; lia.
  - rewrite !Z.ltb_ge in *; lia.
Qed.

(** As used on the sorted argument sets of gates (int indices): common element or not. *)
Theorem C43_integers : forall l1 l2, StronglySorted Z.le l1 -> StronglySorted Z.le l2 ->
  exists b, intersects Z.ltb l1 l2 = Some b /\ (b = true <-> exists x, In x l1 /\ In x l2).
Proof.
  assert (H : forall l, StronglySorted Z.le l -> sorted Z.ltb l).
  { induction 1; constructor; auto. eapply Forall_impl; [|eassumption]. intros b Hb. simpl in *.
    apply Z.ltb_ge. lia. }
  intros l1 l2 S1 S2.
  destruct (C43_intersects_exact Z Z.ltb Zlt_strict_weak l1 l2) as (b & Hb & Hs); auto.
  exists b. split; auto. rewrite Hs. split.
  - intros (x & y & Hx & Hy & E1 & E2). rewrite Z.ltb_ge in *. exists x. split; auto.
    replace x with y by lia. auto.
  - intros (x & Hx & Hy). exists x, x. rewrite !Z.ltb_irrefl. auto.
Qed.
Print Assumptions C43_integers.

Example C43_example : intersects Z.ltb [-3; 1; 4; 9]%Z [-4; 0; 4; 4]%Z = Some true
  /\ intersects Z.ltb [-3; 1; 9]%Z [-4; 0; 4]%Z = Some false.
Proof. split; reflexivity. Qed.
