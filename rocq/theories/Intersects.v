(** ext::intersects (src/ext/algorithm.h:42-62) on two ranges given as lists, for any
    element type with a comparison [lt] (operator<) returning a Boolean. *)
From Coq Require Import List Arith Lia Bool Sorting.Sorted ZArith.
Import ListNotations.

Section intersects.
Context {A : Type} (lt : A -> A -> bool).

(** The while loop; [n] is a bound on the number of iterations (see [steps_enough]).
    None = the loop did not finish within n iterations. *)
Fixpoint loop (n : nat) (l1 l2 : list A) : option bool :=
  match n with
  | 0 => None
  | S n =>
    match l1, l2 with
    | x :: t1, y :: t2 =>
        if lt x y then loop n t1 l2
        else if lt y x then loop n l1 t2
        else Some true
    | _, _ => Some false
    end
  end.
Definition intersects (l1 l2 : list A) : option bool := loop (S (length l1 + length l2)) l1 l2.

(** Strict weak order, and its equivalence. *)
Record strict_weak : Prop := {
  sw_irrefl : forall x, lt x x = false;
  sw_trans : forall x y z, lt x y = true -> lt y z = true -> lt x z = true;
  sw_incomp : forall x y z, lt x y = false -> lt y x = false -> lt y z = false -> lt z y = false ->
     lt x z = false /\ lt z x = false
}.
Definition equiv (x y : A) : Prop := lt x y = false /\ lt y x = false.
(** Sorted: no element is less than an earlier one. *)
Definition sorted (l : list A) : Prop := StronglySorted (fun x y => lt y x = false) l.

Lemma loop_exact (SW : strict_weak) n l1 l2 :
  length l1 + length l2 < n -> sorted l1 -> sorted l2 ->
  exists b, loop n l1 l2 = Some b /\
    (b = true <-> exists x y, In x l1 /\ In y l2 /\ equiv x y).
Proof.
  revert l1 l2. induction n as [|n IH]; [lia|]. intros l1 l2 Hn S1 S2.
  destruct l1 as [|x t1]; simpl.
  { exists false. split; auto. split; [discriminate|]. intros (? & ? & [] & _). }
  destruct l2 as [|y t2].
  { exists false. split; auto. split; [discriminate|]. intros (? & ? & _ & [] & _). }
  simpl in Hn. destruct (lt x y) eqn:Exy.
  - inversion S1; subst. destruct (IH t1 (y :: t2)) as (b & Hb & Hs); auto; [simpl; lia|].
    exists b. split; auto. rewrite Hs. split.
    + intros (a & c & Ha & Hc & He). exists a, c. simpl; auto.
    + intros (a & c & [<-|Ha] & Hc & He); [|exists a, c; auto]. exfalso.
      (* x < y <= c, so x is not equivalent to c *)
      destruct He as [E1 E2]. destruct Hc as [<-|Hc]; [congruence|].
      inversion S2; subst. rewrite Forall_forall in H4. specialize (H4 _ Hc).
      destruct (lt y c) eqn:Eyc.
      * rewrite (sw_trans SW _ _ _ Exy Eyc) in E1. discriminate.
      * destruct (sw_incomp SW x c y E1 E2 H4 Eyc). congruence.
  - destruct (lt y x) eqn:Eyx.
    + inversion S2; subst. destruct (IH (x :: t1) t2) as (b & Hb & Hs); auto; [simpl; lia|].
      exists b. split; auto. rewrite Hs. split.
      * intros (a & c & Ha & Hc & He). exists a, c. simpl; auto.
      * intros (a & c & Ha & [<-|Hc] & He); [|exists a, c; auto]. exfalso.
        destruct He as [E1 E2]. destruct Ha as [<-|Ha]; [congruence|].
        inversion S1; subst. rewrite Forall_forall in H4. specialize (H4 _ Ha).
        destruct (lt x a) eqn:Exa.
        -- rewrite (sw_trans SW _ _ _ Eyx Exa) in E2. discriminate.
        -- destruct (sw_incomp SW y a x E2 E1 H4 Exa). congruence.
    + exists true. split; auto. split; auto. intros _. exists x, y. simpl. repeat split; auto.
Qed.
End intersects.
