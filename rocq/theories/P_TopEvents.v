(** C38: the collected top events are the unreferenced gates. *)
From Coq Require Import List Arith Lia Bool Relations Permutation.
From Verif Require Import TopEvents.
Import ListNotations.

(** For every fault tree (with nested components), every acyclic reference structure, and
    every iteration order of the gate set: collection ends; a gate is a top event iff it is
    defined in the fault tree and is an argument of no gate of the fault tree; each top
    event is listed once; and no gate is left marked. *)
Theorem C38_top_events : forall (ft : component) (args : nat -> list nat) (order : list nat),
  Permutation order (gather ft []) ->
  (forall g, ~ clos_trans _ (fun a p => In a (args p) /\ defined_in a ft) g g) ->
  exists tops, collect_top_events args order (S (length order)) [] = Some (tops, [])
    /\ NoDup tops
    /\ forall g, In g tops <->
         defined_in g ft /\ ~ exists p, defined_in p ft /\ In g (args p).
Proof.
  intros ft args order HP HA.
  destruct (gather_ok ft []) as [GN GI].
  assert (OI : forall x, In x order <-> defined_in x ft).
  { intros x. rewrite <- (Permutation_in' (eq_refl x) (Permutation_sym HP)), GI. simpl. intuition. }
  assert (HA' : forall g, ~ clos_trans nat (child args order) g g).
  { intros g T. apply (HA g). revert T.
    assert (G : forall a b, clos_trans nat (child args order) a b ->
       clos_trans nat (fun a p => In a (args p) /\ defined_in a ft) a b).
    { induction 1 as [a b [H1 H2]|]; [apply t_step; split; auto; now apply OI|eapply t_trans; eauto]. }
    apply G. }
  destruct (mark_all_ok args order HA' (S (length order)) (Nat.lt_succ_diag_r _) order [] (incl_refl _)
      (good_nil args order)) as (m & E & G & _ & C).
  unfold collect_top_events. rewrite E.
  assert (Hrest : filter (fun g => negb (in_set order g)) m = []).
  { destruct G as [G1 _ _]. clear - G1. induction m as [|x m IH]; simpl; auto.
    unfold in_set at 1. destruct (in_dec Nat.eq_dec x order) as [|N].
    - simpl. apply IH. intros g H. apply G1. simpl; auto.
    - exfalso. apply N, G1. simpl; auto. }
  rewrite Hrest. eexists. split; [reflexivity|]. split.
  - apply NoDup_filter. eapply Permutation_NoDup; [apply Permutation_sym; eassumption|].
    apply GN. constructor.
  - intros g. rewrite filter_In, OI. destruct (in_dec Nat.eq_dec g m) as [H|H].
    + split; [intros [_ ?]; discriminate|]. intros [_ N]. exfalso. apply N.
      destruct (g_par _ _ _ G g H) as (p & Hp & Hg). exists p. split; auto. now apply OI.
    + split; [|intuition]. intros [Hd _]. split; auto. intros (p & Hp & Hg). apply H.
      apply (C p); auto; now apply OI.
Qed.
Print Assumptions C38_top_events.

(** Non-vacuity: gate 4 refers out of the tree (9), gate 3 is used twice; 1 and 5 are tops. *)
Example C38_example :
  let ft := Comp [1; 2] [Comp [3; 4] []; Comp [5] []] in
  let args g := match g with 1 => [2; 3] | 2 => [3; 4] | 4 => [9] | 5 => [4] | _ => [] end in
  collect_top_events args (gather ft []) 6 [] = Some ([5; 1], []).
Proof. reflexivity. Qed.
