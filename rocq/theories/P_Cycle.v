(** C30: cycle detection is sound and complete. *)
From Coq Require Import List Arith Lia Bool Relations.
From Verif Require Import Cycle.
Import ListNotations.

(** [l] is a closed walk of at least one step along [refs]. *)
Definition real_cycle (refs : nat -> nat -> Prop) (l : list nat) : Prop :=
  exists c l', l = c :: l' ++ [c] /\
    (forall i a b, nth_error l i = Some a -> nth_error l (S i) = Some b -> refs a b).

Lemma walk_nth connector l : walk connector l ->
  forall i a b, nth_error l i = Some a -> nth_error l (S i) = Some b -> edge connector a b.
Proof.
  induction l as [|x l IH]; intros W i a b Ha Hb; [destruct i; discriminate|].
  destruct l as [|y l]; [destruct i as [|[|i]]; discriminate|].
  destruct W as [E W]. destruct i as [|i]; simpl in Ha, Hb; [congruence|].
  apply (IH W i); auto.
Qed.

(** General form: [refs a b] iff the definition of [a] mentions [b]; [table] is the set of
    nodes given to the check, closed under references.  The check always ends; it raises
    iff there is a cycle, and what it prints is one. *)
Theorem C30_cycle_check :
  forall (connector : nat -> conn) (refs : nat -> nat -> Prop) (table : list nat),
  (forall a b, refs a b <-> In b (conn_nodes (connector a))) ->
  (forall a b, In a table -> refs a b -> In b table) ->
  (check connector (S (length table)) table clear_st = Some None
     /\ (forall n, In n table -> ~ clos_trans _ refs n n))
  \/ (exists l, check connector (S (length table)) table clear_st = Some (Some l)
     /\ real_cycle refs l).
Proof.
  intros connector refs table HR HC.
  assert (CL : forall a b, In a table -> edge connector a b -> In b table).
  { intros a b Ha He. apply (HC a); auto. now apply HR. }
  assert (P := check_ok connector table CL (S (length table)) table [] clear_st (Nat.lt_succ_diag_r _)
            (inv_clear connector) (incl_refl _)).
  destruct (check _ _ _ _) as [[l|]|]; [| |contradiction].
  - right. exists l. split; auto. destruct P as (c & L & Hh & Hl & W).
    destruct l as [|x l]; [discriminate|]. simpl in Hh. inversion Hh; subst x.
    destruct l as [|y l] using rev_ind; [simpl in L; lia|].
    rewrite app_comm_cons in Hl. rewrite last_last in Hl. subst y. exists c, l.
    split; auto. intros i a b Ha Hb. apply HR. eapply walk_nth; eauto.
  - left. split; auto. destruct P as (fin & F & _ & HN). intros n Hn T.
    apply (finished_acyclic connector fin F n); auto.
    assert (G : forall a b, clos_trans _ refs a b -> clos_trans _ (edge connector) a b).
    { induction 1; [apply t_step; now apply HR|eapply t_trans; eauto]. }
    auto.
Qed.
Print Assumptions C30_cycle_check.

(** The verdict is exact: an error iff some node of the table reaches itself. *)
Lemma real_cycle_trans refs l : real_cycle refs l -> exists c, In c l /\ clos_trans nat refs c c.
Proof.
  intros (c & l' & -> & H). exists c. split; [simpl; auto|].
  assert (G : forall l' x, (forall i a b, nth_error (x :: l' ++ [c]) i = Some a ->
       nth_error (x :: l' ++ [c]) (S i) = Some b -> refs a b) -> clos_trans nat refs x c).
  { clear. induction l' as [|y l' IH]; intros x H; simpl in H.
    - apply t_step. apply (H 0); auto.
    - eapply t_trans; [apply t_step; apply (H 0); simpl; eauto|]. apply IH.
      intros i a b Ha Hb. apply (H (S i)); auto. }
  eapply G. eauto.
Qed.

Section tables.
Context (table : list nat).
Definition verdict (connector : nat -> conn) (refs : nat -> nat -> Prop) : Prop :=
  (check connector (S (length table)) table clear_st = Some None
     /\ (forall n, In n table -> ~ clos_trans _ refs n n))
  \/ (exists l, check connector (S (length table)) table clear_st = Some (Some l)
     /\ real_cycle refs l).

(** Gates through formulas. *)
Theorem C30_gates : forall formula : nat -> list farg,
  (forall a b, In a table -> In (FGate b) (formula a) -> In b table) ->
  verdict (fun n => conn_formula (formula n)) (fun a b => In (FGate b) (formula a)).
Proof.
  intros f H. apply C30_cycle_check; auto. intros. symmetry. apply conn_formula_nodes.
Qed.

(** Parameters through arbitrarily nested expressions. *)
Theorem C30_parameters : forall definition : nat -> expr,
  (forall a b, In a table -> In b (expr_params (definition a)) -> In b table) ->
  verdict (fun n => conn_parameter (definition n)) (fun a b => In b (expr_params (definition a))).
Proof.
  intros f H. apply C30_cycle_check; auto. intros a b. unfold conn_parameter.
  rewrite conn_expr_nodes. simpl. now rewrite app_nil_r.
Qed.

(** Named branches through nested forks. *)
Theorem C30_branches : forall tgt : nat -> target,
  (forall a b, In a table -> In b (target_branches (tgt a)) -> In b table) ->
  verdict (fun n => conn_branch (tgt n)) (fun a b => In b (target_branches (tgt a))).
Proof.
  intros f H. apply C30_cycle_check; auto. intros a b. now rewrite conn_branch_nodes.
Qed.

(** Rules through nested instructions (both sides of a conditional). *)
Theorem C30_rules : forall instructions : nat -> list instr,
  (forall a b, In a table -> In b (flat_map instr_rules (instructions a)) -> In b table) ->
  verdict (fun n => conn_rule (instructions n)) (fun a b => In b (flat_map instr_rules (instructions a))).
Proof.
  intros f H. apply C30_cycle_check; auto. intros a b. now rewrite conn_rule_nodes.
Qed.

(** Event-tree links: a link refers to the links in the end states of its tree. *)
Theorem C30_links : forall tree : nat -> utree,
  (forall a b, In a table -> In b (tree_links (tree a)) -> In b table) ->
  verdict (fun n => conn_tree (tree n)) (fun a b => In b (tree_links (tree a))).
Proof.
  intros f H. apply C30_cycle_check; auto. intros a b. now rewrite conn_tree_nodes.
Qed.
End tables.
Print Assumptions C30_gates.
Print Assumptions C30_parameters.
Print Assumptions C30_branches.
Print Assumptions C30_rules.
Print Assumptions C30_links.

(** Non-vacuity: a diamond with no cycle; a cycle behind a tail (printed without the tail);
    a self reference through a nested expression. *)
Example C30_diamond :
  let f n := match n with 0 => [FGate 1; FOther; FGate 2] | 1 => [FGate 3] | 2 => [FGate 3; FGate 1] | _ => [] end in
  check (fun n => conn_formula (f n)) 5 [0; 1; 2; 3] clear_st = Some None.
Proof. reflexivity. Qed.
Example C30_tail :
  let f n := match n with 0 => [FGate 1] | 1 => [FGate 2] | 2 => [FOther; FGate 3] | _ => [FGate 1] end in
  check (fun n => conn_formula (f n)) 5 [0; 1; 2; 3] clear_st = Some (Some [1; 2; 3; 1]).
Proof. reflexivity. Qed.
Example C30_self :
  check (fun _ => conn_parameter (EOp [EOp []; EOp [EParam 7]])) 2 [7] clear_st = Some (Some [7; 7]).
Proof. reflexivity. Qed.
