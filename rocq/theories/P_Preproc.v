(** C03, C04: preprocessing never changes the Boolean function of the graph.
    Specification vocabulary: [node_value G σ j b], "node j of graph G has the value b when
    the variables are assigned by σ" (Pdag.v), independent of the rewriting functions. *)
From stdpp Require Import gmap.
From Coq Require Import Lia Permutation.
From Verif Require Import Pdag PdagProofs PdagAdd PdagSem PdagKeeps Preproc PreprocProofs PreprocNorm PreprocMerge PreprocNeg PreprocMore.
Open Scope Z_scope.

(** One application of a rewriting function of the preprocessor, under the conditions
    under which the code calls it; the traversals of the code are sequences of these.
    The K/N exclusion is the defect recorded in C01. *)
Inductive step (G G' : graph) : Prop :=
| step_join i a x y b :           (* Pdag::PropagateNullGate: a NULL child is bypassed *)
    gs G !! i = Some x -> (g_type x = kNot \/ g_type x = kNull -> length (g_args x) <= 1)%nat ->
    gs G !! Z.abs a = Some y -> g_args y = [b] ->
    ~ (g_type x = kAtleast /\ length (g_args x) = 3%nat /\ In (b * Z.sgn a) (g_args x)) ->
    join_null_gate i a G = Some G' -> step G G'
| step_coalesce i c l x y u :     (* CoalesceGates *)
    gs G !! i = Some x -> gs G !! c = Some y -> coalesce_type (g_type x) = Some u -> g_type y = u ->
    Permutation l (g_args y) -> coalesce_gate i c l G = Some G' -> step G G'
| step_same p g g' x y y' :       (* ProcessMultipleDefinitions / ReplaceGate *)
    gs G !! p = Some x -> gs G !! g = Some y -> gs G !! g' = Some y' -> same_definition y y' ->
    (In g (g_args x) \/ In (- g) (g_args x)) ->
    ~ (g_type x = kAtleast /\ length (g_args x) = 3%nat /\ (In g' (g_args x) \/ In (- g') (g_args x))) ->
    replace_in_parent p g g' G = Some G' -> step G G'
| step_equal p g g' x y y' r :    (* ReplaceGate later in the pass: the gates have equal values, and the parent is above both *)
    gs G !! p = Some x -> gs G !! g = Some y -> gs G !! g' = Some y' -> (forall ν, consistent G ν -> ν g' = ν g) ->
    ranked G r -> (r g' < r p)%nat -> (In g (g_args x) \/ In (- g) (g_args x)) ->
    ~ (g_type x = kAtleast /\ length (g_args x) = 3%nat /\ (In g' (g_args x) \/ In (- g') (g_args x))) ->
    replace_in_parent p g g' G = Some G' -> step G G'
| step_xor i x :                  (* NormalizeXorGate *)
    gs G !! i = Some x -> g_type x = kXor -> normalize_xor i G = Some G' -> step G G'
| step_atleast fuel pick i :      (* NormalizeAtleastGate, any choice of the pivot *)
    normalize_atleast fuel pick i G = Some G' -> step G G'
| step_merge cs ps t :            (* MergeCommonArgs / TransformCommonArgs *)
    List.NoDup ps -> List.NoDup cs -> t = kAnd \/ t = kOr ->
    (forall p, In p ps -> exists x, gs G !! p = Some x /\ g_type x = t /\ forall a, In a cs -> In a (g_args x)) ->
    merge_common cs ps G = Some G' -> step G G'
| step_module i l x :             (* DetectModules / CreateNewModule *)
    gs G !! i = Some x -> List.NoDup l -> (forall a, In a l -> In a (g_args x)) ->
    create_module i l G = Some G' -> step G G'
| step_absorb i c d x y t u :     (* FilterDistributiveArgs: shared argument, or superset of d *)
    gs G !! i = Some x -> gs G !! c = Some y -> In c (g_args x) ->
    coalesce_type (g_type x) = Some t -> coalesce_type (g_type y) = Some u -> g_type y = u -> u <> t ->
    In d (g_args x) -> d <> c ->
    (In d (g_args y) \/ exists z, gs G !! d = Some z /\ g_type z = u /\ forall e, In e (g_args z) -> In e (g_args y)) ->
    drop_distributive i c G = Some G' -> step G G'
| step_single i x :               (* the end of FilterDistributiveArgs *)
    gs G !! i = Some x -> fix_single i G = Some G' -> step G G'
| step_constant i n s x :         (* Gate::ProcessConstantArg: an argument whose value does not
                                     matter for the gate is fixed to [s] *)
    gs G !! i = Some x -> 1 < n -> (In n (g_args x) \/ In (- n) (g_args x)) ->
    (g_type x = kNot \/ g_type x = kNull -> length (g_args x) <= 1)%nat ->
    (forall ν, consistent G ν -> gate_value (fun j => if j =? n then s else ν j) x = gate_value ν x) ->
    process_constant_arg i n s G = Some G' -> step G G'
| step_candidate c g x y :        (* FilterMergeCandidates: the arguments of g inside c are replaced with g *)
    gs G !! c = Some x -> gs G !! g = Some y -> c <> g -> g_type x = kAnd \/ g_type x = kOr -> g_type x = g_type y ->
    (forall a, In a (g_args y) -> In a (g_args x)) ->
    merge_candidate c g G = Some G' -> step G G'.

Lemma step_keeps G G' : wf G -> acyclic G -> step G G' -> keeps G G'.
Proof.
  intros W A H. destruct H.
  - apply (join_null_keeps i a G G' x b); eauto.
  - apply (coalesce_keeps i c l G G' x y u); auto.
  - apply (same_definition_keeps p g g' G G' x y y'); auto.
  - apply (replace_keeps p g g' G G' x r); auto; [destruct (proj2 W g y); auto; lia|destruct (proj2 W g' y'); auto; lia].
  - apply (normalize_xor_keeps i G G' x); auto.
  - apply (normalize_atleast_correct pick fuel i G G'); auto.
  - apply (merge_common_keeps cs ps G G' t); auto.
  - apply (create_module_keeps i l G G' x); auto.
  - apply (drop_keeps i c G G' x y); auto. exists t, u, d. auto 10.
  - apply (fix_single_keeps i G G' x); auto.
  - apply (constant_keeps i n s G G' x); auto.
  - apply (merge_candidate_keeps c g G G' x y); auto.
Qed.

(** Any number of steps in any order: every node that existed before has the same value
    under every assignment (in particular the root), variables stay variables. *)
Theorem C03_rewriting G G' : wf G -> acyclic G -> rtc step G G' ->
  wf G' /\ acyclic G' /\
  (forall j, 1 < j < nxt G -> (gs G' !! j = None <-> gs G !! j = None)) /\
  (forall j, nxt G <= j < nxt G' -> is_Some (gs G' !! j)) /\
  forall σ j b, 0 < j < nxt G -> (node_value G' σ j b <-> node_value G σ j b).
Proof.
  intros W A H.
  assert (K : keeps G G').
  { induction H as [G|G1 G2 G3 H1 _ IH]; [now apply keeps_refl|].
    pose proof (step_keeps _ _ W A H1) as K1. eapply keeps_trans; [exact K1|]. apply IH; apply K1; auto. }
  split; [apply K|]. split; [now apply K|]. split; [apply K|]. split; [apply K|]. now apply keeps_value.
Qed.

(** NormalizeGates, negative gates: afterwards no NOT/NAND/NOR gate is left, every positive
    node keeps its value, every negative one has it complemented, and the value of the graph
    (root value, complemented if the complement flag is set) is unchanged. *)
Theorem C03_negative_gates G root comp : wf G -> acyclic G ->
  (forall j x, gs G !! j = Some x -> g_type x = kNot -> exists a, g_args x = [a]) ->
  0 < root < nxt G ->
  let (G', comp') := normalize_negative root comp G in
  wf G' /\ acyclic G' /\
  (forall j x, gs G' !! j = Some x -> g_type x <> kNot /\ g_type x <> kNand /\ g_type x <> kNor) /\
  (forall σ b, node_value G' σ root (xorb b comp') <-> node_value G σ root (xorb b comp)) /\
  (forall σ j b, 0 < j < nxt G -> negative_gate G j = false -> (node_value G' σ j b <-> node_value G σ j b)).
Proof.
  intros W A Hn Hr. unfold normalize_negative. change (Graph (positive_gate G <$> gs G) (nxt G) (nulls G) (reg G)) with (fst (normalize_negative root comp G)).
  split; [now apply neg_wf|]. split; [now apply neg_acyclic|]. split; [|split].
  - intros j x Ex. apply neg_types in Ex. repeat split; intros E; now rewrite E in Ex.
  - intros σ b. rewrite <- (neg_value G root comp W A Hn σ root) by auto. now rewrite xorb_assoc.
  - intros σ j b Hj E. rewrite <- (neg_value G root comp W A Hn σ j b Hj). now rewrite E, xorb_false_r.
Qed.

(** C04: full normalisation of a K/N gate, for any choice of the pivot arguments: the gate and
    all gates made for it are AND/OR gates with at least two arguments, no other gate is touched,
    and all values are preserved. *)
Theorem C04_atleast pick fuel i G G' : wf G -> acyclic G -> normalize_atleast fuel pick i G = Some G' ->
  (forall j x, j = i \/ nxt G <= j -> gs G' !! j = Some x -> (g_type x = kAnd \/ g_type x = kOr) /\ 1 < size (g_args x)) /\
  (forall j, j <> i -> j < nxt G -> gs G' !! j = gs G !! j) /\
  forall σ j b, 0 < j < nxt G -> (node_value G' σ j b <-> node_value G σ j b).
Proof.
  intros W A H. destruct (normalize_atleast_correct pick fuel i G G' W H) as (K & O & S).
  split; [exact S|]. split; [exact O|]. now apply keeps_value.
Qed.
Theorem C04_xor i G G' x : wf G -> acyclic G -> gs G !! i = Some x -> g_type x = kXor -> normalize_xor i G = Some G' ->
  (forall j y, j = i \/ nxt G <= j -> gs G' !! j = Some y -> (g_type y = kAnd \/ g_type y = kOr) /\ size (g_args y) = 2) /\
  (forall j, j <> i -> j < nxt G -> gs G' !! j = gs G !! j) /\
  forall σ j b, 0 < j < nxt G -> (node_value G' σ j b <-> node_value G σ j b).
Proof.
  intros W A Ex Et H.
  destruct (normalize_xor_spec i G G' x W Ex H) as (a & b & l1 & l2 & l & Ea & P1 & P2 & P & N & Ei & En & Em & Ho).
  assert (Hsz : forall (m m' : list Z), Permutation m m' -> size m = size m') by (intros m m' Hp; unfold size; now rewrite (Permutation_length Hp)).
  split; [|split].
  - intros j y Hj Ey. assert (Hj' : j = i \/ j = nxt G \/ j = nxt G + 1).
    { destruct Hj as [|L]; [auto|]. destruct (Z.eq_dec j (nxt G)); [auto|]. destruct (Z.eq_dec j (nxt G + 1)); [auto|].
      destruct (Z.eq_dec j i); [auto|]. rewrite Ho in Ey by auto. apply W in Ey. lia. }
    destruct Hj' as [-> | [-> | ->]].
    + rewrite Ei in Ey. injection Ey as <-. simpl. rewrite (Hsz _ _ P). auto.
    + rewrite En in Ey. injection Ey as <-. simpl. rewrite (Hsz _ _ P1). auto.
    + rewrite Em in Ey. injection Ey as <-. simpl. rewrite (Hsz _ _ P2). auto.
  - intros j J L. apply Ho; lia.
  - apply keeps_value; auto. eapply normalize_xor_keeps; eauto.
Qed.

(** ** The hypotheses are met by non-trivial cases *)
(* at least 3 of the variables 2..6 (gate 7), xor of variables 2, 3 (gate 8) *)
Definition ex_pre : graph := Graph {[7 := Gate kAtleast 3 [2; 3; 4; 5; 6]; 8 := Gate kXor 0 [2; 3]; 9 := Gate kNor 0 [7; -8]]} 10 [] true.
Definition ex_pick (G : graph) (i : Z) : Z := match gs G !! i with Some x => List.last (g_args x) 0 | None => 0 end.
Example ex_atleast : exists G', normalize_atleast 4 ex_pick 7 ex_pre = Some G' /\
  nxt G' = 25 /\ gs G' !! 7 = Some (Gate kOr 3 [10; 12]) /\ gs G' !! 10 = Some (Gate kAnd 0 [6; 11]).
Proof. set (G' := default ex_pre (normalize_atleast 4 ex_pick 7 ex_pre)). exists G'. vm_compute. auto. Qed.
Example ex_xor : exists G', normalize_xor 8 ex_pre = Some G' /\ gs G' !! 10 = Some (Gate kAnd 0 [-3; 2]).
Proof. set (G' := default ex_pre (normalize_xor 8 ex_pre)). exists G'. vm_compute. auto. Qed.
Lemma ex_pre_gates i x : gs ex_pre !! i = Some x ->
  (i = 7 /\ x = Gate kAtleast 3 [2; 3; 4; 5; 6]) \/ (i = 8 /\ x = Gate kXor 0 [2; 3]) \/ (i = 9 /\ x = Gate kNor 0 [7; -8]).
Proof.
  intros E. unfold ex_pre in E. cbn [gs] in E.
  apply lookup_insert_Some in E as [[<- <-]|[_ E]]; [auto|]. apply lookup_insert_Some in E as [[<- <-]|[_ E]]; [auto|].
  apply lookup_singleton_Some in E as [<- <-]. auto.
Qed.
Example ex_pre_ok : wf ex_pre /\ acyclic ex_pre.
Proof.
  split; [split; [simpl; lia|]|].
  - intros i x E. destruct (ex_pre_gates i x E) as [[-> ->]|[[-> ->]|[-> ->]]]; cbn [g_args nxt ex_pre]; (split; [lia|]);
    (split; [repeat (constructor; simpl; [lia|]); constructor|simpl; intros a Ha; lia]).
  - exists (fun j => if j =? 9 then 1%nat else 0%nat). intros i x a E Ha [y Hy].
    destruct (ex_pre_gates i x E) as [[-> ->]|[[-> ->]|[-> ->]]]; destruct (ex_pre_gates _ y Hy) as [[Ey _]|[[Ey _]|[Ey _]]];
    simpl in Ha; rewrite Ey; simpl; try lia.
Qed.
Example ex_negative : snd (normalize_negative 9 false ex_pre) = true /\
  gs (fst (normalize_negative 9 false ex_pre)) !! 9 = Some (Gate kOr 0 [-8; 7]).
Proof. vm_compute. auto. Qed.

Print Assumptions C03_rewriting.
Print Assumptions C03_negative_gates.
Print Assumptions C04_atleast.
Print Assumptions C04_xor.
