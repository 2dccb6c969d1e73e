(** C03: preprocessing never changes the Boolean function of the graph.
    Specification vocabulary: [node_value G σ j b] (Pdag.v), "node j of graph G has the value b when the
    variables are assigned by σ"; the value of a graph is that of its root, complemented if the
    complement flag is set.  [phase] collects every rewriting of the preprocessor with the conditions
    under which the code applies it; a run of the preprocessor, whatever the order of its phases and
    the number of rounds (/repo/src/preprocessor.cc:320-420, 2369-2409), is a sequence of them. *)
From stdpp Require Import gmap.
From Coq Require Import Lia Permutation List.
From Verif Require Import Pdag PdagProofs PdagAdd PdagSem PdagKeeps Preproc PreprocProofs PreprocNorm PreprocMerge PreprocNeg PreprocMore P_Preproc.
From Verif Require Complement ComplementProofs P_Complement.
From Verif Require Import Rooted Decompose DecomposeProofs Distribute DistributeProofs DistributeMain BoolOpt BoolOptProofs BoolOptEdits BoolOptFinal Shaped ShapedOps ShapedPhases NullGates NullGatesProofs.
Import ListNotations.
Open Scope Z_scope.

(** ** What the code knows about its containers *)
(** parents(): every gate below the root that has the node as an argument is among its parents. *)
Definition knows_parents (root : Z) (parents : graph -> Z -> list Z) : Prop :=
  forall G p g x, reach G root p -> gs G !! p = Some x -> arg_in g x -> In p (parents G g).
(** parents() has no other gates and none of them twice. *)
Definition exact_parents (parents : graph -> Z -> list Z) : Prop :=
  (forall G g p, In p (parents G g) -> exists x, gs G !! p = Some x /\ arg_in g x) /\ forall G g, List.NoDup (parents G g).
(** args<Gate>(): the arguments that are gates, in the order of the container. *)
Definition gate_order (order : graph -> Z -> list Z) : Prop :=
  forall G i x, gs G !! i = Some x -> Permutation (order G i) (List.filter (is_gate G) (g_args x)).

(** ** The phases *)
Inductive phase (root : Z) (comp : bool) (G : graph) : Z -> bool -> graph -> Prop :=
| phase_step G' : step G G' -> phase root comp G root comp G'          (* local rewriting, P_Preproc.v *)
| phase_negative G' comp' :                                             (* NormalizeGates, NOT/NAND/NOR *)
    (forall j x, gs G !! j = Some x -> g_type x = kNot -> exists a, g_args x = [a]) ->
    normalize_negative root comp G = (G', comp') -> phase root comp G root comp' G'
| phase_null parents expired fuel G' :                                  (* Pdag::RemoveNullGates *)
    (forall H, rtc joins (unregistered G) H -> no_clash H) ->
    remove_null_gates parents expired fuel G = Some G' -> phase root comp G root comp G'
| phase_trivial parents expired fuel t root' comp' G' :                 (* Pdag::IsTrivial *)
    (forall H, rtc joins (unregistered G) H -> no_clash H) ->
    is_trivial parents expired fuel root comp G = Some (t, root', comp', G') -> phase root comp G root' comp' G'
| phase_complement single order fuel G' :                                  (* phase IV, PropagateComplements *)
    (forall root G C g, single G C g = true -> forall p q, Complement.in_memory root G C p -> Complement.in_memory root G C q -> Complement.parent G p g -> Complement.parent G q g -> p = q) ->
    (forall G i x, gs G !! i = Some x -> Permutation (order G i) (List.filter (fun a => bool_decide (is_Some (gs G !! Z.abs a))) (g_args x))) ->
    ComplementProofs.tidy G root ->
    Complement.phase_four single order fuel root comp G = Some G' -> phase root comp G root false G'
| phase_decompose parents timed order fuel n dest desc G' :             (* DecomposeCommonNodes for one node *)
    knows_parents root parents ->
    (forall G i a, In a (order G i) -> exists x, gs G !! i = Some x /\ In a (g_args x) /\ is_Some (gs G !! Z.abs a)) ->
    (forall P, P <> root -> timed P root = false) -> 1 < n ->
    process_destinations parents timed order fuel n dest desc G = Some G' -> phase root comp G root comp G'
| phase_common parents order users arrange mods fuel n worthwhile root' G' : (* BooleanOptimization for one node *)
    knows_parents root parents -> exact_parents parents -> gate_order order ->
    (forall G d p, In p (users G d) <-> exists x, gs G !! p = Some x /\ arg_in d x) -> (forall G d, List.NoDup (users G d)) ->
    (forall D d, In d (arrange D) <-> d ∈ D) -> (forall D, List.NoDup (arrange D)) ->
    1 < n < nxt G -> preach G root n -> root ∈ mods ->
    process_common_node parents order users arrange mods fuel n worthwhile root G = Some (root', G') -> phase root comp G root' comp G'
| phase_distribute u parents sorted arranged best i cands xi G' :       (* HandleDistributiveArgs *)
    u = kAnd \/ u = kOr -> knows_parents root parents ->
    (forall G l, Permutation (sorted G l) l) -> (forall l, Permutation (arranged l) l) ->
    reach G root i -> gs G !! i = Some xi -> coalesce_type (g_type xi) = Some (dual u) ->
    List.NoDup cands -> (forall c, In c cands -> In c (g_args xi) /\ exists x, gs G !! c = Some x /\ g_type x = u) ->
    handle_distributive parents sorted arranged best i u cands G = Some G' -> phase root comp G root comp G'.
(** Any number of phases in any order. *)
Inductive preprocess (root : Z) (comp : bool) (G : graph) : Z -> bool -> graph -> Prop :=
| pre_done : preprocess root comp G root comp G
| pre_phase root1 comp1 G1 root2 comp2 G2 : phase root comp G root1 comp1 G1 -> preprocess root1 comp1 G1 root2 comp2 G2 -> preprocess root comp G root2 comp2 G2.

Lemma roomy_good G : roomy G -> forall j x, gs G !! j = Some x -> shape x /\ tidy x.
Proof. intros R j x E. destruct (good_at G j x (proj1 R) E) as (A & B & _). auto. Qed.
Lemma roomy_arity G : roomy G -> forall j x, gs G !! j = Some x -> arity x.
Proof. intros R j x E. destruct (good_at G j x (proj1 R) E) as (A & _). intros T. apply A. auto. Qed.

Lemma phase_four_mono single order n root comp G G' fuel : Complement.phase_four single order n root comp G = Some G' -> (n <= fuel)%nat -> Complement.phase_four single order fuel root comp G = Some G'.
Proof.
  unfold Complement.phase_four. intros H L. apply bind_inv in H as (G1 & E1 & H). apply bind_inv in H as (s & E2 & H). rewrite E1. cbn [mbind option_bind]. rewrite (P_Complement.propagate_mono single order n fuel root _ s L E2). exact H.
Qed.
Lemma phase_ok root comp G root' comp' G' : wf G -> acyclic G -> roomy G -> is_Some (gs G !! root) ->
  phase root comp G root' comp' G' -> same_graph root comp G root' comp' G' /\ roomy G'.
Proof.
  intros W A R Sr P. destruct P as [G' ST|G' comp' HN E|parents expired fuel G' NC E|parents expired fuel t root' comp' G' NC E|single order fuel G' SI OR TI E|parents timed order fuel n dest desc G' PA OR TM Ln E|parents order users arrange mods fuel n worthwhile root' G' PA [EP1 EP2] OR US USN AR ARN Ln RN RM E|u parents sorted arranged best i cands xi G' Hu PA SO AR RI Ei Ti ND HC E].
  - split; [|eapply step_roomy; eauto]. apply same_function_graph, keeps_same_function; auto. apply step_keeps; auto.
  - assert (LR : 0 < root < nxt G) by (destruct Sr as [x Ex]; apply W in Ex; lia). pose proof (C03_negative_gates G root comp W A HN LR) as C. pose proof (negative_roomy root comp G W A R) as R'. rewrite E in C, R'. cbn [fst] in R'. destruct C as (C1 & C2 & _ & C4 & _). split; [|auto].
    assert (EG : G' = Graph (positive_gate G <$> gs G) (nxt G) (nulls G) (reg G)) by (unfold normalize_negative in E; congruence).
    constructor; [auto|auto|rewrite EG; cbn; lia| | |auto].
    + destruct Sr as [x Ex]. rewrite EG. cbn [gs]. rewrite lookup_fmap, Ex. eauto.
    + intros j L. rewrite EG in *. cbn [gs nxt] in *. rewrite lookup_fmap. destruct (gs G !! j); cbn; split; try discriminate; try tauto; intros [_ Q]; discriminate.
  - destruct (remove_null_keeps parents expired fuel G G' W A R NC E) as (K & R' & _). split; [|auto]. apply same_function_graph, keeps_same_function; auto.
  - destruct (is_trivial_ok parents expired fuel root comp G t root' comp' G' W A R Sr NC E) as (K & R' & _). auto.
  - destruct (P_Complement.C05_complements single order SI OR root comp G W A TI) as (m & G2 & F & W2 & A2 & T2 & N2 & V2 & _ & S2). pose proof (F (max fuel m) ltac:(lia)) as E2. rewrite (phase_four_mono _ _ _ _ _ _ _ (max fuel m) E ltac:(lia)) in E2. injection E2 as <-.
    split; [|eapply phase_four_roomy; [exact R|exact E]]. constructor; [auto|auto|auto|apply T2|auto|]. intros σ b. rewrite xorb_false_r. apply S2.
  - split; [|eapply process_destinations_roomy; [exact Ln|exact R|exact E]]. apply same_function_graph. apply (destinations_ok parents timed order root) with (fuel := fuel) (n := n) (dest := dest) (desc := desc); auto; [|apply roomy_arity; auto]. intros G0 g p x. apply PA.
  - split; [|eapply common_node_roomy; [|exact R|exact E]; lia]. apply same_function_graph. apply (common_node_ok parents order users arrange mods EP1 EP2 OR US USN AR ARN fuel n worthwhile root G root' G' W A Ln RN RM); [intros p g x; apply PA|apply roomy_good; auto|auto].
  - split; [apply same_function_graph; eapply handle_distributive_ok; eauto|]. eapply handle_distributive_roomy; [exact Hu|exact SO|exact AR| |exact R|exact E]. intros c Ic. destruct (HC c Ic) as (_ & x & Ex & _). apply (key G c x (proj1 R) Ex).
Qed.

(** C03.  For every graph whose gates have the arities of their connectives, every choice of the
    oracles and every sequence of phases: the resulting graph with its root and complement flag has the
    value of the original one under every assignment; no variable is made or lost; the result is again
    well-formed, acyclic and fit for further phases. *)
Theorem C03_preprocess root comp G root' comp' G' : wf G -> acyclic G -> roomy G -> is_Some (gs G !! root) ->
  preprocess root comp G root' comp' G' ->
  (forall σ b, node_value G' σ root' (xorb b comp') <-> node_value G σ root (xorb b comp)) /\
  (forall j, 1 < j < nxt G' -> (gs G' !! j = None <-> j < nxt G /\ gs G !! j = None)) /\
  wf G' /\ acyclic G' /\ roomy G' /\ is_Some (gs G' !! root').
Proof.
  intros W A R Sr P.
  assert (X : same_graph root comp G root' comp' G' /\ roomy G').
  { induction P as [root comp G|root comp G root1 comp1 G1 root2 comp2 G2 P _ IH]; [split; [apply same_graph_refl; auto|auto]|]. destruct (phase_ok _ _ _ _ _ _ W A R Sr P) as [S1 R1]. destruct (IH (g_wf _ _ _ _ _ _ S1) (g_acyclic _ _ _ _ _ _ S1) R1 (g_root _ _ _ _ _ _ S1)) as [S2 R2]. split; [|auto]. eapply same_graph_trans; eauto. }
  destruct X as [[a1 a2 a3 a4 a5 a6] R']. auto 10.
Qed.

(** RemoveNullGates (pdag.cc:795-821): if all NULL gates that are arguments below the root are
    registered, none of them is left, and no constant; a NULL gate or a constant can only be the root. *)
Theorem C03_null_gates parents expired root fuel G G' : knows_parents root parents ->
  (forall G p g x, expired G g = true -> reach G root p -> gs G !! p = Some x -> ~ arg_in g x) ->
  wf G -> acyclic G -> roomy G -> 1 < root < nxt G -> (forall H, rtc joins (unregistered G) H -> no_clash H) ->
  (forall p x a y, reach G root p -> gs G !! p = Some x -> In a (g_args x) -> gs G !! Z.abs a = Some y -> g_type y = kNull -> In (Z.abs a) (nulls G)) ->
  remove_null_gates parents expired fuel G = Some G' ->
  nulls G' = [] /\ (forall σ j b, 0 < j < nxt G -> (node_value G' σ j b <-> node_value G σ j b)) /\
  forall j y, reach G' root j -> gs G' !! j = Some y -> j <> root -> g_type y <> kNull /\ constant y = false.
Proof.
  intros PA EX W A R LR NC PE E. destruct (remove_null_keeps parents expired fuel G G' W A R NC E) as (K & _ & N). split; [auto|]. split; [apply keeps_value; auto|].
  apply (remove_null_complete parents expired root PA EX fuel G G' W A R LR NC PE E).
Qed.
(** IsTrivial (pdag.cc:759-793): the value of the graph stays; a trivial graph is a NULL root of a
    variable or a constant without the complement flag; otherwise the root is not a NULL gate. *)
Theorem C03_trivial parents expired fuel root comp G t root' comp' G' : wf G -> acyclic G -> roomy G -> is_Some (gs G !! root) ->
  (forall H, rtc joins (unregistered G) H -> no_clash H) ->
  is_trivial parents expired fuel root comp G = Some (t, root', comp', G') ->
  (forall σ b, node_value G' σ root' (xorb b comp') <-> node_value G σ root (xorb b comp)) /\
  (t = true -> comp' = false /\ exists x a, gs G' !! root' = Some x /\ g_type x = kNull /\ g_args x = [a] /\ gs G' !! Z.abs a = None) /\
  (t = false -> exists x, gs G' !! root' = Some x /\ g_type x <> kNull).
Proof. intros W A R Sr NC E. destruct (is_trivial_ok _ _ _ _ _ _ _ _ _ _ W A R Sr NC E) as (K & _ & T). split; [apply K|auto]. Qed.

(** ** A concrete run through all phases *)
Definition ok {A} (o : option A) : bool := match o with Some _ => true | None => false end.
Lemma ok_default {A} (o : option A) d : ok o = true -> o = Some (default d o).
Proof. destruct o; [reflexivity|discriminate]. Qed.
(** Concrete containers: the whole map is searched, arguments and candidates keep their order. *)
Definition holders := P_Complement.holders.
Definition list_order := P_Complement.list_order.
Lemma holders_In G p g : In p (holders G g) <-> exists x, gs G !! p = Some x /\ arg_in g x.
Proof.
  unfold holders, P_Complement.holders. rewrite in_map_iff. split.
  - intros ([q x] & <- & H). apply List.filter_In in H as [H1 H2]. apply elem_of_list_In, elem_of_map_to_list in H1. apply orb_true_iff in H2. rewrite !has_In in H2. exists x. auto.
  - intros (x & E & H). exists (p, x). split; [auto|]. apply List.filter_In. split; [apply elem_of_list_In, elem_of_map_to_list; auto|]. apply orb_true_iff. rewrite !has_In. exact H.
Qed.
Lemma holders_nodup G g : List.NoDup (holders G g).
Proof.
  unfold holders, P_Complement.holders. pose proof (NoDup_fst_map_to_list (gs G)) as N. revert N. generalize (map_to_list (gs G)). intros l N. apply NoDup_ListNoDup in N. change (fmap fst l) with (map fst l) in N. induction l as [|[q x] l IH]; [constructor|]. cbn in N. inversion_clear N as [|? ? N1 N2].
  cbn [List.filter]. destruct (_ || _); [|auto]. cbn. constructor; [|auto]. intros I. apply N1. apply in_map_iff in I as (z & E & I). apply List.filter_In in I as [I _]. apply in_map_iff. eauto.
Qed.
Lemma holders_know root : knows_parents root holders.
Proof. intros G p g x _ E H. apply holders_In. eauto. Qed.
Lemma holders_exact : exact_parents holders.
Proof. split; [intros G g p H; apply holders_In; auto|apply holders_nodup]. Qed.
Lemma list_order_gates : gate_order list_order.
Proof. intros G i x E. unfold list_order, P_Complement.list_order. rewrite E. erewrite (List.filter_ext _ (is_gate G)); [reflexivity|]. intros a. unfold is_gate. destruct (gs G !! Z.abs a); reflexivity. Qed.
Lemma list_order_In G i a : In a (list_order G i) -> exists x, gs G !! i = Some x /\ In a (g_args x) /\ is_Some (gs G !! Z.abs a).
Proof. unfold list_order, P_Complement.list_order. destruct (gs G !! i) as [x|]; [|intros []]. intros H. apply List.filter_In in H as [H1 H2]. apply bool_decide_eq_true in H2. eauto. Qed.
Lemma elements_In (D : gset Z) d : In d (elements D) <-> d ∈ D.
Proof. rewrite <- elem_of_list_In. apply elem_of_elements. Qed.

(** not (2 and ((2 and 4) or (2 and 5) or 3)); the root is 9. *)
Definition e0 : graph := Graph {[ 6 := Gate kAnd 0 [2; 4]; 7 := Gate kAnd 0 [2; 5]; 8 := Gate kOr 0 [3; 6; 7]; 9 := Gate kNand 0 [2; 8] ]} 10 [] true.
(** NormalizeGates *)
Definition e1 : graph := fst (normalize_negative 9 false e0).
(** HandleDistributiveArgs: 2 is factored out of the gates 6 and 7. *)
Definition e2 : graph := default e0 (handle_distributive holders (fun _ l => l) (fun l => l) (fun _ => 0%nat) 8 kAnd [6; 7] e1).
(** RemoveNullGates *)
Definition e3 : graph := default e0 (remove_null_gates holders (fun _ _ => false) 5 e2).
(** DecomposeCommonNodes: below the root 2 is true. *)
Definition e4 : graph := default e0 (process_destinations holders (fun _ g => negb (g =? 9)) list_order 9 2 [9] {[8; 10]} e3).
Definition e5 : graph := default e0 (remove_null_gates holders (fun _ _ => false) 5 e4).
(** CoalesceGates *)
Definition e6 : graph := default e0 (coalesce_gate 8 11 [4; 5] e5).
(** PropagateComplements *)
Definition e7 : graph := default e0 (Complement.phase_four P_Complement.count_single list_order 9 9 true e6).
Definition view (G : graph) (l : list Z) : list (option (conn * list Z)) := map (fun i => x ← gs G !! i; Some (g_type x, g_args x)) l.
Example e1_view : (view e1 [9], snd (normalize_negative 9 false e0)) = ([Some (kAnd, [2; 8])], true).
Proof. vm_compute. reflexivity. Qed.
Example e2_view : (view e2 [8; 10; 11; 6; 7], nulls e2) = ([Some (kOr, [3; 10]); Some (kAnd, [2; 11]); Some (kOr, [6; 7]); Some (kNull, [4]); Some (kNull, [5])], [6; 7]).
Proof. vm_compute. reflexivity. Qed.
Example e3_view : (view e3 [8; 10; 11], nulls e3) = ([Some (kOr, [3; 10]); Some (kAnd, [2; 11]); Some (kOr, [4; 5])], []).
Proof. vm_compute. reflexivity. Qed.
Example e4_view : (view e4 [8; 10; 11], nulls e4) = ([Some (kOr, [3; 10]); Some (kNull, [11]); Some (kOr, [4; 5])], [10]).
Proof. vm_compute. reflexivity. Qed.
Example e5_view : view e5 [8; 11] = [Some (kOr, [3; 11]); Some (kOr, [4; 5])].
Proof. vm_compute. reflexivity. Qed.
Example e6_view : view e6 [8; 9] = [Some (kOr, [3; 4; 5]); Some (kAnd, [2; 8])].
Proof. vm_compute. reflexivity. Qed.
Example e7_view : view e7 [8; 9] = [Some (kAnd, [-5; -4; -3]); Some (kOr, [-2; 8])].
Proof. vm_compute. reflexivity. Qed.

Lemma e0_cases i x : gs e0 !! i = Some x -> i = 6 /\ x = Gate kAnd 0 [2; 4] \/ i = 7 /\ x = Gate kAnd 0 [2; 5] \/ i = 8 /\ x = Gate kOr 0 [3; 6; 7] \/ i = 9 /\ x = Gate kNand 0 [2; 8].
Proof. unfold e0. cbn [gs]. intros E. repeat (apply lookup_insert_Some in E as [[<- <-]|[_ E]]; [tauto|]). apply lookup_singleton_Some in E as [<- <-]. tauto. Qed.
Lemma e0_wf : wf e0.
Proof. split; [reflexivity|]. intros i x E. apply e0_cases in E as [[-> ->]|[[-> ->]|[[-> ->]|[-> ->]]]]; (split; [cbn; lia|]); (split; [repeat constructor; cbn; lia|]); cbn; intros a Ha; repeat destruct Ha as [<-|Ha]; try destruct Ha; cbn; lia. Qed.
Lemma e0_acyclic : acyclic e0.
Proof. exists Z.to_nat. intros i x a E Ia _. apply e0_cases in E as [[-> ->]|[[-> ->]|[[-> ->]|[-> ->]]]]; cbn in Ia; repeat destruct Ia as [<-|Ia]; try destruct Ia; cbn; lia. Qed.
Lemma e0_roomy : roomy e0.
Proof.
  split; [|reflexivity]. intros i x E. apply e0_cases in E as [[-> ->]|[[-> ->]|[[-> ->]|[-> ->]]]]; (split; [cbn; lia|]); (split; [split; cbn; [intros [Q|Q]; discriminate Q|intros Q; discriminate Q]|]; split; [intros C; discriminate C|repeat constructor; cbn; lia]).
Qed.
Lemma no_atleast_check G : forallb (fun p => negb (conn_eqb (g_type p.2) kAtleast)) (map_to_list (gs G)) = true -> no_atleast (unregistered G).
Proof. intros H j x E T. rewrite forallb_forall in H. specialize (H (j, x)). cbn in E. cbn [snd] in H. rewrite T in H. cut (false = true); [discriminate|apply H]. apply elem_of_list_In, elem_of_map_to_list. auto. Qed.
Lemma reach_next G i j x a : gs G !! i = Some x -> In a (g_args x) -> reach G (Z.abs a) j -> reach G i j.
Proof. intros E I R. eapply reach_trans; [|exact R]. eapply reach_arg; [constructor|exact E|exact I]. Qed.
Lemma e6_like_tidy G : gs G !! 9 = Some (Gate kAnd 0 [2; 8]) -> gs G !! 8 = Some (Gate kOr 0 [3; 4; 5]) -> gs G !! 2 = None -> gs G !! 3 = None -> gs G !! 4 = None -> gs G !! 5 = None -> ComplementProofs.tidy G 9.
Proof.
  intros E9 E8 V2 V3 V4 V5.
  split; [eauto|]. assert (M : forall i, Complement.in_memory 9 G ∅ i -> i = 9 \/ i = 8).
  { induction 1 as [H|g c H1 H2|i x a H1 IH H2 H3 H4]; [auto|rewrite lookup_empty in H1; discriminate|].
    assert (NO : forall j, gs G !! j = None -> ~ is_Some (gs G !! j)) by (intros j Q [w Q']; congruence).
    destruct IH as [->| ->]; [rewrite E9 in H2|rewrite E8 in H2]; injection H2 as <-; cbn [g_args] in H3.
    - destruct H3 as [<-|[<-|[]]]; [exfalso; exact (NO 2 V2 H4)|auto].
    - destruct H3 as [<-|[<-|[<-|[]]]]; exfalso; [exact (NO 3 V3 H4)|exact (NO 4 V4 H4)|exact (NO 5 V5 H4)]. }
  intros i x Mi E. destruct (M i Mi) as [-> | ->]; [rewrite E9 in E|rewrite E8 in E]; injection E as <-; (split; [tauto|]); (split; [cbn; lia|reflexivity]).
Qed.
Lemma e6_tidy : ComplementProofs.tidy e6 9.
Proof. apply e6_like_tidy; vm_compute; reflexivity. Qed.
Example e_run : preprocess 9 false e0 9 false e7.
Proof.
  eapply (pre_phase 9 false e0 9 true e1).
  { assert (C1 : snd (normalize_negative 9 false e0) = true) by (vm_compute; reflexivity). apply phase_negative; [|rewrite (surjective_pairing (normalize_negative 9 false e0)), C1; reflexivity]. intros j x E T. apply e0_cases in E as [[-> ->]|[[-> ->]|[[-> ->]|[-> ->]]]]; discriminate T. }
  eapply (pre_phase 9 true e1 9 true e2).
  { eapply (phase_distribute 9 true e1 kAnd holders (fun _ l => l) (fun l => l) (fun _ => 0%nat) 8 [6; 7] (Gate kOr 0 [3; 6; 7]) e2).
    - auto.
    - apply holders_know.
    - auto.
    - auto.
    - eapply (reach_next _ 9 8 (Gate kAnd 0 [2; 8]) 8); [vm_compute; reflexivity|cbn; auto|constructor].
    - vm_compute; reflexivity.
    - reflexivity.
    - repeat constructor; cbn; lia.
    - intros c [<-|[<-|[]]]; (split; [cbn; tauto|]); eexists; (split; [vm_compute; reflexivity|reflexivity]).
    - apply ok_default. vm_compute. reflexivity. }
  eapply (pre_phase 9 true e2 9 true e3).
  { eapply (phase_null 9 true e2 holders (fun _ _ => false) 5); [apply no_atleast_clash, no_atleast_check; vm_compute; reflexivity|]. apply ok_default. vm_compute. reflexivity. }
  eapply (pre_phase 9 true e3 9 true e4).
  { eapply (phase_decompose 9 true e3 holders (fun _ g => negb (g =? 9)) list_order 9 2 [9] {[8; 10]}); [apply holders_know|apply list_order_In|auto|lia|]. apply ok_default. vm_compute. reflexivity. }
  eapply (pre_phase 9 true e4 9 true e5).
  { eapply (phase_null 9 true e4 holders (fun _ _ => false) 5); [apply no_atleast_clash, no_atleast_check; vm_compute; reflexivity|]. apply ok_default. vm_compute. reflexivity. }
  eapply (pre_phase 9 true e5 9 true e6).
  { apply phase_step. eapply (step_coalesce e5 e6 8 11 [4; 5] (Gate kOr 0 [3; 11]) (Gate kOr 0 [4; 5]) kOr); [vm_compute; reflexivity|vm_compute; reflexivity|reflexivity|reflexivity|reflexivity|]. apply ok_default. vm_compute. reflexivity. }
  eapply (pre_phase 9 true e6 9 false e7); [|constructor].
  eapply (phase_complement 9 true e6 P_Complement.count_single list_order 9); [apply P_Complement.count_single_ok|apply P_Complement.list_order_ok|apply e6_tidy|]. apply ok_default. vm_compute. reflexivity.
Qed.
(** The theorem applies: the run computes not (2 and (3 or 4 or 5)). *)
Example C03_nonvacuous : forall σ b, node_value e7 σ 9 (xorb b false) <-> node_value e0 σ 9 (xorb b false).
Proof. apply (C03_preprocess 9 false e0 9 false e7 e0_wf e0_acyclic e0_roomy); [eexists; reflexivity|apply e_run]. Qed.
(** BooleanOptimization: 2 or (3 and (2 or 4)) is 2 or (3 and 4). *)
Definition o0 : graph := Graph {[ 6 := Gate kOr 0 [2; 4]; 7 := Gate kAnd 0 [3; 6]; 8 := Gate kOr 0 [2; 7] ]} 9 [] true.
Definition o1 : option (Z * graph) := process_common_node holders list_order holders elements {[8]} 9 2 true 8 o0.
Example o1_view : (r ← o1; Some (r.1, view r.2 [8; 7; 6])) = Some (8, [Some (kOr, [2; 7]); Some (kAnd, [3; 6]); Some (kNull, [4])]).
Proof. vm_compute. reflexivity. Qed.
Example o1_phase : exists root G, o1 = Some (root, G) /\ phase 8 true o0 root true G.
Proof.
  assert (OK : ok o1 = true) by (vm_compute; reflexivity). destruct o1 as [[root G]|] eqn:E; [|discriminate OK]. exists root, G. split; [auto|].
  eapply (phase_common 8 true o0 holders list_order holders elements {[8]} 9 2 true); [apply holders_know|apply holders_exact|apply list_order_gates|intros; apply holders_In|apply holders_nodup|apply elements_In|intros D; apply NoDup_ListNoDup, NoDup_elements|cbn; lia| |apply elem_of_singleton; auto|exact E].
  exists (Gate kOr 0 [2; 7]), 2. split; [vm_compute; reflexivity|]. split; [left; auto|constructor].
Qed.
(** IsTrivial: the complement of a variable below two NULL gates. *)
Definition e9 : graph := Graph {[ 5 := Gate kNull 0 [-4]; 4 := Gate kNull 0 [2] ]} 6 [4] true.
Example e9_trivial : (r ← is_trivial holders (fun _ _ => false) 5 5 true e9; Some (r.1, view r.2 [5])) = Some (true, 5, false, [Some (kNull, [2])]).
Proof. vm_compute. reflexivity. Qed.
Print Assumptions C03_preprocess.
Print Assumptions C03_null_gates.
