(** C50: once normalised, the graph stays normalised.  No phase of the preprocessor brings a connective
    back that NormalizeGates has removed, complements a gate after the complements have been propagated
    to the variables, or makes a coherent graph non-coherent.
    The asserts of /repo/src/preprocessor.cc:164, 246-318 (the normal form and coherence of the sanity
    checks), 1942 and 2033 rest on this.
    Vocabulary: [preprocess] (P_Preprocess.v), any run of the preprocessor; [gs G !! j = Some x]: node j
    of the graph is the gate x with its connective and its signed arguments. *)
From stdpp Require Import gmap.
From Coq Require Import Lia Permutation List.
From Verif Require Import Pdag PdagProofs PdagAdd PdagSem PdagKeeps Preproc P_Preproc Rooted Decompose BoolOpt BoolOptProofs Distribute NullGates NullGatesProofs Shaped ShapedOps P_Preprocess Neat Live.
From Verif Require Complement ComplementProofs P_Complement Order P_Order.
Import ListNotations.
Open Scope Z_scope.

(** ** Specification *)
(** All gates have connectives of the list. *)
Definition only (ts : list conn) (G : graph) : Prop := forall j x, gs G !! j = Some x -> In (g_type x) ts.
(** No gate is an argument under a complement. *)
Definition complements_at_leaves (G : graph) : Prop := forall j x a, gs G !! j = Some x -> In a (g_args x) -> is_Some (gs G !! Z.abs a) -> 0 < a.
(** No argument is under a complement, but for the constant false. *)
Definition no_complements (G : graph) : Prop := forall j x a, gs G !! j = Some x -> In a (g_args x) -> 0 < a \/ a = -1.

(** ** Proofs *)
(** The variables and the constant of a graph. *)
Definition node_leaf (G : graph) (v : Z) : Prop := 0 < v < nxt G /\ gs G !! v = None.
Section Graph.
Context (G : graph) (W : wf G).
Lemma leaf_bound v : node_leaf G v -> v < nxt G. Proof. intros [L _]. lia. Qed.
Lemma leaf_one : node_leaf G 1.
Proof. destruct W as [L W2]. split; [lia|]. destruct (gs G !! 1) eqn:E; [apply W2 in E; lia|auto]. Qed.
Lemma neat_of (knof loose : Prop) (neg : Z -> Prop) : (forall j x, gs G !! j = Some x -> regular knof (g_type x)) ->
  (forall j x a, gs G !! j = Some x -> In a (g_args x) -> loose \/ 0 < a \/ neg (- a)) -> neat knof loose (node_leaf G) neg (nxt G) G.
Proof.
  intros T A. destruct W as [L W2]. constructor.
  - lia.
  - intros j [x E]. split; [apply W2 in E; lia|]. intros [_ N]. congruence.
  - exact T.
  - intros j x a E I. split; [|apply (A j x a E I)]. destruct (gs G !! Z.abs a) as [y|] eqn:Ea; [left; eauto|]. right. split; [|auto]. apply W2 in E as (_ & _ & AO). destruct (AO a I) as (N0 & R & _). lia.
Qed.
End Graph.
Lemma regular_only (knof : Prop) t : regular knof t -> In t [kAnd; kOr; kNull; kAtleast] /\ (t = kAtleast -> knof).
Proof. intros [-> |[-> |[-> |[K ->]]]]; cbn; auto 10; split; auto; discriminate. Qed.
Lemma only_regular (knof : Prop) t : In t [kAnd; kOr; kNull; kAtleast] -> (t = kAtleast -> knof) -> regular knof t.
Proof. unfold regular. cbn. intros [<-|[<-|[<-|[<-|[]]]]]; auto 10. Qed.

Lemma plain_regular (knof : Prop) t : In t [kAnd; kOr; kNull] -> regular knof t.
Proof. unfold regular. cbn. intros [<-|[<-|[<-|[]]]]; auto 10. Qed.

(** ** Theorems *)
(** Connectives: a graph of AND, OR and pass-through gates stays one. *)
Theorem C50_connectives root comp G root' comp' G' : wf G -> is_Some (gs G !! root) -> only [kAnd; kOr; kNull] G ->
  preprocess root comp G root' comp' G' -> only [kAnd; kOr; kNull] G'.
Proof.
  intros W Sr T P. assert (N : neat False True (node_leaf G) (node_leaf G) (nxt G) G).
  { apply (neat_of G W); [|auto]. intros j x E. apply plain_regular, (T j x E). }
  destruct (preprocess_neat False True (node_leaf G) (node_leaf G) (nxt G) (leaf_bound G) (fun v L => L) (leaf_one G W) _ _ _ _ _ _ P N Sr ltac:(left; auto)) as (N' & _).
  intros j x E. destruct (regular_only False _ (nt_type _ _ _ _ _ _ N' j x E)) as [K1 K2]. cbn in K1 |- *. destruct K1 as [K|[K|[K|[K|[]]]]]; auto.
Qed.
(** Complements: in a graph of AND, OR and pass-through gates, if only variables are under complements
    and the graph itself is not, it stays so. *)
Theorem C50_complements root G root' comp' G' : wf G -> is_Some (gs G !! root) -> only [kAnd; kOr; kNull] G -> complements_at_leaves G ->
  preprocess root false G root' comp' G' -> only [kAnd; kOr; kNull] G' /\ complements_at_leaves G' /\ comp' = false.
Proof.
  intros W Sr T C P. split; [eapply C50_connectives; eauto|]. assert (N : neat False False (node_leaf G) (node_leaf G) (nxt G) G).
  { apply (neat_of G W).
    - intros j x E. apply plain_regular, (T j x E).
    - intros j x a E I. destruct (Z.lt_ge_cases 0 a) as [L|L]; [auto|]. right. right. destruct (gs G !! Z.abs a) as [y|] eqn:Ea; [pose proof (C j x a E I ltac:(eauto)); lia|]. rewrite Z.abs_neq in Ea by lia. split; [|auto]. apply W in E as (_ & _ & AO). destruct (AO a I) as (N0 & R & _). lia. }
  destruct (preprocess_neat False False (node_leaf G) (node_leaf G) (nxt G) (leaf_bound G) (fun v L => L) (leaf_one G W) _ _ _ _ _ _ P N Sr ltac:(right; auto)) as (N' & _ & F).
  split; [|destruct F; [tauto|auto]]. intros j x a E I Sa. destruct (fit_leaf_or_pos False False (node_leaf G) (node_leaf G) (nxt G) (fun v L => L) G' a N' (nt_args _ _ _ _ _ _ N' j x a E I) Sa); tauto.
Qed.
(** Coherence: a graph without complements of AND, OR, K/N and pass-through gates stays one; without
    K/N gates it gets none. *)
Theorem C50_coherent ts root G root' comp' G' : ts = [kAnd; kOr; kNull] \/ ts = [kAnd; kOr; kNull; kAtleast] -> wf G -> is_Some (gs G !! root) -> only ts G -> no_complements G ->
  preprocess root false G root' comp' G' -> only ts G' /\ no_complements G' /\ comp' = false.
Proof.
  intros HT W Sr T C P. set (knof := In kAtleast ts). assert (N : neat knof False (node_leaf G) (fun v => v = 1) (nxt G) G).
  { apply (neat_of G W).
    - intros j x E. pose proof (T j x E) as K. apply only_regular; [destruct HT as [-> | ->]; cbn in *; tauto|]. intros Q. rewrite Q in K. exact K.
    - intros j x a E I. destruct (C j x a E I); [auto|right; right; lia]. }
  destruct (preprocess_neat knof False (node_leaf G) (fun v => v = 1) (nxt G) (leaf_bound G) ltac:(intros v ->; apply (leaf_one G W)) eq_refl _ _ _ _ _ _ P N Sr ltac:(right; auto)) as (N' & _ & F).
  split; [|split; [|destruct F; [tauto|auto]]].
  - intros j x E. destruct (regular_only knof _ (nt_type _ _ _ _ _ _ N' j x E)) as [K1 K2]. unfold knof in K2. destruct HT as [-> | ->]; cbn in *; [|tauto]. destruct K1 as [K|[K|[K|[K|[]]]]]; auto. symmetry in K. specialize (K2 K). intuition discriminate.
  - intros j x a E I. destruct (nt_args _ _ _ _ _ _ N' j x a E I) as [_ [K|[K|K]]]; [tauto|auto|right; lia].
Qed.
(** The asserts at preprocessor.cc:1942 and 2033: in a coherent graph a failing node repairs no gate,
    and a gate that has the node as an argument is not told that it needs its complement. *)
Theorem C50_nothing_repaired order G n : gate_order order -> wf G -> only [kAnd; kOr; kNull; kAtleast] G -> no_complements G -> 1 < n ->
  (forall fuel marks M s, propagate order fuel G n M (PSt marks ∅ {[n := 1]}) = Some s -> forall g, 0 <= opt (p_opti s) g) /\
  (forall p x, gs G !! p = Some x -> arg_in n x -> arg_sign x n = 1).
Proof.
  intros OR W T C Ln. split.
  - intros fuel marks M s E g. assert (N : neat True False (node_leaf G) (fun v => v = 1) (nxt G) G).
    { apply (neat_of G W); [intros j x Ex; apply only_regular; [apply (T j x Ex)|auto]|]. intros j x a Ex I. destruct (C j x a Ex I); [auto|right; right; lia]. }
    assert (F0 : failing False (fun v => v = 1) n (p_opti (PSt marks ∅ {[n := 1]}))) by (right; intros h; cbn [p_opti]; unfold opt; destruct (Z.eq_dec h n) as [-> |NE]; [rewrite lookup_singleton; cbn; lia|rewrite lookup_singleton_ne by auto; cbn; lia]).
    destruct (propagate_failing True False (node_leaf G) (fun v => v = 1) (nxt G) ltac:(intros v ->; apply (leaf_one G W)) order OR G N n Ln fuel M _ s F0 E) as [[[]|F]|F]; [lia|auto].
  - intros p x E [I|I]; unfold arg_sign; [apply has_In in I; rewrite I; auto|]. destruct (C p x _ E I); lia.
Qed.

(** The assert at preprocessor.cc:164, for what is left of the graph in memory at the end: MarkCoherence
    finds a graph that was coherent coherent, and every gate of it. *)
Theorem C50_marked ts root G root' comp' G' H : ts = [kAnd; kOr; kNull] \/ ts = [kAnd; kOr; kNull; kAtleast] -> wf G -> acyclic G -> roomy G -> is_Some (gs G !! root) -> only ts G -> no_complements G ->
  preprocess root false G root' comp' G' -> live G' root' H -> (forall j x, gs H !! j = Some x -> constant x = false) ->
  exists fuel marks, (forall f, (fuel <= f)%nat -> Order.mark_graph H f root' comp' = Some (marks, true)) /\ forall j, is_Some (gs H !! j) -> marks !! j = Some true.
Proof.
  intros HT W AC RM Sr T C P L NC. destruct (C03_preprocess root false G root' comp' G' W AC RM Sr P) as (_ & _ & W' & AC' & _ & SR').
  destruct (C50_coherent ts root G root' comp' G' HT W Sr T C P) as (T' & C' & ->).
  assert (NG : forall j x, gs H !! j = Some x -> ~ P_Order.negating x).
  { intros j x E. pose proof (NC j x E) as K. pose proof E as E2. apply (l_gates _ _ _ L) in E2 as [E2 _]. intros [(a & J & La)|N2].
    - destruct (C' j x a E2 J) as [?| ->]; [lia|]. unfold constant in K. apply orb_false_iff in K as [_ K]. apply has_In in J. congruence.
    - apply N2. pose proof (T' j x E2) as Q. destruct HT as [-> | ->]; cbn in Q |- *; tauto. }
  destruct (P_Order.C46_coherence H root' (live_acyclic G' root' H L AC') (live_root G' root' H L SR') NC false) as (fuel & marks & c & M & D & Q).
  exists fuel, marks. assert (c = true) as -> by (apply Q; split; [auto|]; intros j x _ E; apply (NG j x E)). split; [exact M|].
  intros j Sj. destruct (D j (live_all G' root' H L j Sj) Sj) as (b & E & B). rewrite E. f_equal. apply B. intros k x _ Ex. apply (NG k x Ex).
Qed.

(** ** Examples *)
(** 2 and ((2 and 4) or (2 and -5) or 3), factored: 2 and (3 or (2 and (4 or -5))). *)
Definition n0 (u : Z) : graph := Graph {[ 6 := Gate kAnd 0 [2; 4]; 7 := Gate kAnd 0 [2; u]; 8 := Gate kOr 0 [3; 6; 7]; 9 := Gate kAnd 0 [2; 8] ]} 10 [] true.
Definition n1 (u : Z) : graph := default (n0 u) (handle_distributive holders (fun _ l => l) (fun l => l) (fun _ => 0%nat) 8 kAnd [6; 7] (n0 u)).
Definition n2 (u : Z) : graph := default (n0 u) (remove_null_gates holders (fun _ _ => false) 5 (n1 u)).
Lemma n0_cases u i x : gs (n0 u) !! i = Some x -> i = 6 /\ x = Gate kAnd 0 [2; 4] \/ i = 7 /\ x = Gate kAnd 0 [2; u] \/ i = 8 /\ x = Gate kOr 0 [3; 6; 7] \/ i = 9 /\ x = Gate kAnd 0 [2; 8].
Proof. unfold n0. cbn [gs]. intros E. repeat (apply lookup_insert_Some in E as [[<- <-]|[_ E]]; [tauto|]). apply lookup_singleton_Some in E as [<- <-]. tauto. Qed.
Lemma n0_facts u : u = 5 \/ u = -5 -> wf (n0 u) /\ is_Some (gs (n0 u) !! 9) /\ only [kAnd; kOr; kNull] (n0 u) /\ complements_at_leaves (n0 u) /\ (u = 5 -> no_complements (n0 u)).
Proof.
  intros U. split.
  { split; [reflexivity|]. intros i x E. apply n0_cases in E as [[-> ->]|[[-> ->]|[[-> ->]|[-> ->]]]]; (split; [cbn; lia|]); (split; [repeat constructor; cbn; lia|]); cbn; intros a Ha; repeat destruct Ha as [<-|Ha]; try destruct Ha; cbn; lia. }
  split; [eexists; reflexivity|]. split.
  { intros i x E. apply n0_cases in E as [[-> ->]|[[-> ->]|[[-> ->]|[-> ->]]]]; cbn; auto. }
  split.
  - intros i x a E I [y Sa]. apply n0_cases in Sa. apply n0_cases in E as [[-> ->]|[[-> ->]|[[-> ->]|[-> ->]]]]; cbn [g_args In] in I; lia.
  - intros -> i x a E I. left. apply n0_cases in E as [[-> ->]|[[-> ->]|[[-> ->]|[-> ->]]]]; cbn [g_args In] in I; lia.
Qed.
Lemma n_run u : u = 5 \/ u = -5 -> preprocess 9 false (n0 u) 9 false (n2 u).
Proof.
  intros U. eapply (pre_phase 9 false (n0 u) 9 false (n1 u)).
  { eapply (phase_distribute 9 false (n0 u) kAnd holders (fun _ l => l) (fun l => l) (fun _ => 0%nat) 8 [6; 7] (Gate kOr 0 [3; 6; 7]) (n1 u)).
    - auto.
    - apply holders_know.
    - auto.
    - auto.
    - eapply (reach_next _ 9 8 (Gate kAnd 0 [2; 8]) 8); [vm_compute; reflexivity|cbn; auto|constructor].
    - vm_compute; reflexivity.
    - reflexivity.
    - repeat constructor; cbn; lia.
    - intros c [<-|[<-|[]]]; (split; [cbn; tauto|]); eexists; (split; [reflexivity|reflexivity]).
    - apply ok_default. destruct U as [-> | ->]; vm_compute; reflexivity. }
  eapply (pre_phase 9 false (n1 u) 9 false (n2 u)); [|constructor].
  eapply (phase_null 9 false (n1 u) holders (fun _ _ => false) 5); [apply no_atleast_clash, no_atleast_check; destruct U as [-> | ->]; vm_compute; reflexivity|]. apply ok_default. destruct U as [-> | ->]; vm_compute; reflexivity.
Qed.
Example n2_view : view (n2 (-5)) [8; 10; 11] = [Some (kOr, [3; 10]); Some (kAnd, [2; 11]); Some (kOr, [-5; 4])].
Proof. vm_compute. reflexivity. Qed.
Lemma n0_more : acyclic (n0 5) /\ roomy (n0 5).
Proof.
  split.
  - exists Z.to_nat. intros i x a E Ia _. apply n0_cases in E as [[-> ->]|[[-> ->]|[[-> ->]|[-> ->]]]]; cbn in Ia; repeat destruct Ia as [<-|Ia]; try destruct Ia; cbn; lia.
  - split; [|reflexivity]. intros i x E. apply n0_cases in E as [[-> ->]|[[-> ->]|[[-> ->]|[-> ->]]]]; (split; [cbn; lia|]); (split; [split; cbn; [intros [Q|Q]; discriminate Q|intros Q; discriminate Q]|]; split; [intros C; discriminate C|repeat constructor; cbn; lia]).
Qed.
Lemma no_constant_check G : forallb (fun p => negb (constant p.2)) (map_to_list (gs G)) = true -> forall j x, gs G !! j = Some x -> constant x = false.
Proof. intros Q j x E. rewrite forallb_forall in Q. specialize (Q (j, x)). cbn [snd] in Q. apply negb_true_iff, Q, elem_of_list_In, elem_of_map_to_list. auto. Qed.
Example C50_nonvacuous_marked : exists H fuel marks, live (n2 5) 9 H /\ Order.mark_graph H fuel 9 false = Some (marks, true) /\ marks !! 8 = Some true.
Proof.
  destruct (n0_facts 5 ltac:(auto)) as (W & Sr & T & _ & C). destruct n0_more as [AC RM].
  destruct (C03_preprocess 9 false (n0 5) 9 false (n2 5) W AC RM Sr (n_run 5 ltac:(auto))) as (_ & _ & _ & AC' & _). destruct (live_exists (n2 5) 9 AC') as [H L].
  destruct (C50_marked [kAnd; kOr; kNull] 9 (n0 5) 9 false (n2 5) H ltac:(auto) W AC RM Sr T (C eq_refl) (n_run 5 ltac:(auto)) L) as (fuel & marks & M & D).
  { intros j x E. apply (l_gates _ _ _ L) in E as [E _]. revert j x E. apply no_constant_check. vm_compute. reflexivity. }
  exists H, fuel, marks. split; [exact L|]. split; [apply M; lia|]. apply D. exists (Gate kOr 0 [3; 10]). apply (l_gates _ _ _ L). split; [vm_compute; reflexivity|].
  eapply (ZbddModules.under_arg (n2 5) 9 9 (Gate kAnd 0 [2; 8]) 8); [constructor|vm_compute; reflexivity|cbn; auto].
Qed.
Example C50_nonvacuous : (only [kAnd; kOr; kNull] (n2 (-5)) /\ complements_at_leaves (n2 (-5))) /\ (only [kAnd; kOr; kNull] (n2 5) /\ no_complements (n2 5)).
Proof.
  split.
  - destruct (n0_facts (-5) ltac:(auto)) as (W & Sr & T & C & _). destruct (C50_complements 9 (n0 (-5)) 9 false (n2 (-5)) W Sr T C (n_run (-5) ltac:(auto))) as (A & B & _). auto.
  - destruct (n0_facts 5 ltac:(auto)) as (W & Sr & T & _ & C). destruct (C50_coherent [kAnd; kOr; kNull] 9 (n0 5) 9 false (n2 5) ltac:(auto) W Sr T (C eq_refl) (n_run 5 ltac:(auto))) as (A & B & _). auto.
Qed.
(** When 3 fails in the coherent graph, gate 8 fails, and nothing is repaired. *)
Example C50_nonvacuous_failing : exists s, propagate list_order 5 (n0 5) 3 9 (PSt {[6; 7; 8; 9]} ∅ {[3 := 1]}) = Some s /\ opt (p_opti s) 8 = 1 /\ forall g, 0 <= opt (p_opti s) g.
Proof.
  assert (Q : (s ← propagate list_order 5 (n0 5) 3 9 (PSt {[6; 7; 8; 9]} ∅ {[3 := 1]}); Some (opt (p_opti s) 8)) = Some 1) by (vm_compute; reflexivity).
  destruct (propagate list_order 5 (n0 5) 3 9 (PSt {[6; 7; 8; 9]} ∅ {[3 := 1]})) as [s|] eqn:E; [|discriminate Q]. exists s. split; [auto|]. cbn [mbind option_bind] in Q. injection Q as Q. split; [auto|].
  destruct (n0_facts 5 ltac:(auto)) as (W & _ & T & _ & C). apply (proj1 (C50_nothing_repaired list_order (n0 5) 3 list_order_gates W ltac:(intros j x Ex; pose proof (T j x Ex) as K; cbn in K |- *; tauto) (C eq_refl) ltac:(lia)) 5%nat _ 9 s E).
Qed.
Print Assumptions C50_connectives.
Print Assumptions C50_complements.
Print Assumptions C50_coherent.
Print Assumptions C50_nothing_repaired.
Print Assumptions C50_marked.
