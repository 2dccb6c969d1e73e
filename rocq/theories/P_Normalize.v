(** C04, the whole of NormalizeGates (/repo/src/preprocessor.cc:479-552): for every graph in memory whose gates
    have the arities of TestGateStructure, with or without the expansion of XOR and K/N gates ([full]), the function ends, none of its
    assertions fails, the gates that it leaves have the required connectives and the value of the graph is what it was.
    The models return None for a failed assertion and for exhausted fuel.
    Vocabulary: [node_value] (Pdag.v), [in_shape], [parents_in_memory] (P_Traverse.v), [gate_order], [knows_parents] (P_Preprocess.v),
    [no_clash] (NullGatesProofs.v: the K/N case of C01_duplicate_refuted). *)
From stdpp Require Import gmap.
From Coq Require Import Lia Permutation List.
From Verif Require Import Pdag PdagProofs PdagAdd PdagSem PdagKeeps Preproc PreprocProofs PreprocNorm Decompose Rooted BoolOpt BoolOptProofs BoolOptEdits Shaped ShapedOps NullGates NullGatesProofs Full NullTotal P_Preprocess P_Traverse P_Neat Normalize NormalizeProofs.
Import ListNotations.
Open Scope Z_scope.

(** ** Specification *)
(** All gates are in memory: below the root. *)
Definition all_alive (root : Z) (G : graph) : Prop := forall j, is_Some (gs G !! j) -> reach G root j.
(** The argument of a K/N gate with the highest order is one of its arguments. *)
Definition picks_argument (pick : graph -> Z -> Z) : Prop := forall G i x, gs G !! i = Some x -> g_args x <> [] -> In (pick G i) (g_args x).
(** The value of a graph: that of its root, complemented if the flag is set. *)
Definition graph_value (G : graph) (root : Z) (comp : bool) (σ : Z -> bool) (b : bool) : Prop := node_value G σ root (xorb b comp).
(** The connectives that are left. *)
Definition normal_type (full : bool) (t : conn) : Prop :=
  t = kAnd \/ t = kOr \/ t = kNull \/ full = false /\ (t = kXor \/ t = kAtleast).

Lemma normal_types full_ t : negative_type t = false -> (full_ = true -> simple_type t \/ t = kNull) -> normal_type full_ t.
Proof.
  intros N S. unfold normal_type. destruct full_; [destruct (S eq_refl) as [[-> | ->] | ->]; auto|]. destruct t; try discriminate; auto 10.
Qed.

(** ** Theorems *)
(** Up to RemoveNullGates: the pass-through gates (the former NOT gates) are the registered ones; a node that was no
    NOT, NAND or NOR gate keeps its value, the others have it complemented. *)
Theorem C04_before_null_gates order pick full root comp G :
  gate_order order -> picks_argument pick ->
  in_shape G -> (forall j x, gs G !! j = Some x -> g_type x <> kNull) -> nulls G = [] -> reg G = true -> is_Some (gs G !! root) -> all_alive root G ->
  exists n, forall fuel, (n <= fuel)%nat -> exists G' comp', normalize_all order pick fuel full root comp G = Some (G', comp') /\
    in_shape G' /\ (forall j x, gs G' !! j = Some x -> normal_type full (g_type x)) /\
    (forall g, In g (nulls G') <-> exists y, gs G' !! g = Some y /\ g_type y = kNull) /\
    (forall σ b, graph_value G' root comp' σ b <-> graph_value G root comp σ b) /\
    (forall σ j b, 0 < j < nxt G -> (forall x, gs G !! j = Some x -> g_type x <> kNot /\ g_type x <> kNand /\ g_type x <> kNor) -> (node_value G' σ j b <-> node_value G σ j b)).
Proof.
  intros OR PI SH NN NU RE SR LIVE. pose proof SH as (W & AC & _). assert (LR : 0 < root < nxt G) by (destruct SR as [x E]; apply W in E; lia).
  destruct (normalize_all_total order pick full root comp G OR PI W AC (in_shape_full G SH) NN NU RE SR LIVE) as [n H]. exists n. intros fuel LF. destruct (H fuel LF) as (G' & E & W' & AC' & FG' & RE' & LN & NL & TY & V1 & V2 & VAL).
  exists G', (xorb comp (negative_gate G root)). split; [auto|]. split; [apply full_in_shape; auto|]. split; [intros j x Ex; destruct (TY j x Ex); apply normal_types; auto|]. split; [auto|]. split.
  - intros σ b. unfold graph_value. rewrite <- (VAL σ root (xorb b comp) LR). rewrite xorb_assoc. tauto.
  - intros σ j b Lj T. rewrite <- (VAL σ j b Lj). replace (negative_gate G j) with false; [rewrite xorb_false_r; tauto|]. unfold negative_gate. destruct (gs G !! j) as [x|]; [|auto]. destruct (T x eq_refl) as (T1 & T2 & T3). destruct (g_type x); auto; congruence.
Qed.
(** The whole function.  With the expansion only AND and OR gates are left below the root, which may be a pass-through gate;
    no constant is left below it.  Without the expansion K/N gates must stay clear of C01_duplicate_refuted. *)
Theorem C04_normalize_gates parents expired order pick full root comp G :
  parents_in_memory [root] parents -> gate_order order -> picks_argument pick ->
  in_shape G -> (forall j x, gs G !! j = Some x -> g_type x <> kNull) -> nulls G = [] -> reg G = true -> is_Some (gs G !! root) -> all_alive root G ->
  (full = false -> forall fuel H c K, normalize_all order pick fuel false root comp G = Some (H, c) -> rtc joins (unregistered H) K -> no_clash K) ->
  exists n, forall fuel, (n <= fuel)%nat -> exists G' comp', normalize_gates parents expired order pick fuel full root comp G = Some (G', comp') /\
    in_shape G' /\ nulls G' = [] /\ (forall σ b, graph_value G' root comp' σ b <-> graph_value G root comp σ b) /\
    (full = true -> forall j x, gs G' !! j = Some x -> g_type x = kAnd \/ g_type x = kOr \/ g_type x = kNull) /\
    (knows_parents root parents -> (forall G p g x, expired G g = true -> reach G root p -> gs G !! p = Some x -> ~ arg_in g x) ->
     forall j x, reach G' root j -> gs G' !! j = Some x -> j <> root -> g_type x <> kNull /\ ~ In 1 (g_args x) /\ ~ In (-1) (g_args x)).
Proof.
  intros MEM OR PI SH NN NU RE SR LIVE NC. pose proof SH as (W & AC & _). assert (LR : 1 < root < nxt G) by (destruct SR as [x E]; apply W in E; lia).
  destruct (normalize_all_total order pick full root comp G OR PI W AC (in_shape_full G SH) NN NU RE SR LIVE) as [n H].
  destruct (H n ltac:(lia)) as (H0 & E0 & W0 & AC0 & FG0 & _ & LN0 & NL0 & _).
  destruct (weighs_exists H0 AC0) as [w HW]. exists (Nat.max n (S (sum w [root]))). intros fuel LF.
  destruct (H fuel ltac:(lia)) as (H1 & E1 & W1 & AC1 & FG1 & RE1 & LN1 & NL1 & TY & V1 & V2 & VAL).
  assert (H1 = H0) as ->.
  { assert (M : forall f g i G C s, (f <= g)%nat -> notify_parents order f i G C = Some s -> notify_parents order g i G C = Some s).
    { clear. induction f as [|f IH]; intros g i G C s L Q; [discriminate|]. destruct g as [|g]; [lia|]. cbn [notify_parents] in *. destruct (bool_decide (i ∈ C)); [auto|]. destruct (negate_noncoherent i G) as [G1|]; [|discriminate]. cbn [mbind option_bind] in *.
      revert Q. generalize ({[i]} ∪ C). generalize (order G1 i). intros l. revert G1. induction l as [|a l IHl]; intros G1 D Q; cbn [each] in *; [auto|]. destruct (notify_parents order f (Z.abs a) G1 D) as [[G2 D2]|] eqn:E; [|discriminate]. rewrite (IH g _ _ _ _ ltac:(lia) E). cbn [mbind option_bind] in *. auto. }
    assert (M2 : forall f g i G C s, (f <= g)%nat -> normalize_gate order pick f full i G C = Some s -> normalize_gate order pick g full i G C = Some s).
    { clear. induction f as [|f IH]; intros g i G C s L Q; [discriminate|]. destruct g as [|g]; [lia|]. cbn [normalize_gate] in *. destruct (bool_decide (i ∈ C)); [auto|]. destruct (gs G !! i) as [x|]; [|discriminate]. cbn [mbind option_bind] in *. destruct (constant x || (size (g_args x) =? 0)); [discriminate|].
      destruct (each (normalize_gate order pick f full) (order G i) G ({[i]} ∪ C)) as [[G1 C1]|] eqn:E1; [|discriminate].
      assert (E2 : each (normalize_gate order pick g full) (order G i) G ({[i]} ∪ C) = Some (G1, C1)).
      { clear Q. revert E1. generalize ({[i]} ∪ C). generalize (order G i). intros l. revert G. induction l as [|a l IHl]; intros G D Q; cbn [each] in *; [auto|]. destruct (normalize_gate order pick f full (Z.abs a) G D) as [[G2 D2]|] eqn:E; [|discriminate]. rewrite (IH g _ _ _ _ ltac:(lia) E). cbn [mbind option_bind] in *. auto. }
      rewrite E2. exact Q. }
    unfold normalize_all in E0, E1. rewrite NU in E0, E1. destruct SR as [x Ex]. rewrite Ex in E0, E1. cbn [mbind option_bind] in *.
    destruct (notify_parents order n root G ∅) as [[G1 C1]|] eqn:Q1; [|discriminate]. rewrite (M n fuel _ _ _ _ ltac:(lia) Q1) in E1. cbn [mbind option_bind] in *.
    destruct (normalize_gate order pick n full root G1 ∅) as [[G2 C2]|] eqn:Q2; [|discriminate]. rewrite (M2 n fuel _ _ _ _ ltac:(lia) Q2) in E1. cbn [mbind option_bind] in *. congruence. }
  assert (NCL : forall K, rtc joins (unregistered H0) K -> no_clash K).
  { destruct full; [|intros K; apply (NC eq_refl fuel H0 _ K E1)]. apply no_atleast_clash. intros j x Ex. destruct (TY j x Ex) as [_ TS]. destruct (TS eq_refl) as [[-> | ->] | ->]; discriminate. }
  destruct (remove_null_total parents expired [root] H0 w) with (fuel := fuel) as (G' & E2 & FG2 & K2 & _ & N2 & _); auto.
  { intros k [<-|[]]. lia. } { intros g Ig. apply NL0. auto. } { lia. }
  exists G', (xorb comp (negative_gate G root)). unfold normalize_gates. rewrite E1. cbn [mbind option_bind]. rewrite E2. cbn [mbind option_bind].
  pose proof (k_wf _ _ K2) as W2. pose proof (k_acyclic _ _ K2 AC0) as AC2. split; [auto|]. split; [apply full_in_shape; auto|]. split; [auto|]. split; [|split].
  - intros σ b. unfold graph_value. etransitivity; [apply (keeps_value H0 G' W0 AC0 K2); lia|]. rewrite <- (VAL σ root (xorb b comp)) by lia. rewrite xorb_assoc. tauto.
  - intros -> j x Ex. assert (SR0 : is_Some (gs H0 !! root)).
    { destruct (gs H0 !! root) as [y|] eqn:Q; [eauto|]. apply V1 in Q; [|lia]. destruct SR. congruence. }
    assert (ON : only [kAnd; kOr; kNull] H0) by (intros k y Ey; destruct (TY k y Ey) as [_ TS]; destruct (TS eq_refl) as [[-> | ->] | ->]; cbn; auto).
    pose proof (C50_connectives root comp H0 root comp G' W0 SR0 ON) as Q. assert (P : preprocess root comp H0 root comp G') by (eapply pre_phase; [eapply phase_null; [exact NCL|exact E2]|apply pre_done]).
    specialize (Q P j x Ex). cbn in Q. destruct Q as [Q|[Q|[Q|[]]]]; auto.
  - intros KP EX j x RJ Ex J. destruct (C03_null_gates parents expired root fuel H0 G' KP EX W0 AC0 (full_roomy H0 FG0) ltac:(lia) NCL) as (_ & _ & Q); [|exact E2|].
    + intros p y a z _ _ _ Ez Tz. apply NL0. eauto.
    + destruct (Q j x RJ Ex J) as [Q1 Q2]. split; [auto|]. unfold constant in Q2. apply orb_false_iff in Q2 as [C1 C2]. split; intros I; apply has_In in I; congruence.
Qed.

(** ** The hypotheses are met by non-trivial cases *)
(** nor(not 2, xor(-3, nand(4, 5)), 2 of (3, 4, -5)) *)
Definition m0 : graph := Graph {[ 6 := Gate kNot 0 [2]; 7 := Gate kNand 0 [4; 5]; 8 := Gate kXor 0 [-3; 7]; 9 := Gate kAtleast 2 [-5; 3; 4]; 10 := Gate kNor 0 [6; 8; 9] ]} 11 [] true.
Definition m_pick (G : graph) (i : Z) : Z := match gs G !! i with Some x => List.last (g_args x) 0 | None => 0 end.
Lemma m0_cases i x : gs m0 !! i = Some x -> i = 6 /\ x = Gate kNot 0 [2] \/ i = 7 /\ x = Gate kNand 0 [4; 5] \/ i = 8 /\ x = Gate kXor 0 [-3; 7] \/ i = 9 /\ x = Gate kAtleast 2 [-5; 3; 4] \/ i = 10 /\ x = Gate kNor 0 [6; 8; 9].
Proof. unfold m0. cbn [gs]. intros E. repeat (apply lookup_insert_Some in E as [[<- <-]|[_ E]]; [tauto|]). apply lookup_singleton_Some in E as [<- <-]. tauto. Qed.
Definition m_depth (i : Z) : nat := match i with 6 => 1%nat | 7 => 1%nat | 8 => 2%nat | 9 => 1%nat | 10 => 3%nat | _ => 0%nat end.
Lemma m0_shape : in_shape m0.
Proof.
  split; [|split].
  - split; [reflexivity|]. intros i x E. apply m0_cases in E as [[-> ->]|[[-> ->]|[[-> ->]|[[-> ->]|[-> ->]]]]]; (split; [cbn; lia|]); (split; [repeat constructor; cbn; lia|]); cbn; intros a Ha; repeat destruct Ha as [<-|Ha]; try destruct Ha; cbn; lia.
  - exists m_depth. intros i x a E Ia _. apply m0_cases in E as [[-> ->]|[[-> ->]|[[-> ->]|[[-> ->]|[-> ->]]]]]; cbn in Ia; repeat destruct Ia as [<-|Ia]; try destruct Ia; apply Nat.ltb_lt; vm_compute; reflexivity.
  - intros j x E. apply m0_cases in E as [[-> ->]|[[-> ->]|[[-> ->]|[[-> ->]|[-> ->]]]]]; (split; [intros _; cbn; lia|split; cbn; [lia|unfold size; cbn; lia]]).
Qed.
Lemma m_pick_ok : picks_argument m_pick.
Proof.
  intros G i x E N. unfold m_pick. rewrite E. destruct (g_args x) as [|a l]; [congruence|]. clear. revert a. induction l as [|b l IH]; intros a; [left; auto|]. right. apply (IH b).
Qed.
Lemma m0_alive : all_alive 10 m0.
Proof.
  assert (R : forall a, In a [6; 8; 9] -> reach m0 10 (Z.abs a)) by (intros a Ia; apply (reach_arg m0 10 10 (Gate kNor 0 [6; 8; 9]) a); [constructor|reflexivity|exact Ia]).
  intros j [x E]. apply m0_cases in E as [[-> _]|[[-> _]|[[-> _]|[[-> _]|[-> _]]]]]; [apply (R 6); cbn; auto| |apply (R 8); cbn; auto|apply (R 9); cbn; auto|constructor].
  apply (reach_arg m0 10 8 (Gate kXor 0 [-3; 7]) 7); [apply (R 8); cbn; auto|reflexivity|cbn; auto].
Qed.
(** The complement flag is set, NOT 2 is the argument -2, 7 is an AND gate under a complement. *)
Example m1_view : (r ← normalize_gates (live_parents 10) (fun _ _ => false) list_order m_pick 20 true 10 false m0; Some (view r.1 [10; 8; 7; 11; 12; 9; 13; 14; 15], r.2)) =
  Some ([Some (kOr, [-2; 8; 9]); Some (kOr, [11; 12]); Some (kAnd, [4; 5]); Some (kAnd, [-7; 3]); Some (kAnd, [-3; 7]); Some (kOr, [13; 15]); Some (kAnd, [4; 14]); Some (kOr, [-5; 3]); Some (kAnd, [-5; 3])], true).
Proof. vm_compute. reflexivity. Qed.
Example C04_nonvacuous full : exists n, forall fuel, (n <= fuel)%nat -> exists G' comp', normalize_all list_order m_pick fuel full 10 true m0 = Some (G', comp') /\
    in_shape G' /\ (forall j x, gs G' !! j = Some x -> normal_type full (g_type x)) /\
    (forall σ b, graph_value G' 10 comp' σ b <-> graph_value m0 10 true σ b).
Proof.
  destruct (C04_before_null_gates list_order m_pick full 10 true m0) as [n H]; [apply list_order_gates|apply m_pick_ok|apply m0_shape| |reflexivity|reflexivity|eexists; reflexivity|apply m0_alive|].
  - intros j x E. apply m0_cases in E as [[-> ->]|[[-> ->]|[[-> ->]|[[-> ->]|[-> ->]]]]]; discriminate.
  - exists n. intros fuel LF. destruct (H fuel LF) as (G' & c & E & SH & TY & _ & V & _). exists G', c. auto.
Qed.
Example C04_whole_nonvacuous : exists n, forall fuel, (n <= fuel)%nat -> exists G' comp', normalize_gates (live_parents 10) (fun _ _ => false) list_order m_pick fuel true 10 true m0 = Some (G', comp') /\
    in_shape G' /\ (forall j x, gs G' !! j = Some x -> g_type x = kAnd \/ g_type x = kOr \/ g_type x = kNull) /\ forall σ b, graph_value G' 10 comp' σ b <-> graph_value m0 10 true σ b.
Proof.
  destruct (C04_normalize_gates (live_parents 10) (fun _ _ => false) list_order m_pick true 10 true m0) as [n H]; [apply live_parents_ok|apply list_order_gates|apply m_pick_ok|apply m0_shape| |reflexivity|reflexivity|eexists; reflexivity|apply m0_alive|discriminate|].
  - intros j x E. apply m0_cases in E as [[-> ->]|[[-> ->]|[[-> ->]|[[-> ->]|[-> ->]]]]]; discriminate.
  - exists n. intros fuel LF. destruct (H fuel LF) as (G' & c & E & SH & _ & V & TY & _). exists G', c. split; [exact E|]. split; [exact SH|]. split; [exact (TY eq_refl)|exact V].
Qed.
Print Assumptions C04_before_null_gates.
Print Assumptions C04_normalize_gates.
