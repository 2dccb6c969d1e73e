(** C49: the traversals of the preprocessor end, and no assertion on their way fails.
    RemoveNullGates (/repo/src/pdag.cc:795-821) and the loop "while (CoalesceGates(common)) continue;"
    (/repo/src/preprocessor.cc:344-347, 361-364, 403-404, 417-418, 683-745), on every graph whose gates have
    the arities of TestGateStructure (preprocessor.cc:246-270).
    The models return None for a failed assertion and for exhausted fuel. *)
From stdpp Require Import gmap.
From Coq Require Import Lia Permutation List.
From Verif Require Import Pdag PdagProofs PdagAdd PdagSem PdagKeeps Preproc PreprocProofs Decompose Rooted BoolOpt BoolOptProofs BoolOptEdits Shaped ShapedOps NullGates NullGatesProofs Full NullTotal Coalesce CoalesceProofs P_Preprocess.
Import ListNotations.
Open Scope Z_scope.

(** ** Specification *)
(** parents(): gates below the root or below other gates the caller holds; each has the gate as an argument. *)
Definition parents_in_memory (held : list Z) (parents : graph -> Z -> list Z) : Prop :=
  forall G g p, In p (parents G g) -> (exists k, In k held /\ reach G k p) /\ exists x, gs G !! p = Some x /\ arg_in g x.
(** The gates in shape (TestGateStructure), the constant only in NULL gates. *)
Definition in_shape (G : graph) : Prop :=
  wf G /\ acyclic G /\ forall j x, gs G !! j = Some x ->
    (g_type x <> kNull -> ~ In 1 (g_args x) /\ ~ In (-1) (g_args x)) /\ 0 <= g_min x /\
    match g_type x with
    | kAnd | kOr | kNand | kNor => 2 <= size (g_args x)
    | kAtleast => 2 <= g_min x < size (g_args x)
    | kXor => size (g_args x) = 2
    | kNot | kNull => size (g_args x) = 1
    end.
(** Gate [i] could take over the arguments of its argument [c]. *)
Definition could_absorb (module : Z -> bool) (G : graph) (i c : Z) : Prop :=
  exists x y, gs G !! i = Some x /\ In c (g_args x) /\ gs G !! c = Some y /\ module c = false /\
    ((g_type x = kAnd \/ g_type x = kNand) /\ g_type y = kAnd \/ (g_type x = kOr \/ g_type x = kNor) /\ g_type y = kOr).

Lemma in_shape_full G : in_shape G -> full_graph G.
Proof.
  intros (W & A & F). split; [apply W|]. intros j x E. split; [apply (proj2 W j x E)|]. destruct (F j x E) as (C & M & S). split; [|split; [auto|split; [apply (proj2 W j x E)|auto]]].
  intros T. destruct (C T) as [C1 C2]. unfold constant. apply orb_false_iff. split; apply not_true_iff_false; rewrite has_In; auto.
Qed.
Lemma full_in_shape G : wf G -> acyclic G -> full_graph G -> in_shape G.
Proof.
  intros W A [L F]. split; [auto|]. split; [auto|]. intros j x E. destruct (F j x E) as (_ & C & M & N & S). split; [|auto]. intros T. specialize (C T). unfold constant in C. apply orb_false_iff in C as [C1 C2]. split; intros I; apply has_In in I; congruence.
Qed.

(** ** RemoveNullGates *)
Theorem C49_null_gates_end parents expired held G :
  parents_in_memory held parents -> in_shape G -> (forall k, In k held -> 1 < k < nxt G) ->
  (forall H, rtc joins (unregistered G) H -> no_clash H) ->
  (forall g, In g (nulls G) -> exists y, gs G !! g = Some y /\ g_type y = kNull) ->
  exists n, forall fuel, (n <= fuel)%nat -> exists G', remove_null_gates parents expired fuel G = Some G' /\ in_shape G' /\ nulls G' = [] /\
    forall σ j b, 0 < j < nxt G -> (node_value G' σ j b <-> node_value G σ j b).
Proof.
  intros MEM SH LH NC NL. pose proof SH as (W & A & _). destruct (weighs_exists G A) as [w HW]. exists (S (sum w held)). intros fuel LF.
  destruct (remove_null_total parents expired held G w MEM W A (in_shape_full G SH) LH NC NL HW fuel ltac:(lia)) as (G' & E & FG & K & _ & N & _). exists G'. split; [auto|]. split; [apply full_in_shape; auto; [apply K|apply (k_acyclic _ _ K A)]|]. split; [auto|]. apply keeps_value; auto.
Qed.

(** ** while (CoalesceGates(common)) continue; *)
(** [rewrites module] (CoalesceProofs.v) lists the single steps: NULL gates bypassed, gates that are not modules absorbed. *)
Theorem C49_coalescing_ends parents expired order arranged module single common root G :
  parents_in_memory [root] parents -> gate_order order -> (forall G i x, gs G !! i = Some x -> Permutation (arranged G i) (g_args x)) ->
  in_shape G -> is_Some (gs G !! root) -> nulls G = [] -> reg G = true -> (forall H, rtc (rewrites module) G H -> no_clash H) ->
  exists n, forall rounds fuel, (n <= rounds)%nat -> (n <= fuel)%nat -> exists G',
    coalesce_loop parents expired order arranged module single common rounds fuel root G = Some G' /\
    in_shape G' /\ nulls G' = [] /\ rtc (rewrites module) G G' /\ (forall σ j b, 0 < j < nxt G -> (node_value G' σ j b <-> node_value G σ j b)) /\
    ((exists x, gs G' !! root = Some x /\ constant x = true) \/
     forall i c, reach G' root i -> could_absorb module G' i c -> common = false /\ single G' c = false).
Proof.
  intros MEM OR AR SH SR NU RG NC. pose proof SH as (W & A & _). destruct (weighs_exists G A) as [w HW]. exists (S (w root)). intros rounds fuel LN LF.
  assert (MEM1 : forall G g p, In p (parents G g) -> reach G root p /\ exists x, gs G !! p = Some x /\ arg_in g x) by (intros H g p I; destruct (MEM H g p I) as [(k & [<-|[]] & RK) Q]; auto).
  destruct (coalesce_loop_total parents expired order arranged module single common OR AR root MEM1 G NC rounds fuel G w (rtc_refl _ _) W A (in_shape_full G SH) SR NU RG HW ltac:(lia) ltac:(lia)) as (G' & E & FG & K & N & _ & RW & _ & FL).
  exists G'. split; [auto|]. split; [apply full_in_shape; auto; [apply K|apply (k_acyclic _ _ K A)]|]. split; [auto|]. split; [exact RW|]. split; [apply keeps_value; auto|]. destruct FL as [FL|FL]; [left; auto|right].
  intros i c RI (x & y & Ex & Ic & Ey & MO & T). assert (AB : common = true \/ single G' c = true -> False).
  { intros Q. apply (FL i c RI). exists x, y. split; [auto|]. split; [auto|]. split; [auto|]. split; [|auto]. destruct T as [[[-> | ->] ->]|[[-> | ->] ->]]; reflexivity. }
  destruct common; [destruct (AB ltac:(auto))|]. destruct (single G' c); [destruct (AB ltac:(auto))|auto].
Qed.
(** In phase V, after normalization, every gate below the root is coalesced. *)
Theorem C49_phase_five_flat parents expired order arranged module single root G :
  parents_in_memory [root] parents -> gate_order order -> (forall G i x, gs G !! i = Some x -> Permutation (arranged G i) (g_args x)) ->
  in_shape G -> is_Some (gs G !! root) -> nulls G = [] -> reg G = true -> (forall j x, gs G !! j = Some x -> g_type x <> kAtleast) ->
  exists n, forall rounds fuel, (n <= rounds)%nat -> (n <= fuel)%nat -> exists G', coalesce_loop parents expired order arranged module single true rounds fuel root G = Some G' /\
    in_shape G' /\ (forall σ j b, 0 < j < nxt G -> (node_value G' σ j b <-> node_value G σ j b)) /\
    ((exists x, gs G' !! root = Some x /\ constant x = true) \/ forall i c, reach G' root i -> ~ could_absorb module G' i c).
Proof.
  intros MEM OR AR SH SR NU RG NA. destruct (C49_coalescing_ends parents expired order arranged module single true root G MEM OR AR SH SR NU RG (rewrites_no_clash module G NA)) as (n & H). exists n. intros rounds fuel L1 L2. destruct (H rounds fuel L1 L2) as (G' & E & SH' & _ & _ & V & FL). exists G'. split; [auto|]. split; [auto|]. split; [auto|].
  destruct FL as [FL|FL]; [auto|right]. intros i c RI AB. destruct (FL i c RI AB) as [Q _]. discriminate.
Qed.

(** ** A run *)
(** The gates below a gate, and their parents, as the code finds them. *)
Fixpoint below_gate (n : nat) (G : graph) (i : Z) : list Z :=
  match n with O => [i] | S n => i :: match gs G !! i with Some x => List.concat (map (fun a => below_gate n G (Z.abs a)) (g_args x)) | None => [] end end.
Lemma below_gate_reach G : forall n i j, In j (below_gate n G i) -> reach G i j.
Proof.
  induction n as [|n IH]; intros i j; cbn [below_gate]; [intros [<-|[]]; constructor|]. intros [<-|I]; [constructor|]. destruct (gs G !! i) as [x|] eqn:E; [|destruct I]. apply in_concat in I as (l & Il & I). apply in_map_iff in Il as (a & <- & Ia). apply (reach_next G i j x a E Ia). apply IH. auto.
Qed.
Definition live_parents (root : Z) (G : graph) (g : Z) : list Z := List.filter (fun p => existsb (Z.eqb p) (below_gate 9 G root)) (holders G g).
Lemma live_parents_ok root : parents_in_memory [root] (live_parents root).
Proof.
  intros G g p I. unfold live_parents in I. apply filter_In in I as [I Q]. split; [|apply (proj1 holders_exact G g p I)]. exists root. split; [left; auto|]. apply existsb_exists in Q as (q & Iq & Q). apply Z.eqb_eq in Q as ->. apply (below_gate_reach G 9). auto.
Qed.
(** 2 and ((2 and 3) or 4 or (-3 and (3 and 5))): the gate 10 becomes a constant, 8 a NULL gate of no use. *)
Definition t0 : graph := Graph {[ 6 := Gate kAnd 0 [3; 5]; 10 := Gate kAnd 0 [-3; 6]; 7 := Gate kAnd 0 [2; 3]; 8 := Gate kOr 0 [7; 9]; 9 := Gate kOr 0 [4; 10]; 11 := Gate kAnd 0 [2; 8] ]} 12 [] true.
Definition t1 : option graph := coalesce_loop (live_parents 11) (fun _ _ => false) list_order (fun G i => match gs G !! i with Some x => g_args x | None => [] end) (fun _ => false) (fun _ _ => true) false 9 99 11 t0.
Example t1_view : (G ← t1; Some (view G [11; 8; 7])) = Some [Some (kAnd, [2; 8]); Some (kOr, [4; 7]); Some (kAnd, [2; 3])].
Proof. vm_compute. reflexivity. Qed.
Lemma t0_cases i x : gs t0 !! i = Some x -> i = 6 /\ x = Gate kAnd 0 [3; 5] \/ i = 10 /\ x = Gate kAnd 0 [-3; 6] \/ i = 7 /\ x = Gate kAnd 0 [2; 3] \/ i = 8 /\ x = Gate kOr 0 [7; 9] \/ i = 9 /\ x = Gate kOr 0 [4; 10] \/ i = 11 /\ x = Gate kAnd 0 [2; 8].
Proof. unfold t0. cbn [gs]. intros E. repeat (apply lookup_insert_Some in E as [[<- <-]|[_ E]]; [tauto|]). apply lookup_singleton_Some in E as [<- <-]. tauto. Qed.
Definition depth (i : Z) : nat := match i with 6 => 1%nat | 10 => 2%nat | 7 => 1%nat | 8 => 4%nat | 9 => 3%nat | 11 => 5%nat | _ => 0%nat end.
Lemma t0_shape : in_shape t0.
Proof.
  split; [|split].
  - split; [reflexivity|]. intros i x E. apply t0_cases in E as [[-> ->]|[[-> ->]|[[-> ->]|[[-> ->]|[[-> ->]|[-> ->]]]]]]; (split; [cbn; lia|]); (split; [repeat constructor; cbn; lia|]); cbn; intros a Ha; repeat destruct Ha as [<-|Ha]; try destruct Ha; cbn; lia.
  - exists depth. intros i x a E Ia _. apply t0_cases in E as [[-> ->]|[[-> ->]|[[-> ->]|[[-> ->]|[[-> ->]|[-> ->]]]]]]; cbn in Ia; repeat destruct Ia as [<-|Ia]; try destruct Ia; apply Nat.ltb_lt; vm_compute; reflexivity.
  - intros j x E. apply t0_cases in E as [[-> ->]|[[-> ->]|[[-> ->]|[[-> ->]|[[-> ->]|[-> ->]]]]]]; (split; [intros _; cbn; lia|split; cbn; [lia|unfold size; cbn; lia]]).
Qed.
Lemma t0_no_atleast : forall j x, gs t0 !! j = Some x -> g_type x <> kAtleast.
Proof. intros j x E. apply t0_cases in E as [[-> ->]|[[-> ->]|[[-> ->]|[[-> ->]|[[-> ->]|[-> ->]]]]]]; discriminate. Qed.
Example C49_nonvacuous : exists n, forall rounds fuel, (n <= rounds)%nat -> (n <= fuel)%nat -> exists G',
  coalesce_loop (live_parents 11) (fun _ _ => false) list_order (fun G i => match gs G !! i with Some x => g_args x | None => [] end) (fun _ => false) (fun _ _ => true) true rounds fuel 11 t0 = Some G' /\
  in_shape G' /\ (forall σ j b, 0 < j < nxt t0 -> (node_value G' σ j b <-> node_value t0 σ j b)) /\
  ((exists x, gs G' !! 11 = Some x /\ constant x = true) \/ forall i c, reach G' 11 i -> ~ could_absorb (fun _ => false) G' i c).
Proof.
  apply (C49_phase_five_flat (live_parents 11) (fun _ _ => false) list_order _ (fun _ => false) (fun _ _ => true) 11 t0); [apply live_parents_ok|apply list_order_gates|intros G i x ->; reflexivity|apply t0_shape|eexists; reflexivity|reflexivity|reflexivity|apply t0_no_atleast].
Qed.
(** NULL gates: the root 8 is (2 or not 4) where 4 is NULL of NULL of 3. *)
Definition t2 : graph := Graph {[ 4 := Gate kNull 0 [5]; 5 := Gate kNull 0 [3]; 8 := Gate kOr 0 [-4; 2] ]} 9 [4; 5] true.
Example t2_view : (G ← remove_null_gates (live_parents 8) (fun _ _ => false) 9 t2; Some (view G [8])) = Some [Some (kOr, [-3; 2])].
Proof. vm_compute. reflexivity. Qed.
Print Assumptions C49_null_gates_end.
Print Assumptions C49_coalescing_ends.
Print Assumptions C49_phase_five_flat.
