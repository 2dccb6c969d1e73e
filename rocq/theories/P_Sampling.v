(** Property C34: within a trial every shared expression is sampled once; every trial resamples. *)
From Coq Require Import List Arith Lia Bool.
From Verif Require Import Sampling.
Import ListNotations.

Section C34.
Context {V : Type} (rng : nat -> V) (G : graph V) (rank : nat -> nat) (fuel : nat) (roots : list nat).
(** The graph: arguments are registered, there is no cycle, and the recursion depth allowed
    covers the roots. *)
Definition setting : Prop := registered G /\ acyclic G rank /\ forall r, In r roots -> rank r < fuel.

(** A trial always ends. *)
Theorem C34_total s : setting -> trial rng G fuel roots s <> None.
Proof.
  intros (REG & ACY & R). unfold trial. destruct (reset_all_spec G rank ACY fuel roots R (sampled s)) as (f & E & _). rewrite E.
  generalize (mkS f (value s) (pos s) [] []). clear E f. revert R. induction roots as [|r rs IH]; intros R s0; simpl; [discriminate|].
  pose proof (proj1 (sample_total rng G rank REG ACY fuel) r s0 (R r (or_introl eq_refl))) as T.
  destruct (sample rng G fuel r s0) as [[v s1]|]; [|congruence].
  specialize (IH (fun r I => R r (or_intror I)) s1). destruct (sample_all rng G fuel rs s1) as [[l s2]|]; [discriminate|congruence].
Qed.

(** In one trial, from whatever state: DoSample of a node runs at most once, and one assignment
    explains the values of all roots and of all nodes that ran - so every user of a shared
    expression got the same value. *)
Theorem C34_once s vs s' : setting -> trial rng G fuel roots s = Some (vs, s') ->
  NoDup (runs s') /\
  exists val, vs = map val roots /\
    forall n, In n (runs s') -> exists draws, outcome val (do_sample G n) draws = Some (val n).
Proof.
  intros (REG & ACY & R) H. unfold trial in H. destruct (reset_all G fuel roots (sampled s)) as [f|]; [|discriminate].
  destruct (sample_all_spec rng G rank REG ACY fuel roots _ _ _ H) as (EG & EF & EE & _). simpl in EE.
  destruct (g_runs _ _ EG) as (l & E & D & _). simpl in E. rewrite app_nil_r in E. split; [now rewrite E|].
  exists (value s'). split.
  - clear - EF. induction EF as [|r v rs vs [_ E] F IH]; simpl; congruence.
  - intros n I. destruct (EE (runs s') ltac:(now rewrite app_nil_r) n I) as (ds & O & _). eauto.
Qed.

(** From any state - in particular with flags left over from another analysis - what was
    sampled in one trial is computed anew in the next one whenever it is used there. *)
Theorem C34_next_trial s vs s1 ws s2 : setting ->
  trial rng G fuel roots s = Some (vs, s1) -> trial rng G fuel roots s1 = Some (ws, s2) ->
  forall n, In n (calls s1) -> In n (calls s2) -> In n (runs s2).
Proof.
  intros (REG & ACY & R) H1 H2 n I1 I2. unfold trial in H1, H2.
  destruct (reset_all G fuel roots (sampled s)) as [f|]; [|discriminate].
  destruct (reset_all G fuel roots (sampled s1)) as [g|] eqn:RS; [|discriminate].
  pose proof (called_via rng G rank REG ACY _ _ _ _ _ _ _ H1 n I1) as W.
  pose proof (reset_clears G rank ACY fuel roots _ _ R RS n W) as C.
  pose proof (sample_all_flagged rng G rank REG ACY _ _ _ _ _ H2 (calls s2) ltac:(simpl; now rewrite app_nil_r) n I2) as F.
  destruct (sample_all_spec rng G rank REG ACY fuel roots _ _ _ H2) as (EG & _). destruct (g_runs _ _ EG) as (l & E & _ & _ & GI & _).
  simpl in E. rewrite app_nil_r in E. rewrite E. apply GI in F. simpl in F. destruct F; [congruence|auto].
Qed.

(** An analysis that starts with nothing sampled: in every trial, everything used is computed
    in that very trial. *)
Theorem C34_fresh k s vs s1 ws s2 : setting -> clean (sampled s) ->
  trials rng G fuel roots k s = Some (vs, s1) -> trial rng G fuel roots s1 = Some (ws, s2) ->
  forall n, In n (calls s2) <-> In n (runs s2).
Proof.
  intros (REG & ACY & R) C T H2.
  assert (INV : forall n, sampled s1 n = true -> via G (sampled s1) roots n).
  { assert (I0 : forall n, sampled s n = true -> via G (sampled s) roots n) by (intros n F; rewrite C in F; discriminate).
    clear C H2. revert s vs I0 T. induction k as [|k IH]; intros s vs I0 T; simpl in T; [inversion T; subst; auto|].
    destruct (trial rng G fuel roots s) as [[v s']|] eqn:T1; [|discriminate].
    destruct (trials rng G fuel roots k s') as [[l s'']|] eqn:T2; [|discriminate]. inversion T; subst. apply (IH s' l); auto.
    intros n F. unfold trial in T1. destruct (reset_all G fuel roots (sampled s)) as [f|] eqn:RS; [|discriminate].
    eapply called_via; eauto. eapply runs_in_calls; eauto.
    destruct (sample_all_spec rng G rank REG ACY fuel roots _ _ _ T1) as (EG & _). destruct (g_runs _ _ EG) as (l0 & E & _ & _ & GI & _).
    simpl in E. rewrite app_nil_r in E. rewrite E. apply GI in F. simpl in F. destruct F as [F|]; auto.
    destruct (reset_all_spec G rank ACY fuel roots R (sampled s)) as (f' & E' & LE & _). assert (f = f') by congruence. subst f'.
    pose proof (reset_clears G rank ACY fuel roots _ _ R RS n (I0 n (LE n F))). congruence. }
  unfold trial in H2. destruct (reset_all G fuel roots (sampled s1)) as [g|] eqn:RS; [|discriminate]. intros n. split.
  - intros I. pose proof (sample_all_flagged rng G rank REG ACY _ _ _ _ _ H2 (calls s2) ltac:(simpl; now rewrite app_nil_r) n I) as F.
    destruct (sample_all_spec rng G rank REG ACY fuel roots _ _ _ H2) as (EG & _). destruct (g_runs _ _ EG) as (l0 & E & _ & _ & GI & _).
    simpl in E. rewrite app_nil_r in E. rewrite E. apply GI in F. simpl in F. destruct F as [F|]; auto.
    destruct (reset_all_spec G rank ACY fuel roots R (sampled s1)) as (f' & E' & LE & _). assert (g = f') by congruence. subst f'.
    pose proof (reset_clears G rank ACY fuel roots _ _ R RS n (INV n (LE n F))). congruence.
  - eapply runs_in_calls; eauto.
Qed.
End C34.

(** The first trial of a second analysis can use a value left over from the first one: two
    roots (basic events of two top events) share parameter 2, a deviate; the analysis of root 0
    samples it, and resetting root 1, which is not sampled, does not reach it. *)
Definition share : graph nat :=
  mkG (fun n => match n with 0 => [2] | 1 => [2] | _ => [] end)
      (fun n => match n with 0 => Ask 2 (fun v => Ret v) | 1 => Ask 2 (fun v => Ret (v + 100)) | _ => Draw (fun v => Ret v) end).
Definition share_rank (n : nat) : nat := match n with 0 => 1 | 1 => 1 | _ => 0 end.
Definition start : state nat := mkS (fun _ => false) (fun _ => 0) 0 [] [].
Definition after_first : state nat := match trials S share 2 [0] 3 start with Some (_, s) => s | None => start end.
Definition after_second : state nat := match trial S share 2 [1] after_first with Some (_, s) => s | None => start end.
Theorem C34_second_analysis_refuted :
  setting share share_rank 2 [0] /\ setting share share_rank 2 [1] /\
  exists vs s1 ws s2, trials S share 2 [0] 3 start = Some (vs, s1) /\ trial S share 2 [1] s1 = Some (ws, s2) /\
    In 2 (calls s2) /\ ~ In 2 (runs s2).
Proof.
  assert (X : forall n, setting share share_rank 2 [n]).
  { intros n. split; [|split].
    - intros [|[|m]]; simpl; repeat constructor; simpl; auto.
    - intros [|[|m]] q; simpl; intuition (subst; simpl; lia).
    - intros r [<-|[]]. destruct n as [|[|n]]; simpl; lia. }
  split; [apply X|split; [apply X|]].
  exists [[1]; [2]; [3]], after_first, [103], after_second.
  split; [vm_compute; reflexivity|]. split; [vm_compute; reflexivity|]. split; [vm_compute; auto|].
  intros I. vm_compute in I. destruct I as [E|[]]. discriminate.
Qed.

(** A graph with a shared deviate and a conditional that samples only one arm; three trials. *)
Definition ex_graph : graph nat :=
  mkG (fun n => match n with 0 => [2; 3] | 1 => [2; 3; 4] | _ => [] end)
      (fun n => match n with
                | 0 => Ask 2 (fun a => Ask 3 (fun b => Ret (a + b)))
                | 1 => Ask 2 (fun a => if Nat.even a then Ask 3 (fun v => Ret v) else Ask 4 (fun v => Ret v))
                | _ => Draw (fun v => Ret v) end).
Definition ex_rank (n : nat) : nat := match n with 0 => 1 | 1 => 1 | _ => 0 end.
Ltac red_reads := repeat match goal with
  | |- reads _ (do_sample _ _) => cbn [do_sample ex_graph]
  | |- reads _ (Ret _) => constructor
  | |- reads _ (Ask _ _) => constructor; [simpl; tauto|intros]
  | |- reads _ (Draw _) => constructor; intros
  end.
Example ex_setting : setting ex_graph ex_rank 2 [0; 1] /\ clean (sampled start) /\
  exists s, trials S ex_graph 2 [0; 1] 3 start = Some ([[3; 3]; [9; 5]; [13; 7]], s).
Proof.
  split; [split; [|split]|].
  - intros [|[|m]]; red_reads; match goal with |- reads _ (if ?b then _ else _) => destruct b; red_reads end.
  - intros [|[|m]] q; simpl; intuition (subst; simpl; lia).
  - intros r [<-|[<-|[]]]; simpl; lia.
  - split; [intros n; reflexivity|]. eexists. vm_compute. reflexivity.
Qed.
