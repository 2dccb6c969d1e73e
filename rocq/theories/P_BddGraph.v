(** C08 (graph part): the BDD built from a normalised graph with modules computes the value of
    the root for every assignment of the variables.
    Vocabulary: [node_value] (Pdag.v), the value of a node when the variables have given
    values; [fn_reads] (Bdd.v), the value at the end of the path of an assignment, complement
    edges included. *)
From stdpp Require Import gmap.
From Coq Require Import List ZArith Lia Bool Permutation.
Import ListNotations.
From Verif Require Import Pdag PdagProofs PdagSem ZbddGraph BddGraph.
From Verif Require CacheTable Bdd BddProofs BddHistory.
Open Scope Z_scope.

(** The assignment gives the variables the values of ρ and each module the value of its
    diagram. *)
Definition expanded (G : graph) (b : Bdd.bdd) (mods : gmap Z Bdd.fn) (ρ σ : Z -> bool) : Prop :=
  (forall v, gs G !! v = None -> σ v = ρ v) /\
  (forall m f, mods !! m = Some f -> Bdd.fn_reads (Bdd.nodes b) σ f (σ m)).

Section C08.
Context (ord : Z -> Z) (ord_inj : forall i j, ord i = ord j -> i = j).
Context (hash : Bdd.ckey -> nat) (prime : nat -> nat) (prime_pos : forall n, (0 < prime n)%nat).
Context (G : graph) (module : Z -> bool) (parents : Z -> nat) (arrange : list Bdd.fn -> list Bdd.fn).
Context (ARR : forall l, Permutation (arrange l) l).
(** What the preprocessor leaves: AND and OR gates with at least two arguments, no constants,
    complements anywhere. *)
Definition and_or_graph : Prop := forall i x, gs G !! i = Some x ->
  (g_type x = kAnd \/ g_type x = kOr) /\ (2 <= length (g_args x))%nat /\ constant x = false.

Lemma arg_var x a i : PdagProofs.wf G -> gs G !! i = Some x -> constant x = false -> In a (g_args x) ->
  a <> 0 /\ 1 < Z.abs a < nxt G.
Proof.
  intros W E C J. apply W in E as (_ & _ & H). destruct (H a J) as (N & L & _). split; auto.
  assert (Z.abs a <> 1); [|lia]. intros A. unfold constant, has in C. apply orb_false_iff in C as [H1 H2].
  assert (HH : existsb (Z.eqb 1) (g_args x) = true \/ existsb (Z.eqb (-1)) (g_args x) = true).
  { destruct (Z.le_gt_cases 0 a); [left|right]; apply existsb_exists; exists a; split; auto; apply Z.eqb_eq; lia. }
  destruct HH; congruence.
Qed.

Theorem C08_graph root complement : PdagProofs.wf G -> acyclic G -> and_or_graph -> is_Some (gs G !! root) ->
  exists N, forall fuel, (N <= fuel)%nat -> exists f s, of_graph ord hash prime G module parents arrange fuel root complement = Some (f, s) /\
    forall ρ, (exists σ, expanded G (c_bdd s) (c_mods s) ρ σ) /\
      forall σ, expanded G (c_bdd s) (c_mods s) ρ σ ->
        forall r, Bdd.fn_reads (Bdd.nodes (c_bdd s)) σ f r <-> node_value G ρ root (xorb complement r).
Proof.
  intros W [r0 RK] AO SR. exists (S (r0 root)). intros fuel F.
  assert (NORM : forall g, is_Some (gs G !! g) -> normal G module g).
  { intros g _ i x E _. destruct (AO i x E) as (T & L & C). repeat (split; auto). intros a J. apply (arg_var x a i W E C J). }
  assert (OK : conv_ok ord hash G module parents (Conv (Bdd.empty_bdd prime) ∅ ∅)).
  { split; [apply BddProofs.empty_wf; auto|]. split; intros g r; [intros c E|intros E]; simpl in E.
    - elim (lookup_empty_Some (M := gmap Z) g (r, c) E).
    - elim (lookup_empty_Some (M := gmap Z) g r E). }
  assert (CL : closed G module (Conv (Bdd.empty_bdd prime) ∅ ∅)).
  { split; [intros g [r E]|intros g r c E]; simpl in E; [elim (lookup_empty_Some (M := gmap Z) g r E)|elim (lookup_empty_Some (M := gmap Z) g (r, c) E)]. }
  destruct (convert_ok ord hash prime G module parents arrange ord_inj prime_pos ARR NORM r0 RK fuel root (Conv (Bdd.empty_bdd prime) ∅ ∅) OK CL SR) as (r & s & E & OK' & X & D & K & CL' & RG); [lia|].
  destruct SR as [x Ex]. unfold of_graph. rewrite Ex. cbn [mbind option_bind].
  destruct (AO root x Ex) as (T & _). replace (conn_eqb (g_type x) kNull) with false by (destruct T as [-> | ->]; auto).
  rewrite E. cbn [mbind option_bind]. eexists _, _. split; [reflexivity|]. cbn [c_bdd c_mods].
  change (Bdd.nodes (Bdd.clear_tables (c_bdd s))) with (Bdd.nodes (c_bdd s)).
  pose proof OK' as (WB & _ & DM). assert (ST : BddProofs.store_ok ord (Bdd.nodes (c_bdd s))) by apply WB.
  intros ρ. destruct (labelling_exists G r0 ρ W RK) as (ν & C & Hν).
  assert (RES : forall g, respects G module g ν) by (intros g i y Ey _; apply C; auto).
  (* an assignment of this kind agrees with the values of the nodes *)
  assert (AG : forall σ, expanded G (Bdd.clear_tables (c_bdd s)) (c_mods s) ρ σ -> forall n g f, (r0 g < n)%nat -> is_Some (gs G !! g) -> registers G module g s ->
     denotes G module g (c_bdd s) (fun ν => ν g) f -> BddProofs.feval (Bdd.nodes (c_bdd s)) σ f = ν g).
  { intros σ [HV HM]. induction n as [|n IH]; intros g f Ln Sg Rg (V & Ev & Su); [lia|].
    rewrite <- (Ev ν (RES g)). apply Su. intros a (j & (i & y & Ey & A & J & Kj) & ->).
    destruct (AO i y Ey) as (_ & _ & Cy). destruct (arg_var y j i W Ey Cy J) as [Nj Bj].
    destruct (gs G !! Z.abs j) as [w|] eqn:Ej.
    - assert (Lj : leaf G module g j) by (exists i, y; rewrite Ej; auto). destruct Kj as [Kj|Kj]; [discriminate|].
      destruct (proj2 Rg j Lj) as [fj Efj]; [rewrite Ej; eauto|]. destruct (DM _ _ Efj) as (_ & _ & Dj).
      pose proof (HM _ _ Efj) as HR. change (Bdd.nodes (Bdd.clear_tables (c_bdd s))) with (Bdd.nodes (c_bdd s)) in HR.
      apply (BddProofs.fn_reads_iff ord) in HR; [|auto|apply Dj]. rewrite HR. apply (IH (Z.abs j)); [|rewrite Ej; eauto|apply CL'; eauto|auto].
      assert (r0 (Z.abs j) < r0 i)%nat by (apply (RK i y j); auto; rewrite Ej; eauto).
      assert (r0 i <= r0 g)%nat; [|lia]. clear -A RK. induction A as [|i z a A IHA E J S M]; auto. pose proof (RK i z a E J S). lia.
    - rewrite HV by auto. symmetry. apply Hν; auto. }
  split.
  - exists (fun a => match gs G !! a with Some _ => ν a | None => ρ a end). split; [intros v ->; auto|].
    intros m f Em. change (Bdd.nodes (Bdd.clear_tables (c_bdd s))) with (Bdd.nodes (c_bdd s)). destruct (DM m f Em) as (Sm & _ & V & Ev & Su).
    apply (BddProofs.fn_reads_iff ord); auto. destruct Sm as [y Ey]. rewrite Ey. rewrite <- (Ev ν (RES m)). apply Su.
    intros a (j & (i & z & Ez & A & J & Kj) & ->). destruct (AO i z Ez) as (_ & _ & Cz). destruct (arg_var z j i W Ez Cz J) as [Nj Bj].
    destruct (gs G !! Z.abs j) eqn:Ej; auto.
  - intros σ HX b. assert (V : BddProofs.valid (Bdd.nodes (c_bdd s)) r.2) by apply D.
    rewrite (BddProofs.fn_reads_iff ord) by auto.
    assert (FE : BddProofs.feval (Bdd.nodes (c_bdd s)) σ (xorb r.1 complement, r.2) = xorb complement (ν root)).
    { rewrite <- (AG σ HX (S (r0 root)) root r); [|lia|eauto|auto|auto]. destruct r as [c v]. unfold BddProofs.feval. simpl.
      destruct c, complement, (BddProofs.eval (Bdd.nodes (c_bdd s)) σ v); auto. }
    rewrite FE. split.
    + intros ->. exists ν. split; auto. split; auto. destruct complement, (ν root); auto.
    + intros NV. assert (Y : xorb complement b = ν root).
      { apply (node_value_unique G ρ root (ν root) (xorb complement b) W); [exists r0; auto| |exists ν; auto|auto]. apply W in Ex. lia. }
      rewrite <- Y. destruct complement, b; auto.
Qed.

(** The graph of one variable or of a constant. *)
Theorem C08_trivial root x c : PdagProofs.wf G -> acyclic G -> gs G !! root = Some x -> g_type x = kNull -> g_args x = [c] -> gs G !! Z.abs c = None ->
  forall fuel, exists f s, of_graph ord hash prime G module parents arrange fuel root false = Some (f, s) /\
    forall ρ r, Bdd.fn_reads (Bdd.nodes (c_bdd s)) ρ f r <-> node_value G ρ root r.
Proof.
  intros W AC Ex T A N fuel. unfold of_graph. rewrite Ex. cbn [mbind option_bind]. rewrite T, A. cbn [conn_eqb].
  unfold is_gate. rewrite N. pose proof AC as [r0 RK].
  assert (WE : BddProofs.wf ord hash (Bdd.empty_bdd prime)) by (apply BddProofs.empty_wf; auto).
  assert (NV : forall ρ ν b, Pdag.consistent G ν -> (forall j, 1 < j < nxt G -> gs G !! j = None -> ν j = ρ j) -> (node_value G ρ root b <-> b = lit ν c)).
  { intros ρ ν b C H. assert (R : ν root = lit ν c).
    { rewrite (proj2 C _ _ Ex). unfold gate_value. rewrite T, A. simpl. auto. }
    split.
    - intros NB. rewrite <- R. apply (node_value_unique G ρ root (ν root) b W AC); auto; [apply W in Ex; lia|]. exists ν. auto.
    - intros ->. exists ν. auto. }
  assert (BC : c <> 0 /\ Z.abs c < nxt G) by (pose proof Ex as Ew; apply W in Ew as (_ & _ & H); destruct (H c) as (? & ? & _); [rewrite A; simpl; auto|]; lia).
  assert (UN : constant x = (Z.abs c =? 1)).
  { unfold constant, has. rewrite A. cbn [existsb]. rewrite !orb_false_r. apply eq_true_iff_eq. rewrite orb_true_iff, !Z.eqb_eq. lia. }
  rewrite UN. destruct (Z.eqb_spec (Z.abs c) 1) as [C1|C1].
  - eexists _, _. split; [reflexivity|]. intros ρ r. destruct (labelling_exists G r0 ρ W RK) as (ν & C & H). rewrite (NV ρ ν r C H).
    cbn [c_bdd]. rewrite (BddProofs.fn_reads_iff ord); [|apply WE|left; auto].
    unfold BddProofs.feval. simpl fst. simpl snd. rewrite (BddProofs.eval_one ord) by apply WE.
    unfold lit. destruct (Z.ltb_spec c 0); [replace (- c) with 1 by lia|replace c with 1 by lia]; rewrite (proj1 C); tauto.
  - cbn [c_bdd]. destruct (literal ord c (Bdd.empty_bdd prime)) as [b f] eqn:EL.
    destruct (literal_ok ord hash c _ b f WE EL) as (Wb & _ & V & EV).
    exists f, (Conv b ∅ ∅). split; auto. intros ρ r. destruct (labelling_exists G r0 ρ W RK) as (ν & C & H). rewrite (NV ρ ν r C H).
    cbn [c_bdd]. rewrite (BddProofs.fn_reads_iff ord); [|apply Wb|auto]. rewrite EV, (lit_abs ν c) by lia.
    rewrite (H (Z.abs c)) by (auto; lia). tauto.
Qed.
End C08.

(** A concrete case: 11 = 2 and not (8 or 5), where module 8 = 3 and not 4. *)
Definition ex_gr : graph := Graph {[8 := Gate kAnd 0 [3; -4]; 9 := Gate kOr 0 [8; 5]; 11 := Gate kAnd 0 [2; -9]]} 12 [] true.
Definition ex_mod (g : Z) : bool := g =? 8.
Definition ex_run (complement : bool) := of_graph Z.opp (fun _ => 0%nat) S ex_gr ex_mod (fun _ => 1%nat) (fun l => l) 5 11 complement.
(* under the given values of 2, 3, 4, 5 *)
Definition ex_value (complement v2 v3 v4 v5 : bool) : option bool :=
  '(f, s) ← ex_run complement;
  let σ m := fun a => if a =? 2 then v2 else if a =? 3 then v3 else if a =? 4 then v4 else if a =? 5 then v5 else m in
  g ← c_mods s !! 8;
  let m := BddProofs.feval (Bdd.nodes (c_bdd s)) (σ false) g in
  Some (BddProofs.feval (Bdd.nodes (c_bdd s)) (σ m) f).
Example ex_runs : forall c v2 v3 v4 v5, ex_value c v2 v3 v4 v5 = Some (xorb c (v2 && negb (v3 && negb v4 || v5))).
Proof. intros [] [] [] [] []; vm_compute; reflexivity. Qed.
Lemma ex_gr_gates i x : gs ex_gr !! i = Some x -> (i = 8 /\ x = Gate kAnd 0 [3; -4]) \/ (i = 9 /\ x = Gate kOr 0 [8; 5]) \/ (i = 11 /\ x = Gate kAnd 0 [2; -9]).
Proof.
  unfold ex_gr. simpl. intros E. repeat (apply lookup_insert_Some in E as [[<- <-]|[_ E]]; auto 10).
  apply lookup_singleton_Some in E as [<- <-]. auto.
Qed.
Example ex_hypotheses : PdagProofs.wf ex_gr /\ acyclic ex_gr /\ and_or_graph ex_gr /\ is_Some (gs ex_gr !! 11).
Proof.
  split; [|split; [|split]].
  - split; [simpl; lia|]. intros i x E. destruct (ex_gr_gates i x E) as [[-> ->]|[[-> ->]|[-> ->]]]; (split; [simpl; lia|]); (split; [simpl; repeat constructor; simpl; intuition lia|]);
      intros a Ha; simpl in Ha; simpl; intuition (subst; simpl; lia).
  - exists (fun j => if j =? 11 then 2%nat else if j =? 9 then 1%nat else 0%nat). intros i x a E Ha [y Hy].
    destruct (ex_gr_gates i x E) as [[-> ->]|[[-> ->]|[-> ->]]]; destruct (ex_gr_gates _ y Hy) as [[Ey _]|[[Ey _]|[Ey _]]]; simpl in Ha; rewrite Ey; simpl; lia.
  - intros i x E. destruct (ex_gr_gates i x E) as [[-> ->]|[[-> ->]|[-> ->]]]; simpl; auto.
  - vm_compute. eauto.
Qed.

Print Assumptions C08_graph.
Print Assumptions C08_trivial.
