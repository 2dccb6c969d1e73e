(** C08 (manager part), C09, C10 (transparency): the BDD manager. *)
From stdpp Require Import gmap.
From Verif Require Import CacheTable Bdd BddProofs BddHistory.
Open Scope Z_scope.

(** For every history of operations of a client (variables, constants, complement, AND, OR,
    dropping functions, clearing caches, death of unreferenced vertices), every injective
    variable order, every hash function and every cache capacity policy: nothing fails
    and each held function reads, under each assignment, as the Boolean function
    that the history specifies (and as nothing else). *)
Theorem bdd_history_correct :
  forall (ord : Z -> Z), (forall i j, ord i = ord j -> i = j) ->
  forall (hash : ckey -> nat) (prime : nat -> nat), (forall n, (0 < prime n)%nat) ->
  forall os, exists b held,
    run_bops hash prime ord (empty_bdd prime, []) os = Some (b, held) /\
    length held = length (spec_bops os []) /\
    forall i f g, nth_error held i = Some f -> nth_error (spec_bops os []) i = Some g ->
    forall σ r, fn_reads (nodes b) σ f r <-> r = g σ.
Proof. exact history_correct. Qed.
Print Assumptions bdd_history_correct.

(** Canonicity: two held functions are the same (vertex, complement) pair
    exactly when they have the same truth table. *)
Theorem bdd_canonical :
  forall (ord : Z -> Z), (forall i j, ord i = ord j -> i = j) ->
  forall (hash : ckey -> nat) (prime : nat -> nat), (forall n, (0 < prime n)%nat) ->
  forall os b held,
    run_bops hash prime ord (empty_bdd prime, []) os = Some (b, held) ->
    forall i j f f' g g', nth_error held i = Some f -> nth_error held j = Some f' ->
    nth_error (spec_bops os []) i = Some g -> nth_error (spec_bops os []) j = Some g' ->
    ((forall σ, g σ = g' σ) <-> f = f').
Proof. exact history_canonical. Qed.
Print Assumptions bdd_canonical.

(** Tautology and contradiction detection is exact. *)
Theorem bdd_constant_detection :
  forall (ord : Z -> Z), (forall i j, ord i = ord j -> i = j) ->
  forall (hash : ckey -> nat) (prime : nat -> nat), (forall n, (0 < prime n)%nat) ->
  forall os b held,
    run_bops hash prime ord (empty_bdd prime, []) os = Some (b, held) ->
    forall i f g, nth_error held i = Some f -> nth_error (spec_bops os []) i = Some g ->
    ((forall σ, g σ = true) <-> f = (false, kOne)) /\ ((forall σ, g σ = false) <-> f = (true, kOne)).
Proof. exact history_constant. Qed.
Print Assumptions bdd_constant_detection.

(** Ordered, reduced, closed under children and without duplicates. *)
Theorem bdd_structure :
  forall (ord : Z -> Z), (forall i j, ord i = ord j -> i = j) ->
  forall (hash : ckey -> nat) (prime : nat -> nat), (forall n, (0 < prime n)%nat) ->
  forall os b held,
    run_bops hash prime ord (empty_bdd prime, []) os = Some (b, held) ->
    (forall f, In f held -> live b f.2) /\
    (forall v n, nodes b !! v = Some n ->
       live b (n_high n) /\ live b (n_low n) /\ n_order n = ord (n_index n) /\
       (forall c m, c = n_high n \/ c = n_low n -> nodes b !! c = Some m -> n_order n < n_order m) /\
       (n_high n = n_low n -> n_ce n = true)) /\
    (forall v v' n n', nodes b !! v = Some n -> nodes b !! v' = Some n' ->
       n_index n = n_index n' -> n_high n = n_high n' -> n_low n = n_low n' -> n_ce n = n_ce n' -> v = v').
Proof. exact history_structure. Qed.
Print Assumptions bdd_structure.

(** Transparency of the computation caches: two runs of the same client history with
    different hash functions, capacities, and additional cache clearings in one of them
    hold functions that agree on each assignment. *)
Theorem bdd_cache_transparent :
  forall (ord : Z -> Z), (forall i j, ord i = ord j -> i = j) ->
  forall (hash hash' : ckey -> nat) (prime prime' : nat -> nat),
  (forall n, (0 < prime n)%nat) -> (forall n, (0 < prime' n)%nat) ->
  forall os os', List.filter not_clear os = List.filter not_clear os' ->
  forall b held b' held',
    run_bops hash prime ord (empty_bdd prime, []) os = Some (b, held) ->
    run_bops hash' prime' ord (empty_bdd prime', []) os' = Some (b', held') ->
    length held = length held' /\
    forall i f f', nth_error held i = Some f -> nth_error held' i = Some f' ->
    forall σ r, fn_reads (nodes b) σ f r <-> fn_reads (nodes b') σ f' r.
Proof. exact history_cache_transparent. Qed.
Print Assumptions bdd_cache_transparent.

(** Non-vacuity: (x1 & x2) | ~x1 against ~(x1 & ~x2), all keys colliding, with a clear and
    a death of the vertex of x2. *)
Definition example_history : list bop :=
  [BVar 1; BVar 2; BApply CAnd 0 1; BNot 2; BApply COr 0 1; BClear;
   BNot 3; BApply CAnd 0 5; BNot 0].
Example bdd_example :
  exists b held, run_bops (fun _ => O) S (fun i => i) (empty_bdd S, []) example_history = Some (b, held)
   /\ nth_error held 0 = nth_error held 3 /\ nth_error held 0 <> nth_error held 1.
Proof.
  eexists _, _. split; [vm_compute; reflexivity|]. split; [reflexivity|discriminate].
Qed.
