(** C10: computation caches are transparent (table level). *)
From Coq Require Import List Arith.
From Verif Require Import CacheTable.
Import ListNotations.

(** For every hash function and capacity policy, after any history of stores,
    clears and reserves, a hit returns the most recent value stored under that very key
    since the last clear. *)
Theorem cache_hit_is_last_stored :
  forall (K V : Type) (keq : forall a b : K, {a = b} + {a <> b}) (hash : K -> nat)
    (prime : nat -> nat), (forall n, 0 < prime n) ->
  forall init (h : list (op K V)) k v,
    find K V keq hash (fold_left (run_op K V hash prime) h (new_cache K V prime init)) k = Some v ->
    last_stored K V keq h k None = Some v.
Proof. exact cache_sound. Qed.
Print Assumptions cache_hit_is_last_stored.

(** A value just stored is found again (the cache is not useless). *)
Theorem cache_store_then_find :
  forall (K V : Type) (keq : forall a b : K, {a = b} + {a <> b}) (hash : K -> nat)
    (prime : nat -> nat), (forall n, 0 < prime n) ->
  forall init (h : list (op K V)) k v,
    find K V keq hash (emplace K V hash prime
       (fold_left (run_op K V hash prime) h (new_cache K V prime init)) k v) k = Some v.
Proof. exact cache_hit. Qed.
Print Assumptions cache_store_then_find.

(** The reported size is the number of occupied slots. *)
Theorem cache_size_exact :
  forall (K V : Type) (keq : forall a b : K, {a = b} + {a <> b}) (hash : K -> nat)
    (prime : nat -> nat), (forall n, 0 < prime n) ->
  forall init (h : list (op K V)),
    let c := fold_left (run_op K V hash prime) h (new_cache K V prime init) in
    csize c = length (filter (fun e => match e with Some _ => true | None => false end) (slots c)).
Proof. exact cache_size. Qed.
Print Assumptions cache_size_exact.

(** Non-vacuity: a colliding history with a resize; key 1 was evicted by 4 (capacity 3). *)
Example cache_example :
  let c := fold_left (run_op nat nat (fun k => k) (fun n => S n))
             [OEmplace 1 10; OEmplace 4 40; OEmplace 2 20; OEmplace 3 30] (new_cache nat nat (fun n => S n) 2) in
  (find nat nat Nat.eq_dec (fun k => k) c 4, find nat nat Nat.eq_dec (fun k => k) c 1,
   find nat nat Nat.eq_dec (fun k => k) c 3, length (slots c)) = (Some 40, None, Some 30, 3).
Proof. reflexivity. Qed.
