(** The unique table of BDD and ZBDD vertices, with reference counts and weak pointers.
    Source: /repo/src/bdd.h:75-125 (WeakIntrusivePtr), 128-196 (Vertex), 377-545 (UniqueTable);
    bdd.cc:91-104 and zbdd.cc:198-218 (FindOrAddVertex).  One model serves both diagrams: a ZBDD
    vertex has no complement edge.  Attributes that are not part of the signature (order, module,
    coherent, marks, p, factor) are left out; int overflow of sizes is not modelled. *)
From stdpp Require Import gmap.
From Coq Require Import List ZArith Lia Bool.
Import ListNotations.
Open Scope Z_scope.

(** A vertex in memory: id_; index, complement edge, high and low of a non-terminal; use_count_;
    table_ptr_ (the entry of the table that points to it). *)
Record vert := Vert { v_id : Z; v_node : option (Z * bool * nat * nat); v_uses : nat; v_entry : option nat }.
Definition set_uses (n : nat) (v : vert) : vert := Vert (v_id v) (v_node v) n (v_entry v).
Definition set_entry (o : option nat) (v : vert) : vert := Vert (v_id v) (v_node v) (v_uses v) o.
Definition kids (v : vert) : list nat := match v_node v with Some (_, _, h, l) => [h; l] | None => [] end.
Notation memory := (gmap nat vert).
(** Entries of the table: the pointer of each, None if expired. *)
Notation entries := (gmap nat (option nat)).
(** The diagram: memory, table (buckets are lists of entries), size_, function_id_ or set_id_. *)
Record state := State { heap : memory; cells : entries; table : list (list nat); size : Z; next_id : Z }.

Definition key : Type := Z * Z * Z.
Definition id_of (H : memory) (a : nat) : option Z := v_id <$> H !! a.
(** get_high_id, get_low_id (bdd.h:249-255, 328-330). *)
Definition signed (c : bool) (i : Z) : Z := if c then - i else i.
Definition key_of (H : memory) (a : nat) : option key :=
  v ← H !! a;
  match v_node v with
  | Some (i, c, h, l) => hi ← id_of H h; lo ← id_of H l; Some (i, hi, signed c lo)
  | None => None
  end.

Section Table.
(** Hash (bdd.h:512-518), the growth of the capacity with its random prime test, and the memory
    allocators: anything. *)
Context (hash : key -> nat) (grow : nat -> nat) (new_vertex : memory -> nat) (new_entry : entries -> nat).

(** Rehash (bdd.h:480-506). *)
Fixpoint rehash_entries (H : memory) (cap : nat) (l : list nat) (C : entries) (T : list (list nat)) (n : Z) : option (entries * list (list nat) * Z) :=
  match l with
  | [] => Some (C, T, n)
  | c :: l =>
      match C !! c with
      | None => None
      | Some None => rehash_entries H cap l (delete c C) T n
      | Some (Some a) => k ← key_of H a; rehash_entries H cap l C (alter (cons c) (hash k mod cap)%nat T) (n + 1)
      end
  end.
Definition rehash (cap : nat) (s : state) : option state :=
  '(C, T, n) ← rehash_entries (heap s) cap (concat (table s)) (cells s) (repeat [] cap) 0;
  Some (State (heap s) C T n (next_id s)).

(** The loop over a chain (bdd.h:457-469): what the chain becomes, the erased entries, the entry
    found. *)
Fixpoint scan (H : memory) (C : entries) (k : key) (l : list nat) : option (list nat * list nat * option nat) :=
  match l with
  | [] => Some ([], [], None)
  | c :: l =>
      match C !! c with
      | None => None
      | Some None => '(ch, er, r) ← scan H C k l; Some (ch, c :: er, r)
      | Some (Some a) =>
          k' ← key_of H a;
          if decide (k' = k) then Some (c :: l, [], Some c)
          else '(ch, er, r) ← scan H C k l; Some (c :: ch, er, r)
      end
  end.
Definition delete_all (l : list nat) (C : entries) : entries := fold_right delete C l.
(** FindOrAdd (bdd.h:450-473). *)
Definition find_or_add (k : key) (s : state) : option (nat * state) :=
  s ← (if 3 * Z.of_nat (length (table s)) <=? 4 * size s then rehash (grow (length (table s))) s else Some s);
  let b := (hash k mod length (table s))%nat in
  chain ← table s !! b;
  '(ch, er, r) ← scan (heap s) (cells s) k chain;
  let C := delete_all er (cells s) in
  let n := size s - Z.of_nat (length er) in
  match r with
  | Some c => Some (c, State (heap s) C (<[b := ch]> (table s)) n (next_id s))
  | None =>
      let c := new_entry C in
      Some (c, State (heap s) (<[c := None]> C) (<[b := ch ++ [c]]> (table s)) (n + 1) (next_id s))
  end.

(** intrusive_ptr_add_ref. *)
Definition add_ref (a : nat) (H : memory) : memory := alter (fun v => set_uses (S (v_uses v)) v) a H.
(** FindOrAddVertex (bdd.cc:91-104, zbdd.cc:198-218). *)
Definition find_or_add_vertex (i : Z) (c : bool) (h l : nat) (s : state) : option (nat * state) :=
  hi ← id_of (heap s) h; lo ← id_of (heap s) l;
  '(e, s) ← find_or_add (i, hi, signed c lo) s;
  p ← cells s !! e;
  match p with
  | Some a => Some (a, State (add_ref a (heap s)) (cells s) (table s) (size s) (next_id s))
  | None =>
      let H := add_ref l (add_ref h (heap s)) in
      let a := new_vertex H in
      Some (a, State (<[a := Vert (next_id s) (Some (i, c, h, l)) 1 (Some e)]> H) (<[e := Some a]> (cells s)) (table s) (size s) (next_id s + 1))
  end.

(** intrusive_ptr_release and the destructors: low_, high_, then ~Vertex (bdd.h:150-160, 185-189). *)
Fixpoint release (fuel : nat) (a : nat) (H : memory) (C : entries) : option (memory * entries) :=
  match fuel with
  | O => None
  | S fuel =>
      v ← H !! a;
      match v_uses v with
      | O => None
      | S n =>
          let H := <[a := set_uses n v]> H in
          if (0 <? n)%nat then Some (H, C)
          else
            '(H, C) ← (match v_node v with
                       | Some (_, _, h, l) => '(H, C) ← release fuel l H C; release fuel h H C
                       | None => Some (H, C)
                       end);
            w ← H !! a;
            Some (delete a H, match v_entry w with Some e => <[e := None]> C | None => C end)
      end
  end.
Definition release_vertex (fuel : nat) (a : nat) (s : state) : option state :=
  '(H, C) ← release fuel a (heap s) (cells s); Some (State H C (table s) (size s) (next_id s)).

(** clear (bdd.h:414-418): ~WeakIntrusivePtr resets the pointer of the vertex. *)
Definition forget (C : entries) (H : memory) (l : list nat) : memory :=
  fold_right (fun c H => match C !! c with Some (Some a) => alter (set_entry None) a H | _ => H end) H l.
Definition clear (s : state) : state :=
  State (forget (cells s) (heap s) (concat (table s))) ∅ (map (fun _ => []) (table s)) 0 (next_id s).

(** ** Histories.  The algorithms hold references to vertices: they may ask for a vertex over ones
    they hold, copy a reference, go to a child, drop a reference, clear the table. *)
Inductive op := OFind (i : Z) (c : bool) (h l : nat) | OCopy (a : nat) | OHigh (a : nat) | OLow (a : nat) | ODrop (a : nat) | OClear.
Fixpoint remove_one (a : nat) (l : list nat) : list nat :=
  match l with [] => [] | b :: l => if Nat.eqb a b then l else b :: remove_one a l end.
Definition allowed (o : op) (s : state) (held : list nat) : Prop :=
  match o with
  | OFind _ c h l => In h held /\ In l held /\ (c = true -> id_of (heap s) l <> Some 0)
  | OCopy a | ODrop a => In a held
  | OHigh a | OLow a => In a held /\ exists v x, heap s !! a = Some v /\ v_node v = Some x
  | OClear => True
  end.
Definition with_heap (s : state) (H : memory) : state := State H (cells s) (table s) (size s) (next_id s).
Definition step (o : op) (s : state) (held : list nat) : option (state * list nat) :=
  match o with
  | OFind i c h l => '(a, s) ← find_or_add_vertex i c h l s; Some (s, a :: held)
  | OCopy a => Some (with_heap s (add_ref a (heap s)), a :: held)
  | OHigh a => v ← heap s !! a; '(_, _, h, _) ← v_node v; Some (with_heap s (add_ref h (heap s)), h :: held)
  | OLow a => v ← heap s !! a; '(_, _, _, l) ← v_node v; Some (with_heap s (add_ref l (heap s)), l :: held)
  | ODrop a => v ← heap s !! a; s ← release_vertex (S (Z.to_nat (v_id v))) a s; Some (s, remove_one a held)
  | OClear => Some (clear s, held)
  end.
(** A new diagram: the terminal 1 (BDD) or the terminals 1 and 0 (ZBDD). *)
Definition start (two : bool) (cap : nat) : state * list nat :=
  let H := <[0%nat := Vert 1 None 1 None]> (if two then {[1%nat := Vert 0 None 1 None]} else ∅) in
  (State H ∅ (repeat [] cap) 0 2, if two then [0; 1]%nat else [0%nat]).
Definition is_clear (o : op) : bool := match o with OClear => true | _ => false end.
(** Reachable states; the flag tells if the table was ever cleared (only by a ZBDD with
    substitutions, zbdd.cc:749). *)
Inductive reach (two : bool) (cap : nat) : bool -> state -> list nat -> Prop :=
| reach_start : reach two cap false (fst (start two cap)) (snd (start two cap))
| reach_step f s held o s' held' : reach two cap f s held -> allowed o s held -> step o s held = Some (s', held') -> reach two cap (f || is_clear o) s' held'.
End Table.
