(** ext::linear_map (src/ext/linear_map.h) and ext::linear_set (src/ext/linear_set.h).
    The underlying vector is a list; iterators are positions.  Exceptions from copying are not
    modelled; out-of-range iterators are the caller's error. *)
From Coq Require Import List Arith Lia Bool.
Import ListNotations.

Section map.
Context {K V : Type} (keq : K -> K -> bool).
Definition lmap := list (K * V).

(** find, linear_map.h:199-213: position of the first entry with the key. *)
Fixpoint find (k : K) (m : lmap) : option nat :=
  match m with
  | [] => None
  | p :: m => if keq (fst p) k then Some 0 else option_map S (find k m)
  end.
Definition get (k : K) (m : lmap) : option V :=
  match find k m with Some i => option_map snd (nth_error m i) | None => None end.
(** count, linear_map.h:220-222. *)
Definition count (k : K) (m : lmap) : nat := match find k m with Some _ => 1 | None => 0 end.
(** operator[], linear_map.h:230-245, followed by the assignment of [v] to the reference it
    returns. *)
Fixpoint set_nth (i : nat) (v : V) (m : lmap) : lmap :=
  match m, i with
  | [], _ => []
  | p :: m, 0 => (fst p, v) :: m
  | p :: m, S i => p :: set_nth i v m
  end.
Definition index_assign (dflt : V) (k : K) (v : V) (m : lmap) : lmap :=
  match find k m with
  | Some i => set_nth i v m
  | None => let m' := m ++ [(k, dflt)] in set_nth (length m' - 1) v m'
  end.
(** operator[] read only: inserts the default value when absent. *)
Definition index_read (dflt : V) (k : K) (m : lmap) : lmap * V :=
  match find k m with
  | Some i => (m, match nth_error m i with Some p => snd p | None => dflt end)
  | None => (m ++ [(k, dflt)], dflt)
  end.
(** at, linear_map.h:255-266; None is std::out_of_range. *)
Definition at_ (k : K) (m : lmap) : option V := get k m.
(** insert, linear_map.h:276-291; emplace is the same (319-322). Returns position and flag. *)
Definition insert (k : K) (v : V) (m : lmap) : lmap * (nat * bool) :=
  match find k m with
  | Some i => (m, (i, false))
  | None => (m ++ [(k, v)], (length m, true))
  end.
(** range insert, linear_map.h:301-307. *)
Fixpoint insert_range (l : list (K * V)) (m : lmap) : lmap :=
  match l with
  | [] => m
  | p :: l => insert_range l (match find (fst p) m with None => m ++ [p] | Some _ => m end)
  end.
(** DefaultEraser::erase, linear_map.h:43-47 (vector::erase). *)
Definition erase_default (i : nat) (m : lmap) : lmap := firstn i m ++ skipn (S i) m.
(** MoveEraser::erase, linear_map.h:64-71: the last entry is moved into the hole. *)
Definition erase_move (i : nat) (m : lmap) : lmap :=
  let m' := if Nat.eqb i (length m - 1) then m
            else firstn i m ++ (match nth_error m (length m - 1) with Some b => [b] | None => [] end) ++ skipn (S i) m in
  removelast m'.
(** erase by key, linear_map.h:340-346. *)
Definition erase_key (eraser : nat -> lmap -> lmap) (k : K) (m : lmap) : lmap * nat :=
  match find k m with None => (m, 0) | Some i => (eraser i m, 1) end.
(** operator==, linear_map.h:126-134; [veq] compares entries' values. *)
Definition map_eq (veq : V -> V -> bool) (a b : lmap) : bool :=
  Nat.eqb (length a) (length b) &&
  forallb (fun p => existsb (fun q => keq (fst q) (fst p) && veq (snd q) (snd p)) b) a.
End map.

(** linear_set: values with a key extractor; linear_set.h. *)
Section set.
Context {K V : Type} (keq : K -> K -> bool) (key : V -> K).
Definition lset := list V.
Fixpoint sfind (k : K) (s : lset) : option nat :=
  match s with [] => None | v :: s => if keq k (key v) then Some 0 else option_map S (sfind k s) end.
Definition scount (k : K) (s : lset) : nat := match sfind k s with Some _ => 1 | None => 0 end.
Definition sinsert (v : V) (s : lset) : lset * (nat * bool) :=
  match sfind (key v) s with
  | Some i => (s, (i, false))
  | None => (s ++ [v], (length s, true))
  end.
Fixpoint sinsert_range (l : list V) (s : lset) : lset :=
  match l with
  | [] => s
  | v :: l => sinsert_range l (match sfind (key v) s with None => s ++ [v] | Some _ => s end)
  end.
Definition serase (i : nat) (s : lset) : lset := firstn i s ++ skipn (S i) s.
Definition serase_key (k : K) (s : lset) : lset * nat :=
  match sfind k s with None => (s, 0) | Some i => (serase i s, 1) end.
(** operator==: same size and every key of one is in the other. *)
Definition set_eq (a b : lset) : bool :=
  Nat.eqb (length a) (length b) && forallb (fun v => match sfind (key v) b with Some _ => true | None => false end) a.
End set.

(** Operations and histories of the map. *)
Inductive mop {K V : Type} :=
  | MInsert (k : K) (v : V) | MAssign (k : K) (v : V) | MRead (k : K)
  | MEraseKey (k : K) | MEraseAt (i : nat) | MInsertRange (l : list (K * V)) | MClear.
Arguments mop : clear implicits.
Section run.
Context {K V : Type} (keq : K -> K -> bool) (dflt : V) (move : bool).
Definition eraser : nat -> @lmap K V -> @lmap K V := if move then erase_move else erase_default.
Definition mstep (o : mop K V) (m : lmap) : lmap :=
  match o with
  | MInsert k v => fst (insert keq k v m)
  | MAssign k v => index_assign keq dflt k v m
  | MRead k => fst (index_read keq dflt k m)
  | MEraseKey k => fst (erase_key keq eraser k m)
  | MEraseAt i => if i <? length m then eraser i m else m   (* past-the-end: not a legal call *)
  | MInsertRange l => insert_range keq l m
  | MClear => []
  end.
Definition mrun (h : list (mop K V)) : lmap := fold_left (fun m o => mstep o m) h [].
End run.
Inductive sop {V K : Type} := SInsert (v : V) | SEraseKey (k : K) | SEraseAt (i : nat) | SInsertRange (l : list V) | SClear.
Arguments sop : clear implicits.
Section srun.
Context {K V : Type} (keq : K -> K -> bool) (key : V -> K).
Definition sstep (o : sop V K) (s : lset) : lset :=
  match o with
  | SInsert v => fst (sinsert keq key v s)
  | SEraseKey k => fst (serase_key keq key k s)
  | SEraseAt i => if i <? length s then serase i s else s
  | SInsertRange l => sinsert_range keq key l s
  | SClear => []
  end.
Definition srun (h : list (sop V K)) : lset := fold_left (fun s o => sstep o s) h [].
End srun.
