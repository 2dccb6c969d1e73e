(** The tree of the GUI: the counts of the elements and the list of the fault trees.
    Source: /repo/gui/modeltree.cpp:27-141 and /repo/gui/modeltree.h:30-104 (ModelTree), /repo/gui/model.h:420-430 (the tables it counts),
    boost::container::flat_set for the documented effects of lower_bound, find, insert and erase.

    Simplifications: a fault tree is its address; signals are delivered when they are emitted (Tables.v), the handler of the rows before
    the handler of the counts, as they are connected.  lower_bound runs from the front: on a sorted list it stops where the binary search
    does.  Names are compared by their bytes.  A cell is the number that data() puts into the text.  A failed GUI_ASSERT and the name of
    a dead fault tree are None.  Roles other than Qt::DisplayRole are left out.
    The view is a client that reads rows when the tree says that they were inserted or changed, and never otherwise. *)
From stdpp Require Import gmap strings list.
From Coq Require Import List String.
From Verif Require Import Undo Tables.
Import ListNotations.

(** ** The elements it reads *)
Definition tree_name (s : model) (f : addr) : option string := option_map t_name (trees s !! f).
(** gui/model.h:423-426 with the sizes of the tables of proxies *)
Definition count (s : model) (k : kind) : nat := size (base.filter (fun x => fst x = k) (dom (proxies s) : gset (kind * addr))).
(** modeltree.h:36, modeltree.cpp:126-139: the top rows *)
Definition top_row (k : kind) : nat := match k with KGate => 1 | KBasic => 2 | KHouse => 3 end.
Definition read_count (s : model) (r : nat) : option nat :=
  match r with 0 => Some (size (tree_table s)) | 1 => Some (count s KGate) | 2 => Some (count s KBasic) | 3 => Some (count s KHouse) | _ => None end.

(** ** The flat set *)
(** modeltree.h:85-92 *)
Fixpoint lower_bound (name : addr -> option string) (n : string) (l : list addr) : option nat :=
  match l with
  | [] => Some 0
  | x :: l => m ← name x; if String.ltb m n then i ← lower_bound name n l; Some (S i) else Some 0
  end.
(** An element that is equivalent under the order is not inserted. *)
Definition insert_at (name : addr -> option string) (n : string) (i : nat) (f : addr) (l : list addr) : option (list addr) :=
  match l !! i with
  | Some x => m ← name x; if String.ltb n m then Some (firstn i l ++ f :: skipn i l) else Some l
  | None => Some (firstn i l ++ f :: skipn i l)
  end.
Definition flat_insert (name : addr -> option string) (f : addr) (l : list addr) : option (list addr) :=
  n ← name f; i ← lower_bound name n l; insert_at name n i f l.
Definition flat_find (name : addr -> option string) (n : string) (l : list addr) : option nat :=
  i ← lower_bound name n l; x ← l !! i; m ← name x; if String.ltb n m then None else Some i.

(** ** The reactions *)
Inductive tnotice := TInserted (i : nat) | TRemoved (i : nat) | TCount (r : nat).
(** modeltree.cpp:29-31 *)
Fixpoint flat_fill (s : model) (l : list addr) (m : list addr) : option (list addr) :=
  match l with [] => Some m | f :: l => m ← flat_insert (tree_name s) f m; flat_fill s l m end.
Definition new_tree (s : model) (l : list addr) : option (list addr) := flat_fill s l [].
(** modeltree.cpp:33-73.  The removed fault tree is alive and has the name in the signal. *)
Definition tree_react (x : signal) (s : model) (l : list addr) : option (list addr * list (tnotice * list addr)) :=
  match x with
  | TreeAdded f =>
      n ← tree_name s f; i ← lower_bound (tree_name s) n l; m ← insert_at (tree_name s) n i f l;
      Some (m, [(TInserted i, m); (TCount 0, m)])
  | TreeRemoved f n =>
      i ← flat_find (fun x => if decide (x = f) then Some n else tree_name s x) n l;
      let m := firstn i l ++ skipn (S i) l in
      Some (m, [(TRemoved i, m); (TCount 0, m)])
  | Added k _ | Removed k _ => Some (l, [(TCount (top_row k), l)])
  | _ => Some (l, [])
  end.

(** ** A view: the numbers in the top rows and the names below the first *)
Record tree_view := TreeView { numbers : list nat; names : list string }.
(** modeltree.cpp:75-85, 95-103, 113-141 *)
Definition tree_watch (s : model) (n : tnotice) (l : list addr) (v : tree_view) : option tree_view :=
  match n with
  | TInserted i => f ← l !! i; m ← tree_name s f; Some (TreeView (numbers v) (firstn i (names v) ++ m :: skipn i (names v)))
  | TRemoved i => Some (TreeView (numbers v) (firstn i (names v) ++ skipn (S i) (names v)))
  | TCount r => c ← read_count s r; Some (TreeView (<[r := c]> (numbers v)) (names v))
  end.
Fixpoint tree_watch_all (s : model) (l : list (tnotice * list addr)) (v : tree_view) : option tree_view :=
  match l with [] => Some v | (n, t) :: l => v ← tree_watch s n t v; tree_watch_all s l v end.
Fixpoint read_names (s : model) (l : list addr) : option (list string) :=
  match l with [] => Some [] | f :: l => n ← tree_name s f; r ← read_names s l; Some (n :: r) end.
Definition read_tree (s : model) (l : list addr) : option tree_view :=
  r ← read_names s l; Some (TreeView [size (tree_table s); count s KGate; count s KBasic; count s KHouse] r).
Fixpoint tree_follow (l : list (signal * model)) (t : list addr) (v : tree_view) : option (list addr * tree_view) :=
  match l with
  | [] => Some (t, v)
  | (x, s) :: l => r ← tree_react x s t; v ← tree_watch_all s (snd r) v; tree_follow l (fst r) v
  end.
