(** The tables of the GUI: the signals of the commands, the item models that react to them and a view that follows the item models.
    Source: /repo/gui/model.h:104-691 and /repo/gui/model.cpp:30-209 (the emit statements of the commands of Undo.v),
    /repo/gui/elementcontainermodel.cpp:29-120,125-130,163-212,250-262,264-283 and /repo/gui/elementcontainermodel.h:35-112
    (ElementContainerModel and the models of basic events, house events and gates).

    Simplifications: a proxy is the address of its event (as in Undo.v).  Signals are delivered when they are emitted, in order.  A cell
    is the value that data() turns into text; the probability is the handle of the expression.  Headers, alignment, roles other than
    Qt::DisplayRole, sorting and filtering proxies are left out.  A failed GUI_ASSERT and an invalid row are None.
    The view is a client of the item model that does what the documentation of QAbstractItemModel says: it reads rows when they are
    inserted, changed or reset, and never otherwise. *)
From stdpp Require Import gmap strings list.
From Coq Require Import List String.
From Verif Require Import Undo.
Import ListNotations.

(** ** The signals *)
Inductive signal :=
| Added (k : kind) (a : addr) | Removed (k : kind) (a : addr) | LabelChanged (a : addr) | IdChanged (a : addr)
| FlavorChanged (a : addr) | ExpressionChanged (a : addr) | StateChanged (a : addr) | FormulaChanged (a : addr)
| TreeAdded (f : addr) | TreeRemoved (f : addr) (n : string).
(** Programs that emit signals: every signal with the model at that moment. *)
Definition SM (A : Type) : Type := model -> option (A * model * list (signal * model)).
Definition quiet {A} (m : M A) : SM A := fun s => match m s with Some (x, s', _) => Some (x, s', []) | None => None end.
Definition emit (x : signal) : SM unit := fun s => Some (tt, s, [(x, s)]).
Definition emit_all (l : list signal) : SM unit := fun s => Some (tt, s, map (fun x => (x, s)) l).
Definition sbind {A B} (m : SM A) (f : A -> SM B) : SM B := fun s =>
  match m s with
  | Some (x, s1, l1) => match f x s1 with Some (y, s2, l2) => Some (y, s2, l1 ++ l2) | None => None end
  | None => None
  end.
Definition sret {A} (x : A) : SM A := fun s => Some (x, s, []).
Notation "x <~ m ;;; k" := (sbind m (fun x => k)) (at level 100, m at next level, right associativity, k at level 200).
Notation "m ~;; k" := (sbind m (fun _ => k)) (at level 100, k at level 200, right associativity).

(** gui/model.cpp:35-43, gui/model.h:111-133, gui/model.cpp:60-72, 79-99, 106-116, 124-128, 171-179 (modelNameChanged is no signal to a table) *)
Definition involution_s (c : command) : SM command :=
  match c with
  | SetLabel a l =>
      e <~ quiet (event_of a);;;
      if decide (l = e_label e) then sret c else
      quiet (put_event a (with_label l e)) ~;; emit (LabelChanged a) ~;; sret (SetLabel a (e_label e))
  | SetId k a n ft =>
      e <~ quiet (event_of a);;;
      if decide (n = e_name e) then sret c else
      quiet (tree_remove k a (e_name e) ft) ~;;
      p <~ quiet (model_remove k a);;;
      quiet (check (fun _ => valid_name n)) ~;;
      quiet (tree_add k a n ft) ~;;
      quiet (model_add a (with_name n p)) ~;;
      emit (IdChanged a) ~;;
      sret (SetId k a (e_name e) ft)
  | SetExpression a x =>
      e <~ quiet (event_of a);;;
      match e_data e with
      | DBasic y => if decide (x = y) then sret c else quiet (put_event a (with_data (DBasic x) e)) ~;; emit (ExpressionChanged a) ~;; sret (SetExpression a y)
      | _ => quiet fail
      end
  | SetFlavor a fl =>
      cur <~ quiet (read (fun s => proxies s !! (KBasic, a)));;;
      if decide (fl = cur) then sret c else
      e <~ quiet (event_of a);;;
      quiet (put_event a (with_attrs (match fl with Basic => delete "flavor"%string (e_attrs e)
                                           | Undeveloped => <["flavor"%string := ("undeveloped"%string, ""%string)]> (e_attrs e) end) e)) ~;;
      quiet (modify (fun s => with_proxies (<[(KBasic, a) := fl]> (proxies s)) s)) ~;;
      emit (FlavorChanged a) ~;;
      sret (SetFlavor a cur)
  | SetState a b =>
      e <~ quiet (event_of a);;;
      match e_data e with
      | DHouse y => if decide (b = y) then sret c else quiet (put_event a (with_data (DHouse b) e)) ~;; emit (StateChanged a) ~;; sret (SetState a y)
      | _ => quiet fail
      end
  | SetFormula a f =>
      e <~ quiet (event_of a);;;
      match e_data e with
      | DGate g => quiet (put_event a (with_data (DGate f) e)) ~;; emit (FormulaChanged a) ~;; sret (SetFormula a g)
      | _ => quiet fail
      end
  | c => quiet (involution c)
  end.
(** gui/model.h:526-549 *)
Definition add_event_s (k : kind) (a : addr) (o : option (event * flavor)) (ft : option addr) : SM (option (event * flavor)) :=
  p <~ quiet (take o);;;
  quiet (model_add a (fst p)) ~;;
  quiet (proxy_add k a (snd p)) ~;;
  emit (Added k a) ~;;
  quiet (tree_add k a (e_name (fst p)) ft) ~;;
  sret None.
Definition remove_event_s (k : kind) (a : addr) (ft : option addr) : SM (option (event * flavor)) :=
  e <~ quiet (model_remove k a);;;
  fl <~ quiet (proxy_extract k a);;;
  emit (Removed k a) ~;;
  quiet (tree_remove k a (e_name e) ft) ~;;
  sret (Some (e, fl)).
(** gui/model.h:622-648 *)
Definition switch_s (C N : kind) (sw : addr * option owned) (ft : option addr) (gates : list addr) : SM (addr * option owned) :=
  let a := fst sw in
  e <~ quiet (model_remove C a);;;
  fl <~ quiet (proxy_extract C a);;;
  emit (Removed C a) ~;;
  p <~ quiet (take (snd sw));;;
  let b := fst (fst p) in
  quiet (model_add b (snd (fst p))) ~;;
  quiet (proxy_add N b (snd p)) ~;;
  emit (Added N b) ~;;
  quiet (tree_remove C a (e_name e) ft) ~;;
  quiet (tree_add N b (e_name (snd (fst p))) ft) ~;;
  quiet (swap_events a b gates) ~;;
  emit_all (map FormulaChanged gates) ~;;
  sret (b, Some (a, e, fl)).
(** gui/model.cpp:190-200.  The object of a removed fault tree is alive while its signal is delivered: the signal carries its name. *)
Definition tree_signal (removed : bool) (f : addr) (t : option tree) : list signal :=
  if removed then match t with Some t => [TreeRemoved f (t_name t)] | None => [] end else [TreeAdded f].
Definition redo_s (c : command) : SM command :=
  match c with
  | AddFaultTree i f t => t' <~ quiet (if i then remove_tree f else add_tree f t);;; emit_all (tree_signal i f t') ~;; sret (AddFaultTree i f t')
  | AddEvent i k a o ft => o' <~ (if i then remove_event_s k a ft else add_event_s k a o ft);;; sret (AddEvent i k a o' ft)
  | ChangeEventType E T to from ft gates => r <~ switch_s E T to ft gates;;; sret (ChangeEventType E T (fst to, None) r ft gates)
  | c => involution_s c
  end.
Definition undo_s (c : command) : SM command :=
  match c with
  | AddFaultTree i f t => t' <~ quiet (if i then add_tree f t else remove_tree f);;; emit_all (tree_signal (negb i) f t') ~;; sret (AddFaultTree i f t')
  | AddEvent i k a o ft => o' <~ (if i then add_event_s k a o ft else remove_event_s k a ft);;; sret (AddEvent i k a o' ft)
  | ChangeEventType E T to from ft gates => r <~ switch_s T E from ft gates;;; sret (ChangeEventType E T r (fst from, None) ft gates)
  | c => involution_s c
  end.
Fixpoint redo_all_s (l : list command) : SM (list command) :=
  match l with [] => sret [] | c :: l => c' <~ redo_s c;;; l' <~ redo_all_s l;;; sret (c' :: l') end.
Fixpoint undo_all_s (l : list command) : SM (list command) :=
  match l with [] => sret [] | c :: l => l' <~ undo_all_s l;;; c' <~ undo_s c;;; sret (c' :: l') end.
(** The actions of Undo.v. *)
Definition act_s (x : action) (q : stack) : SM stack :=
  match x with
  | Push c =>
      c' <~ redo_s c;;;
      match open q with
      | Some l => sret (Stack (done q) (undone q) (Some (c' :: l)) (clean q) (limit q))
      | None => let q := forget q in sret (cut (Stack ([c'] :: done q) [] None (clean q) (limit q)))
      end
  | Undo =>
      match open q, done q with
      | None, l :: d => l' <~ undo_all_s l;;; sret (Stack d (l' :: undone q) None (clean q) (limit q))
      | _, _ => sret q
      end
  | Redo =>
      match open q, undone q with
      | None, l :: u => l' <~ redo_all_s l;;; sret (Stack (l' :: done q) u None (clean q) (limit q))
      | _, _ => sret q
      end
  | _ => quiet (act x q)
  end.
Fixpoint session_s (l : list action) (q : stack) : SM stack :=
  match l with [] => sret q | x :: l => q <~ act_s x q;;; session_s l q end.

(** ** The item models *)
Inductive cell := Text (t : string) | Flavored (fl : flavor) | Valued (x : option nat) | Stated (b : bool) | Connected (c : connective) | Counted (n : nat).
(** elementcontainermodel.cpp:125-130, 206-212, 285-295 *)
Definition columns (k : kind) : nat := match k with KHouse => 3 | _ => 4 end.
(** elementcontainermodel.cpp:155-181, 229-248, 365-387 *)
Definition cells (k : kind) (s : model) (a : addr) : option (list cell) :=
  match events s !! a with
  | Some e =>
      match k, e_data e with
      | KBasic, DBasic x => match proxies s !! (KBasic, a) with Some fl => Some [Text (e_name e); Flavored fl; Valued x; Text (e_label e)] | None => None end
      | KHouse, DHouse b => Some [Text (e_name e); Stated b; Text (e_label e)]
      | KGate, DGate f => Some [Text (e_name e); Connected (f_conn f); Counted (List.length (f_args f)); Text (e_label e)]
      | _, _ => None
      end
  | None => None
  end.
(** The rows below a gate: elementcontainermodel.cpp:297-306, 377-382.  An argument that is not in the model is None. *)
Definition children (k : kind) (s : model) (a : addr) : list (option string) :=
  match k, events s !! a with
  | KGate, Some e => match e_data e with DGate f => map (fun x => match events s !! snd x with Some e => Some (e_name e) | None => None end) (f_args f) | _ => [] end
  | _, _ => []
  end.
(** elementcontainermodel.h:108-111 with the connections to the signals of the elements *)
Record table := Table { t_kind : kind; rows : list addr; position : gmap addr nat; wired : gset addr }.
Inductive notice := Inserted (i j : nat) | RowsRemoved (i j : nat) | Changed (i c d : nat) | Reset.
Definition emplace (a : addr) (i : nat) (m : gmap addr nat) : gmap addr nat := match m !! a with Some _ => m | None => <[a := i]> m end.
(** elementcontainermodel.cpp:33-48, 119-123: the proxies in the order of the container *)
Fixpoint fill (l : list addr) (t : table) : table :=
  match l with
  | [] => t
  | a :: l => fill l (Table (t_kind t) (rows t ++ [a]) (emplace a (List.length (rows t)) (position t)) ({[a]} ∪ wired t))
  end.
Definition new_table (k : kind) (l : list addr) : table := fill l (Table k [] ∅ ∅).
(** elementcontainermodel.cpp:84-92 *)
Definition add_element (a : addr) (t : table) : table * list (notice * table) :=
  let i := List.length (rows t) in
  let t := Table (t_kind t) (rows t ++ [a]) (emplace a i (position t)) ({[a]} ∪ wired t) in
  (t, [(Inserted i i, t)]).
(** elementcontainermodel.cpp:94-112 *)
Definition remove_element (a : addr) (t : table) : option (table * list (notice * table)) :=
  i ← position t !! a;
  b ← list.last (rows t);
  let j := List.length (rows t) - 1 in
  let t1 := Table (t_kind t) (removelast (rows t)) (delete a (position t)) (wired t) in
  if decide (i = j) then Some (Table (t_kind t) (rows t1) (position t1) (wired t ∖ {[a]}), [(RowsRemoved j j, t1)]) else
  let t2 := Table (t_kind t) (<[i := b]> (rows t1)) (<[b := i]> (position t1)) (wired t) in
  Some (Table (t_kind t) (rows t2) (position t2) (wired t ∖ {[a]}), [(RowsRemoved j j, t1); (Changed i 0 (columns (t_kind t) - 1), t2)]).
(** elementcontainermodel.cpp:50-62, 183-198, 250-262, 270-283 *)
Definition cell_change (a : addr) (c d : nat) (more : list notice) (t : table) : option (table * list (notice * table)) :=
  if decide (a ∈ wired t) then i ← position t !! a; Some (t, map (fun n => (n, t)) (Changed i c d :: more)) else Some (t, []).
Definition react (x : signal) (t : table) : option (table * list (notice * table)) :=
  match x with
  | Added k a => if decide (k = t_kind t) then Some (add_element a t) else Some (t, [])
  | Removed k a => if decide (k = t_kind t) then remove_element a t else Some (t, [])
  | LabelChanged a => cell_change a (columns (t_kind t) - 1) (columns (t_kind t) - 1) [] t
  | IdChanged a => cell_change a 0 0 [] t
  | FlavorChanged a => match t_kind t with KBasic => cell_change a 1 1 [] t | _ => Some (t, []) end
  | ExpressionChanged a => match t_kind t with KBasic => cell_change a 2 2 [] t | _ => Some (t, []) end
  | StateChanged a => match t_kind t with KHouse => cell_change a 1 1 [] t | _ => Some (t, []) end
  | FormulaChanged a => match t_kind t with KGate => cell_change a 1 2 [Reset] t | _ => Some (t, []) end
  | TreeAdded _ | TreeRemoved _ _ => Some (t, [])
  end.

(** ** A view *)
Notation row := (list cell * list (option string))%type.
Definition read_row (s : model) (t : table) (i : nat) : option row :=
  a ← rows t !! i; c ← cells (t_kind t) s a; Some (c, children (t_kind t) s a).
Fixpoint read_rows (s : model) (t : table) (l : list nat) : option (list row) :=
  match l with [] => Some [] | i :: l => r ← read_row s t i; rs ← read_rows s t l; Some (r :: rs) end.
Definition read_all (s : model) (t : table) : option (list row) := read_rows s t (seq 0 (List.length (rows t))).
(** The columns from [c] to [d] *)
Definition patch (c d : nat) (old new : list cell) : list cell := firstn c old ++ firstn (1 + d - c) (skipn c new) ++ skipn (1 + d) old.
Definition watch (s : model) (n : notice) (t : table) (v : list row) : option (list row) :=
  match n with
  | Inserted i j => r ← read_rows s t (seq i (1 + j - i)); Some (firstn i v ++ r ++ skipn i v)
  | RowsRemoved i j => Some (firstn i v ++ skipn (1 + j) v)
  | Changed i c d => r ← read_row s t i; o ← v !! i; Some (<[i := (patch c d (fst o) (fst r), snd o)]> v)
  | Reset => read_all s t
  end.
Fixpoint watch_all (s : model) (l : list (notice * table)) (v : list row) : option (list row) :=
  match l with [] => Some v | (n, t) :: l => v ← watch s n t v; watch_all s l v end.
(** The table and the view after the signals. *)
Fixpoint follow (l : list (signal * model)) (t : table) (v : list row) : option (table * list row) :=
  match l with
  | [] => Some (t, v)
  | (x, s) :: l => r ← react x t; v ← watch_all s (snd r) v; follow l (fst r) v
  end.
