(** Editing a model in the GUI: the undo and redo commands and the command stack.
    Source: /repo/gui/command.h:52-87 (Involution, Inverse), /repo/gui/model.h:46-691 and /repo/gui/model.cpp:30-209 (the commands),
    /repo/src/element.h:497-538 (Container::Add and Remove), /repo/src/element.cc:27-74 (names and attributes), /repo/src/model.cc:33-39
    and /repo/src/model.h:64-79,147-153 (the model), /repo/src/fault_tree.h:79-118 (fault trees), /repo/src/event.cc:104-126,225-229
    (Formula::Swap), /repo/gui/mainwindow.cpp:1006-1032,1197-1219 (the macros), and the documented behaviour of Qt's QUndoStack.

    Simplifications: the models are those that /repo/share/gui.rng admits (every event is public, so its id is its name; a fault tree
    holds gates only; the arguments of a formula are events of the model, not constants).  A unique_ptr is the object itself together
    with its address: an object is either in the tables of the model or inside the command that owns it, and a moved-from pointer is
    None.  An expression is an opaque handle.  Attributes are a map from names to values and types, as their equality is
    (/repo/src/ext/linear_set.h:77-84).  The proxy of an event is the flavor it stores.  Signals to the views are left out.
    A thrown exception, a failed assertion and a null or dangling pointer are None.  The back pointer of an element to its container
    and its usage flag, which no command reads, are a log of writes ([effect]). *)
From stdpp Require Import gmap strings list.
From Coq Require Import List Ascii String.
Import ListNotations.

Notation addr := nat.
Inductive kind := KGate | KBasic | KHouse.
Global Instance kind_eq : EqDecision kind. Proof. solve_decision. Defined.
Definition kind_nat (k : kind) : nat := match k with KGate => 0 | KBasic => 1 | KHouse => 2 end.
Definition nat_kind (n : nat) : option kind := match n with 0 => Some KGate | 1 => Some KBasic | 2 => Some KHouse | _ => None end.
Global Instance kind_countable : Countable kind.
Proof. apply (inj_countable kind_nat nat_kind). intros []; reflexivity. Defined.
(** gui/model.h:180-181 *)
Inductive flavor := Basic | Undeveloped.
Global Instance flavor_eq : EqDecision flavor. Proof. solve_decision. Defined.
(** src/event.h:199-215 *)
Inductive connective := CAnd | COr | CAtleast | CXor | CNot | CNull | CNand | CNor.
Global Instance connective_eq : EqDecision connective. Proof. solve_decision. Defined.
(** src/event.h:218-380: the connective, the min number, the arguments with their complement flags *)
Record formula := Formula { f_conn : connective; f_min : nat; f_args : list (bool * addr) }.
(** src/event.h:50-195: gate, basic event, house event *)
Inductive data := DGate (f : formula) | DBasic (x : option nat) | DHouse (b : bool).
Record event := Event { e_name : string; e_label : string; e_attrs : gmap string (string * string); e_data : data }.
Definition kind_of (e : event) : kind := match e_data e with DGate _ => KGate | DBasic _ => KBasic | DHouse _ => KHouse end.
Definition with_name (n : string) (e : event) : event := Event n (e_label e) (e_attrs e) (e_data e).
Definition with_label (l : string) (e : event) : event := Event (e_name e) l (e_attrs e) (e_data e).
Definition with_attrs (m : gmap string (string * string)) (e : event) : event := Event (e_name e) (e_label e) m (e_data e).
Definition with_data (d : data) (e : event) : event := Event (e_name e) (e_label e) (e_attrs e) d.
(** src/fault_tree.h:37-118 *)
Record tree := Tree { t_name : string; t_gates : gmap string addr }.
(** src/model.h:44-170 and gui/model.h:402-426: the name, the events that the model owns, the tables of gates, basic events and house
    events, the fault trees and their table, the tables of proxies. *)
Record model := Model {
  m_name : string; events : gmap addr event; tables : gmap (kind * string) addr;
  trees : gmap addr tree; tree_table : gmap string addr; proxies : gmap (kind * addr) flavor }.
Definition with_mname (n : string) (s : model) : model := Model n (events s) (tables s) (trees s) (tree_table s) (proxies s).
Definition with_events (x : gmap addr event) (s : model) : model := Model (m_name s) x (tables s) (trees s) (tree_table s) (proxies s).
Definition with_tables (x : gmap (kind * string) addr) (s : model) : model := Model (m_name s) (events s) x (trees s) (tree_table s) (proxies s).
Definition with_trees (x : gmap addr tree) (s : model) : model := Model (m_name s) (events s) (tables s) x (tree_table s) (proxies s).
Definition with_tree_table (x : gmap string addr) (s : model) : model := Model (m_name s) (events s) (tables s) (trees s) x (proxies s).
Definition with_proxies (x : gmap (kind * addr) flavor) (s : model) : model := Model (m_name s) (events s) (tables s) (trees s) (tree_table s) x.

(** src/element.h:49-68: the container of an event or a fault tree; src/event.h:38-45: the usage flag *)
Inductive owner := OModel | OTree (f : addr).
Inductive effect := EContainer (a : addr) (o : option owner) | ETreeContainer (f : addr) (o : option owner) | EUsage (a : addr).

(** Programs over the model. *)
Definition M (A : Type) : Type := model -> option (A * model * list effect).
Definition ret {A} (x : A) : M A := fun s => Some (x, s, []).
Definition fail {A} : M A := fun _ => None.
Definition bind {A B} (m : M A) (f : A -> M B) : M B := fun s =>
  match m s with
  | Some (x, s1, l1) => match f x s1 with Some (y, s2, l2) => Some (y, s2, l1 ++ l2) | None => None end
  | None => None
  end.
Definition read {A} (f : model -> option A) : M A := fun s => match f s with Some x => Some (x, s, []) | None => None end.
Definition check (P : model -> Prop) `{forall s, Decision (P s)} : M unit := fun s => if decide (P s) then Some (tt, s, []) else None.
Definition modify (f : model -> model) : M unit := fun s => Some (tt, f s, []).
Definition note (e : effect) : M unit := fun s => Some (tt, s, [e]).
Notation "x <- m ;;; k" := (bind m (fun x => k)) (at level 100, m at next level, right associativity, k at level 200).
Notation "m ;;; k" := (bind m (fun _ => k)) (at level 100, k at level 200, right associativity).

(** src/element.cc:29-35 *)
Fixpoint no_dot (n : string) : bool :=
  match n with EmptyString => true | String c n => negb (Ascii.eqb c "."%char) && no_dot n end.
Definition valid_name (n : string) : Prop := n <> ""%string /\ no_dot n = true.
Global Instance valid_name_dec n : Decision (valid_name n). Proof. unfold valid_name. apply _. Defined.

Definition event_of (a : addr) : M event := read (fun s => events s !! a).
Definition put_event (a : addr) (e : event) : M unit := modify (fun s => with_events (<[a := e]> (events s)) s).
Definition tree_of (f : addr) : M tree := read (fun s => trees s !! f).
Definition put_tree (f : addr) (t : tree) : M unit := modify (fun s => with_trees (<[f := t]> (trees s)) s).
(** src/model.cc:33-39 *)
Definition new_name (n : string) (s : model) : Prop :=
  tables s !! (KGate, n) = None /\ tables s !! (KBasic, n) = None /\ tables s !! (KHouse, n) = None.
Global Instance new_name_dec n s : Decision (new_name n s). Proof. unfold new_name. apply _. Defined.
(** src/model.h:147-153 with src/element.h:497-506.  The object is not in the tables of the model yet. *)
Definition model_add (a : addr) (e : event) : M unit :=
  check (new_name (e_name e));;;
  check (fun s => events s !! a = None);;;
  modify (fun s => with_tables (<[(kind_of e, e_name e) := a]> (tables s)) (with_events (<[a := e]> (events s)) s));;;
  note (EContainer a (Some OModel)).
(** src/element.h:515-538 *)
Definition model_remove (k : kind) (a : addr) : M event :=
  e <- event_of a;;;
  check (fun s => tables s !! (k, e_name e) = Some a);;;
  note (EContainer a None);;;
  modify (fun s => with_tables (delete (k, e_name e) (tables s)) (with_events (delete a (events s)) s));;;
  ret e.
(** gui/model.h:47-63 with src/fault_tree.h:104-109 and src/element.h:497-538: only gates are in fault trees *)
Definition tree_add (k : kind) (a : addr) (n : string) (ft : option addr) : M unit :=
  match ft, k with
  | Some f, KGate =>
      t <- tree_of f;;;
      check (fun _ => t_gates t !! n = None);;;
      put_tree f (Tree (t_name t) (<[n := a]> (t_gates t)));;;
      note (EContainer a (Some (OTree f)))
  | _, _ => ret tt
  end.
Definition tree_remove (k : kind) (a : addr) (n : string) (ft : option addr) : M unit :=
  match ft, k with
  | Some f, KGate =>
      t <- tree_of f;;;
      check (fun _ => t_gates t !! n = Some a);;;
      note (EContainer a None);;;
      put_tree f (Tree (t_name t) (delete n (t_gates t)))
  | _, _ => ret tt
  end.
(** The tables of proxies, keyed by the address of the event: gui/model.h:396-400, src/ext/multi_index.h:27-55 *)
Definition proxy_add (k : kind) (a : addr) (fl : flavor) : M unit :=
  check (fun s => proxies s !! (k, a) = None);;; modify (fun s => with_proxies (<[(k, a) := fl]> (proxies s)) s).
Definition proxy_extract (k : kind) (a : addr) : M flavor :=
  fl <- read (fun s => proxies s !! (k, a));;; modify (fun s => with_proxies (delete (k, a) (proxies s)) s);;; ret fl.

(** src/event.cc:104-126: the first argument that is [a] becomes [b] *)
Fixpoint swap_first (a b : addr) (l : list (bool * addr)) : option (bool * list (bool * addr)) :=
  match l with
  | [] => None
  | (c, x) :: l => if decide (x = a) then Some (c, (c, b) :: l)
                   else match swap_first a b l with Some (c', l') => Some (c', (c, x) :: l') | None => None end
  end.
Definition named_otherwise (n : string) (a : addr) (l : list (bool * addr)) (s : model) : Prop :=
  Forall (fun x => x = a \/ exists e, events s !! x = Some e /\ e_name e <> n) (map snd l).
Global Instance named_otherwise_dec n a l s : Decision (named_otherwise n a l s).
Proof.
  unfold named_otherwise. apply Forall_dec. intros x. destruct (decide (x = a)); [left; now left|].
  destruct (events s !! x) as [e|] eqn:E.
  - destruct (decide (e_name e = n)) as [D|D]; [right; intros [K|(e' & K & L)]; [tauto|congruence]|left; right; eauto].
  - right. intros [K|(e' & K & L)]; [tauto|congruence].
Defined.
Definition swap_event (a b : addr) (g : addr) : M unit :=
  x <- event_of g;;;
  match e_data x with
  | DGate f =>
      match swap_first a b (f_args f) with
      | Some (c, l) =>
          base <- event_of b;;;
          check (named_otherwise (e_name base) a (f_args f));;;
          check (fun _ => ~ (c = true /\ (f_conn f = CNull \/ f_conn f = CNot)));;;
          note (EUsage b);;;
          put_event g (with_data (DGate (Formula (f_conn f) (f_min f) l)) x)
      | None => fail
      end
  | _ => fail
  end.
Fixpoint swap_events (a b : addr) (gs : list addr) : M unit :=
  match gs with [] => ret tt | g :: gs => swap_event a b g;;; swap_events a b gs end.

(** An event with its address and its proxy, owned by a command. *)
Notation owned := (addr * event * flavor)%type.
Definition take {A} (o : option A) : M A := read (fun _ => o).
(** The commands with the members they store.  [bool]: the inverse command (gui/model.h:501-507, 579-594).  A ChangeEventType has the
    types, m_switchTo, m_switchFrom (the address of the current event and the object to put in its place), the fault tree, the gates. *)
Inductive command :=
| SetLabel (a : addr) (l : string)
| SetId (k : kind) (a : addr) (n : string) (ft : option addr)
| SetExpression (a : addr) (x : option nat)
| SetFlavor (a : addr) (fl : flavor)
| SetState (a : addr) (b : bool)
| SetFormula (a : addr) (f : formula)
| SetName (n : string)
| AddFaultTree (inverse : bool) (f : addr) (t : option tree)
| AddEvent (inverse : bool) (k : kind) (a : addr) (o : option (event * flavor)) (ft : option addr)
| ChangeEventType (E T : kind) (to from : addr * option owned) (ft : option addr) (gates : list addr).

(** src/model.h:58 *)
Definition kDefaultName : string := "__unnamed-model__".
(** gui/model.cpp:35-43, gui/model.h:111-126, gui/model.cpp:60-70, 79-97, 106-114, 122-126, 179-188 *)
Definition involution (c : command) : M command :=
  match c with
  | SetLabel a l =>
      e <- event_of a;;;
      if decide (l = e_label e) then ret c else put_event a (with_label l e);;; ret (SetLabel a (e_label e))
  | SetId k a n ft =>
      e <- event_of a;;;
      if decide (n = e_name e) then ret c else
      tree_remove k a (e_name e) ft;;;
      p <- model_remove k a;;;
      check (fun _ => valid_name n);;;
      tree_add k a n ft;;;
      model_add a (with_name n p);;;
      ret (SetId k a (e_name e) ft)
  | SetExpression a x =>
      e <- event_of a;;;
      match e_data e with
      | DBasic y => if decide (x = y) then ret c else put_event a (with_data (DBasic x) e);;; ret (SetExpression a y)
      | _ => fail
      end
  | SetFlavor a fl =>
      cur <- read (fun s => proxies s !! (KBasic, a));;;
      if decide (fl = cur) then ret c else
      e <- event_of a;;;
      put_event a (with_attrs (match fl with Basic => delete "flavor"%string (e_attrs e)
                                           | Undeveloped => <["flavor"%string := ("undeveloped"%string, ""%string)]> (e_attrs e) end) e);;;
      modify (fun s => with_proxies (<[(KBasic, a) := fl]> (proxies s)) s);;;
      ret (SetFlavor a cur)
  | SetState a b =>
      e <- event_of a;;;
      match e_data e with
      | DHouse y => if decide (b = y) then ret c else put_event a (with_data (DHouse b) e);;; ret (SetState a y)
      | _ => fail
      end
  | SetFormula a f =>
      e <- event_of a;;;
      match e_data e with
      | DGate g => put_event a (with_data (DGate f) e);;; ret (SetFormula a g)
      | _ => fail
      end
  | SetName n =>
      cur <- read (fun s => Some (if decide (m_name s = kDefaultName) then ""%string else m_name s));;;
      if decide (cur = n) then ret c else
      let n' := if decide (n = ""%string) then kDefaultName else n in
      check (fun _ => valid_name n');;;
      modify (with_mname n');;;
      ret (SetName cur)
  | _ => fail
  end.
(** gui/model.cpp:190-205 *)
Definition add_tree (f : addr) (t : option tree) : M (option tree) :=
  t <- take t;;;
  check (fun s => tree_table s !! t_name t = None);;;
  check (fun s => trees s !! f = None);;;
  modify (fun s => with_tree_table (<[t_name t := f]> (tree_table s)) (with_trees (<[f := t]> (trees s)) s));;;
  note (ETreeContainer f (Some OModel));;;
  ret None.
Definition remove_tree (f : addr) : M (option tree) :=
  t <- tree_of f;;;
  check (fun s => tree_table s !! t_name t = Some f);;;
  note (ETreeContainer f None);;;
  modify (fun s => with_tree_table (delete (t_name t) (tree_table s)) (with_trees (delete f (trees s)) s));;;
  ret (Some t).
(** gui/model.h:537-557 *)
Definition add_event (k : kind) (a : addr) (o : option (event * flavor)) (ft : option addr) : M (option (event * flavor)) :=
  p <- take o;;;
  model_add a (fst p);;;
  proxy_add k a (snd p);;;
  tree_add k a (e_name (fst p)) ft;;;
  ret None.
Definition remove_event (k : kind) (a : addr) (ft : option addr) : M (option (event * flavor)) :=
  e <- model_remove k a;;;
  fl <- proxy_extract k a;;;
  tree_remove k a (e_name e) ft;;;
  ret (Some (e, fl)).
(** gui/model.h:632-660 *)
Definition switch (C N : kind) (sw : addr * option owned) (ft : option addr) (gates : list addr) : M (addr * option owned) :=
  let a := fst sw in
  e <- model_remove C a;;;
  fl <- proxy_extract C a;;;
  p <- take (snd sw);;;
  let b := fst (fst p) in
  model_add b (snd (fst p));;;
  proxy_add N b (snd p);;;
  tree_remove C a (e_name e) ft;;;
  tree_add N b (e_name (snd (fst p))) ft;;;
  swap_events a b gates;;;
  ret (b, Some (a, e, fl)).
(** gui/command.h:63-83 and the redo and undo functions of gui/model.h, gui/model.cpp *)
Definition redo (c : command) : M command :=
  match c with
  | AddFaultTree i f t => t' <- (if i then remove_tree f else add_tree f t);;; ret (AddFaultTree i f t')
  | AddEvent i k a o ft => o' <- (if i then remove_event k a ft else add_event k a o ft);;; ret (AddEvent i k a o' ft)
  | ChangeEventType E T to from ft gates => r <- switch E T to ft gates;;; ret (ChangeEventType E T (fst to, None) r ft gates)
  | c => involution c
  end.
Definition undo (c : command) : M command :=
  match c with
  | AddFaultTree i f t => t' <- (if i then add_tree f t else remove_tree f);;; ret (AddFaultTree i f t')
  | AddEvent i k a o ft => o' <- (if i then add_event k a o ft else remove_event k a ft);;; ret (AddEvent i k a o' ft)
  | ChangeEventType E T to from ft gates => r <- switch T E from ft gates;;; ret (ChangeEventType E T r (fst from, None) ft gates)
  | c => involution c
  end.
(** gui/model.cpp:157-170: the gates with [a] among their arguments, in the unspecified order of the table of proxies *)
Definition has_arg (a g : addr) (s : model) : Prop := exists e f, events s !! g = Some e /\ e_data e = DGate f /\ In a (map snd (f_args f)).
Global Instance has_arg_dec a g s : Decision (has_arg a g s).
Proof.
  unfold has_arg. destruct (events s !! g) as [e|]; [|right; intros (e & f & K & _); congruence].
  destruct (e_data e) as [f|x|b] eqn:E; [|right; intros (e' & f & K & L & _); congruence..].
  destruct (in_dec Nat.eq_dec a (map snd (f_args f))); [left; eauto|right; intros (e' & f' & K & L & N); congruence].
Defined.
Definition is_parent (a : addr) (s : model) (g : addr) : Prop := is_Some (proxies s !! (KGate, g)) /\ has_arg a g s.

(** The children of a macro: redo in order, undo in the reverse order. *)
Fixpoint redo_all (l : list command) : M (list command) :=
  match l with [] => ret [] | c :: l => c' <- redo c;;; l' <- redo_all l;;; ret (c' :: l') end.
Fixpoint undo_all (l : list command) : M (list command) :=
  match l with [] => ret [] | c :: l => l' <- undo_all l;;; c' <- undo c;;; ret (c' :: l') end.

(** QUndoStack: the commands below the index (the newest first), the commands above it (the next first), the open macro (its children,
    the newest first), the clean index, the limit (0: none).  A command is a list: a macro or a single command. *)
Record stack := Stack { done : list (list command); undone : list (list command); open : option (list command); clean : option nat; limit : nat }.
Definition index (q : stack) : nat := List.length (done q).
Definition is_clean (q : stack) : bool :=
  match open q, clean q with None, Some i => i =? index q | _, _ => false end.
(** checkUndoLimit: the oldest commands are deleted *)
Definition cut (q : stack) : stack :=
  if (limit q =? 0) || (List.length (done q) <=? limit q) then q else
  let del := List.length (done q) - limit q in
  Stack (firstn (limit q) (done q)) (undone q) (open q)
    (match clean q with Some i => if i <? del then None else Some (i - del) | None => None end) (limit q).
(** The commands above the index are deleted before a new one is appended. *)
Definition forget (q : stack) : stack :=
  Stack (done q) [] (open q) (match clean q with Some i => if index q <? i then None else Some i | None => None end) (limit q).
Inductive action := Push (c : command) | BeginMacro | EndMacro | Undo | Redo | Save.
Definition act (x : action) (q : stack) : M stack :=
  match x with
  | Push c =>
      c' <- redo c;;;
      match open q with
      | Some l => ret (Stack (done q) (undone q) (Some (c' :: l)) (clean q) (limit q))
      | None => let q := forget q in ret (cut (Stack ([c'] :: done q) [] None (clean q) (limit q)))
      end
  | BeginMacro =>
      match open q with
      | Some _ => fail
      | None => let q := forget q in ret (Stack (done q) [] (Some []) (clean q) (limit q))
      end
  | EndMacro =>
      match open q with
      | Some l => ret (cut (Stack (rev l :: done q) (undone q) None (clean q) (limit q)))
      | None => ret q
      end
  | Undo =>
      match open q, done q with
      | None, l :: d => l' <- undo_all l;;; ret (Stack d (l' :: undone q) None (clean q) (limit q))
      | _, _ => ret q
      end
  | Redo =>
      match open q, undone q with
      | None, l :: u => l' <- redo_all l;;; ret (Stack (l' :: done q) u None (clean q) (limit q))
      | _, _ => ret q
      end
  | Save => match open q with None => ret (Stack (done q) (undone q) None (Some (index q)) (limit q)) | Some _ => ret q end
  end.
Fixpoint session (l : list action) (q : stack) : M stack :=
  match l with [] => ret q | x :: l => q <- act x q;;; session l q end.
(** A model has just been loaded: mainwindow.cpp:516. *)
Definition new_stack (limit : nat) : stack := Stack [] [] None (Some 0) limit.

(** The container back pointers and the usage flags. *)
Record marks := Marks { container : gmap addr owner; tree_container : gmap addr owner; usage : gset addr }.
Definition set_opt (a : addr) (o : option owner) (m : gmap addr owner) : gmap addr owner := match o with Some x => <[a := x]> m | None => delete a m end.
Definition mark (e : effect) (m : marks) : marks :=
  match e with
  | EContainer a o => Marks (set_opt a o (container m)) (tree_container m) (usage m)
  | ETreeContainer f o => Marks (container m) (set_opt f o (tree_container m)) (usage m)
  | EUsage a => Marks (container m) (tree_container m) ({[a]} ∪ usage m)
  end.
Definition mark_all (l : list effect) (m : marks) : marks := fold_left (fun m e => mark e m) l m.
