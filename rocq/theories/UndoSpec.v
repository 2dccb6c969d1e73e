(** What an edit means, when it is allowed, and an editor that keeps a copy of the model before every edit: the specification of undo
    and redo (P_Undo.v), written without the commands' redo and undo functions. *)
From stdpp Require Import gmap strings list.
From Coq Require Import List String.
From Verif Require Import Undo.
Import ListNotations.

Definition args_of (e : event) : list addr := match e_data e with DGate f => map snd (f_args f) | _ => [] end.
Definition in_tree (s : model) (f a : addr) : Prop := exists t n, trees s !! f = Some t /\ t_gates t !! n = Some a.
(** A consistent model: the tables list exactly the events, names are unique and valid, arguments are events of the model, every event
    has its proxy, every gate is in exactly one fault tree. *)
Record consistent (s : model) : Prop := {
  c_table k n a : tables s !! (k, n) = Some a <-> exists e, events s !! a = Some e /\ e_name e = n /\ kind_of e = k;
  c_unique a b e e' : events s !! a = Some e -> events s !! b = Some e' -> e_name e = e_name e' -> a = b;
  c_valid a e : events s !! a = Some e -> valid_name (e_name e);
  c_mname : valid_name (m_name s);
  c_args a e : events s !! a = Some e -> List.NoDup (args_of e) /\ forall b, In b (args_of e) -> is_Some (events s !! b);
  c_nesting a e f : events s !! a = Some e -> e_data e = DGate f -> f_conn f = CNull \/ f_conn f = CNot -> forall c b, In (c, b) (f_args f) -> c = false;
  c_proxy k a : is_Some (proxies s !! (k, a)) <-> exists e, events s !! a = Some e /\ kind_of e = k;
  c_tree_table n f : tree_table s !! n = Some f <-> exists t, trees s !! f = Some t /\ t_name t = n;
  c_gates f t n a : trees s !! f = Some t -> t_gates t !! n = Some a -> exists e, events s !! a = Some e /\ e_name e = n /\ kind_of e = KGate;
  c_tree a e : events s !! a = Some e -> kind_of e = KGate -> exists f, in_tree s f a;
  c_one_tree f f' a : in_tree s f a -> in_tree s f' a -> f = f' }.
(** The flavor attribute of a basic event is what the GUI itself writes. *)
Definition flavor_attribute (fl : flavor) : option (string * string) := match fl with Basic => None | Undeveloped => Some ("undeveloped"%string, ""%string) end.
Definition plain_flavors (s : model) : Prop :=
  forall a e fl, events s !! a = Some e -> proxies s !! (KBasic, a) = Some fl -> e_attrs e !! "flavor"%string = flavor_attribute fl.

(** The models that the edits ask for. *)
Definition change (a : addr) (h : event -> event) (s : model) : model := with_events (alter h a (events s)) s.
Definition retree (k : kind) (ft : option addr) (h : gmap string addr -> gmap string addr) (m : gmap addr tree) : gmap addr tree :=
  match ft, k with Some f, KGate => alter (fun t => Tree (t_name t) (h (t_gates t))) f m | _, _ => m end.
Definition replace_arg (a b : addr) (e : event) : event :=
  match e_data e with
  | DGate f => with_data (DGate (Formula (f_conn f) (f_min f) (map (fun x => (fst x, if decide (snd x = a) then b else snd x)) (f_args f)))) e
  | _ => e
  end.
Definition edited (c : command) (s : model) : model :=
  match c with
  | SetLabel a l => change a (with_label l) s
  | SetId k a n ft =>
      match events s !! a with
      | Some e => Model (m_name s) (<[a := with_name n e]> (events s)) (<[(k, n) := a]> (delete (k, e_name e) (tables s)))
                    (retree k ft (fun g => <[n := a]> (delete (e_name e) g)) (trees s)) (tree_table s) (proxies s)
      | None => s
      end
  | SetExpression a x => change a (with_data (DBasic x)) s
  | SetFlavor a fl =>
      with_proxies (<[(KBasic, a) := fl]> (proxies s))
        (change a (fun e => with_attrs (partial_alter (fun _ => flavor_attribute fl) "flavor"%string (e_attrs e)) e) s)
  | SetState a b => change a (with_data (DHouse b)) s
  | SetFormula a f => change a (with_data (DGate f)) s
  | SetName n => with_mname (if decide (n = ""%string) then kDefaultName else n) s
  | AddFaultTree false f (Some t) => with_tree_table (<[t_name t := f]> (tree_table s)) (with_trees (<[f := t]> (trees s)) s)
  | AddFaultTree true f _ =>
      match trees s !! f with
      | Some t => with_tree_table (delete (t_name t) (tree_table s)) (with_trees (delete f (trees s)) s)
      | None => s
      end
  | AddEvent false k a (Some (e, fl)) ft =>
      Model (m_name s) (<[a := e]> (events s)) (<[(k, e_name e) := a]> (tables s)) (retree k ft (<[e_name e := a]>) (trees s))
        (tree_table s) (<[(k, a) := fl]> (proxies s))
  | AddEvent true k a _ ft =>
      match events s !! a with
      | Some e => Model (m_name s) (delete a (events s)) (delete (k, e_name e) (tables s)) (retree k ft (delete (e_name e)) (trees s))
                    (tree_table s) (delete (k, a) (proxies s))
      | None => s
      end
  | ChangeEventType E T (a, Some (b, e, fl)) _ ft _ =>
      Model (m_name s) (<[b := e]> (delete a (replace_arg a b <$> events s))) (<[(T, e_name e) := b]> (delete (E, e_name e) (tables s)))
        (retree T ft (<[e_name e := b]>) (retree E ft (delete (e_name e)) (trees s))) (tree_table s)
        (<[(T, b) := fl]> (delete (E, a) (proxies s)))
  | _ => s
  end.

(** The documented preconditions of the commands (the @pre clauses in gui/model.h and the checks of gui/mainwindow.cpp and the dialogs). *)
Definition is_event (s : model) (k : kind) (a : addr) : Prop := exists e, events s !! a = Some e /\ kind_of e = k.
Definition free_name (s : model) (n : string) : Prop := valid_name n /\ forall a e, events s !! a = Some e -> e_name e <> n.
Definition good_formula (s : model) (f : formula) : Prop :=
  List.NoDup (map snd (f_args f)) /\ (forall b, In b (map snd (f_args f)) -> is_Some (events s !! b)) /\
  (f_conn f = CNull \/ f_conn f = CNot -> forall c b, In (c, b) (f_args f) -> c = false).
(** A new event: its type, its arguments, its proxy made from its own attributes (gui/model.cpp:45-52). *)
Definition good_event (s : model) (k : kind) (e : event) (fl : flavor) : Prop :=
  kind_of e = k /\ (forall f, e_data e = DGate f -> good_formula s f) /\ (k = KBasic -> e_attrs e !! "flavor"%string = flavor_attribute fl).
(** The fault tree handed to a command is the one with the gate. *)
Definition tree_of_event (s : model) (k : kind) (a : addr) (ft : option addr) : Prop := k = KGate -> exists f, ft = Some f /\ in_tree s f a.
Definition tree_for_event (s : model) (k : kind) (ft : option addr) : Prop := k = KGate -> exists f t, ft = Some f /\ trees s !! f = Some t.
Definition allowed (c : command) (s : model) : Prop :=
  match c with
  | SetLabel a _ => exists k, is_event s k a
  | SetId k a n ft => is_event s k a /\ (free_name s n \/ exists e, events s !! a = Some e /\ e_name e = n) /\ tree_of_event s k a ft
  | SetExpression a _ | SetFlavor a _ => is_event s KBasic a
  | SetState a _ => is_event s KHouse a
  | SetFormula a f => is_event s KGate a /\ good_formula s f
  | SetName n => n = ""%string \/ valid_name n
  | AddFaultTree false f t => exists t', t = Some t' /\ t_gates t' = ∅ /\ trees s !! f = None /\ tree_table s !! t_name t' = None
  | AddFaultTree true f t => exists t', trees s !! f = Some t' /\ t_gates t' = ∅
  | AddEvent false k a o ft => exists e fl, o = Some (e, fl) /\ events s !! a = None /\ free_name s (e_name e) /\ good_event s k e fl /\ tree_for_event s k ft
  | AddEvent true k a _ ft => is_event s k a /\ (forall g, ~ has_arg a g s) /\ tree_of_event s k a ft
  | ChangeEventType E T to _ ft gates => exists b e fl e0,
      snd to = Some (b, e, fl) /\ E <> T /\ events s !! fst to = Some e0 /\ kind_of e0 = E /\ e_name e0 = e_name e /\ events s !! b = None /\
      good_event s T e fl /\ ~ In (fst to) (args_of e) /\ ~ has_arg (fst to) (fst to) s /\
      List.NoDup gates /\ (forall g, In g gates <-> is_parent (fst to) s g) /\ tree_of_event s E (fst to) ft /\ tree_for_event s T ft
  end.

(** An editor that copies the whole model before every edit: the models to go back to, the present one, the models to go forward to,
    the model before the macro that is being recorded, the model as it was loaded or last saved. *)
Record editor := Editor { past : list model; now : model; future : list model; pending : option model; saved : model }.
Definition keep (lim : nat) (l : list model) : list model := if lim =? 0 then l else firstn lim l.
Inductive edits (lim : nat) : action -> editor -> editor -> Prop :=
| e_push c E : pending E = None -> allowed c (now E) -> edits lim (Push c) E (Editor (keep lim (now E :: past E)) (edited c (now E)) [] None (saved E))
| e_push_macro c E p : pending E = Some p -> allowed c (now E) -> edits lim (Push c) E (Editor (past E) (edited c (now E)) (future E) (Some p) (saved E))
| e_begin E : pending E = None -> edits lim BeginMacro E (Editor (past E) (now E) [] (Some (now E)) (saved E))
| e_end E p : pending E = Some p -> edits lim EndMacro E (Editor (keep lim (p :: past E)) (now E) (future E) None (saved E))
| e_undo E p l : pending E = None -> past E = p :: l -> edits lim Undo E (Editor l p (now E :: future E) None (saved E))
| e_redo E p l : pending E = None -> future E = p :: l -> edits lim Redo E (Editor (now E :: past E) p l None (saved E))
| e_save E : pending E = None -> edits lim Save E (Editor (past E) (now E) (future E) None (now E))
(* the rest: nothing to undo or redo, or a macro is being recorded *)
| e_end_none E : pending E = None -> edits lim EndMacro E E
| e_undo_none E : pending E <> None \/ past E = [] -> edits lim Undo E E
| e_redo_none E : pending E <> None \/ future E = [] -> edits lim Redo E E
| e_save_none E : pending E <> None -> edits lim Save E E.
Inductive history (lim : nat) : list action -> editor -> editor -> Prop :=
| h_nil E : history lim [] E E
| h_cons x l E E1 E2 : edits lim x E E1 -> history lim l E1 E2 -> history lim (x :: l) E E2.
Definition loaded (s : model) : editor := Editor [] s [] None s.
