(** Event-tree analysis: src/event_tree_analysis.cc, and the event-tree checks of
    src/initializer.cc:1596-1718.
    Simplifications: the graph of branches, links and gates is unfolded into a tree (cycles are
    excluded by C30, and the code itself walks the unfolding); rules and blocks are lists of
    instructions; a connective is its Boolean function; names are numbers; an expression is a
    number valued by an environment; the expression of an if-then-else is a predicate of the
    functional-event states (the initiating event is fixed during an analysis). *)
From Coq Require Import List Arith QArith Lia Bool.
Import ListNotations.
Local Open Scope nat_scope.

(** ** Formulas *)
Inductive ev := EBasic (n : nat) | EHouse (id : nat) (state : bool) | EGate (f : form)
with form := Form (conn : list bool -> bool) (args : evs)
with evs := ENil | ECons (complement : bool) (e : ev) (l : evs).

Definition sets := nat -> option bool.   (* set_instructions: house event id -> state *)
Definition no_sets : sets := fun _ => None.
Definition add_set (h : nat) (b : bool) (s : sets) : sets := fun x => if Nat.eqb x h then Some b else s x.

(** Clone, event_tree_analysis.cc:38-87.  A cloned gate or house event is a new event with the
    same meaning.  [empty] is set_house.empty(). *)
Fixpoint clone_ev (s : sets) (empty : bool) (e : ev) : ev :=
  match e with
  | EBasic n => EBasic n
  | EHouse id st =>
      match s id with
      | Some b => if Bool.eqb b st then EHouse id st else EHouse id b
      | None => EHouse id st
      end
  | EGate f => if empty then EGate f else EGate (clone_form s empty f)
  end
with clone_form (s : sets) (empty : bool) (f : form) : form :=
  match f with Form c l => Form c (clone_evs s empty l) end
with clone_evs (s : sets) (empty : bool) (l : evs) : evs :=
  match l with ENil => ENil | ECons c e l => ECons c (clone_ev s empty e) (clone_evs s empty l) end.

(** ** Trees *)
Definition context := nat -> option nat.    (* functional_events: name -> state *)
Definition no_context : context := fun _ => None.
Definition set_context (fe st : nat) (c : context) : context := fun x => if Nat.eqb x fe then Some st else c x.

Inductive instr :=
  | ISet (h : nat) (b : bool) | IExpr (e : nat) | IFormula (f : form) | ILink (b : branch)
  | IIf (cond : context -> bool) (yes no : instrs) | IBlock (is : instrs)
with instrs := INil | ICons (i : instr) (is : instrs)
with branch := Branch (is : instrs) (t : target)
with target := TSeq (s : nat) (is : instrs) | TFork (fe : nat) (ps : paths) | TNamed (b : branch)
with paths := PNil | PCons (st : nat) (b : branch) (ps : paths).

(** PathCollector, event_tree_analysis.h:71-77; [pc_set] is false while no instruction has
    been recorded. *)
Record collector := mkPC { pc_exprs : list nat; pc_formulas : list form; pc_sets : sets; pc_any : bool }.
Definition new_collector := mkPC [] [] no_sets false.
Definition outs := list (nat * collector).

(** CollectSequences, event_tree_analysis.cc:163-239.  None: the assertion on a functional
    event met twice fails.  Instructions return the path collector, whether a link was
    followed, and the sequences registered by links. *)
Fixpoint c_instr (i : instr) (x : context) (p : collector) : option (collector * bool * outs) :=
  match i with
  | ISet h b => Some (mkPC (pc_exprs p) (pc_formulas p) (add_set h b (pc_sets p)) true, false, [])
  | IExpr e => Some (mkPC (pc_exprs p ++ [e]) (pc_formulas p) (pc_sets p) (pc_any p), false, [])
  | IFormula f =>
      Some (mkPC (pc_exprs p) (pc_formulas p ++ [clone_form (pc_sets p) (negb (pc_any p)) f]) (pc_sets p) (pc_any p), false, [])
  | ILink b => match c_branch b no_context p with Some o => Some (p, true, o) | None => None end
  | IIf cond yes no => if cond x then c_instrs yes x p else c_instrs no x p
  | IBlock is => c_instrs is x p
  end
with c_instrs (is : instrs) (x : context) (p : collector) : option (collector * bool * outs) :=
  match is with
  | INil => Some (p, false, [])
  | ICons i is =>
      match c_instr i x p with
      | None => None
      | Some (p1, l1, o1) =>
          match c_instrs is x p1 with
          | None => None
          | Some (p2, l2, o2) => Some (p2, l1 || l2, o1 ++ o2)
          end
      end
  end
with c_branch (b : branch) (x : context) (p : collector) : option outs :=
  match b with
  | Branch is t =>
      match c_instrs is x p with
      | None => None
      | Some (p1, _, o1) => match c_target t x p1 with None => None | Some o2 => Some (o1 ++ o2) end
      end
  end
with c_target (t : target) (x : context) (p : collector) : option outs :=
  match t with
  | TSeq s is =>
      match c_instrs is x p with
      | None => None
      | Some (p1, linked, o1) => Some (if linked then o1 else o1 ++ [(s, p1)])
      end
  | TFork fe ps => match x fe with Some _ => None | None => c_paths fe ps x p end
  | TNamed b => c_branch b x p
  end
with c_paths (fe : nat) (ps : paths) (x : context) (p : collector) : option outs :=
  match ps with
  | PNil => Some []
  | PCons st b ps =>
      match c_branch b (set_context fe st x) p with
      | None => None
      | Some o1 => match c_paths fe ps x p with None => None | Some o2 => Some (o1 ++ o2) end
      end
  end.

(** ** Analyze, event_tree_analysis.cc:96-161, for one sequence. *)
Definition conj : list bool -> bool := forallb (fun b => b).
Definition disj : list bool -> bool := existsb (fun b => b).
Definition pass : list bool -> bool := fun l => match l with [b] => b | _ => false end.
Fixpoint gates_of (l : list form) : evs :=
  match l with [] => ENil | f :: l => ECons false (EGate f) (gates_of l) end.
(** expression trees: Mul, Add or a collected expression *)
Inductive exp := XVar (e : nat) | XMul (l : list nat) | XAdd (l : list exp).
Definition path_formula (p : collector) : list form :=
  match pc_formulas p with
  | [] => []
  | [f] => [f]
  | l => [Form conj (gates_of l)]
  end.
Definition path_expr (p : collector) : list exp :=
  match pc_exprs p with
  | [] => []
  | [e] => [XVar e]
  | l => [XMul l]
  end.
Inductive seq_result := RFormula (f : form) | RExpr (e : exp) | RTrue | RAssert.
Definition analyze_sequence (ps : list collector) : seq_result :=
  let fs := flat_map path_formula ps in
  let es := flat_map path_expr ps in
  match fs, es with
  | _ :: _, _ :: _ => RAssert
  | [f], [] => RFormula f
  | _ :: _, [] => RFormula (Form disj (gates_of fs))
  | [], [] => RTrue
  | [], [e] => RExpr e
  | [], _ => RExpr (XAdd es)
  end.
Definition analyze (b : branch) (s : nat) : option seq_result :=
  match c_branch b no_context new_collector with
  | None => None
  | Some o => Some (analyze_sequence (map snd (filter (fun q => Nat.eqb (fst q) s) o)))
  end.

(** ** Checks of initializer.cc *)
(** CheckOrder, initializer.cc:1597-1621; [order] is FunctionalEvent::order. *)
Fixpoint check_order (order : nat -> nat) (fe : nat) (t : target) : bool :=
  match t with
  | TSeq _ _ => true
  | TNamed (Branch _ t) => check_order order fe t
  | TFork fe' _ => if Nat.eqb (order fe) (order fe') then false
                   else if order fe' <? order fe then false else true
  end.
Definition branch_target (b : branch) : target := match b with Branch _ t => t end.
(** CheckFunctionalEventOrder, initializer.cc:1596-1635. *)
Fixpoint check_branch (order : nat -> nat) (b : branch) : bool :=
  match b with Branch _ t => check_target order t end
with check_target (order : nat -> nat) (t : target) : bool :=
  match t with TFork fe ps => check_paths order fe ps | _ => true end
with check_paths (order : nat -> nat) (fe : nat) (ps : paths) : bool :=
  match ps with
  | PNil => true
  | PCons _ b ps => check_branch order b && check_order order fe (branch_target b) && check_paths order fe ps
  end.

(** The instructions executed on the way: EnsureLinksOnlyInSequences, initializer.cc:1637-1663
    (NullVisitor: both arms of an if-then-else). *)
Fixpoint no_link_i (i : instr) : bool :=
  match i with
  | ILink _ => false
  | IIf _ a b => no_link a && no_link b
  | IBlock is => no_link is
  | _ => true
  end
with no_link (is : instrs) : bool :=
  match is with INil => true | ICons i is => no_link_i i && no_link is end.
Fixpoint links_in_sequences (b : branch) : bool :=
  match b with Branch is t => no_link is && links_target t end
with links_target (t : target) : bool :=
  match t with TFork _ ps => links_paths ps | _ => true end
with links_paths (ps : paths) : bool :=
  match ps with PNil => true | PCons _ b ps => links_in_sequences b && links_paths ps end.

(** EnsureHomogeneousEventTree, initializer.cc:1665-1718. *)
Inductive htype := HUnknown | HExpression | HFormula.
Fixpoint h_instr (i : instr) (t : htype) : option htype :=
  match i with
  | IExpr _ => match t with HFormula => None | _ => Some HExpression end
  | IFormula _ => match t with HExpression => None | _ => Some HFormula end
  | ISet _ _ => Some t
  | ILink b => h_branch b t
  | IIf _ a b => match h_instrs a t with Some t => h_instrs b t | None => None end
  | IBlock is => h_instrs is t
  end
with h_instrs (is : instrs) (t : htype) : option htype :=
  match is with
  | INil => Some t
  | ICons i is => match h_instr i t with Some t => h_instrs is t | None => None end
  end
with h_branch (b : branch) (t : htype) : option htype :=
  match b with Branch is tg => match h_instrs is t with Some t => h_target tg t | None => None end end
with h_target (tg : target) (t : htype) : option htype :=
  match tg with TSeq _ is => h_instrs is t | TFork _ ps => h_paths ps t | TNamed b => h_branch b t end
with h_paths (ps : paths) (t : htype) : option htype :=
  match ps with
  | PNil => Some t
  | PCons _ b ps => match h_branch b t with Some t => h_paths ps t | None => None end
  end.

(** ** Induction principles *)
Scheme ev_mut := Induction for ev Sort Prop
with form_mut := Induction for form Sort Prop
with evs_mut := Induction for evs Sort Prop.
Combined Scheme ev_form_ind from ev_mut, form_mut, evs_mut.
Scheme instr_mut := Induction for instr Sort Prop
with instrs_mut := Induction for instrs Sort Prop
with branch_mut := Induction for branch Sort Prop
with target_mut := Induction for target Sort Prop
with paths_mut := Induction for paths Sort Prop.
Combined Scheme tree_ind from instr_mut, instrs_mut, branch_mut, target_mut, paths_mut.
