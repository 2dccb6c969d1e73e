(** Construction of the graph from the model: src/pdag.cc:459-757 (Pdag::Pdag,
    GatherVariables, AddArg, ConstructGate, ConstructComplexGate, ConstructSubstitution,
    CollectSubstitution).  Events of the model are their addresses, see Formula.v. *)
From stdpp Require Import gmap.
From Coq Require Import List ZArith Lia Bool.
Import ListNotations.
From Verif Require Import Pdag Formula.
Open Scope Z_scope.

Section Model.
(** The model: the class of an event, the formula of a gate, the state of a house event, the
    CCF gate of a basic event in a CCF group (BasicEvent::HasCcf, ccf_gate); the flag ccf. *)
Context (ev_kind : nat -> kind) (formula_of : nat -> option formula) (house : nat -> bool)
        (ccf_gate : nat -> option nat) (ccf : bool).
(** ProcessedNodes (pdag.h:1069-1076): gates, not constructed yet or constructed; variables.
    basic_events_, coherent_, normal_, substitutions_. *)
Record st := St {
  graph : Pdag.graph; gates : gmap nat (option Z); vars : gmap nat Z;
  basics : list nat; coh : bool; norm : bool }.
Definition with_graph (s : st) (G : Pdag.graph) : st := St G (gates s) (vars s) (basics s) (coh s) (norm s).
Definition with_gate (s : st) (g : nat) (o : option Z) : st := St (graph s) (<[g := o]> (gates s)) (vars s) (basics s) (coh s) (norm s).
Definition with_coh (s : st) (b : bool) : st := St (graph s) (gates s) (vars s) (basics s) b (norm s).
Definition with_norm (s : st) (b : bool) : st := St (graph s) (gates s) (vars s) (basics s) (coh s) b.
(** Pdag::Pdag(), pdag.cc:451-457: the constant takes index 1. *)
Definition blank : st := St (Graph ∅ 2 [] true) ∅ ∅ [] true true.

(** [ccf && basic_event.HasCcf()], pdag.cc:532, 588. *)
Definition replaced (e : nat) : option nat := if ccf then ccf_gate e else None.

(** new Variable(this), pdag.cc:536-541. *)
Definition new_variable (e : nat) (s : st) : st :=
  let G := graph s in
  St (Graph (gs G) (nxt G + 1) (nulls G) (reg G)) (gates s) (<[e := nxt G]> (vars s)) (basics s ++ [e]) (coh s) (norm s).
Section Gather.
Context (rec : formula -> st -> option st).
(** The visitor for gates, pdag.cc:513-517. *)
Definition gather_gate (g : nat) (s : st) : option st :=
  match gates s !! g with
  | Some _ => Some s
  | None => f ← formula_of g; rec f (with_gate s g None)
  end.
(** GatherVariables(BasicEvent), pdag.cc:530-543. *)
Definition gather_basic (e : nat) (s : st) : option st :=
  match replaced e with
  | Some g => gather_gate g s
  | None => match vars s !! e with Some _ => Some s | None => Some (new_variable e s) end
  end.
Definition gather_event (e : nat) (s : st) : option st :=
  match ev_kind e with KGate => gather_gate e s | KBasic => gather_basic e s | KHouse => Some s end.
Fixpoint gather_args (l : list arg) (s : st) : option st :=
  match l with [] => Some s | a :: l => s ← gather_event (event a) s; gather_args l s end.
End Gather.
(** GatherVariables(Formula), pdag.cc:505-528. *)
Fixpoint gather (fuel : nat) (f : formula) (s : st) : option st :=
  match fuel with O => None | S fuel => gather_args (gather fuel) (f_args f) s end.
(** GatherVariables(Substitution), pdag.cc:545-557. *)
Fixpoint gather_basics (fuel : nat) (l : list nat) (s : st) : option st :=
  match l with [] => Some s | e :: l => s ← gather_basic (gather fuel) e s; gather_basics fuel l s end.
Definition gather_substitution (fuel : nat) (u : substitution) (s : st) : option st :=
  s ← gather fuel (hypothesis u) s;
  s ← gather_basics fuel (source u) s;
  match s_target u with TEvent e => gather_basic (gather fuel) e s | TConst _ => Some s end.

(** Gate::AddArg(arg, complement), pdag.h:568-571. *)
Definition sign (c : bool) (i : Z) : Z := if c then - i else i.
Definition add (p a : Z) (s : st) : option st := G ← add_any p a (graph s); Some (with_graph s G).
(** null_gates_.push_back. *)
Definition push_null (i : Z) (s : st) : st :=
  let G := graph s in with_graph s (Graph (gs G) (nxt G) (nulls G ++ [i]) (reg G)).
(** std::make_shared<Gate>(type, this). *)
Definition make (t : conn) (s : st) : st * Z := let '(G, i) := new_gate t (graph s) in (with_graph s G, i).
Section Add.
Context (rec : formula -> st -> option (Z * st)).
(** AddArg<mef::Gate>, pdag.cc:572-577. *)
Definition add_gate (p : Z) (g : nat) (c : bool) (s : st) : option st :=
  match gates s !! g with
  | None => None
  | Some (Some i) => add p (sign c i) s
  | Some None => f ← formula_of g; '(i, s) ← rec f s; add p (sign c i) (with_gate s g (Some i))
  end.
(** AddArg<T>, pdag.cc:559-590; the dispatch at 592-602. *)
Definition add_event (p : Z) (e : nat) (c : bool) (s : st) : option st :=
  match ev_kind e with
  | KHouse =>
      let '(s, j) := make kNull s in
      s ← add j (sign (xorb c (negb (house e))) 1) s;
      s ← add p j s;
      Some (push_null j s)
  | KGate => add_gate p e c s
  | KBasic =>
      match replaced e with
      | Some g => add_gate p g c s
      | None => v ← vars s !! e; add p (sign c v) s
      end
  end.
Fixpoint add_events (p : Z) (l : list arg) (s : st) : option st :=
  match l with [] => Some s | a :: l => s ← add_event p (event a) (complement a) s; add_events p l s end.
End Add.

(** static_cast<Connective>(formula.connective()), pdag.cc:616. *)
Definition simple (c : connective) : option conn :=
  match c with
  | And => Some kAnd | Or => Some kOr | Atleast => Some kAtleast | Xor => Some kXor | Not => Some kNot
  | Nand => Some kNand | Nor => Some kNor | Null => Some kNull | Iff | Imply | Cardinality => None
  end.
(** well_form, pdag.cc:686-694. *)
Definition well_form (i : Z) (G : Pdag.graph) : option Pdag.graph :=
  x ← gs G !! i;
  if g_min x =? 0 then make_constant i true G
  else if g_min x =? 1 then set_type i kOr G
  else if g_min x =? size (g_args x) then set_type i kAnd G
  else Some G.
(** ConstructGate, pdag.cc:604-643, and ConstructComplexGate, pdag.cc:645-708. *)
Fixpoint construct (fuel : nat) (f : formula) (s : st) : option (Z * st) :=
  match fuel with
  | O => None
  | S fuel =>
      match simple (f_conn f) with
      | Some t =>
          let '(s, p) := make t s in
          let s := match t with kOr | kAnd => s | _ => with_norm s false end in
          let s := match t with kNot | kNand | kNor | kXor => with_coh s false | _ => s end in
          s ← (match t with kAtleast => G ← set_min p (f_min f) (graph s); Some (with_graph s G) | kNull => Some (push_null p s) | _ => Some s end);
          (* coherent_ is set in the loop; nothing reads it before the end *)
          let s := if existsb complement (f_args f) then with_coh s false else s in
          s ← add_events (construct fuel) p (f_args f) s;
          Some (p, s)
      | None =>
          let s := with_coh s false in
          match f_conn f with
          | Iff =>
              if negb (Nat.eqb (length (f_args f)) 2) then None else
              let s := with_norm s false in
              let '(s, p) := make kNull s in
              let '(s, x) := make kXor s in
              s ← add_events (construct fuel) x (f_args f) s;
              s ← add p (- x) s;
              Some (p, push_null p s)
          | Imply =>
              match f_args f with
              | [a; b] =>
                  let '(s, p) := make kOr s in
                  s ← add_event (construct fuel) p (event a) (negb (complement a)) s;
                  s ← add_event (construct fuel) p (event b) (complement b) s;
                  Some (p, s)
              | _ => None
              end
          | _ =>
              if (Z.of_nat (length (f_args f)) <? f_max f) || (f_max f <? f_min f) then None else
              let s := with_norm s false in
              let '(s, p) := make kAnd s in
              let '(s, x) := make kAtleast s in
              G ← set_min x (f_min f) (graph s);
              s ← add_events (construct fuel) x (f_args f) (with_graph s G);
              '(G, y) ← clone x (graph s);
              G ← negate_args y G;
              G ← set_min y (Z.of_nat (length (f_args f)) - f_max f) G;
              G ← well_form x G;
              G ← well_form y G;
              s ← add p x (with_graph s G);
              s ← add p y s;
              Some (p, s)
          end
      end
  end.
(** ConstructSubstitution, pdag.cc:710-724. *)
Definition construct_substitution (fuel : nat) (u : substitution) (s : st) : option (Z * st) :=
  let '(s, p) := make kOr s in
  '(h, s) ← construct fuel (hypothesis u) s;
  s ← add p (- h) s;
  match s_target u with
  | TEvent e => s ← add_event (construct fuel) p e false s; Some (p, s)
  | TConst b => if b then None else G ← set_type p kNull (graph s); Some (p, with_graph s G)
  end.

(** The substitutions for the analysis, pdag.h Pdag::Substitution. *)
Record sub := Sub { sub_hypothesis : list Z; sub_source : list Z; sub_target : Z }.
Definition index_of (s : st) (e : nat) : option Z := vars s !! e.
Definition basic_arg (s : st) (a : arg) : option Z :=
  if complement a then None else if is_basic ev_kind (event a) then index_of s (event a) else None.
(** CollectSubstitution, pdag.cc:726-766. *)
Definition collect_substitution (u : substitution) (s : st) : option (list sub) :=
  t ← (match s_target u with TEvent e => index_of s e | TConst b => if b then Some 0 else None end);
  src ← mapM (index_of s) (source u);
  match f_conn (hypothesis u) with
  | Null | And => l ← mapM (basic_arg s) (f_args (hypothesis u)); Some [Sub l src t]
  | Or => l ← mapM (basic_arg s) (f_args (hypothesis u)); Some (map (fun i => Sub [i] src t) l)
  | _ => None
  end.

(** Pdag::Pdag(root, ccf, model), pdag.cc:459-492; [us]: model->substitutions(), None for a null
    model.  An application gate without arguments stays in the map of gates. *)
Fixpoint gather_substitutions (fuel : nat) (us : list substitution) (s : st) : option st :=
  match us with [] => Some s | u :: us => s ← gather_substitution fuel u s; gather_substitutions fuel us s end.
Fixpoint apply_substitutions (fuel : nat) (p : Z) (us : list substitution) (s : st) : option (list sub * st) :=
  match us with
  | [] => Some ([], s)
  | u :: us =>
      if declarative u then
        '(i, s) ← construct_substitution fuel u s; s ← add p i s; apply_substitutions fuel p us s
      else
        l ← collect_substitution u s; '(l', s) ← apply_substitutions fuel p us s; Some (l ++ l', s)
  end.
Definition build (fuel : nat) (root : formula) (us : option (list substitution)) : option (Z * list sub * st) :=
  s ← gather fuel root blank;
  s ← (match us with Some us => gather_substitutions fuel us s | None => Some s end);
  '(r, s) ← construct fuel root s;
  match us with
  | None => Some (r, [], s)
  | Some us =>
      let '(s, p) := make kAnd s in
      '(l, s) ← apply_substitutions fuel p us s;
      x ← gs (graph s) !! p;
      match g_args x with
      | [] => Some (r, l, s)
      | _ => s ← add p r s; Some (p, l, with_coh s false)
      end
  end.

(** ** Specification: the meaning of the model *)
(** Value of a formula under truth values of events. *)
Definition arg_value (μ : nat -> bool) (a : arg) : bool := xorb (complement a) (μ (event a)).
Definition formula_value (μ : nat -> bool) (f : formula) : bool :=
  let vs := map (arg_value μ) (f_args f) in
  let n := Z.of_nat (length (List.filter (fun b => b) vs)) in
  match f_conn f with
  | And => forallb (fun b => b) vs
  | Or => existsb (fun b => b) vs
  | Atleast => f_min f <=? n
  | Xor => Z.odd n
  | Not => negb (hd false vs)
  | Nand => negb (forallb (fun b => b) vs)
  | Nor => negb (existsb (fun b => b) vs)
  | Null => hd false vs
  | Iff => match vs with [a; b] => Bool.eqb a b | _ => false end
  | Imply => match vs with [a; b] => implb a b | _ => false end
  | Cardinality => (f_min f <=? n) && (n <=? f_max f)
  end.
(** Truth values of all events of the model: gates have the value of their formula, house events
    their state, events of CCF groups (if asked for) the value of their CCF gate. *)
Definition valuation (μ : nat -> bool) : Prop :=
  (forall e f, ev_kind e = KGate -> formula_of e = Some f -> μ e = formula_value μ f) /\
  (forall e, ev_kind e = KHouse -> μ e = house e) /\
  (forall e g, ev_kind e = KBasic -> replaced e = Some g -> μ e = μ g).
(** A declarative substitution: the hypothesis implies the target. *)
Definition substitution_value (μ : nat -> bool) (u : substitution) : bool :=
  implb (formula_value μ (hypothesis u)) (match s_target u with TEvent e => μ e | TConst b => b end).
End Model.
