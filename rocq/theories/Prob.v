(** Probability and importance calculations: src/probability_analysis.cc, src/importance_analysis.cc
    (and ImportanceAnalyzer::CalculateMif of importance_analysis.h), Bdd::ClearMarks of bdd.cc. *)
From stdpp Require Import gmap.
From Coq Require Import List ZArith Lia Bool.
Import ListNotations.
From Verif Require Bdd.
Open Scope Z_scope.

(** The arithmetic of double, as a parameter: the theorems use exact and rounded arithmetic. *)
Record arith (T : Type) := Arith { zero : T; one : T; add : T -> T -> T; sub : T -> T -> T; mul : T -> T -> T; opp : T -> T }.
Arguments Arith {T}. Arguments zero {T}. Arguments one {T}. Arguments add {T}. Arguments sub {T}. Arguments mul {T}. Arguments opp {T}.

Section Bdd.
Context {T : Type} (A : arith T).
(** The vertices of the BDD, Bdd::modules, and the module flag of a vertex, which is that of its
    index (bdd.cc:109-127). *)
Context (nodes : gmap Z Bdd.node) (mods : gmap Z Bdd.fn) (is_module : Z -> bool).

(** Attributes of the vertices: NonTerminal::mark (bdd.h:298-304), Ite::p and Ite::factor
    (bdd.h:349-367), by vertex id. *)
Record attrs := Attrs { mark : Z -> bool; p : Z -> T; factor : Z -> T }.
Definition upd {V} (f : Z -> V) (i : Z) (v : V) (j : Z) : V := if j =? i then v else f j.
Definition set_mark (v : Z) (m : bool) (a : attrs) : attrs := Attrs (upd (mark a) v m) (p a) (factor a).
Definition set_p (v : Z) (x : T) (a : attrs) : attrs := Attrs (mark a) (upd (p a) v x) (factor a).
Definition set_factor (v : Z) (x : T) (a : attrs) : attrs := Attrs (mark a) (p a) (upd (factor a) v x).
(** New vertices, bdd.h:264, 366-367. *)
Definition new_attrs : attrs := Attrs (fun _ => false) (fun _ => zero A) (fun _ => zero A).
Definition complement (c : bool) (x : T) : T := if c then sub A (one A) x else x.
Definition negate (c : bool) (x : T) : T := if c then opp A x else x.

(** ProbabilityAnalyzer<Bdd>::CalculateProbability, probability_analysis.cc:267-291; [None] is
    out of fuel or a dangling vertex or module. *)
Fixpoint calculate (fuel : nat) (p_vars : Z -> T) (v : Z) (m : bool) (a : attrs) : option (T * attrs) :=
  match fuel with
  | O => None
  | S fuel =>
      if Bdd.terminal v then Some (one A, a) else
      n ← nodes !! v;
      if Bool.eqb (mark a v) m then Some (p a v, a) else
      let a := set_mark v m a in
      '(p_var, a) ← (if is_module (Bdd.n_index n) then
                       res ← mods !! Bdd.n_index n;
                       '(x, a) ← calculate fuel p_vars res.2 m a;
                       Some (complement res.1 x, a)
                     else Some (p_vars (Bdd.n_index n), a));
      '(high, a) ← calculate fuel p_vars (Bdd.n_high n) m a;
      '(low, a) ← calculate fuel p_vars (Bdd.n_low n) m a;
      let low := complement (Bdd.n_ce n) low in
      let x := add A (mul A p_var high) (mul A (sub A (one A) p_var) low) in
      Some (x, set_p v x a)
  end.

(** The state of the analyzer: current_mark_ and the attributes of the vertices. *)
Record analyzer := Analyzer { current_mark : bool; at_ : attrs }.
(** Constructor, probability_analysis.cc:224-231 (and 234-236 of the header: a new BDD). *)
Definition new_analyzer (root : Bdd.fn) (a : attrs) : analyzer :=
  Analyzer (if Bdd.terminal root.2 then false else mark a root.2) a.
(** CalculateTotalProbability, probability_analysis.cc:233-244. *)
Definition total (fuel : nat) (root : Bdd.fn) (p_vars : Z -> T) (s : analyzer) : option (T * analyzer) :=
  let m := negb (current_mark s) in
  '(x, a) ← calculate fuel p_vars root.2 m (at_ s);
  Some (complement root.1 x, Analyzer m a).

(** ImportanceAnalyzer<Bdd>::RetrieveProbability, importance_analysis.cc:134-139. *)
Definition retrieve (v : Z) (a : attrs) : T := if Bdd.terminal v then one A else p a v.
(** ImportanceAnalyzer<Bdd>::CalculateMif, importance_analysis.cc:86-132; [order] is that of the
    variable. *)
Fixpoint mif (fuel : nat) (p_vars : Z -> T) (v : Z) (order : Z) (m : bool) (a : attrs) : option (T * attrs) :=
  match fuel with
  | O => None
  | S fuel =>
      if Bdd.terminal v then Some (zero A, a) else
      n ← nodes !! v;
      if Bool.eqb (mark a v) m then Some (factor a v, a) else
      let a := set_mark v m a in
      if order <? Bdd.n_order n then
        if negb (is_module (Bdd.n_index n)) then Some (zero A, set_factor v (zero A) a) else
        let high := retrieve (Bdd.n_high n) a in
        let low := complement (Bdd.n_ce n) (retrieve (Bdd.n_low n) a) in
        res ← mods !! Bdd.n_index n;
        '(x, a) ← mif fuel p_vars res.2 order m a;
        let y := mul A (sub A high low) (negate res.1 x) in
        Some (y, set_factor v y a)
      else if Bdd.n_order n =? order then
        if is_module (Bdd.n_index n) then None else
        let high := retrieve (Bdd.n_high n) a in
        let low := complement (Bdd.n_ce n) (retrieve (Bdd.n_low n) a) in
        Some (sub A high low, set_factor v (sub A high low) a)
      else
        p_var ← (if is_module (Bdd.n_index n) then
                   res ← mods !! Bdd.n_index n; Some (complement res.1 (retrieve res.2 a))
                 else Some (p_vars (Bdd.n_index n)));
        '(high, a) ← mif fuel p_vars (Bdd.n_high n) order m a;
        '(low, a) ← mif fuel p_vars (Bdd.n_low n) order m a;
        let low := negate (Bdd.n_ce n) low in
        let y := add A (mul A p_var high) (mul A (sub A (one A) p_var) low) in
        Some (y, set_factor v y a)
  end.
(** Bdd::ClearMarks, bdd.cc:331-344. *)
Fixpoint clear_marks (fuel : nat) (v : Z) (m : bool) (a : attrs) : option attrs :=
  match fuel with
  | O => None
  | S fuel =>
      if Bdd.terminal v then Some a else
      n ← nodes !! v;
      if Bool.eqb (mark a v) m then Some a else
      let a := set_mark v m a in
      a ← (if is_module (Bdd.n_index n) then
             res ← mods !! Bdd.n_index n; clear_marks fuel res.2 m a
           else Some a);
      a ← clear_marks fuel (Bdd.n_high n) m a;
      clear_marks fuel (Bdd.n_low n) m a
  end.
(** ImportanceAnalyzer<Bdd>::CalculateMif(int), importance_analysis.cc:72-84; the caller gives the
    order of the variable, which Bdd::index_to_order returns. *)
Definition marginal (fuel : nat) (root : Bdd.fn) (p_vars : Z -> T) (order : Z) (a : attrs) : option (T * attrs) :=
  if Bdd.terminal root.2 then Some (zero A, a) else
  let original := mark a root.2 in
  '(x, a) ← mif fuel p_vars root.2 order (negb original) a;
  a ← clear_marks fuel root.2 original a;
  Some (x, a).
End Bdd.

(** ** Approximations on products *)
Section CutSets.
Context {T : Type} (A : arith T) (gt1 : T -> bool).
(** CutSetProbabilityCalculator::Calculate, probability_analysis.cc:159-168. *)
Definition cut_set_probability (p_vars : Z -> T) (c : list Z) : T := fold_left (fun x i => mul A x (p_vars i)) c (one A).
(** RareEventCalculator::Calculate, 170-177; [gt1] is the test > 1. *)
Definition rare_event (p_vars : Z -> T) (cs : list (list Z)) : T :=
  let x := fold_left (fun x c => add A x (cut_set_probability p_vars c)) cs (zero A) in if gt1 x then one A else x.
(** McubCalculator::Calculate, 179-186. *)
Definition mcub (p_vars : Z -> T) (cs : list (list Z)) : T :=
  sub A (one A) (fold_left (fun x c => mul A x (sub A (one A) (cut_set_probability p_vars c))) cs (one A)).
(** ImportanceAnalyzer<Calculator>::CalculateMif, importance_analysis.h:143-155, on the analyzer's
    own copy of the probabilities: sets the event's probability to 1 and to 0 and restores it. *)
Definition marginal_of (calculate : (Z -> T) -> T) (i : Z) (p_vars : Z -> T) : T * (Z -> T) :=
  let store := p_vars i in
  let p_vars := upd p_vars i (one A) in let x := calculate p_vars in
  let p_vars := upd p_vars i (zero A) in let y := calculate p_vars in
  (sub A x y, upd p_vars i store).
(** ImportanceAnalysis::Analyze, importance_analysis.cc:40-44: one event after another. *)
Fixpoint marginals_of (calculate : (Z -> T) -> T) (is : list Z) (p_vars : Z -> T) : list T :=
  match is with
  | [] => []
  | i :: is => let '(x, p_vars) := marginal_of calculate i p_vars in x :: marginals_of calculate is p_vars
  end.
End CutSets.

(** ** Importance factors *)
Section Importance.
Context {T : Type} (A : arith T) (div : T -> T -> T) (eqb : T -> T -> bool).
(** importance_analysis.h ImportanceFactors; the occurrence count is in [occurrences]. *)
Record factors := Factors { f_mif : T; f_cif : T; f_dif : T; f_raw : T; f_rrw : T }.
(** ImportanceAnalysis::Analyze, importance_analysis.cc:46-58, for one event. *)
Definition importance (p_total p_var m : T) : factors :=
  let z := zero A in let one := one A in
  if eqb p_total z then Factors m z z z z else
  let raw := add A one (div (mul A (sub A one p_var) m) p_total) in
  Factors m (div (mul A p_var m) p_total) (mul A p_var raw) raw
    (if eqb p_total (mul A p_var m) then z else div p_total (sub A p_total (mul A p_var m))).
End Importance.
(** ImportanceAnalyzerBase::occurrences, importance_analysis.cc:63-70. *)
Definition occurrences (products : list (list Z)) : gmap Z nat :=
  fold_left (fun m c => fold_left (fun m i => <[Z.abs i := S (default O (m !! Z.abs i))]> m) c m) products ∅.
