(** The checks of the values and ranges of expressions: src/expression.cc:75-133 (EnsureProbability,
    EnsurePositive, EnsureNonNegative, EnsureWithin), src/expression.h:32-57 (Contains, IsProbability,
    IsNonNegative, IsPositive), 86-97 (the interval of an expression that defines none is its value), and of
    Boost.ICL's dynamic continuous intervals what these call: contains, within, is_empty, by the
    comparisons of their definitions.
    Simplifications: doubles as in Settings.v ([dbl]); an expression is given by its value and interval. *)
From Coq Require Import ZArith QArith Bool Lqa.
From Verif Require Import Settings.

Record ival := mkIval { lo : dbl; hi : dbl; lo_in : bool; hi_in : bool }.
Definition closed (a b : dbl) : ival := mkIval a b true true.
(** boost/icl: domain_less_equal is the negation of the opposite domain_less *)
Definition dom_le (a b : dbl) : bool := negb (dlt b a).
Definition lower_less (l r : ival) : bool := if lo_in l && negb (lo_in r) then dom_le (lo l) (lo r) else dlt (lo l) (lo r).
Definition upper_less (l r : ival) : bool := if negb (hi_in l) && hi_in r then dom_le (hi l) (hi r) else dlt (hi l) (hi r).
Definition is_empty (i : ival) : bool :=
  dlt (hi i) (lo i) || (dom_le (hi i) (lo i) && dom_le (lo i) (hi i) && negb (lo_in i && hi_in i)).
(** contains(super, sub), which within(sub, super) calls *)
Definition contains (super sub : ival) : bool := is_empty sub || (negb (lower_less sub super) && negb (upper_less super sub)).
(** C++'s x >= y, x <= y: false for NaN *)
Definition cpp_le (a b : dbl) : bool := match a, b with NaN, _ | _, NaN => false | _, _ => negb (dlt b a) end.
(** expression.h:39-57 *)
Definition contains_value (i : ival) (v : dbl) : bool := contains i (closed v v).
Definition is_probability (i : ival) : bool := contains (closed (Fin 0) (Fin 1)) i.
Definition is_non_negative (i : ival) : bool := cpp_le (Fin 0) (lo i).
Definition is_positive (i : ival) : bool := is_non_negative i && negb (contains_value i (Fin 0)).
(** expression.cc:75-133; false: DomainError *)
Definition ensure_probability (v : dbl) (i : ival) : bool := if dlt v (Fin 0) || dlt (Fin 1) v then false else is_probability i.
Definition ensure_positive (v : dbl) (i : ival) : bool := if cpp_le v (Fin 0) then false else is_positive i.
Definition ensure_non_negative (v : dbl) (i : ival) : bool := if dlt v (Fin 0) then false else is_non_negative i.
Definition ensure_within (v : dbl) (i range : ival) : bool := contains_value range v && contains range i.
(** a constant (expression/constant.h, expression.h:86-97): its value and its interval *)
Definition of_constant (check : dbl -> ival -> bool) (c : dbl) : bool := check c (closed c c).
