(** Alignments: Phase::Phase and Alignment::Validate (/repo/src/alignment.cc:27-45), ext::is_close
    (src/ext/float_compare.h:39-42), the definition of an alignment from its phases (src/initializer.cc:141-155,
    512-537; Container::Add refuses a name that is there, src/element.h).  Times are analysed as in Phase.v.
    Simplifications: doubles as in Settings.v ([dbl]), with exact sums and products of finite numbers;
    1e-4 is 1/10000; names are strings and an instruction is a name and a state, its house event not checked. *)
From Coq Require Import ZArith QArith Qabs String Bool List.
From Verif Require Import Settings.
Import ListNotations.

(** IEEE addition without rounding. *)
Definition dadd (a b : dbl) : dbl :=
  match a, b with
  | Fin x, Fin y => Fin (x + y)
  | NaN, _ | _, NaN | PInf, NInf | NInf, PInf => NaN
  | PInf, _ | _, PInf => PInf
  | NInf, _ | _, NInf => NInf
  end.
Definition dle (a b : dbl) : bool :=
  match a, b with
  | NaN, _ | _, NaN => false
  | Fin x, Fin y => Qle_bool x y
  | NInf, _ | _, PInf => true
  | _, _ => false
  end.
Definition dopp (a : dbl) : dbl := match a with Fin x => Fin (- x) | PInf => NInf | NInf => PInf | NaN => NaN end.
Definition dabs (a : dbl) : dbl := match a with Fin x => Fin (Qabs x) | NInf => PInf | x => x end.
Definition dmul_fin (q : Q) (a : dbl) : dbl := match a with Fin x => Fin (x * q) | x => x end.  (* times a positive constant *)
(** float_compare.h:39-42 *)
Definition is_close (lhs rhs : dbl) (tolerance : Q) : bool := dle (dabs (dadd lhs (dopp rhs))) (dmul_fin tolerance (dabs lhs)).

Record phase := mkPhase { ph_name : string; ph_fraction : dbl; ph_instructions : list (string * bool) }.
(** alignment.cc:27-33; None: an error is thrown *)
Definition new_phase (name : string) (f : dbl) (l : list (string * bool)) : option phase :=
  if dle f (Fin 0) || dlt (Fin 1) f then None else Some (mkPhase name f l).
(** 35-42 *)
Definition validate (l : list phase) : bool := is_close (Fin 1) (fold_left (fun s p => dadd s (ph_fraction p)) l (Fin 0)) (1 # 10000).
(** initializer.cc:512-537: the phases added to those there are, then Validate. *)
Fixpoint add_phases (given : list (string * dbl * list (string * bool))) (l : list phase) : option (list phase) :=
  match given with
  | [] => Some l
  | (n, f, i) :: given =>
      match new_phase n f i with
      | None => None
      | Some p => if existsb (fun q => String.eqb (ph_name q) n) l then None else add_phases given (l ++ [p])
      end
  end.
Definition define_alignment (given : list (string * dbl * list (string * bool))) : option (list phase) :=
  match add_phases given [] with Some l => if validate l then Some l else None | None => None end.
