(** Formulas of the model: src/event.cc:52-236 (ArgSet, Formula) and src/substitution.cc.
    Release build (NDEBUG): the two assertions on the width of the numbers are not executed,
    min/max are stored as 16-bit numbers (event.h: std::uint16_t min_number_, max_number_).
    An event is its address (nat); [ev_id] gives its id string (as a number) and [ev_kind] its
    class.  Usage flags are not modelled. *)
From Coq Require Import List Arith ZArith Lia Bool.
Import ListNotations.

Inductive connective := And | Or | Atleast | Xor | Not | Nand | Nor | Null | Iff | Imply | Cardinality.
Inductive kind := KGate | KBasic | KHouse.
Inductive error := LogicError | ValidityError | DuplicateElementError.
Inductive result (A : Type) := Ok (a : A) | Throw (e : error).
Arguments Ok {A}. Arguments Throw {A}.

Record arg := mkArg { complement : bool; event : nat }.

Section world.
Context (ev_id : nat -> nat) (ev_kind : nat -> kind) (kTrue kFalse : nat).

(** Formula::ArgSet::Add, event.cc:52-63. *)
Definition argset_add (a : arg) (s : list arg) : result (list arg) :=
  if existsb (fun x => Nat.eqb (ev_id (event x)) (ev_id (event a))) s then Throw DuplicateElementError
  else Ok (s ++ [a]).
(** Formula::ArgSet::Remove, event.cc:65-71: erases the first argument with the event. *)
Fixpoint erase_first (e : nat) (s : list arg) : list arg :=
  match s with
  | [] => []
  | x :: s => if Nat.eqb (event x) e then s else x :: erase_first e s
  end.
Definition argset_remove (e : nat) (s : list arg) : result (list arg) :=
  if existsb (fun x => Nat.eqb (event x) e) s then Ok (erase_first e s) else Throw LogicError.

Record formula := mkFormula {
  f_conn : connective; f_min : Z; f_max : Z; f_args : list arg
}.
Definition uint16 (z : Z) : Z := (z mod 65536)%Z.
Definition value_or (o : option Z) (d : Z) : Z := match o with Some z => z | None => d end.

(** ValidateMinMaxNumber, event.cc:130-168. *)
Definition takes_min (c : connective) : bool := match c with Atleast | Cardinality => true | _ => false end.
Definition takes_max (c : connective) : bool := match c with Cardinality => true | _ => false end.
Definition validate_min_max (c : connective) (mn mx : option Z) : option error :=
  match (match mn with
         | Some m => if (m <? 0)%Z then Some LogicError
                     else if takes_min c then None else Some LogicError
         | None => None
         end) with
  | Some e => Some e
  | None =>
      match mx with
      | Some m =>
          if (m <? 0)%Z then Some LogicError
          else if takes_max c then
            match mn with
            | Some n => if (m <? n)%Z then Some ValidityError else None
            | None => None
            end
          else Some LogicError
      | None => None
      end
  end.

(** ValidateConnective, event.cc:170-221; min_number_, max_number_ are the stored numbers. *)
Definition validate_connective (f : formula) (mn mx : option Z) : option error :=
  let n := Z.of_nat (length (f_args f)) in
  let require (b : bool) := if b then None else Some ValidityError in
  match f_conn f with
  | And | Or | Nand | Nor => require (negb (n <? 2)%Z)
  | Not | Null => require (n =? 1)%Z
  | Xor | Iff | Imply => require (n =? 2)%Z
  | Atleast =>
      match mn with
      | None => Some ValidityError
      | Some _ => if (f_min f <? 2)%Z then Some ValidityError
                  else require (negb (n <=? f_min f)%Z)
      end
  | Cardinality =>
      match mn, mx with
      | Some _, Some _ =>
          match f_args f with
          | [] => Some ValidityError
          | _ => require (negb (n <? f_max f)%Z)
          end
      | _, _ => Some ValidityError
      end
  end.

(** ValidateNesting, event.cc:223-234. *)
Definition validate_nesting (c : connective) (a : arg) : option error :=
  if complement a && match c with Null | Not => true | _ => false end then Some LogicError
  else match c with
       | Not => if Nat.eqb (event a) kTrue || Nat.eqb (event a) kFalse then Some LogicError else None
       | _ => None
       end.
Fixpoint validate_nestings (c : connective) (l : list arg) : option error :=
  match l with
  | [] => None
  | a :: l => match validate_nesting c a with Some e => Some e | None => validate_nestings c l end
  end.

(** Formula::Formula, event.cc:73-90. *)
Definition make_formula (c : connective) (args : list arg) (mn mx : option Z) : result formula :=
  let f := mkFormula c (uint16 (value_or mn 0)) (uint16 (value_or mx 0)) args in
  match validate_min_max c mn mx with
  | Some e => Throw e
  | None =>
      match validate_connective f mn mx with
      | Some e => Throw e
      | None => match validate_nestings c args with Some e => Throw e | None => Ok f end
      end
  end.

(** min_number, max_number getters, event.cc:92-102. *)
Definition min_number (f : formula) : option Z := if takes_min (f_conn f) then Some (f_min f) else None.
Definition max_number (f : formula) : option Z := if takes_max (f_conn f) then Some (f_max f) else None.

(** Formula::Swap, event.cc:104-128. *)
Fixpoint swap_first (cur other : nat) (l : list arg) : list arg :=
  match l with
  | [] => []
  | x :: l => if Nat.eqb (event x) cur then mkArg (complement x) other :: l else x :: swap_first cur other l
  end.
Definition swap (cur other : nat) (f : formula) : result formula :=
  match find (fun x => Nat.eqb (event x) cur) (f_args f) with
  | None => Throw LogicError
  | Some it =>
      if existsb (fun x => negb (Nat.eqb (event x) cur) && Nat.eqb (ev_id (event x)) (ev_id other)) (f_args f)
      then Throw DuplicateElementError
      else match validate_nesting (f_conn f) (mkArg (complement it) other) with
           | Some e => Throw e
           | None => Ok (mkFormula (f_conn f) (f_min f) (f_max f) (swap_first cur other (f_args f)))
           end
  end.

(** Histories. *)
Inductive argop := AAdd (a : arg) | ARemove (e : nat).
Definition argstep (o : argop) (s : list arg) : list arg :=   (* a throwing call changes nothing *)
  match (match o with AAdd a => argset_add a s | ARemove e => argset_remove e s end) with
  | Ok s => s | Throw _ => s
  end.
Definition build_args (h : list argop) : list arg := fold_left (fun s o => argstep o s) h [].
Definition swap_all (h : list (nat * nat)) (f : formula) : formula :=
  fold_left (fun f p => match swap (fst p) (snd p) f with Ok f => f | Throw _ => f end) h f.

(** ** Substitutions, substitution.cc *)
Inductive target := TEvent (e : nat) | TConst (b : bool).
Inductive stype := DeleteTerms | RecoveryRule | ExchangeEvent.
Record substitution := mkSub { hypothesis : formula; source : list nat; s_target : target }.

(** Substitution::Add, substitution.cc:27-36. *)
Definition add_source (e : nat) (s : list nat) : result (list nat) :=
  if existsb (fun x => Nat.eqb (ev_id x) (ev_id e)) s then Throw DuplicateElementError else Ok (s ++ [e]).
Definition build_source (h : list nat) : list nat :=
  fold_left (fun s e => match add_source e s with Ok s => s | Throw _ => s end) h [].

(** Substitution::Validate, substitution.cc:38-94. *)
Definition is_basic (e : nat) : bool := match ev_kind e with KBasic => true | _ => false end.
Definition declarative (s : substitution) : bool := match source s with [] => true | _ => false end.
Definition validate_substitution (s : substitution) : option error :=
  let args := f_args (hypothesis s) in
  if existsb (fun a => negb (is_basic (event a))) args then Some ValidityError
  else if existsb complement args then Some ValidityError
  else if declarative s then
    match f_conn (hypothesis s) with
    | Null | And | Atleast | Or => match s_target s with TConst true => Some ValidityError | _ => None end
    | _ => Some ValidityError
    end
  else
    match f_conn (hypothesis s) with
    | Null | And | Or => match s_target s with TConst false => Some ValidityError | _ => None end
    | _ => Some ValidityError
    end.

(** Substitution::type, substitution.cc:96-146. *)
Definition in_hypothesis (s : substitution) (e : nat) : bool :=
  existsb (fun a => Nat.eqb (event a) e) (f_args (hypothesis s)).
Definition is_mutually_exclusive (f : formula) : bool :=
  match f_conn f with
  | Atleast => match min_number f with Some m => (m =? 2)%Z | None => false end
  | And => Nat.eqb (length (f_args f)) 2
  | _ => false
  end.
Definition substitution_type (s : substitution) : option stype :=
  match source s with
  | [] =>
      match s_target s with
      | TConst _ => if is_mutually_exclusive (hypothesis s) then Some DeleteTerms else None
      | TEvent _ => match f_conn (hypothesis s) with And => Some RecoveryRule | _ => None end
      end
  | src :: rest =>
      match s_target s with
      | TConst _ => None
      | TEvent _ =>
          match f_conn (hypothesis s) with
          | And | Null =>
              if Nat.eqb (length (source s)) (length (f_args (hypothesis s))) then
                if forallb (in_hypothesis s) (source s) then Some RecoveryRule else None
              else match rest with
                   | [] => if in_hypothesis s src then Some ExchangeEvent else None
                   | _ => None
                   end
          | _ => None
          end
      end
  end.
End world.
