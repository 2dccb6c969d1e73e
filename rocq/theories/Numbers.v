(** Reading the integers and truth values of an input file: src/xml.h:60-105 (detail::to<int>,
    detail::to<bool>), 133-149 (trim), 272-285, 287-310 (attribute), 312-344 (text); the C library's
    strtoll in base 10 that to<int> calls.
    Simplifications: strings are lists of characters, a view is a position in the text of a node and a
    length; [int len = end_char - value.data()] is not truncated (texts are shorter than 2 GB);
    the variant for double is not modelled. *)
From Coq Require Import List String Ascii Bool ZArith NArith Lia.
From Verif Require Import XmlStream Serial.
Import ListNotations.
Local Open Scope list_scope.

(** ** strtoll, base 10 *)
(** isspace in the C locale: space, and tab .. carriage return *)
Definition is_space (c : ascii) : bool := N.eqb (N_of_ascii c) 32 || (N.leb 9 (N_of_ascii c) && N.leb (N_of_ascii c) 13).
Fixpoint skip_space (s : str) : nat * str :=
  match s with c :: r => if is_space c then let (n, t) := skip_space r in (S n, t) else (O, s) | [] => (O, []) end.
(** the digits: the value so far, whether the cutoff was passed (then it no longer changes) *)
Fixpoint scan (lim : Z) (s : str) (acc : Z) (over : bool) : Z * bool * nat :=
  match s with
  | c :: r =>
      match digit_value c with
      | Some d =>
          let '(a, o, n) := if over || (lim <? acc * 10 + Z.of_N d)%Z then scan lim r acc true else scan lim r (acc * 10 + Z.of_N d)%Z false
          in (a, o, S n)
      | None => (acc, over, O)
      end
  | [] => (acc, over, O)
  end.
Definition llong_max : Z := 2 ^ 63 - 1.
Definition llong_min : Z := - 2 ^ 63.
(** the value and the number of characters before [*endptr] *)
Definition strtoll (buf : str) : Z * nat :=
  let (w, s) := skip_space buf in
  let '(neg, g, s) := match s with
                      | c :: r => if Ascii.eqb c "-" then (true, 1, r) else if Ascii.eqb c "+" then (false, 1, r) else (false, 0, s)
                      | [] => (false, 0, s)
                      end in
  let '(a, o, n) := scan (if neg : bool then - llong_min else llong_max)%Z s 0 false in
  match n with
  | O => (0%Z, O)
  | _ => ((if neg then if o : bool then llong_min else - a else if o then llong_max else a)%Z, w + g + n)
  end.

(** ** xml.h *)
Inductive result (T : Type) := Value (x : T) | Refused (* ValidityError *) | Undefined (* a null pointer or a failed assertion *).
Arguments Value {T}. Arguments Refused {T}. Arguments Undefined {T}.
(** 70-87: the view is the first [len] characters of [buf] *)
Definition to_int (buf : str) (len : nat) : result Z :=
  let (r, n) := strtoll buf in
  if negb (Nat.eqb n len) || (2 ^ 31 - 1 <? r)%Z || (r <? - 2 ^ 31)%Z then Refused else Value r.
(** 97-104 *)
Definition to_bool (v : str) : result bool :=
  if list_eq_dec ascii_dec v (lit "true") then Value true else if list_eq_dec ascii_dec v (lit "1") then Value true
  else if list_eq_dec ascii_dec v (lit "false") then Value false else if list_eq_dec ascii_dec v (lit "0") then Value false else Refused.
(** 139-149: where the view begins in the text, and its length; of blanks alone nothing is left: a null view *)
Definition view (s : str) : option (str * nat) := match trim s with [] => None | v => Some (drop_spaces s, List.length v) end.

(** The children of an element that holds a value: texts (in several nodes if a comment or the like
    stands between) *)
Inductive piece := PText (s : str) | POther.
(** 312-322: text(): the first text node *)
Fixpoint first_text (l : list piece) : option str := match l with [] => None | PText s :: _ => Some s | POther :: l => first_text l end.
(** 324-344: text<T>() *)
Definition text_int (l : list piece) : result Z :=
  match first_text l with
  | None => Undefined
  | Some s => match view s with None => Undefined | Some (buf, len) => to_int buf len end
  end.
(** 272-310: attribute<T>(name), given the value of the attribute, if there is one *)
Definition attribute_int (a : option str) : result (option Z) :=
  match a with
  | None => Value None
  | Some s => match view s with
              | None => Value None
              | Some (buf, len) => match to_int buf len with Value z => Value (Some z) | Refused => Refused | Undefined => Undefined end
              end
  end.
Definition attribute_bool (a : option str) : result (option bool) :=
  match a with
  | None => Value None
  | Some s => match trim s with
              | [] => Value None
              | v => match to_bool v with Value b => Value (Some b) | Refused => Refused | Undefined => Undefined end
              end
  end.
