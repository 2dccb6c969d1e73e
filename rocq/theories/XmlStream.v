(** The XML report writer: src/xml_stream.h.
    Simplifications: characters are bytes and the file is a list of bytes (write errors are not
    modelled); values of type double ("%g") are not modelled; element objects live on a stack
    because destruction is in scope order; [d] addresses the element d levels above the
    innermost live one. *)
From Coq Require Import List Arith NArith ZArith Lia Bool Ascii String.
Import ListNotations.
Local Open Scope char_scope.
Local Open Scope list_scope.
Local Open Scope nat_scope.

Definition str := list ascii.
Definition lit (s : string) : str := list_ascii_of_string s.
Definition newline : ascii := ascii_of_nat 10.
Definition nul : ascii := ascii_of_nat 0.

(** ** FileStream, xml_stream.h:104-155 *)
(** write(size_t): digits are put into a buffer from the least significant one and printed
    backwards; [fuel] is the buffer size, None: the buffer overflows. *)
Definition digit (n : N) : ascii := ascii_of_N (n + 48).
Fixpoint digits (fuel : nat) (v : N) : option str :=
  match fuel with
  | 0 => None
  | S fuel =>
      let d := digit (N.modulo v 10) in
      let v := N.div v 10 in
      if N.ltb 0 v then match digits fuel v with Some l => Some (d :: l) | None => None end else Some [d]
  end.
Definition buffer_size : nat := 20.
Definition write_size (v : N) : option str := option_map (@rev ascii) (digits buffer_size v).
(** write(int): 32-bit int, 64-bit size_t; negation wraps around at the least int (undefined
    behaviour in C++, two's complement here). *)
Definition int_neg (z : Z) : Z := if Z.eqb z (- 2 ^ 31) then z else Z.opp z.
Definition to_size (z : Z) : N := Z.to_N (Z.modulo z (2 ^ 64)).
Definition write_int (z : Z) : option str :=
  if Z.ltb z 0 then option_map (cons "-"%char) (write_size (to_size (int_neg z))) else write_size (to_size z).

(** ** StreamElement *)
Inductive value := VStr (s : str) | VBool (b : bool) | VSize (n : N) | VInt (z : Z).
(** c_str(): up to the first NUL *)
Fixpoint c_str (s : str) : str :=
  match s with [] => [] | c :: s => if Ascii.eqb c nul then [] else c :: c_str s end.
(** PutValue(const char* ), xml_stream.h:349-390 *)
Definition special (c : ascii) : bool := Ascii.eqb c "&" || Ascii.eqb c "<" || Ascii.eqb c """".
Definition escape1 (c : ascii) : str :=
  if Ascii.eqb c "&" then lit "&amp;" else if Ascii.eqb c "<" then lit "&lt;"
  else if Ascii.eqb c """" then lit "&quot;" else [c].
Definition put_chars (s : str) : str := if existsb special s then flat_map escape1 s else s.
(** PutValue, xml_stream.h:340-348; None: buffer overflow *)
Definition put_value (v : value) : option str :=
  match v with
  | VStr s => Some (put_chars (c_str s))
  | VBool b => Some (lit (if b then "true" else "false"))
  | VSize n => write_size n
  | VInt z => write_int z
  end.

Record element := mkE {
  e_name : str; e_indent : nat;
  accept_attributes : bool; accept_elements : bool; accept_text : bool; active : bool }.
Record stream := mkSt {
  indent_on : bool; has_root : bool;
  live : list element;                 (* innermost first; the parent of each is the next one *)
  out : str }.
(** Indenter, xml_stream.h:52-101 *)
Definition indentation (on : bool) (n : nat) : str := repeat " "%char (if on then Nat.min n 20 else 0).
(** Stream::Stream, xml_stream.h:418-426 *)
Definition header : str := lit "<?xml version=""1.0"" encoding=""UTF-8""?>" ++ [newline].
Definition new_stream (on : bool) : stream := mkSt on false [] header.

Inductive op :=
  | ORoot (name : str) | OAttr (d : nat) (name : str) (v : value) | OText (d : nat) (v : value)
  | OChild (d : nat) (name : str) | OClose.
(** Ok: done.  Err: StreamError thrown.  Fail: an assertion fails or a buffer overflows. *)
Inductive result := Ok (s : stream) | Err | Fail.
Definition emit (s : stream) (l : list element) (x : str) : stream := mkSt (indent_on s) (has_root s) l (out s ++ x).
Fixpoint set_nth (l : list element) (d : nat) (e : element) : list element :=
  match l, d with
  | [], _ => []
  | _ :: l, 0 => e :: l
  | a :: l, S d => a :: set_nth l d e
  end.
(** the private constructor, xml_stream.h:315-337 *)
Definition new_element (name : str) (indent : nat) : element := mkE name indent true true true true.
Definition step (o : op) (s : stream) : result :=
  match o with
  | ORoot name =>                                           (* Stream::root, xml_stream.h:450-456 *)
      if has_root s then Err
      else match name with
           | [] => Err
           | _ => Ok (mkSt (indent_on s) true (new_element name 0 :: live s)
                        (out s ++ indentation (indent_on s) 0 ++ lit "<" ++ name))
           end
  | OAttr d name v =>                                       (* SetAttribute, xml_stream.h:210-225 *)
      match nth_error (live s) d with
      | None => Fail
      | Some e =>
          if negb (active e) then Err
          else if negb (accept_attributes e) then Err
          else match name with
               | [] => Err
               | _ => match put_value v with
                      | None => Fail
                      | Some x => Ok (emit s (live s) (lit " " ++ name ++ lit "=""" ++ x ++ lit """"))
                      end
               end
      end
  | OText d v =>                                            (* AddText, xml_stream.h:240-257 *)
      match nth_error (live s) d with
      | None => Fail
      | Some e =>
          if negb (active e) then Err
          else if negb (accept_text e) then Err
          else match put_value v with
               | None => Fail
               | Some x =>
                   let e' := mkE (e_name e) (e_indent e) false false (accept_text e) (active e) in
                   Ok (emit s (set_nth (live s) d e') ((if accept_attributes e then lit ">" else []) ++ x))
               end
      end
  | OChild d name =>                                        (* AddChild, xml_stream.h:272-290 *)
      match nth_error (live s) d with
      | None => Fail
      | Some e =>
          if negb (active e) then Err
          else if negb (accept_elements e) then Err
          else match name with
               | [] => Err
               | _ =>
                   let e' := mkE (e_name e) (e_indent e) false (accept_elements e) false false in
                   Ok (emit s (new_element name (e_indent e + 2) :: set_nth (live s) d e')
                         ((if accept_attributes e then lit ">" ++ [newline] else []) ++
                          indentation (indent_on s) (e_indent e + 2) ++ lit "<" ++ name))
               end
      end
  | OClose =>                                               (* ~StreamElement, xml_stream.h:178-196 *)
      match live s with
      | [] => Fail
      | e :: l =>
          if negb (active e) then Fail
          else
            let closing := lit "</" ++ e_name e ++ lit ">" ++ [newline] in
            let finish (l : list element) : result :=
              if accept_attributes e then Ok (emit s l (lit "/>" ++ [newline]))
              else if accept_elements e then Ok (emit s l (indentation (indent_on s) (e_indent e) ++ closing))
              else if accept_text e then Ok (emit s l closing) else Fail in
            match l with
            | [] => finish []
            | p :: l' =>
                if active p then Fail
                else finish (mkE (e_name p) (e_indent p) (accept_attributes p) (accept_elements p) (accept_text p) true :: l')
            end
      end
  end.
(** A program that catches stream errors: a failed call changes nothing. *)
Fixpoint run (ops : list op) (s : stream) : option (stream * list bool) :=
  match ops with
  | [] => Some (s, [])
  | o :: ops =>
      match step o s with
      | Fail => None
      | Err => match run ops s with Some (s, l) => Some (s, true :: l) | None => None end
      | Ok s => match run ops s with Some (s, l) => Some (s, false :: l) | None => None end
      end
  end.

(** ** Specification: documents and a reader *)
Inductive node := Node (name : str) (attrs : list (str * str)) (c : content)
with content := CEmpty | CText (s : str) | CKids (l : nodes)
with nodes := NNil | NCons (n : node) (l : nodes).
Fixpoint snoc (l : nodes) (n : node) : nodes := match l with NNil => NCons n NNil | NCons m l => NCons m (snoc l n) end.

(** The textual form of a value: strings as they are, numbers in decimal notation. *)
Fixpoint decimal_n (fuel : nat) (n : N) : str :=
  match fuel with
  | 0 => []
  | S fuel => if N.ltb n 10 then [ascii_of_N (48 + n)] else decimal_n fuel (N.div n 10) ++ [ascii_of_N (48 + N.modulo n 10)]
  end.
Definition decimal (n : N) : str := decimal_n (S (N.size_nat n)) n.
Definition text (v : value) : str :=
  match v with
  | VStr s => s
  | VBool b => if b then lit "true" else lit "false"
  | VSize n => decimal n
  | VInt z => if Z.ltb z 0 then "-"%char :: decimal (Z.abs_N z) else decimal (Z.abs_N z)
  end.
(** Reading decimal notation. *)
Definition digit_value (c : ascii) : option N :=
  if N.leb 48 (N_of_ascii c) && N.leb (N_of_ascii c) 57 then Some (N_of_ascii c - 48)%N else None.
Fixpoint read_digits (l : str) (acc : N) : option N :=
  match l with
  | [] => Some acc
  | c :: l => match digit_value c with Some v => read_digits l (acc * 10 + v)%N | None => None end
  end.
Definition read_N (l : str) : option N := match l with [] => None | _ => read_digits l 0 end.
Definition read_Z (l : str) : option Z :=
  match l with
  | c :: r => if Ascii.eqb c "-" then option_map (fun n => Z.opp (Z.of_N n)) (read_N r) else option_map Z.of_N (read_N l)
  | [] => None
  end.

(** What the calls mean: open elements, innermost first, and the finished document.  A call is
    an error unless it addresses the innermost element; attributes must come first, text and
    child elements do not mix, names are not empty, and there is one root. *)
Record frame := mkF { f_name : str; f_attrs : list (str * str); f_content : content }.
Record doc := mkD { d_open : list frame; d_started : bool; d_done : option node }.
Definition new_doc : doc := mkD [] false None.
Definition meaning (o : op) (d : doc) : option doc :=
  match o, d_open d with
  | ORoot ((_ :: _) as name), _ => if d_started d then None else Some (mkD (mkF name [] CEmpty :: d_open d) true (d_done d))
  | OAttr 0 ((_ :: _) as name) v, mkF n a CEmpty :: l => Some (mkD (mkF n (a ++ [(name, text v)]) CEmpty :: l) (d_started d) (d_done d))
  | OText 0 v, mkF n a CEmpty :: l => Some (mkD (mkF n a (CText (text v)) :: l) (d_started d) (d_done d))
  | OText 0 v, mkF n a (CText t) :: l => Some (mkD (mkF n a (CText (t ++ text v)) :: l) (d_started d) (d_done d))
  | OChild 0 ((_ :: _) as name), mkF n a CEmpty :: l =>
      Some (mkD (mkF name [] CEmpty :: mkF n a (CKids NNil) :: l) (d_started d) (d_done d))
  | OChild 0 ((_ :: _) as name), mkF n a (CKids k) :: l =>
      Some (mkD (mkF name [] CEmpty :: mkF n a (CKids k) :: l) (d_started d) (d_done d))
  | OClose, [mkF n a c] => Some (mkD [] (d_started d) (Some (Node n a c)))
  | OClose, mkF n a c :: mkF n' a' (CKids k) :: l =>
      Some (mkD (mkF n' a' (CKids (snoc k (Node n a c))) :: l) (d_started d) (d_done d))
  | _, _ => None
  end.
Fixpoint means (ops : list op) (d : doc) : doc * list bool :=
  match ops with
  | [] => (d, [])
  | o :: ops =>
      match meaning o d with
      | None => let (d, l) := means ops d in (d, true :: l)
      | Some d => let (d, l) := means ops d in (d, false :: l)
      end
  end.

(** A reader of XML documents (elements, attributes, text, the five entities). *)
Definition is_space (c : ascii) : bool := Ascii.eqb c " " || Ascii.eqb c newline || Ascii.eqb c (ascii_of_nat 9) || Ascii.eqb c (ascii_of_nat 13).
Definition name_char (c : ascii) : bool :=
  negb (is_space c || Ascii.eqb c "/" || Ascii.eqb c ">" || Ascii.eqb c "<" || Ascii.eqb c "=" || Ascii.eqb c """" || Ascii.eqb c "&" || Ascii.eqb c nul).
Fixpoint span (p : ascii -> bool) (s : str) : str * str :=
  match s with [] => ([], []) | c :: r => if p c then let (a, b) := span p r in (c :: a, b) else ([], s) end.
Definition skip (s : str) : str := snd (span is_space s).
Fixpoint strip (p s : str) : option str :=
  match p, s with
  | [], _ => Some s
  | c :: p, d :: s => if Ascii.eqb c d then strip p s else None
  | _ :: _, [] => None
  end.
Definition entities : list (str * ascii) :=
  [(lit "&amp;", "&"%char); (lit "&lt;", "<"%char); (lit "&gt;", ">"%char); (lit "&quot;", """"%char); (lit "&apos;", "'"%char)].
Fixpoint entity (l : list (str * ascii)) (s : str) : option (ascii * str) :=
  match l with
  | [] => None
  | (p, c) :: l => match strip p s with Some r => Some (c, r) | None => entity l s end
  end.
Fixpoint unescape (fuel : nat) (s : str) : option str :=
  match fuel with
  | 0 => None
  | S fuel =>
      match s with
      | [] => Some []
      | c :: r =>
          if Ascii.eqb c "&" then
            match entity entities s with Some (c, r) => option_map (cons c) (unescape fuel r) | None => None end
          else if Ascii.eqb c "<" then None
          else option_map (cons c) (unescape fuel r)
      end
  end.
Definition read_text (s : str) : option str := unescape (S (List.length s)) s.
Fixpoint read_attrs (fuel : nat) (s : str) : option (list (str * str) * str) :=
  match fuel with
  | 0 => None
  | S fuel =>
      match skip s with
      | c :: r =>
          if Ascii.eqb c "/" || Ascii.eqb c ">" then Some ([], c :: r)
          else
            let (name, r1) := span name_char (c :: r) in
            match name, strip (lit "=""") r1 with
            | _ :: _, Some r2 =>
                let (raw, r3) := span (fun c => negb (Ascii.eqb c """")) r2 in
                match r3, read_text raw with
                | _ :: r4, Some v =>
                    match read_attrs fuel r4 with Some (l, r) => Some ((name, v) :: l, r) | None => None end
                | _, _ => None
                end
            | _, _ => None
            end
      | [] => None
      end
  end.
Fixpoint read_node (fuel : nat) (s : str) : option (node * str) :=
  match fuel with
  | 0 => None
  | S fuel =>
      match strip (lit "<") (skip s) with
      | None => None
      | Some r =>
          let (name, r1) := span name_char r in
          match name, read_attrs (S (List.length r1)) r1 with
          | _ :: _, Some (attrs, r2) =>
              match strip (lit "/>") r2 with
              | Some r3 => Some (Node name attrs CEmpty, r3)
              | None =>
                  match strip (lit ">") r2 with
                  | None => None
                  | Some r3 =>
                      let (raw, r4) := span (fun c => negb (Ascii.eqb c "<")) r3 in
                      match strip (lit "</" ++ name ++ lit ">") r4 with
                      | Some r5 => match read_text raw with Some t => Some (Node name attrs (CText t), r5) | None => None end
                      | None =>
                          if forallb is_space raw then
                            match read_nodes fuel r4 with
                            | Some (k, r5) =>
                                match strip (lit "</" ++ name ++ lit ">") (skip r5) with
                                | Some r6 => Some (Node name attrs (CKids k), r6)
                                | None => None
                                end
                            | None => None
                            end
                          else None
                      end
                  end
              end
          | _, _ => None
          end
      end
  end
with read_nodes (fuel : nat) (s : str) : option (nodes * str) :=
  match fuel with
  | 0 => None
  | S fuel =>
      match strip (lit "</") (skip s) with
      | Some _ => Some (NNil, s)
      | None =>
          match read_node fuel s with
          | None => None
          | Some (n, r) => match read_nodes fuel r with Some (l, r) => Some (NCons n l, r) | None => None end
          end
      end
  end.
(** A document: the declaration, one element, and nothing but white space after it. *)
Definition read_doc (s : str) : option node :=
  match strip header s with
  | None => None
  | Some r => match read_node (S (List.length s)) r with
              | Some (n, r) => match skip r with [] => Some n | _ => None end
              | None => None
              end
  end.

(** What the writer requires of its caller: handles refer to live elements, closing happens
    only when an element is open, names are XML names (the code warns that it does not check
    them; empty names are allowed here, they are rejected), strings are C strings, and numbers
    fit the C++ types (the least int is excluded). *)
Definition ok_name (n : str) : Prop := forallb name_char n = true.
Definition ok_value (v : value) : Prop :=
  match v with
  | VStr s => ~ In nul s
  | VBool _ => True
  | VSize n => (n < 2 ^ 64)%N
  | VInt z => (- 2 ^ 31 < z < 2 ^ 31)%Z
  end.
Definition legal (o : op) (d : doc) : Prop :=
  match o with
  | ORoot name => ok_name name
  | OAttr k name v => k < List.length (d_open d) /\ ok_name name /\ ok_value v
  | OText k v => k < List.length (d_open d) /\ ok_value v
  | OChild k name => k < List.length (d_open d) /\ ok_name name
  | OClose => d_open d <> []
  end.
Fixpoint legal_run (ops : list op) (d : doc) : Prop :=
  match ops with
  | [] => True
  | o :: ops => legal o d /\ legal_run ops (match meaning o d with Some d' => d' | None => d end)
  end.
