(** Saving a model and loading it again: src/serialization.cc:53-206 (the writer, as calls to the XML
    stream of XmlStream.v) and the part of src/initializer.cc that reads what it writes: 82-123
    (names, labels, attributes), 249-289 (registration), 351-404, 648-706 (the structure of the input),
    413-435 (Define for gates and basic events), 708-787 (GetFormula), 1154-1170 (constants),
    1025-1030, 1105-1152 (exponential); src/xml.h:70-140, 260-310 (attributes, text).
    Simplifications: errors are not told apart ([None]: an exception or a failed assertion); numbers
    are abstract ([show]: the printed form, [parse]: strtod; see DESIGN.md for "%g"); the RELAX NG
    validation is not modelled; fault trees have no components, parameters or CCF groups (the writer
    asserts that); the tables of the model are lists. *)
From Coq Require Import List String Ascii Bool ZArith NArith Lia.
From Verif Require Import XmlStream.
From Verif Require Registry Formula.
Import ListNotations.
Local Open Scope string_scope.
Local Open Scope list_scope.

(** Element (src/element.h:60-150): name, label, attributes (name, value, type). *)
Record elem := mkElem { el_name : string; el_label : string; el_attrs : list (string * string * string) }.
(** Formula::ArgEvent: an event of the model or one of the constants HouseEvent::kTrue, kFalse. *)
Inductive target := TConst (b : bool) | TEvent (e : Registry.ev).
Record arg := mkArg { complement : bool; refers : target }.
(** Formula, src/event.h:226-330; the numbers as min_number() and max_number() return them. *)
Record formula := mkFormula { f_conn : Formula.connective; f_min : option Z; f_max : option Z; f_args : list arg }.

Section Serial.
Context {num : Type} (show : num -> string) (parse : string -> option num).

Inductive expr := EConst (v : num) | EExponential (a b : expr) | EOther.
Record gate := mkGate { g_elem : elem; g_formula : formula }.
Record tree := mkTree { t_elem : elem; t_gates : list gate }.
(** Basic and house events with the base path of their definition. *)
Record basic := mkBasic { b_elem : elem; b_base : string; b_expr : option expr }.
Record house := mkHouse { h_elem : elem; h_base : string; h_state : bool }.
(** [m_other]: CCF groups, parameters, initiating events, event trees, sequences or rules are present. *)
Record model := mkModel { m_elem : elem; m_trees : list tree; m_basics : list basic; m_houses : list house; m_other : bool }.
Definition default_name : string := "__unnamed-model__".   (* model.h:58 *)

(** ** The writer *)
(** AddChild ... end of the life of the element. *)
Definition child_of (name : string) (body : list op) : list op := OChild 0 (lit name) :: body ++ [OClose].
Definition attr (k v : string) : op := OAttr 0 (lit k) (VStr (lit v)).
(** Concatenation of what is written for each element of a list. *)
Fixpoint each {A} (f : A -> option (list op)) (l : list A) : option (list op) :=
  match l with
  | [] => Some []
  | a :: l => match f a, each f l with Some x, Some y => Some (x ++ y) | _, _ => None end
  end.
(** serialization.cc:56-73 *)
Definition write_attribute (a : string * string * string) : list op :=
  let '(n, v, t) := a in
  child_of "attribute" (attr "name" n :: attr "value" v :: if String.eqb t "" then [] else [attr "type" t]).
Definition write_label_attributes (e : elem) : list op :=
  (if String.eqb (el_label e) "" then [] else child_of "label" [OText 0 (VStr (lit (el_label e)))]) ++
  match el_attrs e with [] => [] | l => child_of "attributes" (flat_map write_attribute l) end.
(** 75-78 *)
Definition write_element (e : elem) : list op := attr "name" (el_name e) :: write_label_attributes e.
(** Event::name of an argument; the names of the constants, event.cc:35-40. *)
Definition target_name (t : target) : string :=
  match t with TConst true => "__true__" | TConst false => "__false__" | TEvent e => Registry.e_name e end.
(** 81-94: stream_event, stream_arg *)
Definition write_event (t : target) : list op := child_of "event" [attr "name" (target_name t)].
Definition write_arg (a : arg) : list op := if complement a then child_of "not" (write_event (refers a)) else write_event (refers a).
(** 95-128; the last case is assert(false). *)
Definition write_formula (f : formula) : option (list op) :=
  let args := flat_map write_arg (f_args f) in
  match f_conn f with
  | Formula.Null => match f_args f with [mkArg false t] => Some (write_event t) | _ => None end
  | Formula.Not => match f_args f with mkArg false _ :: _ => Some (child_of "not" args) | _ => None end
  | Formula.And => Some (child_of "and" args)
  | Formula.Or => Some (child_of "or" args)
  | Formula.Nand => Some (child_of "nand" args)
  | Formula.Nor => Some (child_of "nor" args)
  | Formula.Xor => Some (child_of "xor" args)
  | Formula.Atleast => match f_min f with Some k => Some (child_of "atleast" (OAttr 0 (lit "min") (VInt k) :: args)) | None => None end
  | _ => None
  end.
(** 130-135, 137-144 *)
Definition write_gate (g : gate) : option (list op) :=
  match write_formula (g_formula g) with Some x => Some (child_of "define-gate" (write_element (g_elem g) ++ x)) | None => None end.
Definition write_tree (t : tree) : option (list op) :=
  match each write_gate (t_gates t) with Some x => Some (child_of "define-fault-tree" (write_element (t_elem t) ++ x)) | None => None end.
(** 146-162 *)
Fixpoint write_expr (e : expr) : option (list op) :=
  match e with
  | EConst v => Some (child_of "float" [attr "value" (show v)])
  | EExponential a b => match write_expr a, write_expr b with Some x, Some y => Some (child_of "exponential" (x ++ y)) | _, _ => None end
  | EOther => None
  end.
(** 164-170, 172-180 *)
Definition write_basic (b : basic) : option (list op) :=
  match b_expr b with
  | None => Some (child_of "define-basic-event" (write_element (b_elem b)))
  | Some e => match write_expr e with Some x => Some (child_of "define-basic-event" (write_element (b_elem b) ++ x)) | None => None end
  end.
Definition write_house (h : house) : list op :=
  child_of "define-house-event" (write_element (h_elem h) ++ child_of "constant" [attr "value" (if h_state h then "true" else "false")]).
(** 184-206 *)
Definition write_model (m : model) : option (list op) :=
  if m_other m then None else
  match each write_tree (m_trees m), each write_basic (m_basics m) with
  | Some x, Some y =>
      Some (ORoot (lit "opsa-mef") :: (if String.eqb (el_name (m_elem m)) default_name then [] else [attr "name" (el_name (m_elem m))]) ++
            write_label_attributes (m_elem m) ++ x ++ child_of "model-data" (y ++ flat_map write_house (m_houses m)) ++ [OClose])
  | _, _ => None
  end.

(** ** The reader *)
Fixpoint list_of (l : nodes) : list node := match l with NNil => [] | NCons n l => n :: list_of l end.
Definition name_of (n : node) : string := match n with Node s _ _ => string_of_list_ascii s end.
Definition kids_of (n : node) : list node := match n with Node _ _ (CKids l) => list_of l | _ => [] end.
(** xml.h:139-149: trim *)
Fixpoint drop_spaces (s : str) : str := match s with c :: r => if Ascii.eqb c " " then drop_spaces r else s | [] => [] end.
Definition trim (s : str) : str := rev (drop_spaces (rev (drop_spaces s))).
(** xml.h:266-285: the value of an attribute, empty if there is none *)
Fixpoint raw_attribute (k : str) (l : list (str * str)) : option str :=
  match l with [] => None | (k', v) :: l => if list_eq_dec ascii_dec k' k then Some v else raw_attribute k l end.
Definition attribute (k : string) (n : node) : string :=
  match n with Node _ a _ => match raw_attribute (lit k) a with Some v => string_of_list_ascii (trim v) | None => "" end end.
Definition has_attribute (k : string) (n : node) : bool :=
  match n with Node _ a _ => match raw_attribute (lit k) a with Some _ => true | None => false end end.
Definition text_of (n : node) : option string := match n with Node _ _ (CText s) => Some (string_of_list_ascii (trim s)) | _ => None end.
Definition child (k : string) (n : node) : option node := find (fun c => String.eqb (name_of c) k) (kids_of n).
(** detail::to<int>, to<bool>, xml.h:70-115; [Some None]: no attribute *)
Definition int_attribute (k : string) (n : node) : option (option Z) :=
  let v := attribute k n in
  if String.eqb v "" then Some None else match read_Z (lit v) with
  | Some z => if ((- 2 ^ 31 <=? z) && (z <? 2 ^ 31))%Z then Some (Some z) else None
  | None => None end.
Definition read_bool (s : string) : option bool :=
  if String.eqb s "true" || String.eqb s "1" then Some true else if String.eqb s "false" || String.eqb s "0" then Some false else None.
(** mapping with failure *)
Fixpoint all {A B} (f : A -> option B) (l : list A) : option (list B) :=
  match l with [] => Some [] | a :: l => match f a, all f l with Some x, Some y => Some (x :: y) | _, _ => None end end.

(** AttachLabelAndAttributes, initializer.cc:82-103; the constructor of Attribute, element.h:85-125;
    AddAttribute, element.cc:35-40 *)
Fixpoint add_attributes (l : list node) (acc : list (string * string * string)) : option (list (string * string * string)) :=
  match l with
  | [] => Some acc
  | n :: l =>
      if negb (String.eqb (name_of n) "attribute") then None
      else if String.eqb (attribute "name" n) "" || String.eqb (attribute "value" n) "" then None
      else if existsb (fun a => String.eqb (fst (fst a)) (attribute "name" n)) acc then None
      else add_attributes l (acc ++ [(attribute "name" n, attribute "value" n, attribute "type" n)])
  end.
Definition read_label_attributes (name : string) (n : node) : option elem :=
  match (match child "label" n with Some c => text_of c | None => Some "" end),
        (match child "attributes" n with Some c => add_attributes (kids_of c) [] | None => Some [] end) with
  | Some l, Some a => Some (mkElem name l a)
  | _, _ => None
  end.
(** Element::name, element.cc:27-33 *)
Definition valid_name (s : string) : bool := negb (String.eqb s "") && negb (Registry.has_dot s).
(** ConstructElement, 107-114 *)
Definition read_elem (n : node) : option elem :=
  if valid_name (attribute "name" n) then read_label_attributes (attribute "name" n) n else None.
(** GetNonAttributeElements, 131-138 *)
Definition definitions (n : node) : list node := filter (fun c => negb (String.eqb (name_of c) "label") && negb (String.eqb (name_of c) "attributes")) (kids_of n).

(** kConnectiveToString, event.h:220 *)
Definition connective_of (s : string) : option Formula.connective :=
  if String.eqb s "and" then Some Formula.And else if String.eqb s "or" then Some Formula.Or
  else if String.eqb s "atleast" then Some Formula.Atleast else if String.eqb s "xor" then Some Formula.Xor
  else if String.eqb s "not" then Some Formula.Not else if String.eqb s "nand" then Some Formula.Nand
  else if String.eqb s "nor" then Some Formula.Nor else if String.eqb s "null" then Some Formula.Null
  else if String.eqb s "iff" then Some Formula.Iff else if String.eqb s "imply" then Some Formula.Imply
  else if String.eqb s "cardinality" then Some Formula.Cardinality else None.
(** The checks of ArgSet::Add and of the constructor (Formula.v); of the arguments they use the ids,
    the complements and whether they are constants. *)
Definition target_id (t : target) : string := match t with TEvent e => Registry.id e | _ => target_name t end.
Definition add_to_set (a : arg) (s : list arg) : option (list arg) :=
  if existsb (fun x => String.eqb (target_id (refers x)) (target_id (refers a))) s then None else Some (s ++ [a]).
Definition bare (a : arg) : Formula.arg := Formula.mkArg (complement a) (match refers a with TConst true => 0 | TConst false => 1 | TEvent _ => 2 end).
Definition make (c : Formula.connective) (args : list arg) (mn mx : option Z) : option formula :=
  match Formula.make_formula 0 1 c (map bare args) mn mx with
  | Formula.Ok g => Some (mkFormula c (Formula.min_number g) (Formula.max_number g) args)
  | Formula.Throw _ => None
  end.
Definition got {A} (r : Registry.result A) : option A := match r with Registry.Ok a => Some a | Registry.Throw _ => None end.
(** GetFormula, 708-787 *)
Section Read.
Context (st : Registry.state) (base : string).
Definition read_event (comp : bool) (n : node) : option arg :=
  let type := if String.eqb (attribute "type" n) "" then name_of n else attribute "type" n in
  let name := attribute "name" n in
  if String.eqb name "" then None else
  match (if String.eqb type "event" then got (Registry.get_event name base st)
         else if String.eqb type "gate" then got (Registry.get_entity Registry.KGate name base st)
         else if String.eqb type "basic-event" then got (Registry.get_entity Registry.KBasic name base st)
         else if String.eqb type "house-event" then got (Registry.get_entity Registry.KHouse name base st) else None) with
  | Some e => Some (mkArg comp (TEvent e))
  | None => None
  end.
Definition read_arg (n : node) : option arg :=
  if String.eqb (name_of n) "constant" then match read_bool (attribute "value" n) with Some b => Some (mkArg false (TConst b)) | None => None end
  else if String.eqb (name_of n) "not" then match kids_of n with [c] => read_event true c | _ => None end
  else read_event false n.
Fixpoint read_args (l : list node) (s : list arg) : option (list arg) :=
  match l with
  | [] => Some s
  | n :: l => match read_arg n with Some a => match add_to_set a s with Some s => read_args l s | None => None end | None => None end
  end.
Definition read_formula (n : node) : option formula :=
  match (if has_attribute "name" n || String.eqb (name_of n) "constant" then Some Formula.Null else connective_of (name_of n)),
        int_attribute "min" n, int_attribute "max" n with
  | Some c, Some mn, Some mx =>
      match read_args (match c with Formula.Null => [n] | _ => kids_of n end) [] with
      | Some args => make c args mn mx
      | None => None
      end
  | _, _, _ => None
  end.
End Read.
(** GetExpression, 1154-1170, and the exponential with two arguments *)
Fixpoint read_expr (fuel : nat) (n : node) : option expr :=
  match fuel with
  | O => None
  | S fuel =>
      if String.eqb (name_of n) "float" then match parse (attribute "value" n) with Some v => Some (EConst v) | None => None end
      else if String.eqb (name_of n) "exponential" then
        match kids_of n with [a; b] => match read_expr fuel a, read_expr fuel b with Some x, Some y => Some (EExponential x y) | _, _ => None end | _ => None end
      else Some EOther
  end.
Fixpoint depth (n : node) : nat := match n with Node _ _ c => S (depth_content c) end
with depth_content (c : content) : nat := match c with CKids l => depth_nodes l | _ => 0 end
with depth_nodes (l : nodes) : nat := match l with NNil => 0 | NCons n l => Nat.max (depth n) (depth_nodes l) end.

(** 664-706: the definitions in a fault tree (with its name) or in the model data, in the order of the input *)
Inductive item := IGate (e : elem) (n : node) | IBasic (e : elem) (n : node) | IHouse (h : house).
Definition read_item (base : string) (gates : bool) (n : node) : option (list item) :=
  if String.eqb (name_of n) "define-gate" && gates then match read_elem n with Some e => Some [IGate e n] | None => None end
  else if String.eqb (name_of n) "define-basic-event" then match read_elem n with Some e => Some [IBasic e n] | None => None end
  else if String.eqb (name_of n) "define-house-event" then
    match read_elem n, (match child "constant" n with Some c => read_bool (attribute "value" c) | None => Some false end) with
    | Some e, Some b => Some [IHouse (mkHouse e base b)]
    | _, _ => None
    end
  else Some [].
Definition item_event (base : string) (i : item) : Registry.ev :=
  match i with
  | IGate e _ => Registry.mkEv Registry.KGate (el_name e) base false
  | IBasic e _ => Registry.mkEv Registry.KBasic (el_name e) base false
  | IHouse h => Registry.mkEv Registry.KHouse (el_name (h_elem h)) base false
  end.
(** A container: the fault tree, or the model data, with its items. *)
Definition read_items (base : string) (gates : bool) (n : node) : option (list item) :=
  match all (read_item base gates) (kids_of n) with Some l => Some (List.concat l) | None => None end.
Inductive part := PTree (e : elem) (l : list item) | PData (l : list item).
Definition read_part (n : node) : option (list part) :=
  if String.eqb (name_of n) "define-fault-tree" then
    match read_elem n with Some e => match read_items (el_name e) true n with Some l => Some [PTree e l] | None => None end | None => None end
  else if String.eqb (name_of n) "model-data" then match read_items "" false n with Some l => Some [PData l] | None => None end
  else Some [].
Definition part_base (p : part) : string := match p with PTree e _ => el_name e | PData _ => "" end.
Definition part_items (p : part) : list item := match p with PTree _ l => l | PData l => l end.
Definition part_events (p : part) : list (Registry.source * Registry.ev) := map (fun i => (Registry.Defined, item_event (part_base p) i)) (part_items p).
(** ProcessTbdElements, 593-618, and Define, 413-435.  [probability]: Settings::probability_analysis. *)
Definition define_gate (st : Registry.state) (base : string) (i : item) : option (list gate) :=
  match i with
  | IGate e n => match definitions n with
                 | [c] => match read_formula st base c with Some f => Some [mkGate e f] | None => None end
                 | _ => None
                 end
  | _ => Some []
  end.
Definition define_basic (probability : bool) (base : string) (i : item) : option (list basic) :=
  match i with
  | IBasic e n => match definitions n with
                  | [] => if probability then None else Some [mkBasic e base None]
                  | c :: _ => match read_expr (depth c) c with Some x => Some [mkBasic e base (Some x)] | None => None end
                  end
  | _ => Some []
  end.
Definition houses_of (i : item) : list house := match i with IHouse h => [h] | _ => [] end.
Definition define_tree (st : Registry.state) (p : part) : option (list tree) :=
  match p with
  | PTree e l => match all (define_gate st (el_name e)) l with Some g => Some [mkTree e (List.concat g)] | None => None end
  | PData _ => Some []
  end.
Definition define_basics (probability : bool) (p : part) : option (list basic) :=
  match all (define_basic probability (part_base p)) (part_items p) with Some l => Some (List.concat l) | None => None end.
(** The table of fault trees has no two of the same name (model.cc:45-47). *)
Fixpoint distinct (l : list string) : bool := match l with [] => true | s :: l => negb (existsb (String.eqb s) l) && distinct l end.
Definition tree_names (l : list part) : list string := flat_map (fun p => match p with PTree e _ => [el_name e] | _ => [] end) l.
(** ProcessInputFile and ProcessTbdElements for one input file. *)
Definition load (probability : bool) (n : node) : option model :=
  if negb (String.eqb (name_of n) "opsa-mef") then None else
  let name := if String.eqb (attribute "name" n) "" then default_name else attribute "name" n in
  if Registry.has_dot name then None else
  match read_label_attributes name n, all read_part (kids_of n) with
  | Some e, Some ps =>
      let ps := List.concat ps in
      if negb (distinct (tree_names ps)) then None else
      match Registry.run (flat_map part_events ps) Registry.empty_state with
      | Registry.Throw _ => None
      | Registry.Ok st =>
          match all (define_tree st) ps, all (define_basics probability) ps with
          | Some ts, Some bs => Some (mkModel e (List.concat ts) (List.concat bs) (flat_map houses_of (flat_map part_items ps)) false)
          | _, _ => None
          end
      end
  | _, _ => None
  end.
(** Saving to a file and loading it. *)
Definition save (indent : bool) (m : model) : option str :=
  match write_model m with
  | Some ops => match run ops (new_stream indent) with
                | Some (s, errors) => if existsb id errors then None else Some (out s)
                | None => None
                end
  | None => None
  end.
Definition load_file (probability : bool) (s : str) : option model := match read_doc s with Some n => load probability n | None => None end.

(** ** Specification: what a model must be like to survive *)
(** Texts that XML and the trimming of values leave alone: no control characters (NUL, tab, new line
    ...) and no space at either end. *)
Definition clean (s : string) : Prop := (forall c, In c (lit s) -> (32 <= N_of_ascii c)%N) /\ trim (lit s) = lit s.
(** The constructors of Element and Attribute guarantee the first two lines. *)
Definition good_attribute (a : string * string * string) : Prop :=
  fst (fst a) <> "" /\ snd (fst a) <> "" /\ clean (fst (fst a)) /\ clean (snd (fst a)) /\ clean (snd a).
Record good_elem (e : elem) : Prop := {
  ge_name : el_name e <> "" /\ Registry.has_dot (el_name e) = false;
  ge_attr_names : NoDup (map (fun a => fst (fst a)) (el_attrs e));
  ge_clean : clean (el_name e) /\ clean (el_label e);
  ge_attrs : Forall good_attribute (el_attrs e) }.
(** The events of the model, each with the base path of its definition; all are public. *)
Definition gate_event (t : tree) (g : gate) : Registry.ev := Registry.mkEv Registry.KGate (el_name (g_elem g)) (el_name (t_elem t)) false.
Definition basic_event (b : basic) : Registry.ev := Registry.mkEv Registry.KBasic (el_name (b_elem b)) (b_base b) false.
Definition house_event (h : house) : Registry.ev := Registry.mkEv Registry.KHouse (el_name (h_elem h)) (h_base h) false.
Definition events (m : model) : list Registry.ev :=
  flat_map (fun t => map (gate_event t) (t_gates t)) (m_trees m) ++ map basic_event (m_basics m) ++ map house_event (m_houses m).
(** A formula as the constructor of Formula accepts it, over events of the model, with a connective
    that the writer knows. *)
Definition writable (c : Formula.connective) : bool := match c with Formula.Iff | Formula.Imply | Formula.Cardinality => false | _ => true end.
Record good_formula (m : model) (f : formula) : Prop := {
  gf_made : exists mn mx, make (f_conn f) (f_args f) mn mx = Some f;
  gf_distinct : NoDup (map (fun a => target_id (refers a)) (f_args f));
  gf_writable : writable (f_conn f) = true;
  gf_events : Forall (fun a => exists e, refers a = TEvent e /\ In e (events m)) (f_args f) }.
(** Constants and exponentials of them, whose numbers are read as they are printed. *)
Fixpoint good_expr (e : expr) : Prop :=
  match e with
  | EConst v => parse (show v) = Some v /\ clean (show v)
  | EExponential a b => good_expr a /\ good_expr b
  | EOther => False
  end.
Record good_model (probability : bool) (m : model) : Prop := {
  gm_elem : good_elem (m_elem m);
  gm_trees : Forall (fun t => good_elem (t_elem t)) (m_trees m);
  gm_tree_names : NoDup (map (fun t => el_name (t_elem t)) (m_trees m));
  gm_gates : Forall (fun t => Forall (fun g => good_elem (g_elem g) /\ good_formula m (g_formula g)) (t_gates t)) (m_trees m);
  gm_basics : Forall (fun b => good_elem (b_elem b) /\ match b_expr b with Some e => good_expr e | None => probability = false end) (m_basics m);
  gm_houses : Forall (fun h => good_elem (h_elem h)) (m_houses m);
  gm_names : NoDup (map Registry.e_name (events m));
  gm_other : m_other m = false }.
(** What comes back: basic and house events are defined in the model data, not where they were. *)
Definition moved_event (e : Registry.ev) : Registry.ev :=
  match Registry.e_kind e with Registry.KGate => e | k => Registry.mkEv k (Registry.e_name e) "" (Registry.e_private e) end.
Definition moved_target (t : target) : target := match t with TEvent e => TEvent (moved_event e) | t => t end.
Definition moved_formula (f : formula) : formula :=
  mkFormula (f_conn f) (f_min f) (f_max f) (map (fun a => mkArg (complement a) (moved_target (refers a))) (f_args f)).
Definition moved_gate (g : gate) : gate := mkGate (g_elem g) (moved_formula (g_formula g)).
Definition moved_tree (t : tree) : tree := mkTree (t_elem t) (map moved_gate (t_gates t)).
Definition moved_basic (b : basic) : basic := mkBasic (b_elem b) "" (b_expr b).
Definition moved_house (h : house) : house := mkHouse (h_elem h) "" (h_state h).
Definition moved (m : model) : model :=
  mkModel (m_elem m) (map moved_tree (m_trees m)) (map moved_basic (m_basics m)) (map moved_house (m_houses m)) (m_other m).
End Serial.
