(** The report of an analysis: src/reporter.cc:44-582 as calls to the XML stream of XmlStream.v, with the
    containers it reads: Product and ProductContainer (src/fault_tree_analysis.h:43-165,
    fault_tree_analysis.cc:85-115), and an independent reader of what the report says.
    Simplifications: numbers are abstract ([show]: the printed form; "%g" is not modelled), with their
    operations; the parts of Settings and Model that the report uses are records of their own; the
    containers are lists in the order of iteration; an index of a product stands for the pointer to its
    basic event; [a_sil] is present exactly if the setting safety-integrity-levels is on
    (probability_analysis.cc:50-51, 135); int counters do not overflow; opening the file
    (reporter.cc:94-109) is not modelled. *)
From Coq Require Import List String Ascii Bool ZArith NArith.
From Verif Require Import XmlStream.
From Verif Require Serial.
Import ListNotations.
Local Open Scope string_scope.
Local Open Scope list_scope.

(** ** What has been analyzed *)
(** RiskAnalysis::Result::Id, risk_analysis.h:54-59: a gate id, or the names of an initiating event and a
    sequence; the names of the alignment and of the phase. *)
Inductive target := TGate (id : string) | TSequence (initiating name : string).
Record ident := mkIdent { i_target : target; i_context : option (string * string) }.
(** mef::BasicEvent (id) or mef::CcfEvent (group id, names of the members, size of the group). *)
Inductive event := Basic (id : string) | Ccf (group : string) (members : list string) (size : nat).

Record operations (num : Type) := mkOps {
  zero : num; one : num; add : num -> num -> num; sub : num -> num -> num; mul : num -> num -> num;
  quot : num -> num -> num; of_int : Z -> num; is_zero : num -> bool }.
Arguments zero {num}. Arguments one {num}. Arguments add {num}. Arguments sub {num}. Arguments mul {num}.
Arguments quot {num}. Arguments of_int {num}. Arguments is_zero {num}.

Section Report.
Context {num : Type} (show : num -> string) (O : operations num).

(** [x_time]: analysis_time().  [c_events], [c_prob]: Pdag::basic_events() and BasicEvent::p(). *)
Record container := mkContainer { c_events : nat -> event; c_prob : nat -> num; c_products : list (list Z); c_warnings : string; c_time : num }.
Record sil := mkSil { pfd_avg : num; pfh_avg : num; pfd_fractions : list (num * num); pfh_fractions : list (num * num) }.
Record probability := mkProbability { a_total : num; a_curve : list (num * num); a_sil : option sil; a_warnings : string; a_time : num }.
Record factors := mkFactors { occurrence : Z; mif : num; cif : num; dif : num; raw : num; rrw : num }.
Record importance := mkImportance { n_entries : list (event * num * factors); n_warnings : string; n_time : num }.
Record uncertainty := mkUncertainty { u_mean : num; u_sigma : num; u_interval : num * num; u_error_factor : num;
  u_quantiles : list num; u_distribution : list (num * num); u_warnings : string; u_time : num }.
Record finding := mkFinding { r_id : ident; r_products : option container; r_probability : option probability;
  r_importance : option importance; r_uncertainty : option uncertainty }.
(** RiskAnalysis::EtaResult, EventTreeAnalysis::Result *)
Record sequences := mkSequences { e_initiating : string; e_context : option (string * string); e_sequences : list (string * num) }.
(** settings.h; [s_approximation]: 0 none, 1 rare-event, 2 mcub. *)
Inductive algorithm := kBdd | kZbdd | kMocus.
Inductive approximation := kNone | kRareEvent | kMcub.
Record settings := mkSettings { prime_implicants : bool; s_algorithm : algorithm; limit_order : Z; ccf_analysis : bool;
  probability_analysis : bool; s_approximation : approximation; mission_time : num; time_step : num; safety_integrity_levels : bool;
  importance_analysis : bool; uncertainty_analysis : bool; num_trials : Z; seed : Z }.
(** An element of the model: its unique name and its usage flag. *)
Definition element := (string * bool)%type.
Record event_tree := mkEventTree { t_element : element; t_branches : list element; t_functional : list element }.
(** [m_name]: None if the model has the default name. *)
Record model := mkModel { m_name : option string; m_gates : nat; m_basics : list element; m_houses : list element; m_parameters : list element;
  m_libraries : list element; m_externs : list element; m_initiating : list element; m_event_trees : list event_tree;
  m_sequences : list element; m_rules : list element; m_ccf : nat; m_fault_trees : nat; m_substitutions : nat }.
(** [k_version], [k_now]: the version and the formatted time (None: strftime fails, 257-260). *)
Record analysis := mkAnalysis { k_settings : settings; k_model : model; k_version : string; k_now : option string;
  k_sequences : list sequences; k_findings : list finding }.

(** ** Products, fault_tree_analysis.h:43-100 *)
Definition order (p : list Z) : Z := match p with [] => 1 | _ => Z.of_nat (List.length p) end.
(** LiteralExtractor, 45-56 *)
Definition literal (c : container) (i : Z) : bool * event := (Z.ltb i 0, c_events c (Z.abs_nat i)).
(** Product::p, fault_tree_analysis.cc:109-115 *)
Definition product_p (c : container) (p : list Z) : num :=
  fold_left (fun x i => mul O x (if Z.ltb i 0 then sub O (one O) (c_prob c (Z.abs_nat i)) else c_prob c (Z.abs_nat i))) p (one O).
(** The constructor of ProductContainer, 85-107: resize and increment; the events met for the first time *)
Fixpoint bump (k : nat) (d : list Z) : list Z :=
  match k, d with
  | 0, [] => [1%Z]
  | 0, x :: d => (x + 1)%Z :: d
  | S k, [] => 0%Z :: bump k []
  | S k, x :: d => x :: bump k d
  end.
Definition order_index (p : list Z) : nat := match p with [] => 0 | _ => List.length p - 1 end.
Definition distribution (ps : list (list Z)) : list Z := fold_left (fun d p => bump (order_index p) d) ps [].
Definition meet (s : list nat) (i : Z) : list nat := if existsb (Nat.eqb (Z.abs_nat i)) s then s else s ++ [Z.abs_nat i].
Definition product_events (ps : list (list Z)) : list nat := fold_left (fun s p => fold_left meet p s) ps [].

(** ** The writer *)
(** AddChild, SetAttribute for each attribute, what follows, end of the life of the element. *)
Definition put (l : list (string * value)) : list op := map (fun p => OAttr 0 (lit (fst p)) (snd p)) l.
Definition el (name : string) (l : list (string * value)) (ops : list op) : list op := OChild 0 (lit name) :: put l ++ ops ++ [OClose].
Definition tx (name : string) (v : value) : list op := el name [] [OText 0 v].
Definition S_ (s : string) : value := VStr (lit s).
Definition D_ (x : num) : value := S_ (show x).
Definition n_ {A} (l : list A) : value := VSize (N.of_nat (List.length l)).
(** PutId, 47-68 *)
Definition put_context (c : option (string * string)) : list (string * value) :=
  match c with Some (a, p) => [("alignment", S_ a); ("phase", S_ p)] | None => [] end.
Definition put_id (i : ident) : list (string * value) :=
  match i_target i with TGate g => [("name", S_ g)] | TSequence e s => [("initiating-event", S_ e); ("name", S_ s)] end ++ put_context (i_context i).
(** ReportBasicEvent, 560-580; [data]: what add_data sets *)
Definition report_event (e : event) (data : list (string * value)) : list op :=
  match e with
  | Basic id => el "basic-event" (("name", S_ id) :: data) []
  | Ccf g ms n => el "ccf-event" ([("ccf-group", S_ g); ("order", n_ ms); ("group-size", VSize (N.of_nat n))] ++ data)
                    (flat_map (fun m => el "basic-event" [("name", S_ m)] []) ms)
  end.
(** ReportLiteral, 547-557 *)
Definition report_literal (l : bool * event) : list op :=
  if fst l then el "not" [] (report_event (snd l) []) else report_event (snd l) [].
(** 357-378 *)
Definition report_sequences (r : sequences) : list op :=
  el "initiating-event" ([("name", S_ (e_initiating r))] ++ put_context (e_context r) ++ [("sequences", n_ (e_sequences r))])
    (flat_map (fun s => el "sequence" [("name", S_ (fst s)); ("value", D_ (snd s))] []) (e_sequences r)).
(** 380-432 *)
Definition warning (w : string) : list (string * value) := if String.eqb w "" then [] else [("warning", S_ w)].
Definition joined (c : container) (pa : option probability) : string :=
  match pa with
  | Some a => if String.eqb (a_warnings a) "" then c_warnings c
              else (c_warnings c ++ ((if String.eqb (c_warnings c) "" then "" else "; ") ++ a_warnings a))%string
  | None => c_warnings c
  end.
Definition int_string (z : Z) : string := string_of_list_ascii (text (VInt z)).   (* std::to_string *)
Definition total (c : container) : num := fold_left (fun s p => add O s (product_p c p)) (c_products c) (zero O).
Definition report_product (c : container) (pa : option probability) (p : list Z) : list op :=
  el "product" ([("order", VInt (order p))] ++
      match pa with
      | Some _ => [("probability", D_ (product_p c p))] ++ if is_zero O (total c) then [] else [("contribution", D_ (quot O (product_p c p) (total c)))]
      | None => []
      end)
    (flat_map (fun i => report_literal (literal c i)) p).
Definition report_products (i : ident) (c : container) (pa : option probability) : list op :=
  el "sum-of-products"
    (put_id i ++ warning (joined c pa) ++
     [("basic-events", n_ (product_events (c_products c))); ("products", VInt (Z.of_nat (List.length (c_products c))))] ++
     match pa with Some a => [("probability", D_ (a_total a))] | None => [] end ++
     match c_products c with [] => [] | ps => [("distribution", S_ (String.concat " " (map int_string (distribution ps))))] end)
    (flat_map (report_product c pa) (c_products c)).
(** 434-476 *)
Definition report_point (p : num * num) : list op := el "point" [("X", D_ (snd p)); ("Y", D_ (fst p))] [].
Fixpoint report_bins (k : Z) (b0 : num) (l : list (num * num)) : list op :=
  match l with
  | [] => []
  | (b1, v) :: l => el "bin" [("number", VInt k); ("value", D_ v); ("lower-bound", D_ b0); ("upper-bound", D_ b1)] [] ++ report_bins (k + 1) b1 l
  end.
Definition report_fractions (l : list (num * num)) : list op := el "histogram" [("number", n_ l)] (report_bins 1 (zero O) l).
Definition report_probability (i : ident) (a : probability) : list op :=
  match a_curve a with
  | [] => []
  | l => el "curve" (put_id i ++ [("description", S_ "Probability values over time"); ("X-title", S_ "Mission time"); ("Y-title", S_ "Probability"); ("X-unit", S_ "hours")])
           (flat_map report_point l)
  end ++
  match a_sil a with
  | None => []
  | Some s => el "safety-integrity-levels" (put_id i ++ [("PFD-avg", D_ (pfd_avg s)); ("PFH-avg", D_ (pfh_avg s))])
                (report_fractions (pfd_fractions s) ++ report_fractions (pfh_fractions s))
  end.
(** 478-505 *)
Definition report_entry (x : event * num * factors) : list op :=
  let '(e, p, f) := x in
  report_event e [("occurrence", VInt (occurrence f)); ("probability", D_ p); ("MIF", D_ (mif f)); ("CIF", D_ (cif f)); ("DIF", D_ (dif f)); ("RAW", D_ (raw f)); ("RRW", D_ (rrw f))].
Definition report_importance (i : ident) (a : importance) : list op :=
  el "importance" (put_id i ++ warning (n_warnings a) ++ [("basic-events", n_ (n_entries a))]) (flat_map report_entry (n_entries a)).
(** 507-545; [k]: the number of quantiles or bins reported before *)
Fixpoint report_quantiles (delta : num) (k : Z) (prev : num) (l : list num) : list op :=
  match l with
  | [] => []
  | u :: l => el "quantile" [("number", VInt (k + 1)); ("value", D_ (mul O delta (of_int O (k + 1)))); ("lower-bound", D_ prev); ("upper-bound", D_ u)] [] ++
              report_quantiles delta (k + 1) u l
  end.
Fixpoint report_histogram (k : Z) (l : list (num * num)) : list op :=
  match l with
  | (lower, v) :: (((upper, _) :: _) as r) =>
      el "bin" [("number", VInt (k + 1)); ("value", D_ v); ("lower-bound", D_ lower); ("upper-bound", D_ upper)] [] ++ report_histogram (k + 1) r
  | _ => []
  end.
Definition report_uncertainty (i : ident) (a : uncertainty) : list op :=
  el "measure" (put_id i ++ warning (u_warnings a))
    (el "mean" [("value", D_ (u_mean a))] [] ++
     el "standard-deviation" [("value", D_ (u_sigma a))] [] ++
     el "confidence-range" [("percentage", S_ "95"); ("lower-bound", D_ (fst (u_interval a))); ("upper-bound", D_ (snd (u_interval a)))] [] ++
     el "error-factor" [("percentage", S_ "95"); ("value", D_ (u_error_factor a))] [] ++
     (let n := Z.of_nat (List.length (u_quantiles a)) in
      el "quantiles" [("number", VInt n)] (report_quantiles (quot O (one O) (of_int O n)) 0 (zero O) (u_quantiles a))) ++
     el "histogram" [("number", VInt (Z.of_nat (List.length (u_distribution a)) - 1))] (report_histogram 0 (u_distribution a))).
(** 76-91 *)
Definition report_finding (r : finding) : list op :=
  match r_products r with Some c => report_products (r_id r) c (r_probability r) | None => [] end ++
  match r_probability r with Some a => report_probability (r_id r) a | None => [] end ++
  match r_importance r with Some a => report_importance (r_id r) a | None => [] end ++
  match r_uncertainty r with Some a => report_uncertainty (r_id r) a | None => [] end.

(** *** The information, 111-355 *)
Definition quantity_products (s : settings) : list op :=
  el "calculated-quantity" [("name", S_ (if prime_implicants s then "Prime Implicants" else "Minimal Cut Sets"))]
    (el "calculation-method" [("name", S_ match s_algorithm s with kBdd => "Binary Decision Diagram" | kZbdd => "Zero-Suppressed Binary Decision Diagram" | kMocus => "MOCUS" end)]
      (el "limits" [] (tx "product-order" (VInt (limit_order s))))) ++
  if ccf_analysis s then
    el "calculated-quantity" [("name", S_ "Common Cause Failure Analysis"); ("definition", S_ "Incorporation of common cause failure models")] []
  else [].
(** 147-175; kApproximationToString, settings.h:39 *)
Definition quantity_probability (s : settings) : list op :=
  el "calculated-quantity" [("name", S_ "Probability Analysis"); ("definition", S_ "Quantitative analysis of failure probability or unavailability");
      ("approximation", S_ match s_approximation s with kNone => "none" | kRareEvent => "rare-event" | kMcub => "mcub" end)]
    (el "calculation-method" [("name", S_ match s_approximation s with kNone => "Binary Decision Diagram" | kRareEvent => "Rare-Event Approximation" | kMcub => "MCUB Approximation" end)]
      (el "limits" [] (tx "mission-time" (D_ (mission_time s)) ++ if is_zero O (time_step s) then [] else tx "time-step" (D_ (time_step s))))).
Definition quantity_importance : list op :=
  el "calculated-quantity" [("name", S_ "Importance Analysis"); ("definition", S_ "Quantitative analysis of contributions and importance factors of events.")] [].
Definition quantity_uncertainty (s : settings) : list op :=
  el "calculated-quantity" [("name", S_ "Uncertainty Analysis"); ("definition", S_ "Calculation of uncertainties with the Monte Carlo method")]
    (el "calculation-method" [("name", S_ "Monte Carlo")]
      (el "limits" [] (tx "number-of-trials" (VInt (num_trials s)) ++ if Z.leb 0 (seed s) then tx "seed" (VInt (seed s)) else []))).
Definition report_quantities (s : settings) : list op :=
  quantity_products s ++
  (if probability_analysis s then quantity_probability s else []) ++
  (if safety_integrity_levels s then el "calculated-quantity" [("name", S_ "Safety Integrity Levels")] [] else []) ++
  (if importance_analysis s then quantity_importance else []) ++
  (if uncertainty_analysis s then quantity_uncertainty s else []).
(** 245-262 *)
Definition report_software (k : analysis) : list op :=
  el "software" [("name", S_ "SCRAM"); ("version", S_ (k_version k)); ("contacts", S_ "https://scram-pra.org")] [] ++
  match k_now k with Some t => tx "time" (S_ t) | None => [] end.
(** 264-294 *)
Definition feature (name : string) (n : nat) : list op := match n with 0 => [] | _ => tx name (VSize (N.of_nat n)) end.
Definition report_features (m : model) : list op :=
  el "model-features" (match m_name m with Some n => [("name", S_ n)] | None => [] end)
    (feature "gates" (m_gates m) ++ feature "basic-events" (List.length (m_basics m)) ++ feature "house-events" (List.length (m_houses m)) ++
     feature "ccf-groups" (m_ccf m) ++ feature "fault-trees" (m_fault_trees m) ++ feature "event-trees" (List.length (m_event_trees m)) ++
     (let n := fold_left (fun n t => (n + Z.of_nat (List.length (t_functional t)))%Z) (m_event_trees m) 0%Z in
      if Z.eqb n 0 then [] else tx "functional-events" (VInt n)) ++
     feature "sequences" (List.length (m_sequences m)) ++ feature "rules" (List.length (m_rules m)) ++
     feature "initiating-events" (List.length (m_initiating m)) ++ feature "substitutions" (m_substitutions m)).
(** 296-320 *)
Definition report_time (r : finding) : list op :=
  el "calculation-time" (put_id (r_id r))
    (match r_products r with Some c => tx "products" (D_ (c_time c)) | None => [] end ++
     match r_probability r with Some a => tx "probability" (D_ (a_time a)) | None => [] end ++
     match r_importance r with Some a => tx "importance" (D_ (n_time a)) | None => [] end ++
     match r_uncertainty r with Some a => tx "uncertainty" (D_ (u_time a)) | None => [] end).
Definition report_performance (k : analysis) : list op :=
  match k_findings k with [] => [] | l => el "performance" [] (flat_map report_time l) end.
(** 340-355 *)
Definition report_unused (l : list element) (header : string) : list op :=
  let out := String.concat " " (map fst (filter (fun x => negb (snd x)) l)) in
  if String.eqb out "" then [] else tx "warning" (S_ (header ++ out)%string).
(** 211-243 *)
Definition report_information (k : analysis) : list op :=
  let m := k_model k in
  el "information" []
    (report_software k ++ report_performance k ++ report_quantities (k_settings k) ++ report_features m ++
     report_unused (m_basics m) "Unused basic events: " ++ report_unused (m_houses m) "Unused house events: " ++
     report_unused (m_parameters m) "Unused parameters: " ++ report_unused (m_libraries m) "Unused libraries: " ++
     report_unused (m_externs m) "Unused extern functions: " ++ report_unused (m_initiating m) "Unused initiating events: " ++
     report_unused (map t_element (m_event_trees m)) "Unused event trees: " ++ report_unused (m_sequences m) "Unused sequences: " ++
     report_unused (m_rules m) "Unused rules: " ++
     flat_map (fun t => let header := ("In event tree " ++ fst (t_element t) ++ ", ")%string in
       report_unused (t_branches t) (header ++ "unused branches: ")%string ++
       report_unused (t_functional t) (header ++ "unused functional events: ")%string) (m_event_trees m)).
(** Report, 72-92 *)
Definition report_results (k : analysis) : list op :=
  match k_findings k, k_sequences k with
  | [], [] => []
  | _, _ => el "results" [] ((if probability_analysis (k_settings k) then flat_map report_sequences (k_sequences k) else []) ++
                             flat_map report_finding (k_findings k))
  end.
Definition report (k : analysis) : list op := ORoot (lit "report") :: report_information k ++ report_results k ++ [OClose].
(** The file; None: a stream error is thrown or an assertion fails. *)
Definition report_file (indent : bool) (k : analysis) : option str :=
  match run (report k) (new_stream indent) with
  | Some (s, errors) => if existsb id errors then None else Some (out s)
  | None => None
  end.
End Report.
Arguments container : clear implicits. Arguments sil : clear implicits. Arguments probability : clear implicits. Arguments factors : clear implicits.
Arguments importance : clear implicits. Arguments uncertainty : clear implicits. Arguments finding : clear implicits. Arguments sequences : clear implicits.
Arguments settings : clear implicits. Arguments analysis : clear implicits.

(** ** Reading a report *)
Definition name_of (n : node) : string := match n with Node s _ _ => string_of_list_ascii s end.
Definition kids_of (n : node) : list node := Serial.kids_of n.
Definition children (tag : string) (n : node) : list node := filter (fun c => String.eqb (name_of c) tag) (kids_of n).
(** The value of an attribute, None if there is none; the text of an element. *)
Definition value_of (k : string) (n : node) : option string :=
  match n with Node _ a _ => option_map string_of_list_ascii (Serial.raw_attribute (lit k) a) end.
Definition int_of (k : string) (n : node) : option Z := match value_of k n with Some s => read_Z (lit s) | None => None end.
Definition text_of (n : node) : option string := match n with Node _ _ (CText s) => Some (string_of_list_ascii s) | _ => None end.
Notation "x <- a ;;; b" := (match a with Some x => b | None => None end) (at level 61, a at next level, right associativity).
Definition read_context (n : node) : option (option (string * string)) :=
  match value_of "alignment" n, value_of "phase" n with Some a, Some p => Some (Some (a, p)) | None, None => Some None | _, _ => None end.
Definition read_id (n : node) : option ident :=
  name <- value_of "name" n;;; c <- read_context n;;;
  Some (mkIdent match value_of "initiating-event" n with Some e => TSequence e name | None => TGate name end c).
Definition read_event (n : node) : option event :=
  if String.eqb (name_of n) "basic-event" then option_map Basic (value_of "name" n)
  else if String.eqb (name_of n) "ccf-event" then
    g <- value_of "ccf-group" n;;; k <- int_of "order" n;;; s <- int_of "group-size" n;;; ms <- Serial.all (value_of "name") (children "basic-event" n);;;
    if Z.eqb (Z.of_nat (List.length ms)) k then Some (Ccf g ms (Z.to_nat s)) else None
  else None.
Definition read_literal (n : node) : option (bool * event) :=
  if String.eqb (name_of n) "not" then match kids_of n with [c] => option_map (pair true) (read_event c) | _ => None end
  else option_map (pair false) (read_event n).
(** The words of a text. *)
Fixpoint split (s : str) : list str :=
  match s with
  | [] => [[]]
  | c :: s => if Ascii.eqb c " " then [] :: split s else match split s with w :: l => (c :: w) :: l | [] => [[c]] end
  end.
Definition read_numbers (s : string) : option (list Z) := Serial.all read_Z (split (lit s)).

(** What a report says; numbers of type double in their printed form. *)
Record said_product := mkSaidProduct { sp_order : Z; sp_probability : option string; sp_contribution : option string; sp_literals : list (bool * event) }.
Record said_bin := mkSaidBin { sb_number : Z; sb_value : string; sb_lower : string; sb_upper : string }.
Inductive said :=
  | SaidSequences (initiating : string) (context : option (string * string)) (count : Z) (l : list (string * string))
  | SaidProducts (i : ident) (warning : option string) (events count : Z) (total : option string) (distribution : option (list Z)) (l : list said_product)
  | SaidCurve (i : ident) (l : list (string * string))
  | SaidSil (i : ident) (pfd pfh : string) (histograms : list (Z * list said_bin))
  | SaidImportance (i : ident) (warning : option string) (count : Z) (l : list (event * Z * list string))
  | SaidMeasure (i : ident) (warning : option string) (mean sigma : string) (range : string * string) (error : string)
      (quantiles : Z * list said_bin) (histogram : Z * list said_bin).
Definition read_product (n : node) : option said_product :=
  o <- int_of "order" n;;; l <- Serial.all read_literal (kids_of n);;; Some (mkSaidProduct o (value_of "probability" n) (value_of "contribution" n) l).
Definition read_bin (n : node) : option said_bin :=
  k <- int_of "number" n;;; v <- value_of "value" n;;; a <- value_of "lower-bound" n;;; b <- value_of "upper-bound" n;;; Some (mkSaidBin k v a b).
Definition read_bins (n : node) : option (Z * list said_bin) :=
  k <- int_of "number" n;;; l <- Serial.all read_bin (kids_of n);;; Some (k, l).
Definition read_pair (a b : string) (n : node) : option (string * string) := x <- value_of a n;;; y <- value_of b n;;; Some (x, y).
Definition read_entry (n : node) : option (event * Z * list string) :=
  e <- read_event n;;; k <- int_of "occurrence" n;;; l <- Serial.all (fun a => value_of a n) ["probability"; "MIF"; "CIF"; "DIF"; "RAW"; "RRW"];;; Some (e, k, l).
Definition only (l : list node) : option node := match l with [n] => Some n | _ => None end.
Definition read_result (n : node) : option said :=
  let tag := name_of n in
  if String.eqb tag "initiating-event" then
    name <- value_of "name" n;;; c <- read_context n;;; k <- int_of "sequences" n;;; l <- Serial.all (read_pair "name" "value") (children "sequence" n);;;
    Some (SaidSequences name c k l)
  else
  i <- read_id n;;;
  if String.eqb tag "sum-of-products" then
    e <- int_of "basic-events" n;;; k <- int_of "products" n;;;
    d <- match value_of "distribution" n with Some s => option_map Some (read_numbers s) | None => Some None end;;;
    l <- Serial.all read_product (children "product" n);;; Some (SaidProducts i (value_of "warning" n) e k (value_of "probability" n) d l)
  else if String.eqb tag "curve" then l <- Serial.all (read_pair "X" "Y") (children "point" n);;; Some (SaidCurve i l)
  else if String.eqb tag "safety-integrity-levels" then
    a <- value_of "PFD-avg" n;;; b <- value_of "PFH-avg" n;;; l <- Serial.all read_bins (children "histogram" n);;; Some (SaidSil i a b l)
  else if String.eqb tag "importance" then
    k <- int_of "basic-events" n;;; l <- Serial.all read_entry (kids_of n);;; Some (SaidImportance i (value_of "warning" n) k l)
  else if String.eqb tag "measure" then
    m <- only (children "mean" n);;; m <- value_of "value" m;;; s <- only (children "standard-deviation" n);;; s <- value_of "value" s;;;
    c <- only (children "confidence-range" n);;; c <- read_pair "lower-bound" "upper-bound" c;;;
    e <- only (children "error-factor" n);;; e <- value_of "value" e;;;
    q <- only (children "quantiles" n);;; q <- read_bins q;;; h <- only (children "histogram" n);;; h <- read_bins h;;;
    Some (SaidMeasure i (value_of "warning" n) m s c e q h)
  else None.
(** The results of a report (none if there is no such element). *)
Definition read_results (d : node) : option (list said) :=
  match children "results" d with [] => Some [] | [r] => Serial.all read_result (kids_of r) | _ => None end.
(** The information: the names of the calculated quantities with their methods and limits, the sizes of the
    model, the warnings, and the times. *)
Definition read_limits (n : node) : list (string * option string) :=
  match children "limits" n with [l] => map (fun c => (name_of c, text_of c)) (kids_of l) | _ => [] end.
Record said_quantity := mkSaidQuantity { sq_name : string; sq_approximation : option string; sq_method : option string; sq_limits : list (string * option string) }.
Definition read_quantity (n : node) : option said_quantity :=
  name <- value_of "name" n;;;
  match children "calculation-method" n with
  | [] => Some (mkSaidQuantity name (value_of "approximation" n) None [])
  | [m] => Some (mkSaidQuantity name (value_of "approximation" n) (value_of "name" m) (read_limits m))
  | _ => None
  end.
Definition information (d : node) : option node := only (children "information" d).
Definition read_quantities (d : node) : option (list said_quantity) :=
  i <- information d;;; Serial.all read_quantity (children "calculated-quantity" i).
Definition read_count (c : node) : option (string * Z) := s <- text_of c;;; k <- read_Z (lit s);;; Some (name_of c, k).
Definition read_features (d : node) : option (option string * list (string * Z)) :=
  i <- information d;;; m <- only (children "model-features" i);;; l <- Serial.all read_count (kids_of m);;; Some (value_of "name" m, l).
Definition read_warnings (d : node) : option (list string) := i <- information d;;; Serial.all text_of (children "warning" i).
(** The version and the time. *)
Definition read_software (d : node) : option (string * option string) :=
  i <- information d;;; s <- only (children "software" i);;; v <- value_of "version" s;;;
  match children "time" i with [] => Some (v, None) | [t] => Some (v, text_of t) | _ => None end.
Definition read_times (d : node) : option (list (ident * list (string * option string))) :=
  i <- information d;;;
  match children "performance" i with
  | [] => Some []
  | [p] => Serial.all (fun n => j <- read_id n;;; Some (j, map (fun c => (name_of c, text_of c)) (kids_of n))) (children "calculation-time" p)
  | _ => None
  end.
