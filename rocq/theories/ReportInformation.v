(** The information in a report, and the whole report (Report.v). *)
From Coq Require Import List String Ascii Bool ZArith NArith Arith Lia.
From Verif Require Serial P_Xml.
From Verif Require Import SerialProofs XmlStream XmlProofs Report ReportProofs ReportResults.
Import ListNotations.
Local Open Scope string_scope.
Local Open Scope list_scope.
Local Opaque lit.

Section Information.
Context {num : Type} (show : num -> string) (O : operations num).
Hypothesis show_plain : forall x, plain (show x).
Ltac okd := okl; try assumption; try apply (D_ok _ show_plain); try lits.

(** ** What is said *)
Definition said_quantities (s : settings num) : list said_quantity :=
  [mkSaidQuantity (if prime_implicants s then "Prime Implicants" else "Minimal Cut Sets") None
     (Some match s_algorithm s with kBdd => "Binary Decision Diagram" | kZbdd => "Zero-Suppressed Binary Decision Diagram" | kMocus => "MOCUS" end)
     [("product-order", Some (int_string (limit_order s)))]] ++
  (if ccf_analysis s then [mkSaidQuantity "Common Cause Failure Analysis" None None []] else []) ++
  (if probability_analysis s then
     [mkSaidQuantity "Probability Analysis" (Some match s_approximation s with kNone => "none" | kRareEvent => "rare-event" | kMcub => "mcub" end)
        (Some match s_approximation s with kNone => "Binary Decision Diagram" | kRareEvent => "Rare-Event Approximation" | kMcub => "MCUB Approximation" end)
        ([("mission-time", Some (show (mission_time s)))] ++ if is_zero O (time_step s) then [] else [("time-step", Some (show (time_step s)))])] else []) ++
  (if safety_integrity_levels s then [mkSaidQuantity "Safety Integrity Levels" None None []] else []) ++
  (if importance_analysis s then [mkSaidQuantity "Importance Analysis" None None []] else []) ++
  (if uncertainty_analysis s then
     [mkSaidQuantity "Uncertainty Analysis" None (Some "Monte Carlo")
        ([("number-of-trials", Some (int_string (num_trials s)))] ++ if Z.leb 0 (seed s) then [("seed", Some (int_string (seed s)))] else [])] else []).
(** The kinds of elements of which the model has some, with their numbers. *)
Definition all_functional (m : model) : list element := flat_map t_functional (m_event_trees m).
Definition said_features (m : model) : option string * list (string * Z) :=
  (m_name m, filter (fun x => negb (Z.eqb (snd x) 0))
    (map (fun x => (fst x, Z.of_nat (snd x)))
      [("gates", m_gates m); ("basic-events", List.length (m_basics m)); ("house-events", List.length (m_houses m)); ("ccf-groups", m_ccf m);
       ("fault-trees", m_fault_trees m); ("event-trees", List.length (m_event_trees m)); ("functional-events", List.length (all_functional m));
       ("sequences", List.length (m_sequences m)); ("rules", List.length (m_rules m)); ("initiating-events", List.length (m_initiating m)); ("substitutions", m_substitutions m)])).
(** A warning that names the unused elements, if there are any. *)
Definition unused (l : list element) : list string := map fst (filter (fun x => negb (snd x)) l).
Definition said_unused (header : string) (l : list element) : list string :=
  match unused l with [] => [] | u => [(header ++ String.concat " " u)%string] end.
Definition said_warnings (m : model) : list string :=
  said_unused "Unused basic events: " (m_basics m) ++ said_unused "Unused house events: " (m_houses m) ++ said_unused "Unused parameters: " (m_parameters m) ++
  said_unused "Unused libraries: " (m_libraries m) ++ said_unused "Unused extern functions: " (m_externs m) ++ said_unused "Unused initiating events: " (m_initiating m) ++
  said_unused "Unused event trees: " (map t_element (m_event_trees m)) ++ said_unused "Unused sequences: " (m_sequences m) ++ said_unused "Unused rules: " (m_rules m) ++
  flat_map (fun t => said_unused ("In event tree " ++ fst (t_element t) ++ ", unused branches: ")%string (t_branches t) ++
                     said_unused ("In event tree " ++ fst (t_element t) ++ ", unused functional events: ")%string (t_functional t)) (m_event_trees m).
Definition said_times (r : finding num) : ident * list (string * option string) :=
  (r_id r,
   match r_products r with Some c => [("products", Some (show (c_time c)))] | None => [] end ++
   match r_probability r with Some a => [("probability", Some (show (a_time a)))] | None => [] end ++
   match r_importance r with Some a => [("importance", Some (show (n_time a)))] | None => [] end ++
   match r_uncertainty r with Some a => [("uncertainty", Some (show (u_time a)))] | None => [] end).
Definition said_results (k : analysis num) : list said :=
  (if probability_analysis (k_settings k) then map (said_sequences show) (k_sequences k) else []) ++ flat_map (said_finding show O) (k_findings k).

(** ** Conditions *)
Definition good_settings (s : settings num) : Prop := int_range (limit_order s) /\ int_range (num_trials s) /\ int_range (seed s).
Definition good_elements (l : list element) : Prop := small (List.length l) /\ Forall (fun x => fst x <> "" /\ plain (fst x)) l.
Definition good_model (m : model) : Prop :=
  present plain (m_name m) /\ small (m_gates m) /\ small (m_ccf m) /\ small (m_fault_trees m) /\ small (m_substitutions m) /\
  Forall good_elements [m_basics m; m_houses m; m_parameters m; m_libraries m; m_externs m; m_initiating m; map t_element (m_event_trees m); m_sequences m; m_rules m] /\
  Forall (fun t => good_elements (t_branches t) /\ good_elements (t_functional t)) (m_event_trees m) /\ small (List.length (all_functional m)).
Definition good_analysis (k : analysis num) : Prop :=
  good_settings (k_settings k) /\ good_model (k_model k) /\ plain (k_version k) /\ present plain (k_now k) /\
  Forall good_sequences (k_sequences k) /\ Forall good_finding (k_findings k).

(** ** Pieces of the information *)
Definition pick (tag : string) (ks : list node) : list node := filter (fun c => String.eqb (name_of c) tag) ks.
Lemma children_pick tag n l ks : children tag (E n l ks) = pick tag ks. Proof. unfold children. now rewrite kids_E. Qed.
Lemma pick_app tag a b : pick tag (a ++ b) = pick tag a ++ pick tag b. Proof. apply filter_app. Qed.
Definition tagged (tag : string) (ks : list node) : Prop := forall c, In c ks -> name_of c = tag.
Lemma pick_same tag ks : tagged tag ks -> pick tag ks = ks.
Proof. intros H. rewrite <- (children_pick tag "" [] ks). now apply children_all. Qed.
Lemma pick_other tag tag' ks : tagged tag' ks -> tag' <> tag -> pick tag ks = [].
Proof. intros H N0. rewrite <- (children_pick tag "" [] ks). apply children_none. intros c I. now rewrite (H c I). Qed.
Lemma tagged_nil tag : tagged tag []. Proof. intros c []. Qed.
Lemma tagged_one tag n : name_of n = tag -> tagged tag [n]. Proof. intros H c [<-|[]]. exact H. Qed.
Lemma tagged_app tag a b : tagged tag a -> tagged tag b -> tagged tag (a ++ b).
Proof. intros A B c I. rewrite in_app_iff in I. destruct I; auto. Qed.
Definition piece {X} (tag : string) (rd : node -> option X) (ops : list op) (xs : list X) : Prop :=
  exists ks, adds ops ks /\ tagged tag ks /\ Serial.all rd ks = Some xs.
Lemma piece_nil {X} tag (rd : node -> option X) : piece tag rd [] [].
Proof. exists []. split; [apply adds_nil|]. split; [apply tagged_nil|reflexivity]. Qed.
Lemma piece_app {X} tag (rd : node -> option X) a b x y : piece tag rd a x -> piece tag rd b y -> piece tag rd (a ++ b) (x ++ y).
Proof. intros (k & A & T1 & R) (l & B & T2 & S). exists (k ++ l). split; [now apply adds_app|]. split; [now apply tagged_app|now apply all_app]. Qed.
Lemma piece_one {X} tag (rd : node -> option X) ops n x : adds ops [n] -> name_of n = tag -> rd n = Some x -> piece tag rd ops [x].
Proof. intros A N0 R. exists [n]. split; [exact A|]. split; [now apply tagged_one|]. cbn [Serial.all]. now rewrite R. Qed.
Lemma piece_flat {X A} tag (rd : node -> option X) (f : A -> list op) (g : A -> list X) l :
  (forall a, In a l -> piece tag rd (f a) (g a)) -> piece tag rd (flat_map f l) (flat_map g l).
Proof.
  induction l as [|a l IH]; intros H; [apply piece_nil|]. cbn [flat_map]. apply piece_app; [apply H; now left|]. apply IH. intros b I. apply H. now right.
Qed.

(** Quantities. *)
Definition tv (p : string * value) : node := T (fst p) (snd p).
Lemma quantity_plain attrs name ap : Forall okp attrs -> look "name" attrs = Some (S_ name) -> option_map sval (look "approximation" attrs) = ap ->
  piece "calculated-quantity" read_quantity (el "calculated-quantity" attrs []) [mkSaidQuantity name ap None []].
Proof.
  intros A L P. apply (piece_one _ _ _ (E "calculated-quantity" attrs [])); [apply adds_el; [name_ok|exact A|apply adds_nil]|apply name_E|].
  unfold read_quantity. rewrite (str_E "name" _ _ _ name) by exact L. rewrite children_pick. cbn [pick filter]. now rewrite value_E, P.
Qed.
Lemma quantity_method attrs name ap method ops lims : Forall okp attrs -> look "name" attrs = Some (S_ name) -> option_map sval (look "approximation" attrs) = ap ->
  plain method -> adds ops (map tv lims) ->
  piece "calculated-quantity" read_quantity (el "calculated-quantity" attrs (el "calculation-method" [("name", S_ method)] (el "limits" [] ops)))
    [mkSaidQuantity name ap (Some method) (map (fun p => (fst p, Some (sval (snd p)))) lims)].
Proof.
  intros A L P M AL. apply (piece_one _ _ _ (E "calculated-quantity" attrs [E "calculation-method" [("name", S_ method)] [E "limits" [] (map tv lims)]])).
  - apply adds_el; [name_ok|exact A|]. apply adds_el; [name_ok|okl; now apply plain_ok|]. apply adds_el; [name_ok|apply Forall_nil|exact AL].
  - apply name_E.
  - unfold read_quantity. rewrite (str_E "name" _ _ _ name) by exact L. rewrite children_pick. cbn [pick filter]. rewrite name_E.
    change (String.eqb "calculation-method" "calculation-method") with true. cbn iota. rewrite value_E, P, (str_E "name" _ _ _ method) by reflexivity.
    unfold read_limits. rewrite children_pick. cbn [pick filter]. rewrite name_E. change (String.eqb "limits" "limits") with true. cbn iota. rewrite kids_E, map_map.
    f_equal. f_equal. apply map_ext. intros [k v]. unfold tv. cbn [fst snd]. now rewrite name_T, text_T.
Qed.
Lemma adds_tv n v : okn n -> ok_value v -> adds (tx n v) [tv (n, v)]. Proof. apply adds_tx. Qed.
Lemma quantities_piece s : good_settings s -> piece "calculated-quantity" read_quantity (report_quantities show O s) (said_quantities s).
Proof.
  intros (L & NT & SD). unfold report_quantities, said_quantities, quantity_products. rewrite <- app_assoc. repeat apply piece_app.
  - apply (quantity_method _ _ None _ _ [("product-order", VInt (limit_order s))]); [okl; destruct (prime_implicants s); lits|reflexivity|reflexivity|destruct (s_algorithm s); apply plain_lit; vm_compute; reflexivity|].
    apply adds_tv; [name_ok|exact L].
  - destruct (ccf_analysis s); [|apply piece_nil]. apply quantity_plain; [okd|reflexivity|reflexivity].
  - destruct (probability_analysis s); [|apply piece_nil]. unfold quantity_probability.
    replace ([("mission-time", Some (show (mission_time s)))] ++ (if is_zero O (time_step s) then [] else [("time-step", Some (show (time_step s)))])) with
      (map (fun p => (fst p, Some (sval (snd p)))) ([("mission-time", D_ show (mission_time s))] ++ if is_zero O (time_step s) then [] else [("time-step", D_ show (time_step s))])).
    2: { destruct (is_zero O (time_step s)); cbn [app map fst snd]; rewrite ?D_sval; reflexivity. }
    apply quantity_method; [okl; destruct (s_approximation s); lits|reflexivity|destruct (s_approximation s); cbn -[sval]; now rewrite sval_S|destruct (s_approximation s); apply plain_lit; vm_compute; reflexivity|].
    rewrite map_app. apply adds_app; [apply adds_tv; [name_ok|now apply D_ok]|]. destruct (is_zero O (time_step s)); [apply adds_nil|]. apply adds_tv; [name_ok|now apply D_ok].
  - destruct (safety_integrity_levels s); [|apply piece_nil]. apply quantity_plain; [okd|reflexivity|reflexivity].
  - destruct (importance_analysis s); [|apply piece_nil]. apply quantity_plain; [okd|reflexivity|reflexivity].
  - destruct (uncertainty_analysis s); [|apply piece_nil]. unfold quantity_uncertainty.
    replace ([("number-of-trials", Some (int_string (num_trials s)))] ++ (if (0 <=? seed s)%Z then [("seed", Some (int_string (seed s)))] else [])) with
      (map (fun p => (fst p, Some (sval (snd p)))) ([("number-of-trials", VInt (num_trials s))] ++ if (0 <=? seed s)%Z then [("seed", VInt (seed s))] else [])).
    2: { destruct (0 <=? seed s)%Z; reflexivity. }
    apply quantity_method; [okd|reflexivity|reflexivity|apply plain_lit; vm_compute; reflexivity|].
    rewrite map_app. apply adds_app; [apply adds_tv; [name_ok|exact NT]|]. destruct (0 <=? seed s)%Z; [|apply adds_nil]. apply adds_tv; [name_ok|exact SD].
Qed.

(** Features. *)
Definition counted (l : list (string * nat)) : list (string * Z) := filter (fun x => negb (Z.eqb (snd x) 0)) (map (fun x => (fst x, Z.of_nat (snd x))) l).
Lemma counted_app a b : counted (a ++ b) = counted a ++ counted b. Proof. unfold counted. rewrite map_app. apply filter_app. Qed.
Definition counts (ops : list op) (xs : list (string * Z)) : Prop := exists ks, adds ops ks /\ Serial.all read_count ks = Some xs.
Lemma counts_app a b x y : counts a x -> counts b y -> counts (a ++ b) (x ++ y).
Proof. intros (k & A & R) (l & B & S). exists (k ++ l). split; [now apply adds_app|now apply all_app]. Qed.
Lemma feature_ok name n : okn name -> small n -> counts (feature name n) (counted [(name, n)]).
Proof.
  intros N0 SM. destruct n as [|n]; [exists []; split; [apply adds_nil|reflexivity]|]. exists [T name (VSize (N.of_nat (S n)))]. split; [apply adds_tx; [exact N0|now apply size_ok]|].
  cbn [Serial.all]. unfold read_count. rewrite text_T, sval_size, name_T, nat_N_Z. unfold counted. cbn [map fst snd filter]. destruct (Z.eqb_spec (Z.of_nat (Datatypes.S n)) 0); [lia|reflexivity].
Qed.
Lemma functional_ok m : small (List.length (all_functional m)) ->
  counts (let n := fold_left (fun n t => (n + Z.of_nat (List.length (t_functional t)))%Z) (m_event_trees m) 0%Z in if Z.eqb n 0 then [] else tx "functional-events" (VInt n))
    (counted [("functional-events", List.length (all_functional m))]).
Proof.
  intros S. assert (F : forall l z, fold_left (fun n t => (n + Z.of_nat (List.length (t_functional t)))%Z) l z = (z + Z.of_nat (List.length (flat_map t_functional l)))%Z).
  { induction l as [|t l IH]; intros z; cbn [fold_left flat_map]; [cbn; lia|]. rewrite IH, app_length. lia. }
  cbv zeta. rewrite F, Z.add_0_l. fold (all_functional m). unfold counted. cbn [map fst snd filter]. destruct (Z.of_nat (List.length (all_functional m)) =? 0)%Z; cbn [negb].
  - exists []. split; [apply adds_nil|reflexivity].
  - exists [T "functional-events" (VInt (Z.of_nat (List.length (all_functional m))))]. split; [apply adds_tx; [name_ok|now apply nat_int]|].
    cbn [Serial.all]. unfold read_count. now rewrite text_T, sval_int, name_T.
Qed.
Lemma features_ok m : good_model m -> exists n, adds (report_features m) [n] /\ name_of n = "model-features" /\
  (l <- Serial.all read_count (kids_of n);;; Some (value_of "name" n, l)) = Some (said_features m).
Proof.
  intros (NM & G & C & FT & SU & ME & _ & FU). rewrite Forall_forall in ME.
  assert (SM : forall l, In l [m_basics m; m_houses m; m_parameters m; m_libraries m; m_externs m; m_initiating m; map t_element (m_event_trees m); m_sequences m; m_rules m] -> small (List.length l)) by (intros l I; apply (ME l I)).
  assert (ET : small (List.length (m_event_trees m))) by (rewrite <- (map_length t_element); apply SM; cbn; auto 12).
  assert (K : counts (feature "gates" (m_gates m) ++ feature "basic-events" (List.length (m_basics m)) ++ feature "house-events" (List.length (m_houses m)) ++
     feature "ccf-groups" (m_ccf m) ++ feature "fault-trees" (m_fault_trees m) ++ feature "event-trees" (List.length (m_event_trees m)) ++
     (let n := fold_left (fun n t => (n + Z.of_nat (List.length (t_functional t)))%Z) (m_event_trees m) 0%Z in
      if Z.eqb n 0 then [] else tx "functional-events" (VInt n)) ++
     feature "sequences" (List.length (m_sequences m)) ++ feature "rules" (List.length (m_rules m)) ++
     feature "initiating-events" (List.length (m_initiating m)) ++ feature "substitutions" (m_substitutions m)) (snd (said_features m))).
  { unfold said_features. cbn [snd]. fold (counted [("gates", m_gates m); ("basic-events", List.length (m_basics m)); ("house-events", List.length (m_houses m)); ("ccf-groups", m_ccf m);
       ("fault-trees", m_fault_trees m); ("event-trees", List.length (m_event_trees m)); ("functional-events", List.length (all_functional m));
       ("sequences", List.length (m_sequences m)); ("rules", List.length (m_rules m)); ("initiating-events", List.length (m_initiating m)); ("substitutions", m_substitutions m)]).
    repeat match goal with |- counts (?a ++ ?b) (counted (?x :: ?y :: ?l)) => change (counted (x :: y :: l)) with (counted ([x] ++ y :: l)); rewrite counted_app; apply counts_app end;
      first [apply functional_ok; assumption|apply feature_ok; [name_ok|first [assumption|apply SM; cbn; auto 12]]]. }
  destruct K as (ks & A & R). exists (E "model-features" (match m_name m with Some n => [("name", S_ n)] | None => [] end) ks). split; [|split].
  - apply adds_el; [name_ok| |exact A]. destruct (m_name m); [|apply Forall_nil]. okl. now apply plain_ok.
  - apply name_E.
  - rewrite kids_E, R, value_E. unfold said_features. cbn [snd]. destruct (m_name m); [cbn -[sval]; now rewrite sval_S|reflexivity].
Qed.

(** Warnings. *)
Lemma concat_nil l : String.concat " " l = "" -> Forall (fun s => s <> "") l -> l = [].
Proof.
  destruct l as [|s l]; [reflexivity|]. cbn [String.concat]. intros H F. apply Forall_inv in F. destruct l; [contradiction|]. destruct s; [contradiction|discriminate].
Qed.
Lemma unused_piece header l : plain header -> good_elements l -> piece "warning" text_of (report_unused l header) (said_unused header l).
Proof.
  intros H (_ & F). unfold report_unused, said_unused. fold (unused l).
  assert (G : Forall (fun s => s <> "" /\ plain s) (unused l)).
  { rewrite Forall_forall in *. intros s I. unfold unused in I. apply in_map_iff in I. destruct I as (x & <- & I). apply filter_In in I. now apply F. }
  destruct (String.eqb_spec (String.concat " " (unused l)) "") as [Q|Q].
  - rewrite (concat_nil _ Q); [apply piece_nil|]. eapply Forall_impl; [|exact G]. now intros s (? & _).
  - destruct (unused l) as [|u us] eqn:U; [contradiction|]. rewrite <- U in *. apply (piece_one _ _ _ (T "warning" (S_ (header ++ String.concat " " (unused l))%string))).
    + apply adds_tx; [name_ok|]. apply plain_ok, plain_app; [exact H|]. apply plain_join. eapply Forall_impl; [|exact G]. now intros s (_ & ?).
    + apply name_T.
    + rewrite text_T. f_equal. apply sval_S.
Qed.
Lemma append_assoc (a b c : string) : ((a ++ b) ++ c)%string = (a ++ (b ++ c))%string.
Proof. induction a as [|x a IH]; [reflexivity|]. cbn. now rewrite IH. Qed.
Definition report_warnings (m : model) : list op :=
  report_unused (m_basics m) "Unused basic events: " ++ report_unused (m_houses m) "Unused house events: " ++
  report_unused (m_parameters m) "Unused parameters: " ++ report_unused (m_libraries m) "Unused libraries: " ++
  report_unused (m_externs m) "Unused extern functions: " ++ report_unused (m_initiating m) "Unused initiating events: " ++
  report_unused (map t_element (m_event_trees m)) "Unused event trees: " ++ report_unused (m_sequences m) "Unused sequences: " ++
  report_unused (m_rules m) "Unused rules: " ++
  flat_map (fun t => let header := ("In event tree " ++ fst (t_element t) ++ ", ")%string in
    report_unused (t_branches t) (header ++ "unused branches: ")%string ++
    report_unused (t_functional t) (header ++ "unused functional events: ")%string) (m_event_trees m).
Lemma warnings_piece m : good_model m -> piece "warning" text_of (report_warnings m) (said_warnings m).
Proof.
  intros (_ & _ & _ & _ & _ & ME & TE & _). rewrite Forall_forall in ME, TE. unfold report_warnings, said_warnings.
  do 9 (apply piece_app; [apply unused_piece; [apply plain_lit; vm_compute; reflexivity|apply ME; cbn; auto 12]|]).
  apply piece_flat. intros t I. destruct (TE t I) as (B & F). cbv zeta.
  assert (P : plain (fst (t_element t))).
  { assert (G : good_elements (map t_element (m_event_trees m))) by (apply ME; cbn; auto 12). destruct G as (_ & G). rewrite Forall_forall in G. apply (G (t_element t)). now apply in_map. }
  apply piece_app.
  - replace (("In event tree " ++ fst (t_element t) ++ ", ") ++ "unused branches: ")%string with ("In event tree " ++ fst (t_element t) ++ ", unused branches: ")%string by (rewrite !append_assoc; reflexivity).
    apply unused_piece; [|exact B]. apply plain_app; [apply plain_lit; vm_compute; reflexivity|]. apply plain_app; [exact P|apply plain_lit; vm_compute; reflexivity].
  - replace (("In event tree " ++ fst (t_element t) ++ ", ") ++ "unused functional events: ")%string with ("In event tree " ++ fst (t_element t) ++ ", unused functional events: ")%string by (rewrite !append_assoc; reflexivity).
    apply unused_piece; [|exact F]. apply plain_app; [apply plain_lit; vm_compute; reflexivity|]. apply plain_app; [exact P|apply plain_lit; vm_compute; reflexivity].
Qed.

(** Times. *)
Definition read_time (n : node) : option (ident * list (string * option string)) :=
  j <- read_id n;;; Some (j, map (fun c => (name_of c, text_of c)) (kids_of n)).
Lemma time_piece r : good_finding r -> piece "calculation-time" read_time (report_time show r) [said_times r].
Proof.
  intros (GI & _). set (ks := match r_products r with Some c => [T "products" (D_ show (c_time c))] | None => [] end ++
     match r_probability r with Some a => [T "probability" (D_ show (a_time a))] | None => [] end ++
     match r_importance r with Some a => [T "importance" (D_ show (n_time a))] | None => [] end ++
     match r_uncertainty r with Some a => [T "uncertainty" (D_ show (u_time a))] | None => [] end).
  apply (piece_one _ _ _ (E "calculation-time" (put_id (r_id r)) ks)).
  - apply adds_el; [name_ok|now apply put_id_ok|]. unfold ks.
    repeat apply adds_app; match goal with |- adds (match ?a with _ => _ end) _ => destruct a end; first [apply adds_nil|apply adds_tx; [name_ok|now apply D_ok]].
  - apply name_E.
  - unfold read_time. rewrite <- (app_nil_r (put_id (r_id r))). rewrite read_id_ok by reflexivity. rewrite kids_E. unfold said_times, ks. rewrite !map_app.
    destruct (r_products r), (r_probability r), (r_importance r), (r_uncertainty r); cbn [map app]; rewrite ?name_T, ?text_T, ?D_sval; reflexivity.
Qed.
Lemma times_piece (k : analysis num) : Forall good_finding (k_findings k) -> exists ks, adds (report_performance show k) ks /\ tagged "performance" ks /\
  match ks with [] => Some [] | [p] => Serial.all read_time (children "calculation-time" p) | _ => None end = Some (map said_times (k_findings k)).
Proof.
  intros F. unfold report_performance. destruct (k_findings k) as [|r l]; [exists []; split; [apply adds_nil|]; split; [apply tagged_nil|reflexivity]|]. remember (r :: l) as rs eqn:Q. clear Q.
  assert (P : piece "calculation-time" read_time (flat_map (report_time show) rs) (flat_map (fun r => [said_times r]) rs)).
  { apply piece_flat. intros x I. rewrite Forall_forall in F. now apply time_piece, F. }
  destruct P as (ks & A & T0 & R). exists [E "performance" [] ks]. split; [apply adds_el; [name_ok|apply Forall_nil|exact A]|]. split; [apply tagged_one, name_E|].
  rewrite children_pick, pick_same by exact T0. rewrite R. reflexivity.
Qed.

(** ** The whole report *)
Lemma software_ok (k : analysis num) : plain (k_version k) -> present plain (k_now k) -> exists s ts, adds (report_software k) (s :: ts) /\ name_of s = "software" /\ tagged "time" ts /\
  value_of "version" s = Some (k_version k) /\ match ts with [] => Some (k_version k, None) | [t] => Some (k_version k, text_of t) | _ => None end = Some (k_version k, k_now k).
Proof.
  intros V W. exists (E "software" [("name", S_ "SCRAM"); ("version", S_ (k_version k)); ("contacts", S_ "https://scram-pra.org")] []),
    match k_now k with Some t => [T "time" (S_ t)] | None => [] end. split; [|split; [apply name_E|split; [|split]]].
  - unfold report_software. apply (adds_app _ _ [_]).
    + apply adds_el; [name_ok| |apply adds_nil]. okl; [lits|now apply plain_ok|lits].
    + destruct (k_now k); [|apply adds_nil]. apply adds_tx; [name_ok|now apply plain_ok].
  - destruct (k_now k); [apply tagged_one, name_T|apply tagged_nil].
  - apply str_E. reflexivity.
  - destruct (k_now k); [|reflexivity]. rewrite text_T. now rewrite sval_S.
Qed.
Lemma information_ok (k : analysis num) : good_analysis k -> exists i, adds (report_information show O k) [i] /\ name_of i = "information" /\
  forall d, information d = Some i ->
    read_software d = Some (k_version k, k_now k) /\ read_times d = Some (map said_times (k_findings k)) /\ read_quantities d = Some (said_quantities (k_settings k)) /\
    read_features d = Some (said_features (k_model k)) /\ read_warnings d = Some (said_warnings (k_model k)).
Proof.
  intros (GS & GM & V & W & _ & GF). destruct (software_ok k V W) as (s & ts & A1 & N1 & T1 & V1 & R1). destruct (times_piece k GF) as (ps & A2 & T2 & R2).
  destruct (quantities_piece _ GS) as (qs & A3 & T3 & R3). destruct (features_ok _ GM) as (m & A4 & N4 & R4). destruct (warnings_piece _ GM) as (ws & A5 & T5 & R5).
  exists (E "information" [] ((s :: ts) ++ ps ++ qs ++ [m] ++ ws)). split; [|split; [apply name_E|]].
  - unfold report_information. apply adds_el; [name_ok|apply Forall_nil|]. apply adds_app; [exact A1|]. apply adds_app; [exact A2|]. apply adds_app; [exact A3|]. apply adds_app; [exact A4|exact A5].
  - assert (Ts : tagged "software" [s]) by now apply tagged_one. assert (Tm : tagged "model-features" [m]) by now apply tagged_one.
    intros d I. unfold read_software, read_times, read_quantities, read_features, read_warnings. rewrite I. rewrite !children_pick. change (s :: ts) with ([s] ++ ts). rewrite !pick_app.
    assert (P : forall tag, pick tag [s] = (if String.eqb "software" tag then [s] else []) /\ pick tag ts = (if String.eqb "time" tag then ts else []) /\ pick tag ps = (if String.eqb "performance" tag then ps else []) /\
      pick tag qs = (if String.eqb "calculated-quantity" tag then qs else []) /\ pick tag [m] = (if String.eqb "model-features" tag then [m] else []) /\ pick tag ws = (if String.eqb "warning" tag then ws else [])).
    { intros tag. assert (X : forall t l, tagged t l -> pick tag l = if String.eqb t tag then l else []).
      { intros t l H. destruct (String.eqb_spec t tag) as [<- |N0]; [now apply pick_same|now apply (pick_other tag t)]. }
      repeat split; now apply X. }
    repeat match goal with |- context [pick ?t ?l] => let H := fresh in assert (H := P t); destruct H as (-> & -> & -> & -> & -> & ->); cbn [String.eqb Ascii.eqb Bool.eqb app] end.
    rewrite !app_nil_r. cbn [only]. rewrite V1. repeat split; assumption.
Qed.
Theorem report_ok indent (k : analysis num) : good_analysis k -> exists file d, report_file show O indent k = Some file /\ read_doc file = Some d /\ name_of d = "report" /\
  read_results d = Some (said_results k) /\
  read_software d = Some (k_version k, k_now k) /\ read_times d = Some (map said_times (k_findings k)) /\ read_quantities d = Some (said_quantities (k_settings k)) /\
  read_features d = Some (said_features (k_model k)) /\ read_warnings d = Some (said_warnings (k_model k)).
Proof.
  intros G. destruct (information_ok k G) as (i & AI & NI & RI). pose proof G as (_ & _ & _ & _ & GE & GF).
  assert (R : exists rs, adds (report_results show O k) rs /\ tagged "results" rs /\ match rs with [] => Some [] | [r] => Serial.all read_result (kids_of r) | _ => None end = Some (said_results k)).
  { destruct (results_flat (fun r => good_sequences r) (report_sequences show) (fun r => [said_sequences show r]) (k_sequences k)) as (a & A & RA); [intros x P; destruct (sequences_result show show_plain x P); eauto|exact GE|].
    destruct (results_flat (fun r => good_finding r) (report_finding show O) (said_finding show O) (k_findings k)) as (b & B & RB); [intros x P; now apply finding_result|exact GF|].
    change (flat_map (fun r => [said_sequences show r]) (k_sequences k)) with (map (said_sequences show) (k_sequences k)) in RA.
    assert (Q : adds ((if probability_analysis (k_settings k) then flat_map (report_sequences show) (k_sequences k) else []) ++ flat_map (report_finding show O) (k_findings k))
                  ((if probability_analysis (k_settings k) then a else []) ++ b)).
    { apply adds_app; [|exact B]. destruct (probability_analysis _); [exact A|apply adds_nil]. }
    assert (Z : Serial.all read_result ((if probability_analysis (k_settings k) then a else []) ++ b) = Some (said_results k)).
    { unfold said_results. apply all_app; [|exact RB]. destruct (probability_analysis _); [exact RA|reflexivity]. }
    unfold report_results. assert (D : (k_findings k = [] /\ k_sequences k = []) \/ ~ (k_findings k = [] /\ k_sequences k = [])) by (destruct (k_findings k), (k_sequences k); [left|right|right|right]; intuition discriminate).
    destruct D as [(E1 & E2)|D].
    - rewrite E1, E2. exists []. split; [apply adds_nil|]. split; [apply tagged_nil|]. unfold said_results. rewrite E1, E2. destruct (probability_analysis _); reflexivity.
    - exists [E "results" [] ((if probability_analysis (k_settings k) then a else []) ++ b)]. split; [|split; [apply tagged_one, name_E|now rewrite kids_E]].
      assert (X : forall x : list op, match k_findings k, k_sequences k with [], [] => [] | _, _ => x end = x) by (intros x; destruct (k_findings k), (k_sequences k); [exfalso; apply D; auto|reflexivity|reflexivity|reflexivity]).
      rewrite X. apply adds_el; [name_ok|apply Forall_nil|exact Q]. }
  destruct R as (rs & AR & TR & RR). set (doc := E "report" [] (i :: rs)).
  assert (GO : goes (report show O k) new_doc (mkD [] true (Some doc))).
  { unfold report. eapply (goes_cons _ _ _ (mkD [mkF (lit "report") [] CEmpty] true None)); [reflexivity|vm_compute; reflexivity|].
    assert (F : fills (report_information show O k ++ report_results show O k) [] [] (cont (i :: rs))) by (apply fills_kids, (adds_app _ _ [i]); assumption).
    rewrite app_assoc. eapply goes_app; [apply F|]. eapply goes_cons; [reflexivity|cbn; discriminate|apply goes_nil]. }
  destruct (goes_ends _ _ GO indent) as (s & RN & RD). exists (out s), doc. unfold report_file. rewrite RN.
  assert (EX : existsb id (repeat false (List.length (report show O k))) = false) by (generalize (List.length (report show O k)); intros n; clear; induction n as [|n IH]; [reflexivity|exact IH]). rewrite EX.
  split; [reflexivity|]. split; [now apply RD|]. split; [apply name_E|].
  assert (C1 : children "information" doc = [i]).
  { unfold doc. rewrite children_pick. change (i :: rs) with ([i] ++ rs). rewrite pick_app, (pick_same "information" [i]) by now apply tagged_one.
    rewrite (pick_other "information" "results" rs) by (assumption || discriminate). reflexivity. }
  assert (C2 : children "results" doc = rs).
  { unfold doc. rewrite children_pick. change (i :: rs) with ([i] ++ rs). rewrite pick_app, (pick_other "results" "information" [i]) by (now apply tagged_one || discriminate). cbn [app]. now apply pick_same. }
  split; [unfold read_results; rewrite C2; exact RR|]. apply RI. unfold information. now rewrite C1.
Qed.
End Information.
