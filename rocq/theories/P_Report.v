(** Property C56: the report is well formed and says what the analyses found. *)
From Coq Require Import List String Ascii Bool ZArith NArith Arith Lia.
From Verif Require Import XmlStream Report ReportProofs ReportResults ReportInformation.
Import ListNotations.
Local Open Scope string_scope.
Local Open Scope list_scope.

Section C56.
Context {num : Type} (show : num -> string) (O : operations num).
Hypothesis show_plain : forall x, plain (show x).
(** C56.  Whatever the analyses found, the report is written without a stream error, it is an XML document,
    and reading it gives, for every result in order: the gate or the sequence with its alignment and phase;
    the products with their literals (also those of common-cause groups), orders, probabilities and
    contributions, their number by order, and the number of different events in them; the probability over
    time; the safety integrity levels; the importance factors of each event; the statistics of the
    uncertainty; the sequences of the event trees with their probabilities.  Numbers are those of the analysis as printed. *)
Theorem C56_results (indent : bool) (k : analysis num) : good_analysis k ->
  exists file d, report_file show O indent k = Some file /\ read_doc file = Some d /\ name_of d = "report" /\ read_results d = Some (said_results show O k).
Proof. intros G. destruct (report_ok show O show_plain indent k G) as (f & d & H). exists f, d. tauto. Qed.
(** It also says which quantities have been calculated with which methods and limits, how many elements of
    each kind the model has, which of them are unused, how long each analysis took, and the version. *)
Theorem C56_information (indent : bool) (k : analysis num) : good_analysis k ->
  exists file d, report_file show O indent k = Some file /\ read_doc file = Some d /\
    read_software d = Some (k_version k, k_now k) /\
    read_times d = Some (map (said_times show) (k_findings k)) /\
    read_quantities d = Some (said_quantities show O (k_settings k)) /\
    read_features d = Some (said_features (k_model k)) /\
    read_warnings d = Some (said_warnings (k_model k)).
Proof. intros G. destruct (report_ok show O show_plain indent k G) as (f & d & H). exists f, d. tauto. Qed.
(** Two analyses with the same report found the same, as printed. *)
Theorem C56_injective (indent : bool) (k k' : analysis num) : good_analysis k -> good_analysis k' ->
  report_file show O indent k = report_file show O indent k' ->
  said_results show O k = said_results show O k' /\ said_features (k_model k) = said_features (k_model k') /\ said_warnings (k_model k) = said_warnings (k_model k').
Proof.
  intros G G' Q. destruct (report_ok show O show_plain indent k G) as (f & d & F & D & _ & R & _ & _ & _ & A & B).
  destruct (report_ok show O show_plain indent k' G') as (f' & d' & F' & D' & _ & R' & _ & _ & _ & A' & B'). assert (d = d') by congruence. subst d'. repeat split; congruence.
Qed.
(** The indentation makes no difference. *)
Theorem C56_indentation (k : analysis num) : good_analysis k ->
  exists f f' d d', report_file show O true k = Some f /\ report_file show O false k = Some f' /\ read_doc f = Some d /\ read_doc f' = Some d' /\ read_results d = read_results d'.
Proof.
  intros G. destruct (C56_results true k G) as (f & d & A & B & _ & C). destruct (C56_results false k G) as (f' & d' & A' & B' & _ & C'). exists f, f', d, d'. repeat split; congruence.
Qed.
End C56.

(** The reported distribution adds up to the reported number of products, and its last entry, for the largest
    order, is not zero. *)
Theorem C56_distribution (ps : list (list Z)) :
  fold_right Z.add 0%Z (histogram_of_orders ps) = Z.of_nat (List.length ps) /\ (ps <> [] -> (1 <= last (histogram_of_orders ps) 0)%Z).
Proof.
  assert (SU : forall (l : list nat) n, (forall x, In x l -> 1 <= x <= n) ->
    fold_right Z.add 0%Z (map (fun k => Z.of_nat (List.length (filter (Nat.eqb k) l))) (seq 1 n)) = Z.of_nat (List.length l)).
  { induction l as [|x l IH]; intros n H.
    - cbn [filter List.length]. assert (Z0 : forall a, fold_right Z.add 0%Z (map (fun _ : nat => 0%Z) a) = 0%Z) by (induction a as [|b a IHa]; cbn; lia). apply Z0.
    - assert (Q : forall a, NoDup a -> fold_right Z.add 0%Z (map (fun k => Z.of_nat (List.length (filter (Nat.eqb k) (x :: l)))) a) =
        (fold_right Z.add 0%Z (map (fun k => Z.of_nat (List.length (filter (Nat.eqb k) l))) a) + if in_dec Nat.eq_dec x a then 1 else 0)%Z).
      { induction a as [|b a IHa]; intros N; [reflexivity|]. inversion N as [|? ? NB NA]; subst. cbn [map fold_right]. rewrite (IHa NA). cbn [filter].
        destruct (Nat.eqb_spec b x) as [-> |NE]; cbn [List.length].
        - destruct (in_dec Nat.eq_dec x a); [contradiction|]. destruct (in_dec Nat.eq_dec x (x :: a)) as [_|F]; [lia|exfalso; apply F; now left].
        - destruct (in_dec Nat.eq_dec x a) as [I|I], (in_dec Nat.eq_dec x (b :: a)) as [J|J]; try lia.
          + exfalso. apply J. now right.
          + exfalso. destruct J; [now apply NE|now apply I]. }
      rewrite Q by apply seq_NoDup. rewrite IH by (intros y Y; apply H; now right). destruct (in_dec Nat.eq_dec x (seq 1 n)) as [_|F].
      + cbn [List.length]. lia.
      + exfalso. apply F. apply in_seq. specialize (H x (or_introl eq_refl)). lia. }
  assert (B : forall x, In x (orders ps) -> 1 <= x <= list_max (orders ps)).
  { intros x I. split.
    - unfold orders in I. apply in_map_iff in I. destruct I as (p & <- & _). lia.
    - assert (F : Forall (fun y => y <= list_max (orders ps)) (orders ps)) by (apply list_max_le; lia). rewrite Forall_forall in F. auto. }
  unfold histogram_of_orders. split.
  - rewrite (SU _ _ B). unfold orders. now rewrite map_length.
  - intros NE. assert (M : In (list_max (orders ps)) (orders ps)).
    { assert (NO : orders ps <> []) by (destruct ps; [contradiction|discriminate]). clear -NO. induction (orders ps) as [|x l IH]; [contradiction|]. cbn [list_max fold_right]. fold (list_max l).
      destruct l as [|y l]; [left; cbn; lia|]. destruct (Nat.max_spec x (list_max (y :: l))) as [(_ & ->)|(_ & ->)]; [right; apply IH; discriminate|now left]. }
    set (n := list_max (orders ps)) in *. assert (n <> 0) by (specialize (B _ M); lia). destruct n as [|n]; [contradiction|]. replace (S n) with (n + 1) by lia.
    rewrite seq_app, map_app. change (seq (1 + n) 1) with [S n]. cbn [map]. rewrite last_last.
    destruct (filter (Nat.eqb (S n)) (orders ps)) as [|z l] eqn:F; [|cbn [List.length]; lia]. exfalso.
    assert (I : In (S n) (filter (Nat.eqb (S n)) (orders ps))) by (apply filter_In; split; [exact M|apply Nat.eqb_refl]). rewrite F in I. contradiction.
Qed.

(** ** An example, with natural numbers as numbers *)
Definition show_n (n : BinNums.N) : string := int_string (Z.of_N n).
Lemma show_n_plain n : plain (show_n n). Proof. apply plain_int. Qed.
Definition n_operations : operations BinNums.N := mkOps BinNums.N 0%N 1%N N.add N.sub N.mul N.div Z.to_N (N.eqb 0).
Definition pump : event := Basic "plant.pump".
Definition valve : event := Basic "valve <1>".
Definition common : event := Ccf "trains" ["a"; "b"] 3.
Definition sample_container : container BinNums.N :=
  mkContainer (fun i => match i with 1 => pump | 2 => valve | _ => common end) (fun i => N.of_nat (2 * i)) [[1; -2]; [3]; [1; 3]]%Z "approximate" 7%N.
Definition sample : analysis BinNums.N :=
  mkAnalysis
    (mkSettings true kZbdd 20 true true kMcub 8760%N 0%N true true true 1000 (-1))
    (mkModel (Some "study") 4 [("pump", true); ("valve", false); ("spare", false)] [] [("lambda", true)] [] [] [("trip", true)]
       [mkEventTree ("tree", true) [("branch", false)] [("relief", true); ("cooling", false)]] [("ok", true)] [] 1 2 0)
    "0.16" (Some "2026-11-18T20:00:00")
    [mkSequences "trip" (Some ("normal", "day")) [("ok", 5%N); ("damage", 1%N)]]
    [mkFinding (mkIdent (TGate "top") None) (Some sample_container)
       (Some (mkProbability 11%N [(1%N, 10%N); (2%N, 20%N)] (Some (mkSil 3%N 4%N [(1%N, 5%N); (10%N, 6%N)] [(2%N, 7%N)])) "adjusted" 8%N))
       (Some (mkImportance [(pump, 2%N, mkFactors 2 1%N 2%N 3%N 4%N 5%N); (common, 6%N, mkFactors 2 9%N 8%N 7%N 6%N 5%N)] "" 9%N))
       (Some (mkUncertainty 4%N 2%N (3%N, 5%N) 2%N [3%N; 4%N; 6%N] [(0%N, 1%N); (5%N, 2%N); (9%N, 0%N)] "" 10%N));
     mkFinding (mkIdent (TSequence "trip" "damage") (Some ("normal", "night"))) None
       (Some (mkProbability 1%N [] None "" 1%N)) None None].
Ltac is_plain := apply plain_lit; vm_compute; reflexivity.
Ltac good := repeat match goal with
  | |- (fun _ => _) _ => cbv beta
  | |- _ /\ _ => split | |- Forall _ [] => apply Forall_nil | |- Forall _ (_ :: _) => apply Forall_cons | |- plain _ => is_plain
  | |- _ <> "" => discriminate | |- True => exact I | |- small _ => vm_compute; reflexivity | |- int_range _ => split; vm_compute; reflexivity
  | |- Forall _ _ => progress cbn [t_branches t_functional e_sequences n_entries] | |- good_event _ => progress cbn [good_event pump common fst] end.
Lemma good_pump : good_event pump. Proof. unfold pump, good_event. is_plain. Qed.
Lemma good_valve : good_event valve. Proof. unfold valve, good_event. is_plain. Qed.
Lemma good_common : good_event common. Proof. unfold common, good_event. good. Qed.
Lemma good_names i : good_event (c_events sample_container i).
Proof. destruct i as [|[|[|j]]]; [exact good_common|exact good_pump|exact good_valve|exact good_common]. Qed.
Theorem sample_good : good_analysis sample.
Proof.
  unfold good_analysis, sample. cbn [k_settings k_model k_version k_now k_sequences k_findings present]. split; [split; [|split]; split; vm_compute; reflexivity|]. split.
  { unfold good_model, good_elements. cbn [m_name present m_gates m_ccf m_fault_trees m_substitutions m_basics m_houses m_parameters m_libraries m_externs m_initiating m_event_trees m_sequences m_rules map t_element t_branches t_functional]. good. }
  split; [is_plain|]. split; [is_plain|]. split.
  { apply Forall_cons; [|apply Forall_nil]. unfold good_sequences. cbn [e_initiating e_context e_sequences]. good. }
  apply Forall_cons; [|apply Forall_cons; [|apply Forall_nil]]; unfold good_finding; cbn [r_id r_products r_probability r_importance r_uncertainty present];
    unfold good_id, good_container, good_probability, good_importance, good_uncertainty, good_sil;
    cbn [i_target i_context a_warnings a_sil pfd_fractions pfh_fractions n_warnings n_entries u_warnings u_quantiles u_distribution fst snd good_event pump common occurrence].
  - split; [split; [is_plain|exact I]|]. split; [split; [unfold sample_container; cbn [c_warnings]; is_plain|split; [intros i _; apply good_names|split; vm_compute; reflexivity]]|]. good.
  - good.
Qed.
Example C56_witness : good_analysis sample /\ exists file d, report_file show_n n_operations true sample = Some file /\ read_doc file = Some d /\
  read_warnings d = Some ["Unused basic events: valve spare"; "In event tree tree, unused branches: branch"; "In event tree tree, unused functional events: cooling"] /\
  read_features d = Some (Some "study", [("gates", 4); ("basic-events", 3); ("ccf-groups", 1); ("fault-trees", 2); ("event-trees", 1); ("functional-events", 2); ("sequences", 1); ("initiating-events", 1)]%Z) /\
  match read_results d with
  | Some (SaidSequences "trip" (Some ("normal", "day")) 2%Z _ :: SaidProducts i (Some "approximate; adjusted") 3%Z 3%Z (Some "11") (Some [1; 2]%Z) (p :: _) :: rest) =>
      i = mkIdent (TGate "top") None /\ sp_literals p = [(false, pump); (true, valve)] /\ sp_order p = 2%Z /\ List.length rest = 4
  | _ => False
  end.
Proof.
  split; [exact sample_good|]. eexists _, _. split; [vm_compute; reflexivity|]. split; [vm_compute; reflexivity|]. split; [vm_compute; reflexivity|]. split; [vm_compute; reflexivity|].
  vm_compute. repeat split; reflexivity.
Qed.
(** A report with no results has no results. *)
Example C56_empty : exists file d, report_file show_n n_operations false (mkAnalysis (k_settings sample) (k_model sample) "0" None [] []) = Some file /\ read_doc file = Some d /\
  children "results" d = [] /\ read_results d = Some [].
Proof. eexists _, _. split; [vm_compute; reflexivity|]. split; [vm_compute; reflexivity|]. split; vm_compute; reflexivity. Qed.
