(** Property C48: saving a model and loading the file gives the model back. *)
From Coq Require Import List String Ascii Bool ZArith NArith Lia.
From Verif Require Import XmlStream Serial SerialProofs.
From Verif Require Registry Formula.
Import ListNotations.
Local Open Scope string_scope.
Local Open Scope list_scope.

Section C48.
Context {num : Type} (show : num -> string) (parse : string -> option num).
(** C48.  A model of fault trees, basic events and house events is saved without a stream error or failed
    assertion, and loading the file gives the same model: the same names, labels and attributes, in
    every gate the same formula over the same events, the same expressions and house event states, in
    the same order.  Only the place of definition of basic and house events differs: it becomes the
    model data ([moved]). *)
Theorem C48_round_trip (probability indent : bool) (m : @model num) : good_model show parse probability m ->
  exists file, save show indent m = Some file /\ load_file parse probability file = Some (moved m).
Proof. apply round_trip. Qed.
(** The place of definition leaves no trace in the file, ... *)
Theorem C48_stable (indent : bool) (m : @model num) : save show indent (moved m) = save show indent m.
Proof.
  assert (A : forall l, flat_map write_arg (map moved_arg l) = flat_map write_arg l).
  { induction l as [|[c [b|e]] l IH]; cbn [map flat_map]; rewrite ?IH; [reflexivity|reflexivity|]. f_equal. unfold write_arg, write_event, moved_arg.
    cbn [complement refers moved_target target_name]. now rewrite moved_name. }
  assert (F : forall f, write_formula (moved_formula f) = write_formula f).
  { intros f. unfold write_formula, moved_formula. cbn [f_conn f_min f_args]. fold moved_arg. change (map (fun a => mkArg (complement a) (moved_target (refers a))) (f_args f)) with (map moved_arg (f_args f)).
    rewrite A. destruct (f_conn f); try reflexivity; destruct (f_args f) as [|[[] t] [|b l]]; try reflexivity.
    cbn [map moved_arg complement refers]. destruct t as [c|e]; [reflexivity|]. cbn [moved_target]. unfold write_event. cbn [target_name]. now rewrite moved_name. }
  assert (E : forall X Y (f : X -> option (list op)) (h : Y -> option (list op)) (g : X -> Y) l, (forall x, h (g x) = f x) -> each h (map g l) = each f l).
  { intros X Y f h g l H. induction l as [|x l IH]; [reflexivity|]. cbn [map each]. now rewrite H, IH. }
  assert (W : write_model show (moved m) = write_model show m).
  { unfold write_model. cbn [moved m_other m_trees m_basics m_houses m_elem].
    rewrite (E _ _ write_tree); [|intros t; unfold write_tree; cbn [moved_tree t_gates t_elem]; rewrite (E _ _ write_gate); [reflexivity|intros g; unfold write_gate; cbn [moved_gate g_formula g_elem]; now rewrite F]].
    rewrite (E _ _ (write_basic show)) by reflexivity.
    assert (H : flat_map write_house (map moved_house (m_houses m)) = flat_map write_house (m_houses m)) by (induction (m_houses m) as [|h l IH]; [reflexivity|]; cbn [map flat_map]; now rewrite IH).
    now rewrite H. }
  unfold save. now rewrite W.
Qed.
(** ... so what has been loaded from a saved file is saved as the same file, and loading it changes nothing any more. *)
Theorem C48_fixed_point (probability indent : bool) (m : @model num) : good_model show parse probability m ->
  exists file, save show indent (moved m) = Some file /\ load_file parse probability file = Some (moved m).
Proof. intros G. rewrite C48_stable. now apply C48_round_trip. Qed.
(** Two models with the same file are the same up to the place of definition. *)
Theorem C48_injective (probability indent : bool) (m m' : @model num) : good_model show parse probability m -> good_model show parse probability m' ->
  save show indent m = save show indent m' -> moved m = moved m'.
Proof.
  intros G G' E. destruct (C48_round_trip probability indent m G) as (f & S1 & L1). destruct (C48_round_trip probability indent m' G') as (f' & S2 & L2). congruence.
Qed.
(** Formulas with a connective that the writer does not know are not saved (a failed assertion). *)
Theorem C48_unsupported (indent : bool) (m : @model num) t g : In t (m_trees m) -> In g (t_gates t) -> writable (f_conn (g_formula g)) = false ->
  save show indent m = None.
Proof.
  intros T G W. assert (E : forall X (f : X -> option (list op)) x l, In x l -> f x = None -> each f l = None).
  { intros X f x l I N. induction l as [|y l IH]; [contradiction|]. cbn [each]. destruct I as [-> |I]; [now rewrite N|]. rewrite (IH I). now destruct (f y). }
  assert (WT : write_tree t = None).
  { unfold write_tree. rewrite (E _ _ _ _ G); [reflexivity|]. unfold write_gate, write_formula. destruct (f_conn (g_formula g)); try discriminate W; reflexivity. }
  unfold save, write_model. destruct (m_other m); [reflexivity|]. now rewrite (E _ _ _ _ T WT).
Qed.
End C48.

(** ** Examples, with natural numbers as numbers *)
Definition show_n (n : BinNums.N) : string := string_of_list_ascii (decimal n).
Definition parse_n (s : string) : option BinNums.N := read_N (lit s).
Definition plain (s : string) : elem := mkElem s "" [].
Definition ev_g (s : string) : Registry.ev := Registry.mkEv Registry.KGate s "plant" false.
Definition ev_b (s b : string) : Registry.ev := Registry.mkEv Registry.KBasic s b false.
Definition ev_h (s b : string) : Registry.ev := Registry.mkEv Registry.KHouse s b false.
Definition pos (e : Registry.ev) : arg := mkArg false (TEvent e).
Definition neg (e : Registry.ev) : arg := mkArg true (TEvent e).
Definition sample : @model BinNums.N :=
  mkModel (mkElem "study" "A <small> ""study""" [("author", "x & y", ""); ("date", "today", "text")])
    [mkTree (mkElem "plant" "the plant" [])
       [mkGate (plain "top") (mkFormula Formula.Or None None [pos (ev_g "vote"); neg (ev_b "pump" "plant"); pos (ev_g "pass")]);
        mkGate (plain "vote") (mkFormula Formula.Atleast (Some 2%Z) None [pos (ev_b "pump" "plant"); pos (ev_b "valve" ""); neg (ev_h "maintenance" "plant")]);
        mkGate (plain "pass") (mkFormula Formula.Null None None [pos (ev_g "inverse")]);
        mkGate (plain "inverse") (mkFormula Formula.Not None None [pos (ev_b "valve" "")])];
     mkTree (plain "spare") []]
    [mkBasic (mkElem "pump" "" [("kind", "mechanical", "")]) "plant" (Some (EExponential (EConst 12%N) (EConst 8760%N))); mkBasic (plain "valve") "" (Some (EConst 0%N))]
    [mkHouse (plain "maintenance") "plant" true] false.
Ltac is_clean := apply clean_lit; vm_compute; reflexivity.
Ltac nodup := repeat (apply NoDup_cons; [cbn; intuition discriminate|]); apply NoDup_nil.
Ltac is_elem := constructor; cbn [el_name el_label el_attrs plain map fst]; [split; [discriminate|reflexivity]|nodup|split; is_clean|
  repeat (apply Forall_cons; [split; [discriminate|split; [discriminate|split; [is_clean|split; is_clean]]]|]); apply Forall_nil].
Theorem sample_good : good_model show_n parse_n true sample.
Proof.
  constructor; cbn [sample m_elem m_trees m_basics m_houses].
  - is_elem.
  - repeat (apply Forall_cons; [is_elem|]). apply Forall_nil.
  - cbn. nodup.
  - apply Forall_cons; [|apply Forall_cons; [apply Forall_nil|apply Forall_nil]].
    apply Forall_cons; [split; [is_elem|]|].
    { constructor; cbn [f_conn f_args map refers pos neg g_formula]; [exists None, None; vm_compute; reflexivity|nodup|reflexivity|].
      repeat (apply Forall_cons; [eexists; split; [reflexivity|vm_compute; auto 12]|]); apply Forall_nil. }
    apply Forall_cons; [split; [is_elem|]|].
    { constructor; cbn [f_conn f_args map refers pos neg g_formula]; [exists (Some 2%Z), None; vm_compute; reflexivity|nodup|reflexivity|].
      repeat (apply Forall_cons; [eexists; split; [reflexivity|vm_compute; auto 12]|]); apply Forall_nil. }
    apply Forall_cons; [split; [is_elem|]|].
    { constructor; cbn [f_conn f_args map refers pos neg g_formula]; [exists None, None; vm_compute; reflexivity|nodup|reflexivity|].
      repeat (apply Forall_cons; [eexists; split; [reflexivity|vm_compute; auto 12]|]); apply Forall_nil. }
    apply Forall_cons; [split; [is_elem|]|].
    { constructor; cbn [f_conn f_args map refers pos neg g_formula]; [exists None, None; vm_compute; reflexivity|nodup|reflexivity|].
      repeat (apply Forall_cons; [eexists; split; [reflexivity|vm_compute; auto 12]|]); apply Forall_nil. }
    apply Forall_nil.
  - repeat (apply Forall_cons; [split; [is_elem|cbn; repeat split; try (vm_compute; reflexivity); is_clean]|]). apply Forall_nil.
  - repeat (apply Forall_cons; [is_elem|]). apply Forall_nil.
  - cbn. nodup.
  - reflexivity.
Qed.
Example C48_witness : good_model show_n parse_n true sample /\ moved sample <> sample /\
  exists file, save show_n true sample = Some file /\ load_file parse_n true file = Some (moved sample).
Proof.
  split; [exact sample_good|]. split; [intros E; apply (f_equal m_basics) in E; cbn in E; injection E as E; discriminate|].
  eexists. split; [vm_compute; reflexivity|vm_compute; reflexivity].
Qed.
(** Without the conditions it does not work.  A formula over a constant is saved as a reference to an event
    named __true__, which no file defines: the saved file cannot be loaded. *)
Theorem C48_constant_refuted : exists m file,
  m_trees m = [mkTree (plain "plant") [mkGate (plain "top") (mkFormula Formula.And None None [mkArg false (TConst true); pos (ev_b "pump" "")])]] /\
  make Formula.And [mkArg false (TConst true); pos (ev_b "pump" "")] None None = Some (mkFormula Formula.And None None [mkArg false (TConst true); pos (ev_b "pump" "")]) /\
  save show_n true m = Some file /\ load_file parse_n false file = None.
Proof.
  exists (mkModel (plain "study") [mkTree (plain "plant") [mkGate (plain "top") (mkFormula Formula.And None None [mkArg false (TConst true); pos (ev_b "pump" "")])]]
    [mkBasic (plain "pump") "" None] [] false). eexists. split; [reflexivity|]. split; [reflexivity|]. split; [vm_compute; reflexivity|vm_compute; reflexivity].
Qed.
(** Spaces at the ends of a label are lost. *)
Theorem C48_label_refuted : exists m file m', el_label (m_elem m) = "two  " /\
  save show_n true m = Some file /\ load_file parse_n false file = Some m' /\ el_label (m_elem m') = "two".
Proof. exists (mkModel (mkElem "study" "two  " []) [] [] [] false). eexists _, _. split; [reflexivity|]. split; [vm_compute; reflexivity|]. split; [vm_compute; reflexivity|vm_compute; reflexivity]. Qed.
(** An event whose name has a space at the end can collide with another one. *)
Theorem C48_name_refuted : exists m file, map (fun b => el_name (b_elem b)) (m_basics m) = ["pump"; "pump "] /\
  save show_n true m = Some file /\ load_file parse_n false file = None.
Proof.
  exists (mkModel (plain "study") [] [mkBasic (plain "pump") "" None; mkBasic (plain "pump ") "" None] [] false). eexists. split; [reflexivity|]. split; [vm_compute; reflexivity|vm_compute; reflexivity].
Qed.
