(** Proofs about saving and loading (Serial.v). *)
From Coq Require Import List String Ascii Bool ZArith NArith Lia.
From Verif Require Import XmlStream XmlProofs Serial.
From Verif Require Registry Formula P_Xml.
Import ListNotations.
Local Open Scope string_scope.
Local Open Scope list_scope.
Local Opaque lit.

(** ** What the calls build *)
Definition goes (ops : list op) (d d' : doc) : Prop := legal_run ops d /\ means ops d = (d', repeat false (List.length ops)).
Lemma goes_nil d : goes [] d d. Proof. split; reflexivity. Qed.
Lemma goes_cons o ops d d1 d' : meaning o d = Some d1 -> legal o d -> goes ops d1 d' -> goes (o :: ops) d d'.
Proof. intros M L (L2 & M2). split; cbn [legal_run means List.length repeat]; rewrite M; [now split|]. now rewrite M2. Qed.
Lemma goes_app x y d1 d2 d3 : goes x d1 d2 -> goes y d2 d3 -> goes (x ++ y) d1 d3.
Proof.
  revert d1. induction x as [|o x IH]; intros d1 (L & M) G; cbn [app].
  - cbn in M. now injection M as ->.
  - cbn [legal_run means List.length repeat] in L, M. destruct (meaning o d1) as [d|] eqn:E.
    + destruct (means x d) as [d' l] eqn:X. injection M as -> ->. destruct L as [L0 L]. apply (goes_cons _ _ _ _ _ E L0). apply IH; [split; assumption|exact G].
    + destruct (means x d1). discriminate.
Qed.
Lemma goes_ends ops d : goes ops new_doc d -> forall indent, exists s, run ops (new_stream indent) = Some (s, repeat false (List.length ops)) /\
  forall t, d_done d = Some t -> read_doc (out s) = Some t.
Proof.
  intros (L & M) indent. destruct (P_Xml.C39_round_trip indent ops L) as (s & e & R & E & D). rewrite M in E, D. cbn [fst snd] in E, D. subst e. eauto.
Qed.

(** Lists of children. *)
Fixpoint nodes_of (l : list node) : nodes := match l with [] => NNil | n :: l => NCons n (nodes_of l) end.
Definition cont (l : list node) : content := match l with [] => CEmpty | _ => CKids (nodes_of l) end.
Lemma list_of_nodes l : list_of (nodes_of l) = l. Proof. induction l; cbn; congruence. Qed.
Lemma snoc_nodes l n : snoc (nodes_of l) n = nodes_of (l ++ [n]). Proof. induction l; cbn; congruence. Qed.
Lemma kids_cont n a l : kids_of (Node n a (cont l)) = l.
Proof. destruct l; [reflexivity|]. apply list_of_nodes. Qed.

(** [adds ops ks]: under any open element with children only, the calls append the children ks.
    [fills ops a0 a c]: they complete a new element that has the attributes a0. *)
Definition adds (ops : list op) (ks : list node) : Prop :=
  forall n a l rest st dn, goes ops (mkD (mkF n a (cont l) :: rest) st dn) (mkD (mkF n a (cont (l ++ ks)) :: rest) st dn).
Definition fills (ops : list op) (a0 a : list (str * str)) (c : content) : Prop :=
  forall n rest st dn, goes ops (mkD (mkF n a0 CEmpty :: rest) st dn) (mkD (mkF n a c :: rest) st dn).
Lemma adds_nil : adds [] [].
Proof. intros n a l rest st dn. rewrite app_nil_r. apply goes_nil. Qed.
Lemma adds_app x y k l : adds x k -> adds y l -> adds (x ++ y) (k ++ l).
Proof. intros X Y n a l0 rest st dn. eapply goes_app; [apply X|]. rewrite app_assoc. apply Y. Qed.
Definition okn (name : string) : Prop := name <> "" /\ ok_name (lit name).
Lemma lit_cons name : name <> "" -> exists c r, lit name = c :: r.
Proof. Local Transparent lit. destruct name as [|c r]; [easy|]. intros _. now exists c, (lit r). Local Opaque lit. Qed.
Lemma adds_child name ops a c : okn name -> fills ops [] a c -> adds (child_of name ops) [Node (lit name) a c].
Proof.
  intros (NE & OK) F n a0 l rest st dn. unfold child_of. destruct (lit_cons _ NE) as (ch & r & E).
  apply (goes_cons _ _ _ (mkD (mkF (lit name) [] CEmpty :: mkF n a0 (CKids (nodes_of l)) :: rest) st dn)).
  - cbn [meaning d_open d_started d_done]. rewrite E. destruct l; reflexivity.
  - cbn [legal d_open List.length]. split; [lia|exact OK].
  - eapply goes_app; [apply F|]. apply (goes_cons _ _ _ (mkD (mkF n a0 (CKids (snoc (nodes_of l) (Node (lit name) a c))) :: rest) st dn)).
    + reflexivity.
    + cbn. discriminate.
    + rewrite snoc_nodes. assert (C : cont (l ++ [Node (lit name) a c]) = CKids (nodes_of (l ++ [Node (lit name) a c]))) by (destruct l; reflexivity).
      rewrite C. apply goes_nil.
Qed.
Lemma fills_attr k v ops a0 a c : okn k -> ok_value v -> fills ops (a0 ++ [(lit k, text v)]) a c -> fills (OAttr 0 (lit k) v :: ops) a0 a c.
Proof.
  intros (NE & OK) V F n rest st dn. destruct (lit_cons _ NE) as (ch & r & E).
  eapply goes_cons; [|cbn [legal d_open List.length]; split; [lia|split; [exact OK|exact V]]|apply F].
  cbn [meaning d_open]. rewrite E. reflexivity.
Qed.
Lemma fills_kids ops ks a : adds ops ks -> fills ops a a (cont ks).
Proof. intros A n rest st dn. apply (A n a []). Qed.
Lemma fills_text s a : ~ In nul s -> fills [OText 0 (VStr s)] a a (CText s).
Proof. intros V n rest st dn. eapply goes_cons; [reflexivity|cbn; split; [lia|exact V]|apply goes_nil]. Qed.
Lemma adds_flat {A} (f : A -> list op) (g : A -> list node) l : (forall x, In x l -> adds (f x) (g x)) -> adds (flat_map f l) (flat_map g l).
Proof. induction l as [|x l IH]; intros H; cbn; [apply adds_nil|]. apply adds_app; [apply H; now left|]. apply IH. intros y I. apply H. now right. Qed.
Lemma adds_map {A} (f : A -> list op) (g : A -> node) l : (forall x, In x l -> adds (f x) [g x]) -> adds (flat_map f l) (map g l).
Proof.
  induction l as [|x l IH]; intros H; cbn; [apply adds_nil|]. apply (adds_app _ _ [g x]); [apply H; now left|]. apply IH. intros y I. apply H. now right.
Qed.
Lemma adds_each {A} (f : A -> option (list op)) (g : A -> node) l :
  (forall x, In x l -> exists o, f x = Some o /\ adds o [g x]) -> exists o, each f l = Some o /\ adds o (map g l).
Proof.
  induction l as [|x l IH]; intros H; cbn; [exists []; split; [reflexivity|apply adds_nil]|].
  destruct (H x) as (o & -> & A1); [now left|]. destruct IH as (o' & -> & A2); [intros y I; apply H; now right|].
  eexists. split; [reflexivity|]. now apply (adds_app _ _ [g x]).
Qed.

(** ** The document of a model *)
Definition at_pair (p : string * string) : str * str := (lit (fst p), lit (snd p)).
Definition N (name : string) (attrs : list (string * string)) (kids : list node) : node := Node (lit name) (map at_pair attrs) (cont kids).
Definition attribute_node (a : string * string * string) : node :=
  N "attribute" ([("name", fst (fst a)); ("value", snd (fst a))] ++ if String.eqb (snd a) "" then [] else [("type", snd a)]) [].
Definition label_nodes (e : elem) : list node :=
  (if String.eqb (el_label e) "" then [] else [Node (lit "label") [] (CText (lit (el_label e)))]) ++
  match el_attrs e with [] => [] | l => [N "attributes" [] (map attribute_node l)] end.
Definition event_node (t : target) : node := N "event" [("name", target_name t)] [].
Definition arg_node (a : arg) : node := if complement a then N "not" [] [event_node (refers a)] else event_node (refers a).
Definition conn_name (c : Formula.connective) : string :=
  match c with
  | Formula.And => "and" | Formula.Or => "or" | Formula.Atleast => "atleast" | Formula.Xor => "xor" | Formula.Not => "not" | Formula.Nand => "nand" | Formula.Nor => "nor"
  | Formula.Null => "null" | Formula.Iff => "iff" | Formula.Imply => "imply" | Formula.Cardinality => "cardinality"
  end.
Definition min_text (f : formula) : str := match f_min f with Some k => text (VInt k) | None => [] end.
Definition formula_node (f : formula) : node :=
  match f_conn f with
  | Formula.Null => match f_args f with a :: _ => event_node (refers a) | [] => N "null" [] [] end
  | Formula.Atleast => Node (lit "atleast") [(lit "min", min_text f)] (cont (map arg_node (f_args f)))
  | c => N (conn_name c) [] (map arg_node (f_args f))
  end.
Definition named (tag : string) (e : elem) (kids : list node) : node := N tag [("name", el_name e)] (label_nodes e ++ kids).
Definition gate_node (g : gate) : node := named "define-gate" (g_elem g) [formula_node (g_formula g)].
Definition tree_node (t : tree) : node := named "define-fault-tree" (t_elem t) (map gate_node (t_gates t)).

Section Proofs.
Context {num : Type} (show : num -> string) (parse : string -> option num).
Notation expr := (@expr num). Notation basic := (@basic num). Notation model := (@model num).
Notation good_expr := (good_expr show parse). Notation good_model := (good_model show parse).
Fixpoint expr_node (e : expr) : node :=
  match e with
  | EConst v => N "float" [("value", show v)] []
  | EExponential a b => N "exponential" [] [expr_node a; expr_node b]
  | EOther => N "float" [] []
  end.
Definition basic_node (b : basic) : node := named "define-basic-event" (b_elem b) (match b_expr b with Some e => [expr_node e] | None => [] end).
Definition house_node (h : house) : node :=
  named "define-house-event" (h_elem h) [N "constant" [("value", if h_state h then "true" else "false")] []].
Definition model_node (m : model) : node :=
  N "opsa-mef" (if String.eqb (el_name (m_elem m)) default_name then [] else [("name", el_name (m_elem m))])
    (label_nodes (m_elem m) ++ map tree_node (m_trees m) ++ [N "model-data" [] (map basic_node (m_basics m) ++ map house_node (m_houses m))]).

(** ** The writer produces it *)
Lemma clean_nul s : clean s -> ~ In nul (lit s).
Proof. intros (C & _) I. apply C in I. vm_compute in I. now apply I. Qed.
Ltac name_ok := split; [discriminate|vm_compute; reflexivity].
Lemma okattr k v ops a0 a c : okn k -> clean v -> fills ops (a0 ++ [at_pair (k, v)]) a c -> fills (attr k v :: ops) a0 a c.
Proof. intros K V F. apply fills_attr; [exact K|now apply clean_nul|exact F]. Qed.
Lemma write_attribute_ok x : good_attribute x -> adds (write_attribute x) [attribute_node x].
Proof.
  destruct x as [[n v] t]. intros (_ & _ & Cn & Cv & Ct). cbn [fst snd] in *. unfold write_attribute, attribute_node. cbn [fst snd].
  apply adds_child; [name_ok|]. apply okattr; [name_ok|exact Cn|]. apply okattr; [name_ok|exact Cv|].
  destruct (String.eqb t ""); cbn [app map].
  - apply (fills_kids [] [] _ adds_nil).
  - apply okattr; [name_ok|exact Ct|]. apply (fills_kids [] [] _ adds_nil).
Qed.
Lemma write_label_ok e : good_elem e -> adds (write_label_attributes e) (label_nodes e).
Proof.
  intros [_ _ (_ & Cl) Ca]. unfold write_label_attributes, label_nodes. apply adds_app.
  - destruct (String.eqb (el_label e) ""); [apply adds_nil|]. apply adds_child; [name_ok|]. apply fills_text. now apply clean_nul.
  - destruct (el_attrs e) as [|a l] eqn:E; [apply adds_nil|]. apply adds_child; [name_ok|]. apply fills_kids. apply adds_map.
    intros x I. apply write_attribute_ok. rewrite Forall_forall in Ca. auto.
Qed.
Lemma write_named_ok tag e ops ks : okn tag -> good_elem e -> adds ops ks -> adds (child_of tag (write_element e ++ ops)) [named tag e ks].
Proof.
  intros T G A. apply adds_child; [exact T|]. unfold write_element. cbn [app]. apply okattr; [name_ok|apply G|]. apply fills_kids.
  apply adds_app; [now apply write_label_ok|exact A].
Qed.
Lemma write_event_ok e : clean (Registry.e_name e) -> adds (write_event (TEvent e)) [event_node (TEvent e)].
Proof. intros C. apply adds_child; [name_ok|]. apply okattr; [name_ok|exact C|]. apply (fills_kids [] [] _ adds_nil). Qed.
Definition clean_args (f : formula) : Prop := Forall (fun a => exists e, refers a = TEvent e /\ clean (Registry.e_name e)) (f_args f).
Lemma write_arg_ok a e : refers a = TEvent e -> clean (Registry.e_name e) -> adds (write_arg a) [arg_node a].
Proof.
  intros E C. unfold write_arg, arg_node. rewrite E. destruct (complement a); [|now apply write_event_ok].
  apply adds_child; [name_ok|]. apply fills_kids. now apply write_event_ok.
Qed.
Lemma write_args_ok f : clean_args f -> adds (flat_map write_arg (f_args f)) (map arg_node (f_args f)).
Proof. intros C. apply adds_map. intros a I. unfold clean_args in C. rewrite Forall_forall in C. destruct (C _ I) as (e & E & Ce). now apply (write_arg_ok a e). Qed.

(** What the constructor guarantees. *)
Lemma made_facts f : (exists mn mx, make (f_conn f) (f_args f) mn mx = Some f) -> writable (f_conn f) = true ->
  make (f_conn f) (f_args f) (f_min f) None = Some f /\ f_max f = None /\
  match f_conn f with
  | Formula.Atleast => exists k, f_min f = Some k /\ (2 <= k < 65536)%Z
  | Formula.Null => f_min f = None /\ exists t, f_args f = [mkArg false t]
  | Formula.Not => f_min f = None /\ exists t, f_args f = [mkArg false t]
  | _ => f_min f = None
  end.
Proof.
  intros (mn & mx & M) W. unfold make in *. destruct (Formula.make_formula _ _ _ _ mn mx) as [g|] eqn:G; [|discriminate].
  destruct f as [c fmn fmx args]. cbn [f_conn f_min f_max f_args] in *. injection M as <- <-.
  unfold Formula.make_formula in *. destruct (Formula.validate_min_max c mn mx) eqn:V; [discriminate|].
  destruct (Formula.validate_connective _ mn mx) eqn:VC; [discriminate|]. destruct (Formula.validate_nestings 0 1 c (map bare args)) eqn:VN; [discriminate|].
  injection G as <-. unfold Formula.min_number, Formula.max_number. cbn [Formula.f_conn Formula.f_min Formula.f_max].
  unfold Formula.validate_min_max in V. destruct c; try discriminate W; cbn [Formula.takes_min Formula.takes_max] in *;
    (destruct mx as [mx|]; [destruct mn as [mn|]; [destruct (mn <? 0)%Z|]; try discriminate V; destruct (mx <? 0)%Z; discriminate V|]);
    (destruct mn as [mn|]; [destruct (Z.ltb_spec mn 0); try discriminate V|]).
  all: try (unfold Formula.validate_connective in VC; cbn [Formula.f_conn] in VC; discriminate VC).
  all: unfold Formula.validate_connective in *; cbn [Formula.f_conn Formula.f_args Formula.f_min Formula.validate_min_max Formula.value_or Formula.takes_min Formula.takes_max] in *.
  - rewrite VC. auto.
  - rewrite VC. auto.
  - set (k := Formula.uint16 mn) in *. assert (K : (0 <= k < 65536)%Z) by (unfold k, Formula.uint16; apply Z.mod_pos_bound; lia).
    assert (U : Formula.uint16 k = k) by (unfold Formula.uint16; now apply Z.mod_small). rewrite U.
    destruct (Z.ltb_spec k 2); [discriminate VC|]. unfold Formula.validate_min_max. destruct (Z.ltb_spec k 0); [lia|]. cbn [Formula.takes_min]. rewrite VC. split; [reflexivity|]. split; [reflexivity|].
    exists k. split; [reflexivity|lia].
  - rewrite VC. auto.
  - rewrite VC. split; [reflexivity|]. split; [reflexivity|]. split; [reflexivity|]. rewrite map_length in VC.
    destruct args as [|[cm t] [|a l]]; try discriminate VC.
    + destruct cm; [cbn in VN; discriminate|eauto].
    + cbn [List.length] in VC. destruct (Z.eqb_spec (Z.of_nat (S (S (List.length l)))) 1); [lia|discriminate].
  - rewrite VC. auto.
  - rewrite VC. auto.
  - rewrite VC. split; [reflexivity|]. split; [reflexivity|]. split; [reflexivity|]. rewrite map_length in VC.
    destruct args as [|[cm t] [|a l]]; try discriminate VC.
    + destruct cm; [cbn in VN; discriminate|eauto].
    + cbn [List.length] in VC. destruct (Z.eqb_spec (Z.of_nat (S (S (List.length l)))) 1); [lia|discriminate].
Qed.
Lemma write_formula_ok f : (exists mn mx, make (f_conn f) (f_args f) mn mx = Some f) -> writable (f_conn f) = true -> clean_args f ->
  exists o, write_formula f = Some o /\ adds o [formula_node f].
Proof.
  intros M W C. pose proof (write_args_ok f C) as A. destruct (made_facts f M W) as (_ & _ & F). unfold write_formula, formula_node.
  assert (G : forall name, okn name -> adds (child_of name (flat_map write_arg (f_args f))) [N name [] (map arg_node (f_args f))]).
  { intros name K. apply adds_child; [exact K|]. now apply fills_kids. }
  destruct (f_conn f); try discriminate W; try (eexists; split; [reflexivity|]; apply G; name_ok).
  - destruct F as (k & E & K). unfold min_text. rewrite E. eexists. split; [reflexivity|]. apply adds_child; [name_ok|].
    apply fills_attr; [name_ok|cbn; lia|]. now apply fills_kids.
  - destruct F as (_ & t & E). rewrite E in *. eexists. split; [reflexivity|]. apply G. name_ok.
  - destruct F as (_ & t & E). rewrite E in *. eexists. split; [reflexivity|]. unfold clean_args in C. rewrite E in C.
    apply Forall_inv in C. destruct C as (e & T & Ce). cbn [refers] in *. subst t. now apply write_event_ok.
Qed.
Lemma write_expr_ok e : good_expr e -> exists o, write_expr show e = Some o /\ adds o [expr_node e].
Proof.
  induction e as [v|a IHa b IHb|]; cbn [Serial.good_expr write_expr expr_node]; intros G; [|destruct G as (Ga & Gb)|contradiction].
  - eexists. split; [reflexivity|]. apply adds_child; [name_ok|]. apply okattr; [name_ok|apply G|]. apply (fills_kids [] [] _ adds_nil).
  - destruct (IHa Ga) as (x & -> & X). destruct (IHb Gb) as (y & -> & Y). eexists. split; [reflexivity|]. apply adds_child; [name_ok|].
    apply fills_kids. now apply (adds_app _ _ [_] [_]).
Qed.
Lemma events_clean prob m e : good_model prob m -> In e (events m) -> clean (Registry.e_name e) /\ Registry.has_dot (Registry.e_name e) = false /\ Registry.e_name e <> "" /\ Registry.e_private e = false.
Proof.
  intros G I. unfold events in I. rewrite !in_app_iff, in_flat_map, !in_map_iff in I.
  assert (K : forall x, good_elem x -> clean (el_name x) /\ Registry.has_dot (el_name x) = false /\ el_name x <> "") by (intros x [(A & B) _ (C & _) _]; auto).
  destruct I as [(t & T & I)|[(b & <- & B)|(h & <- & H)]].
  - rewrite in_map_iff in I. destruct I as (g & <- & I). pose proof (gm_gates _ _ _ _ G) as GG. rewrite Forall_forall in GG. apply GG in T.
    rewrite Forall_forall in T. destruct (T _ I) as (E & _). cbn. destruct (K _ E) as (? & ? & ?). auto.
  - pose proof (gm_basics _ _ _ _ G) as GG. rewrite Forall_forall in GG. destruct (GG _ B) as (E & _). cbn. destruct (K _ E) as (? & ? & ?). auto.
  - pose proof (gm_houses _ _ _ _ G) as GG. rewrite Forall_forall in GG. pose proof (GG _ H) as E. cbn. destruct (K _ E) as (? & ? & ?). auto.
Qed.
Lemma good_clean_args prob m f : good_model prob m -> good_formula m f -> clean_args f.
Proof.
  intros G F. unfold clean_args. eapply Forall_impl; [|apply (gf_events _ _ F)]. intros a (e & E & I). exists e. split; [exact E|].
  now apply (events_clean prob m).
Qed.
Theorem write_model_ok prob m : good_model prob m -> exists o, write_model show m = Some o /\ exists d, goes o new_doc d /\ d_done d = Some (model_node m).
Proof.
  intros G. unfold write_model. rewrite (gm_other _ _ _ _ G).
  destruct (adds_each write_tree tree_node (m_trees m)) as (x & -> & X).
  { intros t T. unfold write_tree. pose proof (gm_gates _ _ _ _ G) as GG. rewrite Forall_forall in GG. specialize (GG _ T). rewrite Forall_forall in GG.
    pose proof (gm_trees _ _ _ _ G) as GT. rewrite Forall_forall in GT. specialize (GT _ T).
    destruct (adds_each write_gate gate_node (t_gates t)) as (o & -> & A).
    { intros g I. destruct (GG _ I) as (E & F). unfold write_gate.
      destruct (write_formula_ok (g_formula g)) as (o & -> & A); [apply F|apply F|now apply (good_clean_args prob m)|].
      eexists. split; [reflexivity|]. apply write_named_ok; [name_ok|exact E|exact A]. }
    eexists. split; [reflexivity|]. apply write_named_ok; [name_ok|exact GT|exact A]. }
  destruct (adds_each (write_basic show) basic_node (m_basics m)) as (y & -> & Y).
  { intros b B. pose proof (gm_basics _ _ _ _ G) as GG. rewrite Forall_forall in GG. destruct (GG _ B) as (E & X'). unfold write_basic, basic_node.
    destruct (b_expr b) as [e|].
    - destruct (write_expr_ok e X') as (o & -> & A). eexists. split; [reflexivity|]. apply write_named_ok; [name_ok|exact E|exact A].
    - eexists. split; [reflexivity|]. rewrite <- (app_nil_r (write_element (b_elem b))). apply write_named_ok; [name_ok|exact E|apply adds_nil]. }
  assert (H : adds (flat_map write_house (m_houses m)) (map house_node (m_houses m))).
  { apply adds_map. intros h I. pose proof (gm_houses _ _ _ _ G) as GG. rewrite Forall_forall in GG. apply write_named_ok; [name_ok|auto|].
    apply adds_child; [name_ok|]. apply okattr; [name_ok|destruct (h_state h); split; try reflexivity; vm_compute; intuition (subst; discriminate)|]. apply (fills_kids [] [] _ adds_nil). }
  eexists. split; [reflexivity|].
  assert (D : fills ((if String.eqb (el_name (m_elem m)) default_name then [] else [attr "name" (el_name (m_elem m))]) ++
            write_label_attributes (m_elem m) ++ x ++ child_of "model-data" (y ++ flat_map write_house (m_houses m))) []
            (map at_pair (if String.eqb (el_name (m_elem m)) default_name then [] else [("name", el_name (m_elem m))]))
            (cont (label_nodes (m_elem m) ++ map tree_node (m_trees m) ++ [N "model-data" [] (map basic_node (m_basics m) ++ map house_node (m_houses m))]))).
  { assert (K : adds (write_label_attributes (m_elem m) ++ x ++ child_of "model-data" (y ++ flat_map write_house (m_houses m)))
                  (label_nodes (m_elem m) ++ map tree_node (m_trees m) ++ [N "model-data" [] (map basic_node (m_basics m) ++ map house_node (m_houses m))])).
    { apply adds_app; [apply write_label_ok, G|]. apply adds_app; [exact X|]. apply adds_child; [name_ok|]. apply fills_kids. now apply adds_app. }
    destruct (String.eqb _ _); cbn [app map].
    - now apply fills_kids.
    - apply okattr; [name_ok|apply (gm_elem _ _ _ _ G)|]. now apply fills_kids. }
  eexists. split.
  - eapply (goes_cons _ _ _ (mkD [mkF (lit "opsa-mef") [] CEmpty] true None)); [reflexivity|vm_compute; reflexivity|].
    match goal with |- goes (?a ++ ?b ++ ?c ++ ?d ++ ?e) _ _ => replace (a ++ b ++ c ++ d ++ e) with ((a ++ b ++ c ++ d) ++ e) by (now rewrite <- !app_assoc) end.
    eapply goes_app; [apply D|]. eapply goes_cons; [reflexivity|cbn; discriminate|apply goes_nil].
  - reflexivity.
Qed.
Theorem save_ok prob indent m : good_model prob m -> exists file, save show indent m = Some file /\ read_doc file = Some (model_node m).
Proof.
  intros G. destruct (write_model_ok prob m G) as (o & W & d & GO & D). unfold save. rewrite W. destruct (goes_ends o d GO indent) as (s & -> & R).
  assert (E : existsb id (repeat false (List.length o)) = false) by (induction (List.length o); auto). rewrite E. eauto.
Qed.

(** ** The reader understands it *)
Lemma of_lit s : string_of_list_ascii (lit s) = s. Proof. apply string_of_list_ascii_of_string. Qed.
Lemma name_N s a k : name_of (N s a k) = s. Proof. apply of_lit. Qed.
Lemma kids_N s a k : kids_of (N s a k) = k. Proof. apply kids_cont. Qed.
Fixpoint assoc (k : string) (l : list (string * string)) : option string :=
  match l with [] => None | (k', v) :: l => if String.eqb k' k then Some v else assoc k l end.
Lemma raw_N k l : raw_attribute (lit k) (map at_pair l) = option_map lit (assoc k l).
Proof.
  induction l as [|[k' v] l IH]; [reflexivity|]. cbn [map raw_attribute at_pair fst snd assoc].
  destruct (list_eq_dec ascii_dec (lit k') (lit k)) as [E|E]; destruct (String.eqb_spec k' k) as [E2|E2]; try reflexivity; try exact IH.
  - exfalso. apply E2. now rewrite <- (of_lit k'), E, of_lit.
  - exfalso. apply E. now subst.
Qed.
Lemma attribute_N s a ks k : Forall (fun p => clean (snd p)) a -> attribute k (N s a ks) = match assoc k a with Some v => v | None => "" end.
Proof.
  intros C. unfold attribute, N. rewrite raw_N. assert (H : forall v, assoc k a = Some v -> clean v).
  { clear -C. induction C as [|[k' v] l C _ IH]; [discriminate|]. cbn [assoc]. destruct (String.eqb k' k); [intros v' [= <-]; exact C|exact IH]. }
  destruct (assoc k a) as [v|]; [|reflexivity]. cbn [option_map]. destruct (H v eq_refl) as (_ & T). rewrite T. apply of_lit.
Qed.
Lemma has_N s a ks k : has_attribute k (N s a ks) = match assoc k a with Some _ => true | None => false end.
Proof. unfold has_attribute, N. rewrite raw_N. now destruct (assoc k a). Qed.
Lemma clean_lit s : forallb (fun c => N.leb 32 (N_of_ascii c)) (lit s) = true -> trim (lit s) = lit s -> clean s.
Proof. intros F T. split; [|exact T]. intros c I. rewrite forallb_forall in F. apply F in I. now apply N.leb_le. Qed.
Lemma clean_empty : clean "". Proof. now apply clean_lit. Qed.
Lemma attribute_attr x k : good_attribute x -> attribute k (attribute_node x) =
  match assoc k [("name", fst (fst x)); ("value", snd (fst x)); ("type", snd x)] with Some v => v | None => "" end.
Proof.
  destruct x as [[n v] t]. intros (_ & _ & Cn & Cv & Ct). cbn [fst snd] in *. unfold attribute_node. cbn [fst snd].
  rewrite attribute_N; [|cbn [app]; constructor; [exact Cn|constructor; [exact Cv|]]; destruct (String.eqb t ""); [constructor|constructor; [exact Ct|constructor]]].
  destruct (String.eqb_spec t "") as [-> |E]; [|reflexivity]. cbn [app assoc]. destruct (String.eqb "name" k); [reflexivity|]. destruct (String.eqb "value" k); [reflexivity|].
  destruct (String.eqb "type" k); reflexivity.
Qed.
Lemma add_attributes_ok l : Forall good_attribute l -> forall acc, NoDup (map (fun a => fst (fst a)) (acc ++ l)) -> add_attributes (map attribute_node l) acc = Some (acc ++ l).
Proof.
  induction 1 as [|x l G _ IH]; intros acc ND; [now rewrite app_nil_r|]. cbn [map add_attributes]. unfold attribute_node at 1. rewrite name_N. cbn [negb String.eqb].
  change (String.eqb "attribute" "attribute") with true. cbn [negb].
  rewrite !attribute_attr by exact G. cbn [assoc]. change (String.eqb "name" "name") with true. change (String.eqb "name" "value") with false. change (String.eqb "value" "value") with true.
  change (String.eqb "name" "type") with false. change (String.eqb "value" "type") with false. change (String.eqb "type" "type") with true. cbn iota.
  pose proof G as (N1 & N2 & _). destruct (String.eqb_spec (fst (fst x)) ""); [contradiction|]. destruct (String.eqb_spec (snd (fst x)) ""); [contradiction|]. cbn [orb].
  assert (E : existsb (fun a => String.eqb (fst (fst a)) (fst (fst x))) acc = false).
  { apply not_true_is_false. intros T. apply existsb_exists in T. destruct T as (y & I & Q). apply String.eqb_eq in Q.
    rewrite map_app in ND. cbn [map] in ND. apply NoDup_remove_2 in ND. apply ND. rewrite in_app_iff. left. rewrite <- Q. now apply (in_map (fun a : string * string * string => fst (fst a))). }
  rewrite E. replace (fst (fst x), snd (fst x), snd x) with x by (destruct x as [[? ?] ?]; reflexivity). rewrite IH.
  - now rewrite <- app_assoc.
  - now rewrite <- app_assoc.
Qed.
(** The elements other than labels and attributes. *)
Definition other (n : node) : Prop := name_of n <> "label" /\ name_of n <> "attributes".
Lemma find_app {A} (f : A -> bool) a b : find f (a ++ b) = match find f a with Some x => Some x | None => find f b end.
Proof. induction a as [|x a IH]; [reflexivity|]. cbn. destruct (f x); [reflexivity|exact IH]. Qed.
Lemma find_other k l : k = "label" \/ k = "attributes" -> Forall other l -> find (fun c => String.eqb (name_of c) k) l = None.
Proof.
  intros K. induction 1 as [|n l (O1 & O2) _ IH]; [reflexivity|]. cbn [find]. destruct (String.eqb_spec (name_of n) k) as [E|E]; [|exact IH]. destruct K; congruence.
Qed.
Lemma read_label_ok name tag a e ks : good_elem e -> Forall other ks ->
  read_label_attributes name (N tag a (label_nodes e ++ ks)) = Some (mkElem name (el_label e) (el_attrs e)).
Proof.
  intros [_ ND (_ & (_ & T)) GA] O. unfold read_label_attributes, child. rewrite kids_N. unfold label_nodes. rewrite <- !app_assoc, !find_app.
  rewrite !(find_other _ ks) by auto.
  assert (L : match (match (find (fun c => String.eqb (name_of c) "label") (if String.eqb (el_label e) "" then [] else [Node (lit "label") [] (CText (lit (el_label e)))])) with Some x => Some x | None =>
              match find (fun c => String.eqb (name_of c) "label") (match el_attrs e with [] => [] | l => [N "attributes" [] (map attribute_node l)] end) with Some x => Some x | None => None end end)
              with Some c => text_of c | None => Some "" end = Some (el_label e)).
  { assert (Q : find (fun c => String.eqb (name_of c) "label") (match el_attrs e with [] => [] | l => [N "attributes" [] (map attribute_node l)] end) = None).
    { destruct (el_attrs e); [reflexivity|]. cbn [find]. now rewrite name_N. }
    rewrite Q. destruct (String.eqb_spec (el_label e) "") as [-> |E]; [reflexivity|]. cbn [find]. cbn [name_of]. rewrite of_lit.
    change (String.eqb "label" "label") with true. cbn iota. cbn [text_of]. now rewrite T, of_lit. }
  rewrite L. clear L.
  assert (Q : find (fun c => String.eqb (name_of c) "attributes") (if String.eqb (el_label e) "" then [] else [Node (lit "label") [] (CText (lit (el_label e)))]) = None).
  { destruct (String.eqb (el_label e) ""); [reflexivity|]. cbn [find name_of]. now rewrite of_lit. }
  rewrite Q. destruct (el_attrs e) as [|x l] eqn:E; [reflexivity|]. cbn [find]. rewrite name_N. change (String.eqb "attributes" "attributes") with true. cbn iota.
  rewrite kids_N. rewrite (add_attributes_ok (x :: l) GA []) by exact ND. reflexivity.
Qed.
Lemma attr_named k tag e ks : good_elem e -> attribute k (named tag e ks) = if String.eqb "name" k then el_name e else "".
Proof.
  intros G. unfold named. rewrite attribute_N; [|constructor; [apply G|constructor]]. cbn [assoc]. destruct (String.eqb "name" k); reflexivity.
Qed.
Lemma read_elem_ok tag e ks : good_elem e -> Forall other ks -> read_elem (named tag e ks) = Some e.
Proof.
  intros G O. unfold read_elem. rewrite (attr_named "name") by exact G. change (String.eqb "name" "name") with true. cbn iota.
  unfold valid_name. destruct (ge_name e G) as (NE & ND). destruct (String.eqb_spec (el_name e) ""); [contradiction|]. rewrite ND. cbn [negb andb].
  unfold named. rewrite read_label_ok by assumption. destruct e; reflexivity.
Qed.
Lemma definitions_named tag e ks : Forall other ks -> definitions (named tag e ks) = ks.
Proof.
  intros O. unfold definitions, named. rewrite kids_N, filter_app.
  replace (filter _ (label_nodes e)) with (@nil node).
  - cbn [app]. induction O as [|n l (O1 & O2) _ IH]; [reflexivity|]. cbn [filter]. destruct (String.eqb_spec (name_of n) "label"); [contradiction|].
    destruct (String.eqb_spec (name_of n) "attributes"); [contradiction|]. cbn [negb andb]. now rewrite IH.
  - symmetry. unfold label_nodes. rewrite filter_app. destruct (String.eqb (el_label e) ""); destruct (el_attrs e); cbn [filter app]; rewrite ?name_N; cbn [name_of]; rewrite ?of_lit; reflexivity.
Qed.
Lemma other_N s a k : s <> "label" -> s <> "attributes" -> other (N s a k).
Proof. intros A B. split; rewrite name_N; assumption. Qed.

Lemma all_map {A B C} (f : B -> option C) (g : A -> B) (h : A -> C) l : (forall x, In x l -> f (g x) = Some (h x)) -> all f (map g l) = Some (map h l).
Proof. induction l as [|x l IH]; intros H; [reflexivity|]. cbn [map all]. rewrite (H x) by now left. rewrite IH; [reflexivity|]. intros y I. apply H. now right. Qed.
Lemma all_app {A B} (f : A -> option B) a b x y : all f a = Some x -> all f b = Some y -> all f (a ++ b) = Some (x ++ y).
Proof.
  revert x. induction a as [|n a IH]; intros x X Y; cbn in *; [injection X as <-; exact Y|]. destruct (f n); [|discriminate]. destruct (all f a); [|discriminate].
  injection X as <-. now rewrite (IH _ eq_refl Y).
Qed.
Lemma concat_map_one {A B} (f : A -> B) l : List.concat (map (fun x => [f x]) l) = map f l.
Proof. induction l; cbn; congruence. Qed.

(** ** Names are resolved to the same events *)
Definition public (e : Registry.ev) : Prop := Registry.well_formed e /\ Registry.e_private e = false.
Lemma run_ok l : forall h st, Registry.inv (map (pair Registry.Defined) h) st -> Forall public (h ++ l) -> NoDup (map Registry.e_name (h ++ l)) ->
  exists st', Registry.run (map (pair Registry.Defined) l) st = Registry.Ok st'.
Proof.
  induction l as [|e l IH]; intros h st I P ND; [now exists st|]. cbn [map Registry.run].
  assert (F : forall x, In x (Registry.model_events st) -> Registry.e_private x = false /\ Registry.e_name x <> Registry.e_name e).
  { intros x X. apply (Registry.inv_model _ _ I) in X. destruct X as (s & X). apply in_map_iff in X. destruct X as (y & [= <- <-] & Y).
    rewrite Forall_app in P. destruct P as (P & _). rewrite Forall_forall in P. split; [apply (P _ Y)|]. intros E.
    rewrite map_app in ND. cbn [map] in ND. apply NoDup_remove_2 in ND. apply ND. rewrite in_app_iff. left. rewrite <- E. now apply in_map. }
  assert (PE : public e). { rewrite Forall_app in P. destruct P as (_ & P). now apply Forall_inv in P. }
  assert (R : exists st', Registry.register Registry.Defined e st = Registry.Ok st').
  { unfold Registry.register. destruct PE as (WF & PV). rewrite (proj2 (Registry.construct_ok e) WF).
    assert (D : Registry.dup_id st e = false).
    { apply not_true_is_false. intros T. apply existsb_exists in T. destruct T as (x & X & E). apply String.eqb_eq in E. destruct (F _ X) as (PX & NX).
      unfold Registry.id in E. rewrite PX, PV in E. contradiction. }
    rewrite D. destruct (String.eqb (Registry.e_base e) ""); [eauto|].
    match goal with |- context [Registry.dup_name ?s e] => assert (DN : Registry.dup_name s e = false) end.
    { apply not_true_is_false. intros T. apply existsb_exists in T. destruct T as (x & X & E). cbn [Registry.comp_events] in X. apply (Registry.inv_comp _ _ I) in X.
      apply andb_true_iff in E. destruct E as (_ & E). apply String.eqb_eq in E. now apply (F x). }
    rewrite DN. eauto. }
  destruct R as (st' & R). rewrite R. apply (IH (h ++ [e]) st').
  - rewrite map_app. cbn [map]. now apply (Registry.register_inv _ st).
  - now rewrite <- app_assoc.
  - now rewrite <- app_assoc.
Qed.
Lemma get_event_ok l st e base : Registry.run (map (pair Registry.Defined) l) Registry.empty_state = Registry.Ok st ->
  Forall public l -> In e l -> Registry.get_event (Registry.e_name e) base st = Registry.Ok e.
Proof.
  intros R P I. set (h := map (pair Registry.Defined) l) in *. assert (H : forall s x, In (s, x) h -> In x l /\ s = Registry.Defined).
  { intros s x X. apply in_map_iff in X. destruct X as (y & [= <- <-] & Y). auto. }
  assert (PE : public e) by (rewrite Forall_forall in P; auto). destruct PE as ((_ & ND & _) & PV).
  assert (G : Registry.get3 (fun k => Registry.find_id k (Registry.e_name e) st) = Some e).
  { apply (Registry.get3_id h st R). split; [exists Registry.Defined; now apply in_map|]. unfold Registry.id. now rewrite PV. }
  unfold Registry.get_event. rewrite ND, G. destruct (String.eqb base ""); [reflexivity|].
  match goal with |- match ?g with _ => _ end = _ => destruct g as [x|] eqn:X; [|reflexivity] end. apply (Registry.get3_path h st R) in X. destruct X as (X & E).
  destruct (H _ _ X) as (XL & _). assert (PX : public x) by (rewrite Forall_forall in P; auto). destruct PX as ((_ & NX & _) & PX).
  apply Registry.path_split in E; [|exact NX|exact ND]. destruct E as (_ & E).
  assert (G2 : Registry.get3 (fun k => Registry.find_id k (Registry.e_name e) st) = Some x).
  { apply (Registry.get3_id h st R). split; [eauto|]. unfold Registry.id. now rewrite PX. }
  congruence.
Qed.

(** ** Formulas *)
Definition moved_arg (a : arg) : arg := mkArg (complement a) (moved_target (refers a)).
Lemma no_space_trim s : (forall c, In c s -> c <> " "%char) -> trim s = s.
Proof.
  assert (D : forall x, (forall c, In c x -> c <> " "%char) -> drop_spaces x = x).
  { intros [|c x] H; [reflexivity|]. cbn [drop_spaces]. destruct (Ascii.eqb_spec c " "); [|reflexivity]. exfalso. apply (H c); [now left|assumption]. }
  intros H. unfold trim. rewrite (D s H), D, rev_involutive; [reflexivity|]. intros c I. apply H. now apply in_rev.
Qed.
Lemma digits_no_space l : forall acc n, read_digits l acc = Some n -> forall c, In c l -> c <> " "%char.
Proof.
  induction l as [|d l IH]; intros acc n E c I; [contradiction|]. cbn [read_digits] in E. destruct (digit_value d) eqn:D; [|discriminate].
  destruct I as [<- |I]; [|eapply IH; eauto]. intros ->. discriminate D.
Qed.
Lemma lit_of s : lit (string_of_list_ascii s) = s. Proof. apply list_ascii_of_string_of_list_ascii. Qed.
Lemma int_attribute_ok tag ks k : (0 <= k < 65536)%Z -> int_attribute "min" (Node tag [(lit "min", text (VInt k))] ks) = Some (Some k).
Proof.
  intros K. unfold int_attribute, attribute. cbn [raw_attribute]. destruct (list_eq_dec ascii_dec (lit "min") (lit "min")) as [_|E]; [|contradiction].
  cbn [text]. destruct (Z.ltb_spec k 0); [lia|]. pose proof (read_decimal (Z.abs_N k)) as R. pose proof (read_decimal_Z (Z.abs_N k)) as RZ.
  assert (T : trim (decimal (Z.abs_N k)) = decimal (Z.abs_N k)).
  { apply no_space_trim. unfold read_N in R. destruct (decimal (Z.abs_N k)); [discriminate|]. now apply (digits_no_space _ _ _ R). }
  rewrite T. destruct (String.eqb_spec (string_of_list_ascii (decimal (Z.abs_N k))) "") as [E|E].
  - exfalso. apply (f_equal lit) in E. rewrite lit_of in E. rewrite E in R. discriminate R.
  - rewrite lit_of, RZ. replace (Z.of_N (Z.abs_N k)) with k by lia. destruct (Z.leb_spec (- 2 ^ 31) k); [|lia]. destruct (Z.ltb_spec k (2 ^ 31)); [|lia]. reflexivity.
Qed.
Lemma int_attribute_none k s a ks : assoc k a = None -> Forall (fun p => clean (snd p)) a -> int_attribute k (N s a ks) = Some None.
Proof. intros E C. unfold int_attribute. rewrite attribute_N by exact C. now rewrite E. Qed.
Lemma bare_moved a : bare (moved_arg a) = bare a.
Proof. destruct a as [c [[|]|e]]; reflexivity. Qed.
Lemma make_moved c args mn mx f : make c args mn mx = Some f -> make c (map moved_arg args) mn mx = Some (moved_formula f).
Proof.
  unfold make. assert (B : map bare (map moved_arg args) = map bare args) by (rewrite map_map; apply map_ext, bare_moved). rewrite B. destruct (Formula.make_formula 0 1 c (map bare args) mn mx); [|discriminate]. now intros [= <-].
Qed.
Section Resolve.
Context (st : Registry.state) (base : string) (m : model).
Hypothesis resolves : forall e, In e (events m) -> Registry.get_event (Registry.e_name e) base st = Registry.Ok (moved_event e).
Hypothesis decent : forall e, In e (events m) -> clean (Registry.e_name e) /\ Registry.e_name e <> "" /\ Registry.e_private e = false.
Lemma read_event_ok comp e : In e (events m) -> read_event st base comp (event_node (TEvent e)) = Some (mkArg comp (TEvent (moved_event e))).
Proof.
  intros I. destruct (decent e I) as (C & NE & _). unfold read_event, event_node. rewrite !attribute_N by (constructor; [exact C|constructor]).
  cbn [assoc target_name]. change (String.eqb "name" "type") with false. change (String.eqb "name" "name") with true. change (String.eqb "" "") with true. cbn iota.
  destruct (String.eqb_spec (Registry.e_name e) ""); [contradiction|]. rewrite name_N. change (String.eqb "event" "event") with true. cbn iota. now rewrite resolves.
Qed.
Lemma read_arg_ok a : (exists e, refers a = TEvent e /\ In e (events m)) -> read_arg st base (arg_node a) = Some (moved_arg a).
Proof.
  intros (e & E & I). unfold arg_node, moved_arg. rewrite E. cbn [moved_target]. unfold read_arg. destruct (complement a).
  - rewrite name_N. change (String.eqb "not" "constant") with false. change (String.eqb "not" "not") with true. cbn iota. rewrite kids_N. now apply read_event_ok.
  - unfold event_node at 1 2. rewrite name_N. change (String.eqb "event" "constant") with false. change (String.eqb "event" "not") with false. cbn iota. now apply read_event_ok.
Qed.
Lemma moved_id e : Registry.id (moved_event e) = Registry.id e \/ Registry.e_private e = true.
Proof. destruct e as [k n b []]; [now right|]. left. destruct k; reflexivity. Qed.
Lemma read_args_ok l : forall acc, Forall (fun a => exists e, refers a = TEvent e /\ In e (events m)) (acc ++ l) -> NoDup (map (fun a => target_id (refers a)) (acc ++ l)) ->
  read_args st base (map arg_node l) (map moved_arg acc) = Some (map moved_arg (acc ++ l)).
Proof.
  induction l as [|a l IH]; intros acc F ND; [now rewrite app_nil_r|]. cbn [map read_args]. rewrite read_arg_ok by (rewrite Forall_app in F; destruct F as (_ & F); now apply Forall_inv in F).
  unfold add_to_set.
  assert (T : forall x, In x (acc ++ a :: l) -> target_id (refers (moved_arg x)) = target_id (refers x)).
  { intros x X. rewrite Forall_forall in F. destruct (F _ X) as (e & E & I). unfold moved_arg. cbn [refers]. rewrite E. cbn [moved_target target_id].
    destruct (moved_id e) as [-> |P]; [reflexivity|]. destruct (decent e I) as (_ & _ & Q). congruence. }
  assert (EX : existsb (fun x => String.eqb (target_id (refers x)) (target_id (refers (moved_arg a)))) (map moved_arg acc) = false).
  { apply not_true_is_false. intros Q. apply existsb_exists in Q. destruct Q as (x & X & Q). apply in_map_iff in X. destruct X as (y & <- & Y). apply String.eqb_eq in Q.
    rewrite !T in Q; [|rewrite in_app_iff; right; now left|rewrite in_app_iff; now left]. rewrite map_app in ND. cbn [map] in ND. apply NoDup_remove_2 in ND. apply ND.
    rewrite in_app_iff. left. rewrite <- Q. now apply (in_map (fun a => target_id (refers a))). }
  rewrite EX. replace (map moved_arg acc ++ [moved_arg a]) with (map moved_arg (acc ++ [a])) by now rewrite map_app.
  rewrite IH; rewrite <- app_assoc; [reflexivity|exact F|exact ND].
Qed.
Lemma read_formula_ok f : good_formula m f -> read_formula st base (formula_node f) = Some (moved_formula f).
Proof.
  intros [M ND W EV]. destruct (made_facts f M W) as (MK & MX & SH). apply make_moved in MK.
  pose proof (read_args_ok (f_args f) [] EV ND) as RA. cbn [map app] in RA.
  assert (G : forall c, f_conn f = c -> f_min f = None -> c <> Formula.Null -> c <> Formula.Atleast -> read_formula st base (N (conn_name c) [] (map arg_node (f_args f))) = Some (moved_formula f)).
  { intros c Ec MN NN NA. unfold read_formula. rewrite has_N, name_N, kids_N. cbn [assoc orb]. rewrite !int_attribute_none by (try reflexivity; constructor).
    assert (Q : String.eqb (conn_name c) "constant" = false /\ connective_of (conn_name c) = Some c) by (destruct c; split; reflexivity). destruct Q as (-> & ->).
    rewrite Ec, MN in MK. destruct c; try contradiction; now rewrite RA. }
  unfold formula_node. destruct (f_conn f) eqn:C; try discriminate W; try (apply G; [reflexivity|exact SH|discriminate|discriminate]).
  - destruct SH as (k & MN & K). unfold min_text. rewrite MN. unfold read_formula.
    assert (A : forall k', k' <> "min" -> raw_attribute (lit k') [(lit "min", text (VInt k))] = None).
    { intros k' E. cbn [raw_attribute]. destruct (list_eq_dec ascii_dec (lit "min") (lit k')) as [Q|_]; [|reflexivity]. exfalso. apply E. now rewrite <- (of_lit k'), <- Q, of_lit. }
    rewrite int_attribute_ok by lia. unfold has_attribute. rewrite A by discriminate. cbn [name_of]. rewrite of_lit. change (String.eqb "atleast" "constant") with false. cbn [orb].
    change (connective_of "atleast") with (Some Formula.Atleast). unfold int_attribute, attribute. rewrite A by discriminate. change (String.eqb "" "") with true. cbn iota.
    rewrite kids_cont, RA. now rewrite MN in MK.
  - destruct SH as (MN & _). apply G; [reflexivity|exact MN|discriminate|discriminate].
  - destruct SH as (MN & t & E). rewrite E in *. cbn [refers]. apply Forall_inv in EV. destruct EV as (e & T & I). cbn [refers] in T. subst t.
    destruct (decent e I) as (Ce & NE & _). unfold read_formula. unfold event_node at 1 2 3 4. rewrite has_N. cbn [assoc target_name].
    change (String.eqb "name" "name") with true. cbn [orb]. rewrite !int_attribute_none by (first [reflexivity|constructor; [exact Ce|constructor]]).
    change (event_node (TEvent e)) with (arg_node (mkArg false (TEvent e))). rewrite MN in MK. cbn [map] in RA. rewrite RA. exact MK.
Qed.
End Resolve.
Lemma read_expr_ok e : good_expr e -> forall fuel, depth (expr_node e) <= fuel -> read_expr parse fuel (expr_node e) = Some e.
Proof.
  induction e as [v|a IHa b IHb|]; cbn [Serial.good_expr expr_node]; intros G fuel; [|destruct G as (Ga & Gb)|contradiction].
  - destruct fuel as [|fuel]; [cbn; lia|]. intros _. cbn [read_expr]. rewrite name_N. change (String.eqb "float" "float") with true. cbn iota.
    destruct G as (P & C). rewrite attribute_N by (constructor; [exact C|constructor]). cbn [assoc]. change (String.eqb "value" "value") with true. cbn iota. now rewrite P.
  - intros L. destruct fuel as [|fuel]; [cbn in L; lia|]. cbn [read_expr]. rewrite name_N. change (String.eqb "exponential" "float") with false. change (String.eqb "exponential" "exponential") with true. cbn iota.
    rewrite kids_N. cbn [depth depth_content N cont nodes_of depth_nodes] in L. rewrite IHa, IHb; [reflexivity|exact Gb|lia|exact Ga|lia].
Qed.

(** ** Loading *)
Lemma concat_nils {A B} (l : list A) : List.concat (map (fun _ => @nil B) l) = [].
Proof. induction l; cbn; auto. Qed.
Lemma label_nodes_names e n : In n (label_nodes e) -> name_of n = "label" \/ name_of n = "attributes".
Proof.
  unfold label_nodes. rewrite in_app_iff. intros [I|I].
  - destruct (String.eqb (el_label e) ""); [contradiction|]. destruct I as [<- |[]]. left. cbn [name_of]. apply of_lit.
  - destruct (el_attrs e); [contradiction|]. destruct I as [<- |[]]. right. apply name_N.
Qed.
Lemma all_labels {B} (f : node -> option (list B)) e : (forall n, name_of n = "label" \/ name_of n = "attributes" -> f n = Some []) ->
  all f (label_nodes e) = Some (map (fun _ => []) (label_nodes e)).
Proof. intros H. rewrite <- (map_id (label_nodes e)) at 1. apply all_map. intros x I. apply H. now apply (label_nodes_names e). Qed.
Lemma read_item_label base g n : name_of n = "label" \/ name_of n = "attributes" -> read_item base g n = Some [].
Proof. intros [E|E]; unfold read_item; rewrite E; reflexivity. Qed.
Lemma read_part_label n : name_of n = "label" \/ name_of n = "attributes" -> read_part n = Some [].
Proof. intros [E|E]; unfold read_part; rewrite E; reflexivity. Qed.
Lemma formula_other f : Forall other [formula_node f].
Proof.
  constructor; [|constructor]. unfold formula_node.
  destruct (f_conn f); try (apply other_N; discriminate).
  - split; cbn [name_of]; rewrite of_lit; discriminate.
  - destruct (f_args f); apply other_N; discriminate.
Qed.
Lemma expr_other e : Forall other [expr_node e].
Proof. constructor; [|constructor]. destruct e; apply other_N; discriminate. Qed.
Lemma read_gate base g : good_elem (g_elem g) -> read_item base true (gate_node g) = Some [IGate (g_elem g) (gate_node g)].
Proof.
  intros G. unfold read_item, gate_node at 1 2 3. unfold named at 1 2 3. rewrite name_N. change (String.eqb "define-gate" "define-gate") with true. cbn [andb].
  fold (named "define-gate" (g_elem g) [formula_node (g_formula g)]). rewrite read_elem_ok by (try exact G; apply formula_other). reflexivity.
Qed.
Definition basic_kids (b : basic) : list node := match b_expr b with Some e => [expr_node e] | None => [] end.
Lemma basic_other b : Forall other (basic_kids b).
Proof. unfold basic_kids. destruct (b_expr b); [apply expr_other|constructor]. Qed.
Lemma read_basic base g b : good_elem (b_elem b) -> read_item base g (basic_node b) = Some [IBasic (b_elem b) (basic_node b)].
Proof.
  intros G. unfold read_item. replace (name_of (basic_node b)) with "define-basic-event" by (symmetry; apply name_N).
  change (String.eqb "define-basic-event" "define-gate") with false. change (String.eqb "define-basic-event" "define-basic-event") with true. cbn [andb].
  unfold basic_node at 1. rewrite read_elem_ok by (try exact G; apply basic_other). reflexivity.
Qed.
Lemma house_other h : Forall other [N "constant" [("value", if h_state h then "true" else "false")] []].
Proof. constructor; [|constructor]. apply other_N; discriminate. Qed.
Lemma read_house base g h : good_elem (h_elem h) -> read_item base g (house_node h) = Some [IHouse (mkHouse (h_elem h) base (h_state h))].
Proof.
  intros G. unfold read_item. replace (name_of (house_node h)) with "define-house-event" by (symmetry; apply name_N).
  change (String.eqb "define-house-event" "define-gate") with false. change (String.eqb "define-house-event" "define-basic-event") with false. change (String.eqb "define-house-event" "define-house-event") with true. cbn [andb].
  unfold house_node at 1. rewrite read_elem_ok by (try exact G; apply house_other).
  unfold child, house_node, named. rewrite kids_N, find_app.
  replace (find (fun c => String.eqb (name_of c) "constant") (label_nodes (h_elem h))) with (@None node).
  - cbn [find]. rewrite name_N. change (String.eqb "constant" "constant") with true. cbn iota. rewrite attribute_N.
    + cbn [assoc]. change (String.eqb "value" "value") with true. cbn iota. destruct (h_state h); reflexivity.
    + constructor; [|constructor]. cbn [snd]. destruct (h_state h); apply clean_lit; vm_compute; reflexivity.
  - symmetry. destruct (find _ _) as [n|] eqn:F; [|reflexivity]. apply find_some in F. destruct F as (I & E). apply label_nodes_names in I. apply String.eqb_eq in E. destruct I; congruence.
Qed.
Definition tree_items (t : tree) : list item := map (fun g => IGate (g_elem g) (gate_node g)) (t_gates t).
Definition data_items (m : model) : list item :=
  map (fun b => IBasic (b_elem b) (basic_node b)) (m_basics m) ++ map (fun h => IHouse (mkHouse (h_elem h) "" (h_state h))) (m_houses m).
Definition parts (m : model) : list part := map (fun t => PTree (t_elem t) (tree_items t)) (m_trees m) ++ [PData (data_items m)].
Lemma other_map {A} (f : A -> node) l : (forall x, other (f x)) -> Forall other (map f l).
Proof. intros H. induction l; cbn; constructor; auto. Qed.
Lemma read_parts prob m : good_model prob m -> all read_part (kids_of (model_node m)) = Some (map (fun _ => []) (label_nodes (m_elem m)) ++ map (fun t => [PTree (t_elem t) (tree_items t)]) (m_trees m) ++ [[PData (data_items m)]]).
Proof.
  intros G. unfold model_node. rewrite kids_N. apply all_app; [apply all_labels, read_part_label|]. apply all_app.
  - apply all_map. intros t T. pose proof (gm_trees _ _ _ _ G) as GT. rewrite Forall_forall in GT. specialize (GT _ T).
    pose proof (gm_gates _ _ _ _ G) as GG. rewrite Forall_forall in GG. specialize (GG _ T). rewrite Forall_forall in GG.
    unfold read_part. replace (name_of (tree_node t)) with "define-fault-tree" by (symmetry; apply name_N). change (String.eqb "define-fault-tree" "define-fault-tree") with true. cbn iota.
    assert (RE : read_elem (tree_node t) = Some (t_elem t)). { apply read_elem_ok; [exact GT|]. apply other_map. intros g. apply other_N; discriminate. }
    rewrite RE. unfold read_items, tree_node, named. rewrite kids_N.
    rewrite (all_app _ _ _ (map (fun _ => []) (label_nodes (t_elem t))) (map (fun g => [IGate (g_elem g) (gate_node g)]) (t_gates t))).
    + rewrite concat_app, concat_nils, concat_map_one. reflexivity.
    + apply all_labels. intros n. apply read_item_label.
    + apply all_map. intros g I. apply read_gate. now apply GG.
  - cbn [all]. unfold read_part. rewrite name_N. change (String.eqb "model-data" "define-fault-tree") with false. change (String.eqb "model-data" "model-data") with true. cbn iota.
    unfold read_items. rewrite kids_N.
    rewrite (all_app _ _ _ (map (fun b => [IBasic (b_elem b) (basic_node b)]) (m_basics m)) (map (fun h => [IHouse (mkHouse (h_elem h) "" (h_state h))]) (m_houses m))).
    + rewrite concat_app, !concat_map_one. reflexivity.
    + apply all_map. intros b B. apply read_basic. pose proof (gm_basics _ _ _ _ G) as GG. rewrite Forall_forall in GG. now apply GG.
    + apply all_map. intros h H. apply read_house. pose proof (gm_houses _ _ _ _ G) as GG. rewrite Forall_forall in GG. now apply GG.
Qed.
Lemma events_moved (m : model) : events (moved m) = map moved_event (events m).
Proof.
  unfold events, moved. cbn [m_trees m_basics m_houses]. rewrite !map_app, !map_map. f_equal.
  induction (m_trees m) as [|t l IH]; [reflexivity|]. cbn [map flat_map]. rewrite map_app, IH. f_equal. cbn [moved_tree t_gates]. rewrite !map_map. reflexivity.
Qed.
Lemma parts_events (m : model) : flat_map part_events (parts m) = map (pair Registry.Defined) (events (moved m)).
Proof.
  unfold parts. rewrite flat_map_app. unfold events. rewrite map_app. f_equal.
  - unfold moved. cbn [m_trees]. induction (m_trees m) as [|t l IH]; [reflexivity|]. cbn [map flat_map]. rewrite map_app, IH. f_equal.
    unfold part_events. cbn [part_items part_base moved_tree t_gates]. unfold tree_items. rewrite !map_map. reflexivity.
  - cbn [flat_map]. rewrite app_nil_r. unfold part_events. cbn [part_items part_base]. unfold data_items. rewrite map_app, !map_map. unfold moved. cbn [m_basics m_houses].
    rewrite map_app, !map_map. reflexivity.
Qed.
Lemma moved_name e : Registry.e_name (moved_event e) = Registry.e_name e.
Proof. destruct e as [[] ? ? ?]; reflexivity. Qed.
Lemma no_dot_ends s : Registry.has_dot s = false -> Registry.front_dot s = false /\ Registry.back_dot s = false.
Proof.
  intros H. split.
  - destruct s as [|c s]; [reflexivity|]. cbn in *. now apply orb_false_iff in H.
  - induction s as [|c s IH]; [reflexivity|]. cbn [Registry.has_dot] in H. apply orb_false_iff in H. destruct H as (H1 & H2). cbn [Registry.back_dot]. destruct s; [exact H1|now apply IH].
Qed.
Lemma events_public prob m : good_model prob m -> Forall public (events (moved m)).
Proof.
  intros G. apply Forall_forall. intros e I. rewrite events_moved, in_map_iff in I. destruct I as (x & <- & X).
  destruct (events_clean prob m x G X) as (_ & D & NE & P). split; [|destruct x as [[] ? ? ?]; exact P].
  unfold Registry.well_formed. rewrite moved_name. split; [exact NE|]. split; [exact D|].
  unfold events in X. rewrite !in_app_iff, in_flat_map, !in_map_iff in X. destruct X as [(t & T & X)|[(b & <- & _)|(h & <- & _)]].
  - rewrite in_map_iff in X. destruct X as (g & <- & _). cbn. pose proof (gm_trees _ _ _ _ G) as GT. rewrite Forall_forall in GT. destruct (ge_name _ (GT _ T)) as (_ & N2).
    split; [intros _; now apply no_dot_ends|discriminate].
  - cbn. split; [easy|discriminate].
  - cbn. split; [easy|discriminate].
Qed.
Lemma distinct_ok l : NoDup l -> distinct l = true.
Proof.
  induction 1 as [|x l NI _ IH]; [reflexivity|]. cbn [distinct]. rewrite IH, andb_true_r. apply negb_true_iff. apply not_true_is_false. intros T.
  apply existsb_exists in T. destruct T as (y & I & E). apply String.eqb_eq in E. now subst.
Qed.
Lemma tree_names_parts (m : model) : tree_names (parts m) = map (fun t => el_name (t_elem t)) (m_trees m).
Proof. unfold tree_names, parts. rewrite flat_map_app. cbn [flat_map]. rewrite app_nil_r. induction (m_trees m); cbn; congruence. Qed.

Theorem load_ok prob m : good_model prob m -> load parse prob (model_node m) = Some (moved m).
Proof.
  intros G. unfold load. replace (name_of (model_node m)) with "opsa-mef" by (symmetry; apply name_N). change (String.eqb "opsa-mef" "opsa-mef") with true. cbn [negb].
  assert (NM : (if String.eqb (attribute "name" (model_node m)) "" then default_name else attribute "name" (model_node m)) = el_name (m_elem m)).
  { unfold model_node. destruct (String.eqb_spec (el_name (m_elem m)) default_name) as [E|E].
    - rewrite attribute_N by constructor. cbn [assoc]. now rewrite E.
    - rewrite attribute_N by (constructor; [apply (gm_elem _ _ _ _ G)|constructor]). cbn [assoc]. change (String.eqb "name" "name") with true. cbn iota.
      destruct (String.eqb_spec (el_name (m_elem m)) ""); [|reflexivity]. exfalso. now apply (ge_name _ (gm_elem _ _ _ _ G)). }
  rewrite NM. destruct (ge_name _ (gm_elem _ _ _ _ G)) as (_ & D). rewrite D.
  rewrite (read_parts prob m G). unfold model_node. rewrite read_label_ok; [|apply (gm_elem _ _ _ _ G)|].
  2:{ apply Forall_app. split; [apply other_map; intros t; apply other_N; discriminate|]. constructor; [apply other_N; discriminate|constructor]. }
  assert (P : List.concat (map (fun _ : node => []) (label_nodes (m_elem m)) ++ map (fun t => [PTree (t_elem t) (tree_items t)]) (m_trees m) ++ [[PData (data_items m)]]) = parts m).
  { rewrite !concat_app, concat_nils, concat_map_one. reflexivity. }
  rewrite P. rewrite tree_names_parts, (distinct_ok _ (gm_tree_names _ _ _ _ G)). cbn [negb]. rewrite parts_events.
  pose proof (events_public prob m G) as PU.
  destruct (run_ok (events (moved m)) [] Registry.empty_state Registry.inv_empty PU) as (st & R).
  { cbn [app]. rewrite events_moved, map_map. rewrite (map_ext _ Registry.e_name) by apply moved_name. apply (gm_names _ _ _ _ G). }
  rewrite R.
  assert (RS : forall base e, In e (events m) -> Registry.get_event (Registry.e_name e) base st = Registry.Ok (moved_event e)).
  { intros base e I. rewrite <- moved_name. apply (get_event_ok (events (moved m))); [exact R|exact PU|]. rewrite events_moved. now apply in_map. }
  assert (DC : forall e, In e (events m) -> clean (Registry.e_name e) /\ Registry.e_name e <> "" /\ Registry.e_private e = false).
  { intros e I. destruct (events_clean prob m e G I) as (? & _ & ? & ?). auto. }
  assert (T : all (define_tree st) (parts m) = Some (map (fun t => [moved_tree t]) (m_trees m) ++ [[]])).
  { unfold parts. apply all_app; [|reflexivity]. apply all_map. intros t TI. cbn [define_tree].
    pose proof (gm_gates _ _ _ _ G) as GG. rewrite Forall_forall in GG. specialize (GG _ TI). rewrite Forall_forall in GG.
    unfold tree_items. rewrite (all_map _ _ (fun g => [moved_gate g])); [now rewrite concat_map_one|]. intros g I. destruct (GG _ I) as (GE & GF). cbn [define_gate].
    unfold gate_node. rewrite definitions_named by apply formula_other. rewrite (read_formula_ok st (el_name (t_elem t)) m (RS _) DC (g_formula g) GF). reflexivity. }
  assert (B : all (define_basics parse prob) (parts m) = Some (map (fun _ => []) (m_trees m) ++ [map moved_basic (m_basics m)])).
  { unfold parts. apply all_app.
    - apply all_map. intros t _. unfold define_basics. cbn [part_items part_base]. unfold tree_items. rewrite (all_map _ _ (fun _ => [])); [now rewrite concat_nils|reflexivity].
    - cbn [all]. unfold define_basics. cbn [part_items part_base]. unfold data_items.
      rewrite (all_app _ _ _ (map (fun b => [moved_basic b]) (m_basics m)) (map (fun _ => []) (m_houses m))).
      + rewrite concat_app, concat_map_one, concat_nils, app_nil_r. reflexivity.
      + apply all_map. intros b I. pose proof (gm_basics _ _ _ _ G) as GG. rewrite Forall_forall in GG. destruct (GG _ I) as (GE & GX). cbn [define_basic].
        unfold basic_node at 1. rewrite definitions_named by apply basic_other. unfold moved_basic. destruct (b_expr b) as [e|].
        * rewrite (read_expr_ok e GX) by reflexivity. reflexivity.
        * now rewrite GX.
      + apply all_map. reflexivity. }
  rewrite T, B, !concat_app, concat_map_one, concat_nils. cbn [List.concat app]. rewrite !app_nil_r. f_equal. unfold moved. f_equal.
  - destruct (m_elem m); reflexivity.
  - unfold parts. rewrite flat_map_app. cbn [flat_map part_items]. rewrite app_nil_r, flat_map_app.
    replace (flat_map houses_of (flat_map part_items (map (fun t => PTree (t_elem t) (tree_items t)) (m_trees m)))) with (@nil house).
    + cbn [app]. unfold data_items. rewrite flat_map_app. replace (flat_map houses_of (map (fun b => IBasic (b_elem b) (basic_node b)) (m_basics m))) with (@nil house).
      * cbn [app]. induction (m_houses m) as [|h l IH]; [reflexivity|]. cbn [map flat_map houses_of app]. now rewrite IH.
      * clear. induction (m_basics m) as [|b l IH]; [reflexivity|]. cbn [map flat_map houses_of app]. exact IH.
    + clear. induction (m_trees m) as [|t l IH]; [reflexivity|]. cbn [map flat_map part_items]. rewrite flat_map_app, <- IH, app_nil_r. unfold tree_items.
      induction (t_gates t) as [|b k IHk]; [reflexivity|]. cbn [map flat_map houses_of app]. exact IHk.
  - symmetry. apply (gm_other _ _ _ _ G).
Qed.
Theorem round_trip prob indent m : good_model prob m -> exists file, save show indent m = Some file /\ load_file parse prob file = Some (moved m).
Proof.
  intros G. destruct (save_ok prob indent m G) as (file & E & R). exists file. split; [exact E|]. unfold load_file. rewrite R. now apply load_ok.
Qed.
End Proofs.
