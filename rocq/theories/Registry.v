(** Element names, roles, ids, and the tables through which references are resolved.
    Sources: src/element.cc:25-33,67-85, src/element.h:300-330, src/model.cc:33-39,
    src/model.h:122-153, src/fault_tree.cc:51-59, src/initializer.cc:236-303,
    1260-1278 (CCF members), 1315-1376 (GetEntity, GetEvent).
    Simplifications: labels, attributes, line numbers of errors and the deferred
    definition bodies are not modelled; a hash table keyed by K is a list searched by key;
    a component's own event tables are one list of events whose base path is the
    component's path; the name check of CCF members in Component::Add(CcfGroup* ) is done
    member by member. *)
From Coq Require Import List String Ascii Bool.
Import ListNotations.
Open Scope string_scope.

Inductive kind := KGate | KBasic | KHouse.
Definition kind_eqb (a b : kind) : bool :=
  match a, b with KGate, KGate | KBasic, KBasic | KHouse, KHouse => true | _, _ => false end.

(** An event of the model: src/event.h (class Id : Element, Role). *)
Record ev := mkEv { e_kind : kind; e_name : string; e_base : string; e_private : bool }.

(** GetFullPath, src/element.h:300-303. *)
Definition full_path (e : ev) : string := e_base e ++ "." ++ e_name e.
(** Id::id, src/element.h:318-321. *)
Definition id (e : ev) : string := if e_private e then full_path e else e_name e.

(** std::string::find('.') != npos. *)
Fixpoint has_dot (s : string) : bool :=
  match s with
  | EmptyString => false
  | String c s => Ascii.eqb c "." || has_dot s
  end.
Definition front_dot (s : string) : bool :=
  match s with EmptyString => false | String c _ => Ascii.eqb c "." end.
Fixpoint back_dot (s : string) : bool :=
  match s with
  | EmptyString => false
  | String c EmptyString => Ascii.eqb c "."
  | String _ s => back_dot s
  end.

Inductive error := LogicError | ValidityError | DuplicateElementError | UndefinedElement.
Inductive result (A : Type) := Ok (a : A) | Throw (e : error).
Arguments Ok {A}. Arguments Throw {A}.

(** Element::name, src/element.cc:27-33; Role::Role, src/element.cc:67-75;
    the Element base is constructed before the Role base (element.cc:77-80). *)
Definition construct (e : ev) : option error :=
  if String.eqb (e_name e) "" then Some LogicError
  else if has_dot (e_name e) then Some ValidityError
  else if negb (String.eqb (e_base e) "") && (front_dot (e_base e) || back_dot (e_base e))
       then Some ValidityError
  else if e_private e && String.eqb (e_base e) "" then Some ValidityError
  else None.

Record state := mkState {
  model_events : list ev;  (* the id tables of the model, all kinds *)
  path_events : list ev;   (* path_gates_, path_basic_events_, path_house_events_ *)
  comp_events : list ev    (* event tables of all components, keyed by name *)
}.
Definition empty_state := mkState [] [] [].

(** Model::CheckDuplicateEvent, src/model.cc:33-39. *)
Definition dup_id (st : state) (e : ev) : bool :=
  existsb (fun x => String.eqb (id x) (id e)) (model_events st).
(** PathTable::insert: rejected silently when the kind's table has the key. *)
Definition insert_path (e : ev) (l : list ev) : list ev :=
  if existsb (fun x => kind_eqb (e_kind x) (e_kind e) && String.eqb (full_path x) (full_path e)) l
  then l else e :: l.
(** Component::CheckDuplicateEvent, src/fault_tree.cc:51-59: by name, in one component. *)
Definition dup_name (st : state) (e : ev) : bool :=
  existsb (fun x => String.eqb (e_base x) (e_base e) && String.eqb (e_name x) (e_name e))
          (comp_events st).

(** How an event comes into the model: a define-* element (initializer.cc:249-289), or a
    CCF group member (ProcessCcfMembers, initializer.cc:1261-1278), which is registered
    with the model but not with the path tables. *)
Inductive source := Defined | CcfMember.

Definition is_defined (s : source) : bool := match s with Defined => true | CcfMember => false end.

Definition register (s : source) (e : ev) (st : state) : result state :=
  match construct e with
  | Some x => Throw x
  | None =>
    if dup_id st e then Throw DuplicateElementError
    else
      let st1 := mkState (e :: model_events st)
                         (if is_defined s then insert_path e (path_events st) else path_events st)
                         (comp_events st) in
      if String.eqb (e_base e) "" then Ok st1   (* model-data: no component *)
      else if dup_name st1 e then Throw DuplicateElementError
      else Ok (mkState (model_events st1) (path_events st1) (e :: comp_events st1))
  end.

(** A whole input: any sequence of registrations. *)
Fixpoint run (h : list (source * ev)) (st : state) : result state :=
  match h with
  | [] => Ok st
  | (s, e) :: h => match register s e st with Ok st => run h st | Throw x => Throw x end
  end.

(** Table look-ups (ext::find on an IdTable / PathTable of one kind). *)
Definition find_id (k : kind) (key : string) (st : state) : option ev :=
  find (fun x => kind_eqb (e_kind x) k && String.eqb (id x) key) (model_events st).
Definition find_path (k : kind) (key : string) (st : state) : option ev :=
  find (fun x => kind_eqb (e_kind x) k && String.eqb (full_path x) key) (path_events st).

(** Initializer::GetEntity, src/initializer.cc:1315-1340. *)
Definition get_entity (k : kind) (ref base : string) (st : state) : result ev :=
  let rest :=
    let r := if has_dot ref then find_path k ref st else find_id k ref st in
    match r with Some e => Ok e | None => Throw UndefinedElement end in
  if String.eqb base "" then rest
  else match find_path k (base ++ "." ++ ref) st with
       | Some e => Ok e
       | None => rest
       end.

(** GET_EVENT macro, src/initializer.cc:1343-1351. *)
Definition get3 (f : kind -> option ev) : option ev :=
  match f KGate with
  | Some e => Some e
  | None => match f KBasic with Some e => Some e | None => f KHouse end
  end.
(** Initializer::GetEvent, src/initializer.cc:1353-1376. *)
Definition get_event (ref base : string) (st : state) : result ev :=
  let rest :=
    let r := if has_dot ref then get3 (fun k => find_path k ref st)
             else get3 (fun k => find_id k ref st) in
    match r with Some e => Ok e | None => Throw UndefinedElement end in
  if String.eqb base "" then rest
  else match get3 (fun k => find_path k (base ++ "." ++ ref) st) with
       | Some e => Ok e
       | None => rest
       end.

(** ** Proofs *)

Lemma append_nil_r s : s ++ "" = s.
Proof. induction s; simpl; congruence. Qed.

Lemma append_assoc a b c : a ++ (b ++ c) = (a ++ b) ++ c.
Proof. induction a; simpl; congruence. Qed.

Lemma has_dot_app a b : has_dot (a ++ b) = has_dot a || has_dot b.
Proof. induction a; simpl; auto. rewrite IHa. now rewrite orb_assoc. Qed.

(** The last dot splits a full path. *)
Lemma path_split b1 n1 b2 n2 :
  has_dot n1 = false -> has_dot n2 = false ->
  b1 ++ "." ++ n1 = b2 ++ "." ++ n2 -> b1 = b2 /\ n1 = n2.
Proof.
  intros H1 H2. revert b2. induction b1 as [|c b1 IH]; intros [|c2 b2] E; simpl in E.
  - inversion E. auto.
  - inversion E. subst. rewrite has_dot_app in H1. simpl in H1.
    rewrite orb_true_r in H1. discriminate.
  - inversion E. subst. rewrite has_dot_app in H2. simpl in H2.
    rewrite orb_true_r in H2. discriminate.
  - inversion E. destruct (IH b2) as [-> ->]; auto.
Qed.

Lemma full_path_dot e : has_dot (full_path e) = true.
Proof. unfold full_path. rewrite has_dot_app. simpl. apply orb_true_r. Qed.

Definition well_formed (e : ev) : Prop :=
  e_name e <> "" /\ has_dot (e_name e) = false
  /\ (e_base e <> "" -> front_dot (e_base e) = false /\ back_dot (e_base e) = false)
  /\ (e_private e = true -> e_base e <> "").

Lemma construct_ok e : construct e = None <-> well_formed e.
Proof.
  unfold construct, well_formed.
  destruct (String.eqb_spec (e_name e) ""); [intuition discriminate|].
  destruct (has_dot (e_name e)); [intuition discriminate|].
  destruct (String.eqb_spec (e_base e) ""); simpl.
  - rewrite andb_true_r. destruct (e_private e) eqn:E; intuition congruence.
  - rewrite andb_false_r.
    destruct (front_dot (e_base e)), (back_dot (e_base e)); simpl; intuition congruence.
Qed.

Lemma existsb_false {A} (f : A -> bool) l :
  existsb f l = false <-> forall x, In x l -> f x = false.
Proof.
  induction l; simpl; [intuition|].
  rewrite orb_false_iff, IHl. split; [intros [? ?] ? [<-|?]; auto|]. intros; split; auto.
Qed.

(** Invariant of accepted histories. *)
Record inv (h : list (source * ev)) (st : state) : Prop := {
  inv_model : forall e, In e (model_events st) <-> exists s, In (s, e) h;
  inv_wf : forall e, In e (model_events st) -> well_formed e;
  inv_ids : NoDup (map id (model_events st));
  inv_comp : forall e, In e (comp_events st) <-> In e (model_events st) /\ e_base e <> "";
  inv_paths : NoDup (map full_path (model_events st));
  inv_path : forall e, In e (path_events st) <-> In (Defined, e) h
}.

Lemma inv_empty : inv [] empty_state.
Proof. constructor; simpl; try constructor; intuition; now destruct H. Qed.

Lemma kind_eqb_eq a b : kind_eqb a b = true <-> a = b.
Proof. destruct a, b; simpl; intuition congruence. Qed.

Lemma register_inv h st s e st' :
  inv h st -> register s e st = Ok st' -> inv (h ++ [(s, e)])%list st'.
Proof.
  intros [Im Iw Ii Ic Ip It]. unfold register.
  destruct (construct e) eqn:C; [discriminate|]. apply construct_ok in C.
  destruct (dup_id st e) eqn:D; [discriminate|].
  unfold dup_id in D. rewrite existsb_false in D.
  assert (Hid : ~ In (id e) (map id (model_events st))).
  { rewrite in_map_iff. intros (x & E & Hx). apply D in Hx. rewrite E in Hx.
    rewrite String.eqb_refl in Hx. discriminate. }
  assert (Hcase : forall st', (if String.eqb (e_base e) "" then
      Ok (mkState (e :: model_events st)
                         (if is_defined s then insert_path e (path_events st) else path_events st)
                         (comp_events st))
      else if dup_name (mkState (e :: model_events st)
                         (if is_defined s then insert_path e (path_events st) else path_events st)
                         (comp_events st)) e then Throw DuplicateElementError
      else Ok (mkState (e :: model_events st)
                         (if is_defined s then insert_path e (path_events st) else path_events st)
                         (e :: comp_events st))) = Ok st' ->
    model_events st' = e :: model_events st
    /\ path_events st' = (if is_defined s then insert_path e (path_events st) else path_events st)
    /\ comp_events st' = (if String.eqb (e_base e) "" then comp_events st else e :: comp_events st)
    /\ ~ In (full_path e) (map full_path (model_events st))).
  { intros st''. destruct (String.eqb_spec (e_base e) "") as [E|E].
    - intros [= <-]. simpl. repeat split; auto.
      rewrite in_map_iff. intros (x & Ex & Hx). apply Hid.
      pose proof (Iw x Hx) as Wx. destruct C as (C1 & C2 & C3 & C4), Wx as (W1 & W2 & W3 & W4).
      apply path_split in Ex; auto. destruct Ex as [Eb En].
      rewrite in_map_iff. exists x. split; auto. unfold id.
      rewrite E in Eb. destruct (e_private x); [exfalso; now apply W4|].
      destruct (e_private e); [exfalso; now apply C4|]. auto.
    - destruct (dup_name _ e) eqn:DN; [discriminate|]. intros [= <-]. simpl. repeat split; auto.
      unfold dup_name in DN. simpl in DN. rewrite existsb_false in DN.
      rewrite in_map_iff. intros (x & Ex & Hx).
      pose proof (Iw x Hx) as (W1 & W2 & W3 & W4). destruct C as (C1 & C2 & C3 & C4).
      apply path_split in Ex; auto. destruct Ex as [Eb En].
      assert (Hc : In x (comp_events st)) by (apply Ic; split; congruence).
      apply DN in Hc. rewrite Eb, En, !String.eqb_refl in Hc. discriminate. }
  intros H. apply Hcase in H. destruct H as (Hm & Hp & Hc & Hf). clear Hcase.
  constructor.
  - intros x. rewrite Hm. simpl. rewrite Im. split.
    + intros [<-|(s' & Hs)]; [exists s|exists s']; apply in_or_app; simpl; auto.
    + intros (s' & Hs). apply in_app_or in Hs. simpl in Hs.
      destruct Hs as [Hs|[[= <- <-]|[]]]; [right; exists s'; auto|left; auto].
  - intros x. rewrite Hm. simpl. intros [<-|Hx]; auto.
  - rewrite Hm. simpl. constructor; auto.
  - intros x. rewrite Hm, Hc. simpl. destruct (String.eqb_spec (e_base e) "") as [E|E]; simpl; rewrite Ic;
      intuition (subst; auto; congruence).
  - rewrite Hm. simpl. constructor; auto.
  - intros x. rewrite Hp. rewrite in_app_iff. simpl. destruct s; simpl.
    + unfold insert_path. destruct (existsb _ _) eqn:X.
      * apply existsb_exists in X. destruct X as (y & Hy & Ey).
        apply andb_true_iff in Ey. destruct Ey as [_ Ey]. apply String.eqb_eq in Ey.
        exfalso. apply Hf. rewrite <- Ey. apply in_map. apply Im. exists Defined. now apply It.
      * simpl. rewrite It. intuition congruence.
    + rewrite It. intuition congruence.
Qed.

Lemma run_inv h0 h st st' :
  inv h0 st -> run h st = Ok st' -> inv (h0 ++ h)%list st'.
Proof.
  revert h0 st. induction h as [|[s e] h IH]; simpl; intros h0 st I R.
  - inversion R; subst. now rewrite app_nil_r.
  - destruct (register s e st) eqn:E; [|discriminate].
    pose proof (register_inv _ _ _ _ _ I E) as I'.
    pose proof (IH _ _ I' R) as I''. rewrite <- app_assoc in I''. exact I''.
Qed.

Lemma reach_inv h st : run h empty_state = Ok st -> inv h st.
Proof. intros R. now apply (run_inv [] h empty_state st inv_empty). Qed.

Lemma NoDup_map_inj {A B} (f : A -> B) l a b :
  NoDup (map f l) -> In a l -> In b l -> f a = f b -> a = b.
Proof.
  induction l; simpl; intros N Ha Hb E; [contradiction|].
  inversion N; subst. destruct Ha as [->|Ha], Hb as [->|Hb]; auto.
  - exfalso. apply H1. rewrite E. now apply in_map.
  - exfalso. apply H1. rewrite <- E. now apply in_map.
Qed.

Section reached.
Context (h : list (source * ev)) (st : state) (R : run h empty_state = Ok st).
Let I := reach_inv h st R.

Lemma find_path_spec k key e :
  find_path k key st = Some e <-> In (Defined, e) h /\ e_kind e = k /\ full_path e = key.
Proof.
  unfold find_path. split.
  - intros F. apply find_some in F. destruct F as [F E].
    apply andb_true_iff in E. destruct E as [E1 E2]. apply kind_eqb_eq in E1. apply String.eqb_eq in E2.
    split; auto. now apply (inv_path _ _ I).
  - intros (Hin & <- & <-). destruct (find _ _) eqn:F.
    + apply find_some in F. destruct F as [F E].
      apply andb_true_iff in E. destruct E as [E1 E2]. apply String.eqb_eq in E2.
      f_equal. apply (NoDup_map_inj full_path (model_events st)); auto.
      * apply (inv_paths _ _ I).
      * apply (inv_model _ _ I). exists Defined. now apply (inv_path _ _ I).
      * apply (inv_model _ _ I). now exists Defined.
    + exfalso. apply (inv_path _ _ I) in Hin. pose proof (find_none _ _ F _ Hin) as X. simpl in X.
      rewrite String.eqb_refl in X. destruct (e_kind e); discriminate.
Qed.

Lemma find_id_spec k key e :
  find_id k key st = Some e <-> (exists s, In (s, e) h) /\ e_kind e = k /\ id e = key.
Proof.
  unfold find_id. split.
  - intros F. apply find_some in F. destruct F as [F E].
    apply andb_true_iff in E. destruct E as [E1 E2]. apply kind_eqb_eq in E1. apply String.eqb_eq in E2.
    split; auto. now apply (inv_model _ _ I).
  - intros (Hin & <- & <-). apply (inv_model _ _ I) in Hin. destruct (find _ _) eqn:F.
    + apply find_some in F. destruct F as [F E].
      apply andb_true_iff in E. destruct E as [E1 E2]. apply String.eqb_eq in E2.
      f_equal. apply (NoDup_map_inj id (model_events st)); auto. apply (inv_ids _ _ I).
    + exfalso. pose proof (find_none _ _ F _ Hin) as X. simpl in X.
      rewrite String.eqb_refl in X. destruct (e_kind e); discriminate.
Qed.

Lemma get3_path key e :
  get3 (fun k => find_path k key st) = Some e <-> In (Defined, e) h /\ full_path e = key.
Proof.
  unfold get3. split.
  - destruct (find_path KGate key st) eqn:A; [|destruct (find_path KBasic key st) eqn:B].
    + intros [= ->]. apply find_path_spec in A. tauto.
    + intros [= ->]. apply find_path_spec in B. tauto.
    + intros C. apply find_path_spec in C. tauto.
  - intros [Hin E].
    assert (U : forall k e', find_path k key st = Some e' -> e' = e).
    { intros k e' F. apply find_path_spec in F. destruct F as (F1 & F2 & F3).
      apply (NoDup_map_inj full_path (model_events st)); try (apply (inv_model _ _ I); now exists Defined).
      - apply (inv_paths _ _ I).
      - congruence. }
    destruct (find_path KGate key st) eqn:A; [apply U in A; congruence|].
    destruct (find_path KBasic key st) eqn:B; [apply U in B; congruence|].
    destruct (e_kind e) eqn:K.
    + assert (X : find_path KGate key st = Some e) by (apply find_path_spec; auto). congruence.
    + assert (X : find_path KBasic key st = Some e) by (apply find_path_spec; auto). congruence.
    + apply find_path_spec; auto.
Qed.

Lemma get3_id key e :
  get3 (fun k => find_id k key st) = Some e <-> (exists s, In (s, e) h) /\ id e = key.
Proof.
  unfold get3. split.
  - destruct (find_id KGate key st) eqn:A; [|destruct (find_id KBasic key st) eqn:B].
    + intros [= ->]. apply find_id_spec in A. tauto.
    + intros [= ->]. apply find_id_spec in B. tauto.
    + intros C. apply find_id_spec in C. tauto.
  - intros [Hin E].
    assert (U : forall k e', find_id k key st = Some e' -> e' = e).
    { intros k e' F. apply find_id_spec in F. destruct F as (F1 & F2 & F3).
      apply (NoDup_map_inj id (model_events st)); try (apply (inv_model _ _ I); now auto).
      - apply (inv_ids _ _ I).
      - congruence. }
    destruct (find_id KGate key st) eqn:A; [apply U in A; congruence|].
    destruct (find_id KBasic key st) eqn:B; [apply U in B; congruence|].
    destruct (e_kind e) eqn:K.
    + assert (X : find_id KGate key st = Some e) by (apply find_id_spec; auto). congruence.
    + assert (X : find_id KBasic key st = Some e) by (apply find_id_spec; auto). congruence.
    + apply find_id_spec; auto.
Qed.

Lemma undotted_id e key : (exists s, In (s, e) h) -> has_dot key = false ->
  (id e = key <-> e_private e = false /\ e_name e = key).
Proof.
  intros Hin Hk. unfold id. destruct (e_private e); [|intuition].
  split; [|intuition congruence]. intros E. rewrite <- E, full_path_dot in Hk. discriminate.
Qed.
End reached.
