(** C41: identifiers; C42: reference resolution.  "History" below is any sequence of event
    definitions and CCF member registrations, in any order, that the loader accepted. *)
From Coq Require Import List String Ascii Bool.
From Verif Require Import Registry.
Import ListNotations.
Open Scope string_scope.

(** C41: an event is accepted only if its name is non-empty and free of dots, its base path
    has no leading or trailing dot, and, if it is private, its base path is not empty;
    and these are the only grounds for refusing its construction. *)
Theorem C41_construction : forall e,
  construct e = None <->
  (e_name e <> "" /\ has_dot (e_name e) = false
   /\ (e_base e <> "" -> front_dot (e_base e) = false /\ back_dot (e_base e) = false)
   /\ (e_private e = true -> e_base e <> "")).
Proof. exact construct_ok. Qed.
Print Assumptions C41_construction.

(** The dot test is about the characters of the name. *)
Theorem C41_has_dot : forall s,
  has_dot s = true <-> exists a b, s = a ++ "." ++ b.
Proof.
  intros s. split.
  - induction s as [|c s IH]; simpl; [discriminate|].
    destruct (Ascii.eqb_spec c "."%char) as [->|N]; simpl.
    + intros _. now exists "", s.
    + intros H. destruct (IH H) as (a & b & ->). now exists (String c a), b.
  - intros (a & b & ->). rewrite has_dot_app. simpl. apply orb_true_r.
Qed.
Print Assumptions C41_has_dot.

(** C41: among accepted events no two share an id or a full path, whatever their kinds;
    and the full path determines base path and name. *)
Theorem C41_unique : forall h st, run h empty_state = Ok st ->
  NoDup (map id (model_events st)) /\ NoDup (map full_path (model_events st))
  /\ (forall e, In e (model_events st) <-> exists s, In (s, e) h)
  /\ (forall e, In e (model_events st) -> construct e = None).
Proof.
  intros h st R. pose proof (reach_inv _ _ R) as [Im Iw Ii Ic Ip It].
  repeat split; auto; try apply Im. intros e H. apply construct_ok. auto.
Qed.
Print Assumptions C41_unique.

Theorem C41_path_injective : forall b1 n1 b2 n2,
  has_dot n1 = false -> has_dot n2 = false ->
  b1 ++ "." ++ n1 = b2 ++ "." ++ n2 -> b1 = b2 /\ n1 = n2.
Proof. exact path_split. Qed.
Print Assumptions C41_path_injective.

(** Refusals have the documented causes only: a malformed event, an id already taken, or a
    name already taken in the same container. *)
Theorem C41_rejection : forall h st s e x, run h empty_state = Ok st ->
  register s e st = Throw x ->
  construct e = Some x \/
  (x = DuplicateElementError /\ exists e', In e' (model_events st) /\
     (id e' = id e \/ (e_base e' = e_base e /\ e_name e' = e_name e))).
Proof.
  intros h st s e x R. pose proof (reach_inv _ _ R) as [Im Iw Ii Ic Ip It].
  unfold register. destruct (construct e) as [y|]; [intros [= ->]; auto|].
  destruct (dup_id st e) eqn:D.
  - intros [= <-]. right. split; auto. unfold dup_id in D. apply existsb_exists in D.
    destruct D as (e' & H1 & H2). apply String.eqb_eq in H2. eauto.
  - destruct (String.eqb (e_base e) ""); [discriminate|].
    destruct (dup_name _ e) eqn:DN; [|discriminate].
    intros [= <-]. right. split; auto. unfold dup_name in DN. apply existsb_exists in DN.
    destruct DN as (e' & H1 & H2). apply andb_true_iff in H2. destruct H2 as [H2 H3].
    apply String.eqb_eq in H2. apply String.eqb_eq in H3.
    exists e'. split; [now apply Ic|auto].
Qed.
Print Assumptions C41_rejection.

(** ** C42 *)

(** What a reference [ref] made from the container path [base] may denote locally,
    publicly, or by absolute path. *)
Definition local (base ref : string) (e : ev) : Prop := base <> "" /\ full_path e = base ++ "." ++ ref.
Definition nonlocal (ref : string) (e : ev) : Prop :=
  if has_dot ref then full_path e = ref else e_private e = false /\ e_name e = ref.

(** Entity of a given kind.  Local scope wins; otherwise the public (undotted) or absolute
    (dotted) reading; otherwise UndefinedElement.  [Defined] are the events with a
    define-* element; CCF members are reachable by their public name only (see below). *)
Theorem C42_entity : forall h st k ref base, run h empty_state = Ok st ->
  (forall e, In (Defined, e) h -> e_kind e = k -> local base ref e ->
     get_entity k ref base st = Ok e)
  /\ ((forall e, In (Defined, e) h -> e_kind e = k -> ~ local base ref e) ->
      (forall s e, In (s, e) h -> (has_dot ref = true -> s = Defined) ->
         e_kind e = k -> nonlocal ref e -> get_entity k ref base st = Ok e)
      /\ ((forall s e, In (s, e) h -> (has_dot ref = true -> s = Defined) ->
            e_kind e = k -> ~ nonlocal ref e) ->
          get_entity k ref base st = Throw UndefinedElement)).
Proof.
  intros h st k ref base R. unfold get_entity, local, nonlocal. split.
  { intros e Hin Hk [Hb Hl].
    destruct (String.eqb_spec base ""); [contradiction|].
    replace (find_path k (base ++ "." ++ ref) st) with (Some e); auto.
    symmetry. apply (find_path_spec h st R). auto. }
  intros NL.
  assert (HL : (base <> "" -> find_path k (base ++ "." ++ ref) st = None)).
  { intros Hb. destruct (find_path _ _ st) eqn:F; auto. exfalso.
    apply (find_path_spec h st R) in F. destruct F as (F1 & F2 & F3).
    apply (NL _ F1 F2). auto. }
  assert (HE : forall r, (if String.eqb base "" then r
     else match find_path k (base ++ "." ++ ref) st with Some e => Ok e | None => r end) = r).
  { intros r. destruct (String.eqb_spec base ""); auto. now rewrite HL. }
  rewrite HE. split.
  - intros s e Hin Hs Hk Hn. destruct (has_dot ref) eqn:HD.
    + replace (find_path k ref st) with (Some e); auto.
      symmetry. apply (find_path_spec h st R). rewrite Hs in Hin; auto.
    + replace (find_id k ref st) with (Some e); auto.
      symmetry. apply (find_id_spec h st R). repeat split; eauto.
      apply (undotted_id h); eauto.
  - intros N. destruct (has_dot ref) eqn:HD.
    + destruct (find_path k ref st) eqn:F; auto. exfalso.
      apply (find_path_spec h st R) in F. destruct F as (F1 & F2 & F3).
      apply (N Defined e); auto.
    + destruct (find_id k ref st) eqn:F; auto. exfalso.
      apply (find_id_spec h st R) in F. destruct F as ([s F1] & F2 & F3).
      apply (N s e); auto. { intros; discriminate. }
      apply (undotted_id h) in F3; eauto.
Qed.
Print Assumptions C42_entity.

(** Reference to an event of undeclared kind: the same rule over all kinds; in particular
    the outcome does not depend on the order in which the kinds are searched. *)
Theorem C42_event : forall h st ref base, run h empty_state = Ok st ->
  (forall e, In (Defined, e) h -> local base ref e -> get_event ref base st = Ok e)
  /\ ((forall e, In (Defined, e) h -> ~ local base ref e) ->
      (forall s e, In (s, e) h -> (has_dot ref = true -> s = Defined) ->
         nonlocal ref e -> get_event ref base st = Ok e)
      /\ ((forall s e, In (s, e) h -> (has_dot ref = true -> s = Defined) -> ~ nonlocal ref e) ->
          get_event ref base st = Throw UndefinedElement)).
Proof.
  intros h st ref base R. unfold get_event, local, nonlocal. split.
  { intros e Hin [Hb Hl].
    destruct (String.eqb_spec base ""); [contradiction|].
    replace (get3 (fun k => find_path k (base ++ "." ++ ref) st)) with (Some e); auto.
    symmetry. apply (get3_path h st R). auto. }
  intros NL.
  assert (HL : (base <> "" -> get3 (fun k => find_path k (base ++ "." ++ ref) st) = None)).
  { intros Hb. destruct (get3 _) eqn:F; auto. exfalso.
    apply (get3_path h st R) in F. destruct F as (F1 & F2). apply (NL _ F1). auto. }
  assert (HE : forall r, (if String.eqb base "" then r
     else match get3 (fun k => find_path k (base ++ "." ++ ref) st) with Some e => Ok e | None => r end) = r).
  { intros r. destruct (String.eqb_spec base ""); auto. now rewrite HL. }
  rewrite HE. split.
  - intros s e Hin Hs Hn. destruct (has_dot ref) eqn:HD.
    + replace (get3 (fun k => find_path k ref st)) with (Some e); auto.
      symmetry. apply (get3_path h st R). rewrite Hs in Hin; auto.
    + replace (get3 (fun k => find_id k ref st)) with (Some e); auto.
      symmetry. apply (get3_id h st R). split; eauto.
      apply (undotted_id h); eauto.
  - intros N. destruct (has_dot ref) eqn:HD.
    + destruct (get3 (fun k => find_path k ref st)) eqn:F; auto. exfalso.
      apply (get3_path h st R) in F. destruct F as (F1 & F2).
      apply (N Defined e); auto.
    + destruct (get3 (fun k => find_id k ref st)) eqn:F; auto. exfalso.
      apply (get3_id h st R) in F. destruct F as ([s F1] & F2).
      apply (N s e); auto. { intros; discriminate. }
      apply (undotted_id h) in F2; eauto.
Qed.
Print Assumptions C42_event.

(** Defect: a private CCF group member is in the local scope of its group, but a reference
    to it from that scope is resolved to a public event of the same name elsewhere (or to an
    error), since CCF members never enter the path tables (initializer.cc:1261-1278). *)
Theorem C42_ccf_member_refuted :
  exists h st m other base ref,
    run h empty_state = Ok st /\ In (CcfMember, m) h /\ local base ref m
    /\ get_event ref base st = Ok other /\ other <> m
    /\ get_entity KBasic ref base st = Ok other.
Proof.
  pose (m := mkEv KBasic "pump" "ft.c" true).
  pose (o := mkEv KBasic "pump" "" false).
  exists [(Defined, o); (CcfMember, m)].
  exists (mkState [m; o] [o] [m]), m, o, "ft.c", "pump".
  repeat split; try reflexivity; try discriminate. right; left; reflexivity.
Qed.
Print Assumptions C42_ccf_member_refuted.

(** Non-vacuity: a history with nested scopes; the local gate shadows the public one, a
    dotted reference is relative first and then absolute. *)
Example C42_example :
  let gp := mkEv KGate "g" "ft" false in
  let gl := mkEv KGate "g" "ft.c" true in
  let b := mkEv KBasic "b" "ft2" false in
  let h := mkEv KHouse "h" "" false in
  exists st, run [(Defined, gp); (Defined, gl); (Defined, b); (Defined, h)] empty_state = Ok st
   /\ get_event "g" "ft.c" st = Ok gl /\ get_event "g" "ft2" st = Ok gp
   /\ get_event "c.g" "ft" st = Ok gl /\ get_event "ft2.b" "ft" st = Ok b
   /\ get_event "h" "ft" st = Ok h /\ get_event "x" "ft" st = Throw UndefinedElement
   /\ register Defined (mkEv KBasic "g" "ft3" false) st = Throw DuplicateElementError
   /\ register Defined (mkEv KBasic "g" "ft" true) st = Throw DuplicateElementError.
Proof. eexists. split; [reflexivity|]. repeat split; reflexivity. Qed.
