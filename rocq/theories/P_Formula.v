(** Properties C28 (formula validation) and C29 (substitutions). *)
From Coq Require Import List Arith ZArith Lia Bool Permutation.
From Verif Require Import Formula.
Import ListNotations.

Section spec.
Context (ev_id : nat -> nat) (ev_kind : nat -> kind) (kTrue kFalse : nat).

(** ** Specification *)
Definition distinct_ids (l : list arg) : Prop := NoDup (map (fun a => ev_id (event a)) l).
(** Arity and number rules of each connective. *)
Definition arity_ok (c : connective) (n : Z) (mn mx : option Z) : Prop :=
  match c with
  | And | Or | Nand | Nor => (2 <= n)%Z /\ mn = None /\ mx = None
  | Not | Null => n = 1%Z /\ mn = None /\ mx = None
  | Xor | Iff | Imply => n = 2%Z /\ mn = None /\ mx = None
  | Atleast => exists k, mn = Some k /\ mx = None /\ (2 <= k < n)%Z
  | Cardinality => exists a b, mn = Some a /\ mx = Some b /\ (0 <= a <= b)%Z /\ (b <= n)%Z /\ (1 <= n)%Z
  end.
(** NOT and NULL take no complemented argument, NOT takes no constant. *)
Definition nesting_ok (c : connective) (a : arg) : Prop :=
  match c with
  | Not => complement a = false /\ event a <> kTrue /\ event a <> kFalse
  | Null => complement a = false
  | _ => True
  end.
Definition args_ok (c : connective) (l : list arg) : Prop := forall a, In a l -> nesting_ok c a.
Definition fits16 (o : option Z) : Prop := match o with Some z => (z <= 65535)%Z | None => True end.

(** ** Argument sets *)
Theorem C28_argset_add a s :
  ((exists s', argset_add ev_id a s = Ok s') <-> ~ In (ev_id (event a)) (map (fun x => ev_id (event x)) s)) /\
  (forall s', argset_add ev_id a s = Ok s' -> s' = s ++ [a]).
Proof.
  unfold argset_add. destruct (existsb _ s) eqn:E.
  - split; [|discriminate]. split; [intros (? & ?); discriminate|]. intros H. exfalso. apply H.
    apply existsb_exists in E. destruct E as (x & Hx & E). apply Nat.eqb_eq in E.
    apply in_map_iff. exists x. auto.
  - split; [|congruence]. split; [|eauto]. intros _ H. apply in_map_iff in H. destruct H as (x & E1 & Hx).
    assert (existsb (fun x0 => Nat.eqb (ev_id (event x0)) (ev_id (event a))) s = true); [|congruence].
    apply existsb_exists. exists x. split; auto. now apply Nat.eqb_eq.
Qed.

Lemma erase_first_sub e s x : In x (erase_first e s) -> In x s.
Proof. induction s as [|y s IH]; simpl; auto. destruct (Nat.eqb (event y) e); simpl; tauto. Qed.
Lemma erase_first_nodup e s : distinct_ids s -> distinct_ids (erase_first e s).
Proof.
  unfold distinct_ids. induction s as [|y s IH]; simpl; auto. intros H. inversion H; subst.
  destruct (Nat.eqb (event y) e); auto. simpl. constructor; auto.
  intros Hin. apply in_map_iff in Hin. destruct Hin as (x & E & Hx). apply H2. apply in_map_iff.
  exists x. split; auto. eapply erase_first_sub; eauto.
Qed.
Lemma argstep_distinct o s : distinct_ids s -> distinct_ids (argstep ev_id o s).
Proof.
  intros H. unfold argstep. destruct o as [a|e].
  - destruct (argset_add ev_id a s) as [s'|] eqn:A; auto.
    destruct (C28_argset_add a s) as [H1 H2]. rewrite (H2 s' A). unfold distinct_ids. rewrite map_app.
    apply Permutation_NoDup with (ev_id (event a) :: map (fun x => ev_id (event x)) s).
    + apply Permutation_cons_append.
    + constructor; auto. apply H1. eauto.
  - unfold argset_remove. destruct (existsb _ s); auto. now apply erase_first_nodup.
Qed.
(** Every argument set ever built has pairwise distinct ids. *)
Theorem C28_argset_distinct h : distinct_ids (build_args ev_id h).
Proof.
  unfold build_args. assert (G : forall h s, distinct_ids s ->
    distinct_ids (fold_left (fun s o => argstep ev_id o s) h s)).
  { clear h. induction h as [|o h IH]; simpl; auto. intros s H. apply IH. now apply argstep_distinct. }
  apply G. constructor.
Qed.

(** ** Construction *)
Lemma nesting_spec c a : validate_nesting kTrue kFalse c a = None <-> nesting_ok c a.
Proof.
  unfold validate_nesting, nesting_ok. destruct c; simpl; destruct (complement a); simpl;
    try (split; intros; congruence || tauto);
    try (split; [discriminate|intros (? & ?); discriminate]).
  destruct (Nat.eqb_spec (event a) kTrue); simpl; [split; [discriminate|tauto]|].
  destruct (Nat.eqb_spec (event a) kFalse); simpl; [split; [discriminate|tauto]|tauto].
Qed.
Lemma nestings_spec c l : validate_nestings kTrue kFalse c l = None <-> args_ok c l.
Proof.
  unfold args_ok. induction l as [|a l IH]; simpl; [intuition|].
  pose proof (nesting_spec c a) as N. destruct (validate_nesting kTrue kFalse c a).
  - split; [discriminate|]. intros H. assert (Some e = None) by (apply N; auto). discriminate.
  - rewrite IH. split; [intros H x [<-|Hx]; [now apply N|auto]|intros H x Hx; auto].
Qed.

Ltac zcase := repeat match goal with
  | |- context [(?a <? ?b)%Z] => destruct (Z.ltb_spec a b)
  | |- context [(?a <=? ?b)%Z] => destruct (Z.leb_spec a b)
  | |- context [(?a =? ?b)%Z] => destruct (Z.eqb_spec a b)
  end.

Theorem C28_construction c args mn mx : fits16 mn -> fits16 mx ->
  ((exists f, make_formula kTrue kFalse c args mn mx = Ok f) <->
     arity_ok c (Z.of_nat (length args)) mn mx /\ args_ok c args) /\
  (forall f, make_formula kTrue kFalse c args mn mx = Ok f ->
     f_conn f = c /\ f_args f = args /\ min_number f = mn /\ max_number f = mx).
Proof.
  intros F1 F2.
  assert (NN : (0 <= Z.of_nat (length args))%Z) by lia.
  assert (LN : args = [] <-> Z.of_nat (length args) = 0%Z).
  { destruct args; simpl; split; auto; try discriminate; lia. }
  assert (MAIN : (validate_min_max c mn mx = None /\
      validate_connective (mkFormula c (uint16 (value_or mn 0)) (uint16 (value_or mx 0)) args) mn mx = None
      <-> arity_ok c (Z.of_nat (length args)) mn mx)).
  { unfold validate_min_max, validate_connective, arity_ok. cbn [f_conn f_min f_max f_args].
    generalize dependent (Z.of_nat (length args)). intros n NN LN.
    destruct mn as [mn|], mx as [mx|]; cbn [value_or fits16] in *; destruct c; cbn [takes_min takes_max];
      try solve [zcase; cbn [negb]; split; intros HH; decompose [and ex] HH; clear HH;
                 try discriminate; repeat split; auto; lia].
    - (* Cardinality both *)
      split.
      + intros [H1 H2]. destruct (Z.ltb_spec mn 0); [discriminate|]. destruct (Z.ltb_spec mx 0); [discriminate|].
        destruct (Z.ltb_spec mx mn); [discriminate|]. unfold uint16 in H2. rewrite (Z.mod_small mx) in H2 by lia.
        destruct args as [|a l] eqn:E; [discriminate|]. destruct (Z.ltb_spec n mx); [discriminate|].
        exists mn, mx. repeat split; auto; try lia. assert (n <> 0)%Z by (intros E0; apply LN in E0; discriminate). lia.
      + intros (a & b & [= <-] & [= <-] & H1 & H2 & H3). unfold uint16. rewrite (Z.mod_small mx) by lia.
        zcase; try lia. split; auto. destruct args; [|auto]. assert (n = 0)%Z by (now apply LN). lia.
    - (* Atleast *)
      split.
      + intros [H1 H2]. destruct (Z.ltb_spec mn 0); [discriminate|]. unfold uint16 in H2. rewrite (Z.mod_small mn) in H2 by lia.
        destruct (Z.ltb_spec mn 2); [discriminate|]. destruct (Z.leb_spec n mn); [discriminate|].
        exists mn. repeat split; auto; lia.
      + intros (k & [= <-] & _ & H). unfold uint16. rewrite (Z.mod_small mn) by lia. zcase; try lia. auto. }
  assert (OKE : forall f, make_formula kTrue kFalse c args mn mx = Ok f ->
     f = mkFormula c (uint16 (value_or mn 0)) (uint16 (value_or mx 0)) args /\
     validate_min_max c mn mx = None /\
     validate_connective (mkFormula c (uint16 (value_or mn 0)) (uint16 (value_or mx 0)) args) mn mx = None /\
     validate_nestings kTrue kFalse c args = None).
  { intros f. unfold make_formula. destruct (validate_min_max c mn mx); [discriminate|].
    destruct (validate_connective _ mn mx); [discriminate|].
    destruct (validate_nestings kTrue kFalse c args); [discriminate|]. intros [= <-]. auto. }
  split.
  - split.
    + intros (f & E). destruct (OKE f E) as (_ & E1 & E2 & E3). split; [apply MAIN; auto|now apply nestings_spec].
    + intros (A & N). apply MAIN in A. destruct A as [A1 A2]. apply nestings_spec in N.
      unfold make_formula. rewrite A1, A2, N. eauto.
  - intros f E. destruct (OKE f E) as (-> & E1 & E2 & E3). cbn [f_conn f_args].
    repeat split; auto; unfold min_number, max_number; cbn [f_conn f_min f_max];
    assert (AR : arity_ok c (Z.of_nat (length args)) mn mx) by (apply MAIN; auto);
    unfold arity_ok in AR; destruct c; cbn [takes_min takes_max]; try (destruct AR as (? & ? & ?); congruence).
    + destruct AR as (k & -> & -> & ?). cbn [value_or fits16] in *. unfold uint16. rewrite Z.mod_small by lia. auto.
    + destruct AR as (a & b & -> & -> & ? & ? & ?). cbn [value_or fits16] in *. unfold uint16. rewrite Z.mod_small by lia. auto.
    + destruct AR as (k & -> & -> & ?). auto.
    + destruct AR as (a & b & -> & -> & ? & ? & ?). cbn [value_or fits16] in *. unfold uint16. rewrite Z.mod_small by lia. auto.
Qed.

(** ** Later swaps *)
Definition formula_ok (f : formula) : Prop :=
  distinct_ids (f_args f) /\
  arity_ok (f_conn f) (Z.of_nat (length (f_args f))) (min_number f) (max_number f) /\
  args_ok (f_conn f) (f_args f).

Lemma swap_first_length cur other l : length (swap_first cur other l) = length l.
Proof. induction l as [|x l IH]; simpl; auto. destruct (Nat.eqb (event x) cur); simpl; congruence. Qed.
Lemma find_split {X} (f : X -> bool) l x : find f l = Some x ->
  exists l1 l2, l = l1 ++ x :: l2 /\ f x = true /\ forall y, In y l1 -> f y = false.
Proof.
  induction l as [|y l IH]; simpl; [discriminate|]. destruct (f y) eqn:E.
  - intros [= <-]. exists [], l. simpl. repeat split; auto; contradiction.
  - intros H. destruct (IH H) as (l1 & l2 & -> & Hx & Hl). exists (y :: l1), l2. split; auto. split; auto.
    intros z [<-|Hz]; auto.
Qed.
Lemma swap_first_split cur other l1 x l2 : event x = cur -> (forall y, In y l1 -> Nat.eqb (event y) cur = false) ->
  swap_first cur other (l1 ++ x :: l2) = l1 ++ mkArg (complement x) other :: l2.
Proof.
  intros E H. induction l1 as [|y l1 IH]; simpl.
  - now rewrite E, Nat.eqb_refl.
  - rewrite H by (simpl; auto). f_equal. apply IH. intros z Hz. apply H. simpl; auto.
Qed.

(** A swap succeeds exactly if the current event is an argument, no other argument has the
    new event's id and the nesting rules hold; it then replaces exactly that argument. *)
Theorem C28_swap cur other f : formula_ok f ->
  ((exists f', swap ev_id kTrue kFalse cur other f = Ok f') <->
     (exists a, In a (f_args f) /\ event a = cur /\ nesting_ok (f_conn f) (mkArg (complement a) other)) /\
     (forall a, In a (f_args f) -> event a <> cur -> ev_id (event a) <> ev_id other)) /\
  (forall f', swap ev_id kTrue kFalse cur other f = Ok f' ->
     formula_ok f' /\ f_conn f' = f_conn f /\ min_number f' = min_number f /\ max_number f' = max_number f /\
     exists l1 a l2, f_args f = l1 ++ a :: l2 /\ event a = cur /\
                     f_args f' = l1 ++ mkArg (complement a) other :: l2).
Proof.
  intros (D & A & N). unfold swap.
  destruct (find _ (f_args f)) as [it|] eqn:F.
  2: { split; [split; [intros (? & ?); discriminate|]|discriminate].
       intros ((a & Ha & Ea & _) & _). exfalso. pose proof (find_none _ _ F a Ha) as X. simpl in X.
       apply Nat.eqb_neq in X. auto. }
  destruct (find_split _ _ _ F) as (l1 & l2 & E & Hit & Hl1). apply Nat.eqb_eq in Hit.
  assert (UNI : forall a, In a (f_args f) -> event a = cur -> a = it).
  { intros a Ha Ea. rewrite E in Ha, D. unfold distinct_ids in D. rewrite map_app in D. simpl in D.
    apply in_app_or in Ha. destruct Ha as [Ha|[Ha|Ha]]; auto.
    - apply Hl1 in Ha. apply Nat.eqb_neq in Ha. contradiction.
    - exfalso. apply NoDup_remove_2 in D. apply D. apply in_or_app. right. apply in_map_iff. exists a.
      split; [congruence|auto]. }
  assert (Iit : In it (f_args f)) by (rewrite E; apply in_or_app; simpl; auto).
  destruct (existsb _ (f_args f)) eqn:X.
  { split; [split; [intros (? & ?); discriminate|]|discriminate].
    intros (_ & H). exfalso. apply existsb_exists in X. destruct X as (a & Ha & Xa).
    apply andb_true_iff in Xa. destruct Xa as [X1 X2]. apply negb_true_iff, Nat.eqb_neq in X1. apply Nat.eqb_eq in X2.
    apply (H a); auto. }
  assert (NX : forall a, In a (f_args f) -> event a <> cur -> ev_id (event a) <> ev_id other).
  { intros a Ha Na Ei. assert (T : existsb (fun x => negb (Nat.eqb (event x) cur) && Nat.eqb (ev_id (event x)) (ev_id other)) (f_args f) = true); [|congruence].
    apply existsb_exists. exists a. split; auto. apply andb_true_iff. split.
    - apply negb_true_iff. now apply Nat.eqb_neq.
    - now apply Nat.eqb_eq. }
  pose proof (nesting_spec (f_conn f) (mkArg (complement it) other)) as NS.
  destruct (validate_nesting kTrue kFalse (f_conn f) (mkArg (complement it) other)) as [e|].
  { split; [split; [intros (? & ?); discriminate|]|discriminate].
    intros ((a & Ha & Ea & Na) & _). exfalso. rewrite (UNI a Ha Ea) in Na. apply NS in Na. discriminate. }
  split.
  - split; [|eauto]. intros _. split; auto. exists it. split; auto. split; auto. now apply NS.
  - intros f' [= <-]. cbn [f_conn f_args].
    rewrite E. rewrite swap_first_split by auto.
    split; [|split; [reflexivity|split; [reflexivity|split; [reflexivity|exists l1, it, l2; auto]]]].
    split; [|split]; cbn [f_args f_conn].
    + unfold distinct_ids in *. rewrite E in D. rewrite map_app in *. simpl in *.
      pose proof (NoDup_remove_1 _ _ _ D) as D1. pose proof (NoDup_remove_2 _ _ _ D) as D2.
      apply Permutation_NoDup with (ev_id other :: map (fun a => ev_id (event a)) l1 ++ map (fun a => ev_id (event a)) l2).
      * apply Permutation_middle.
      * constructor; auto. rewrite <- map_app. intros Hin. apply in_map_iff in Hin. destruct Hin as (a & Ea & Ha).
        assert (Ha' : In a (f_args f)) by (rewrite E; apply in_app_or in Ha; apply in_or_app; simpl; tauto).
        destruct (Nat.eq_dec (event a) cur) as [Ec|Nc].
        -- apply D2. rewrite <- map_app. apply in_map_iff. exists a. split; auto. congruence.
        -- now apply (NX a).
    + rewrite E in A. rewrite app_length in *. exact A.
    + intros a Ha. apply in_app_or in Ha. destruct Ha as [Ha|[<-|Ha]].
      * apply N. rewrite E. apply in_or_app. auto.
      * now apply NS.
      * apply N. rewrite E. apply in_or_app. simpl. auto.
Qed.

(** Whatever argument-set calls, construction and swap attempts a user makes, the formula in
    hand is well-formed. *)
Theorem C28_always_ok h c mn mx f swaps : fits16 mn -> fits16 mx ->
  make_formula kTrue kFalse c (build_args ev_id h) mn mx = Ok f ->
  formula_ok (swap_all ev_id kTrue kFalse swaps f) /\
  length (f_args (swap_all ev_id kTrue kFalse swaps f)) = length (build_args ev_id h) /\
  min_number (swap_all ev_id kTrue kFalse swaps f) = mn /\ max_number (swap_all ev_id kTrue kFalse swaps f) = mx.
Proof.
  intros F1 F2 M. destruct (C28_construction c (build_args ev_id h) mn mx F1 F2) as [H1 H2].
  destruct (H2 f M) as (E1 & E2 & E3 & E4). destruct (proj1 H1 (ex_intro _ f M)) as [H3 H4].
  assert (OK : formula_ok f).
  { split; [rewrite E2; apply C28_argset_distinct|]. rewrite E1, E2, E3, E4. auto. }
  assert (L : length (f_args f) = length (build_args ev_id h)) by congruence.
  clear H1 H2 H3 H4 M E1 E2. revert f OK L E3 E4. unfold swap_all.
  induction swaps as [|[a b] sw IH]; intros f OK L E3 E4; simpl; auto.
  destruct (swap ev_id kTrue kFalse a b f) as [f'|] eqn:S; [|apply IH; auto].
  destruct (proj2 (C28_swap a b f OK) f' S) as (OK' & _ & M1 & M2 & l1 & x & l2 & A1 & _ & A2).
  apply IH; auto; try congruence. rewrite A2. rewrite A1 in L. rewrite app_length in *. simpl in *. lia.
Qed.
End spec.

(** With the assertions compiled out a number over 65535 wraps: "at least 65538 of 3" is
    accepted as "at least 2 of 3". *)
Theorem C28_wide_number_refuted :
  exists f, make_formula 100 101 Atleast (build_args (fun x => x) [AAdd (mkArg false 1); AAdd (mkArg false 2); AAdd (mkArg false 3)])
              (Some 65538%Z) None = Ok f /\ min_number f = Some 2%Z.
Proof. eexists. split; reflexivity. Qed.

Example C28_example :
  exists f, make_formula 100 101 Atleast (build_args (fun x => x) [AAdd (mkArg false 1); AAdd (mkArg true 2); AAdd (mkArg false 1); AAdd (mkArg false 3)])
              (Some 2%Z) None = Ok f /\ length (f_args f) = 3 /\
            exists f', swap (fun x => x) 100 101 2 5 f = Ok f' /\ f_args f' = [mkArg false 1; mkArg true 5; mkArg false 3].
Proof. eexists. split; [reflexivity|]. split; [reflexivity|]. eexists. split; reflexivity. Qed.

(** ** C29: substitutions *)
Section subst.
Context (ev_id : nat -> nat) (ev_kind : nat -> kind) (kTrue kFalse : nat).

(** Truth of a formula under an assignment of its events. *)
Definition arg_true (env : nat -> bool) (a : arg) : bool := xorb (complement a) (env (event a)).
Definition count_true (env : nat -> bool) (l : list arg) : Z := Z.of_nat (length (filter (arg_true env) l)).
Definition holds (env : nat -> bool) (f : formula) : Prop :=
  let n := Z.of_nat (length (f_args f)) in
  let t := count_true env (f_args f) in
  match f_conn f with
  | And => t = n
  | Or => (1 <= t)%Z
  | Atleast => (f_min f <= t)%Z
  | Cardinality => (f_min f <= t <= f_max f)%Z
  | Nand => t <> n
  | Nor | Not => t = 0%Z
  | Null | Xor => t = 1%Z
  | Iff => t <> 1%Z
  | Imply => match f_args f with [a; b] => arg_true env a = true -> arg_true env b = true | _ => True end
  end.
(** Coherent: no event can make it false by occurring. *)
Definition coherent (f : formula) : Prop :=
  forall env env', (forall e, env e = true -> env' e = true) -> holds env f -> holds env' f.

Lemma filter_length_le {X} (p : X -> bool) l : length (filter p l) <= length l.
Proof. induction l as [|x l IH]; simpl; [lia|]. destruct (p x); simpl; lia. Qed.
Lemma filter_mono {X} (p q : X -> bool) l : (forall x, In x l -> p x = true -> q x = true) ->
  length (filter p l) <= length (filter q l).
Proof.
  induction l as [|x l IH]; simpl; intros H; [lia|].
  specialize (IH (fun y Hy => H y (or_intror Hy))). pose proof (H x (or_introl eq_refl)).
  destruct (p x); [rewrite H0 by auto; simpl; lia|]. destruct (q x); simpl; lia.
Qed.

Lemma existsb_false {X} (p : X -> bool) l : existsb p l = false <-> forall x, In x l -> p x = false.
Proof.
  induction l as [|x l IH]; simpl; [intuition|]. rewrite orb_false_iff, IH. split.
  - intros [H1 H2] y [<-|Hy]; auto.
  - intros H. split; auto.
Qed.

(** Validation, spelled out. *)
Theorem C29_validate s : validate_substitution ev_kind s = None <->
  (forall a, In a (f_args (hypothesis s)) -> ev_kind (event a) = KBasic /\ complement a = false) /\
  (source s = [] /\ In (f_conn (hypothesis s)) [Null; And; Or; Atleast] /\ s_target s <> TConst true \/
   source s <> [] /\ In (f_conn (hypothesis s)) [Null; And; Or] /\ s_target s <> TConst false).
Proof.
  unfold validate_substitution.
  destruct (existsb (fun a => negb (is_basic ev_kind (event a))) (f_args (hypothesis s))) eqn:B.
  { split; [discriminate|]. intros [H _]. exfalso. apply existsb_exists in B. destruct B as (a & Ha & B).
    destruct (H a Ha) as [K _]. unfold is_basic in B. rewrite K in B. discriminate. }
  destruct (existsb complement (f_args (hypothesis s))) eqn:C.
  { split; [discriminate|]. intros [H _]. exfalso. apply existsb_exists in C. destruct C as (a & Ha & C).
    destruct (H a Ha) as [_ K]. congruence. }
  assert (BASE : forall a, In a (f_args (hypothesis s)) -> ev_kind (event a) = KBasic /\ complement a = false).
  { intros a Ha. rewrite existsb_false in B, C. specialize (B a Ha). specialize (C a Ha). simpl in B.
    apply negb_false_iff in B. unfold is_basic in B. destruct (ev_kind (event a)); try discriminate. auto. }
  unfold declarative. destruct (source s) as [|e l]; destruct (f_conn (hypothesis s)); simpl;
    destruct (s_target s) as [t|[|]]; (split; [intros; try discriminate|intros [_ HH]]; auto);
    try (split; [auto|]);
    try (left; repeat split; auto; discriminate); try (right; repeat split; auto 6; discriminate);
    try (exfalso; destruct HH as [(H1 & H2 & H3)|(H1 & H2 & H3)]; intuition (congruence || discriminate)).
Qed.

Theorem C29_coherent s : validate_substitution ev_kind s = None -> formula_ok ev_id kTrue kFalse (hypothesis s) ->
  coherent (hypothesis s).
Proof.
  intros V (_ & A & _). apply C29_validate in V. destruct V as [HA HC].
  intros env env' M. unfold holds. set (n := Z.of_nat (length (f_args (hypothesis s)))) in *.
  assert (T : (count_true env (f_args (hypothesis s)) <= count_true env' (f_args (hypothesis s)))%Z).
  { unfold count_true. apply inj_le. apply filter_mono. intros a Ha. unfold arg_true.
    destruct (HA a Ha) as [_ ->]. simpl. destruct (env (event a)) eqn:Ev; [|discriminate]. intros _. now rewrite (M _ Ev). }
  assert (U : (count_true env' (f_args (hypothesis s)) <= n)%Z).
  { unfold count_true, n. apply inj_le. apply filter_length_le. }
  unfold arity_ok in A.
  destruct (f_conn (hypothesis s)) eqn:K; simpl in HC;
    try (exfalso; destruct HC as [(_ & H & _)|(_ & H & _)]; intuition discriminate); try lia.
Qed.

(** Source sets never repeat an event. *)
Lemma build_source_nodup h : NoDup (build_source ev_id h).
Proof.
  unfold build_source. assert (G : forall h s, NoDup s ->
    NoDup (fold_left (fun s e => match add_source ev_id e s with Ok s => s | Throw _ => s end) h s)).
  { clear h. induction h as [|e h IH]; simpl; auto. intros s N. apply IH. unfold add_source.
    destruct (existsb _ s) eqn:X; auto. apply Permutation_NoDup with (e :: s); [apply Permutation_cons_append|].
    constructor; auto. intros H. rewrite existsb_false in X. specialize (X e H). simpl in X.
    now rewrite Nat.eqb_refl in X. }
  apply G. constructor.
Qed.

(** What each reported type means, for any accepted substitution. *)
Definition hypothesis_events (s : substitution) (e : nat) : Prop := exists a, In a (f_args (hypothesis s)) /\ event a = e.
Definition all_occur (env : nat -> bool) (s : substitution) : Prop := forall e, hypothesis_events s e -> env e = true.
(** the hypothesis says: two of its events occur *)
Definition two_occur (env : nat -> bool) (s : substitution) : Prop :=
  exists a b, hypothesis_events s a /\ hypothesis_events s b /\ a <> b /\ env a = true /\ env b = true.

Lemma filter_all_iff {X} (p : X -> bool) l : length (filter p l) = length l <-> forall x, In x l -> p x = true.
Proof.
  induction l as [|x l IH]; simpl; [intuition|]. destruct (p x) eqn:E; simpl.
  - split; [intros H y [<-|Hy]; auto; apply IH; auto; lia|]. intros H. f_equal. apply IH. auto.
  - pose proof (filter_length_le p l). split; [lia|]. intros H1. rewrite H1 in E; auto; discriminate.
Qed.

Lemma and_means_all s env : (forall a, In a (f_args (hypothesis s)) -> complement a = false) ->
  f_conn (hypothesis s) = And -> (holds env (hypothesis s) <-> all_occur env s).
Proof.
  intros NC K. unfold holds. rewrite K. unfold count_true.
  transitivity (length (filter (arg_true env) (f_args (hypothesis s))) = length (f_args (hypothesis s))); [lia|].
  rewrite filter_all_iff. unfold all_occur, hypothesis_events, arg_true. split.
  - intros H e (a & Ha & <-). specialize (H a Ha). rewrite (NC a Ha) in H. simpl in H. now destruct (env (event a)).
  - intros H a Ha. rewrite (NC a Ha). simpl. assert (E : env (event a) = true) by (apply H; eauto). now rewrite E.
Qed.

Lemma two_count s env : (forall a, In a (f_args (hypothesis s)) -> complement a = false) ->
  NoDup (map event (f_args (hypothesis s))) ->
  ((2 <= count_true env (f_args (hypothesis s)))%Z <-> two_occur env s).
Proof.
  intros NC ND. unfold count_true.
  assert (AT : forall a, In a (f_args (hypothesis s)) -> arg_true env a = env (event a)).
  { intros a Ha. unfold arg_true. rewrite (NC a Ha). simpl. now destruct (env (event a)). }
  assert (IN : forall a, In a (filter (arg_true env) (f_args (hypothesis s))) <-> In a (f_args (hypothesis s)) /\ env (event a) = true).
  { intros a. rewrite filter_In. split; intros [H1 H2]; split; auto; [rewrite <- AT|rewrite AT]; auto. }
  assert (NF : NoDup (map event (filter (arg_true env) (f_args (hypothesis s))))).
  { clear -ND. induction (f_args (hypothesis s)) as [|x l IH]; simpl; auto. simpl in ND. inversion ND; subst.
    destruct (arg_true env x); auto. simpl. constructor; auto. intros H. apply H1. apply in_map_iff in H.
    destruct H as (a & E & H). apply filter_In in H. apply in_map_iff. exists a. tauto. }
  split.
  - intros H. destruct (filter (arg_true env) (f_args (hypothesis s))) as [|a [|b l]] eqn:F; simpl in H; try lia.
    destruct (proj1 (IN a) (or_introl eq_refl)) as [A1 A2]. destruct (proj1 (IN b) (or_intror (or_introl eq_refl))) as [B1 B2].
    exists (event a), (event b). unfold hypothesis_events. repeat split; eauto.
    simpl in NF. inversion NF; subst. simpl in H2. intuition congruence.
  - intros (x & y & (a & Ha & <-) & (b & Hb & <-) & NE & E1 & E2).
    assert (Fa : In a (filter (arg_true env) (f_args (hypothesis s)))) by (apply IN; auto).
    assert (Fb : In b (filter (arg_true env) (f_args (hypothesis s)))) by (apply IN; auto).
    destruct (filter (arg_true env) (f_args (hypothesis s))) as [|c [|d l]]; simpl in *; try lia; try contradiction.
    destruct Fa as [<-|[]]. destruct Fb as [<-|[]]. congruence.
Qed.

Theorem C29_type s h : s.(source) = build_source ev_id h ->
  validate_substitution ev_kind s = None -> formula_ok ev_id kTrue kFalse (hypothesis s) ->
  match substitution_type s with
  | Some DeleteTerms =>   (* declarative: two events together are impossible *)
      source s = [] /\ s_target s = TConst false /\ forall env, holds env (hypothesis s) <-> two_occur env s
  | Some RecoveryRule =>  (* all the events together imply / are replaced by the target *)
      (exists t, s_target s = TEvent t) /\
      (forall env, holds env (hypothesis s) <-> all_occur env s) /\
      (source s <> [] -> forall e, In e (source s) <-> hypothesis_events s e)
  | Some ExchangeEvent => (* one of the events is replaced when all occur *)
      (exists t, s_target s = TEvent t) /\
      (forall env, holds env (hypothesis s) <-> all_occur env s) /\
      exists e, source s = [e] /\ hypothesis_events s e /\ exists e', e' <> e /\ hypothesis_events s e'
  | None => True
  end.
Proof.
  intros ES V (D & A & N). pose proof (proj1 (C29_validate s) V) as [HA HC].
  assert (NC : forall a, In a (f_args (hypothesis s)) -> complement a = false) by (intros a Ha; apply (HA a Ha)).
  assert (ND : NoDup (map event (f_args (hypothesis s)))).
  { unfold distinct_ids in D. rewrite <- map_map in D. eapply NoDup_map_inv; eauto. }
  assert (NS : NoDup (source s)) by (rewrite ES; apply build_source_nodup).
  assert (NULL : f_conn (hypothesis s) = Null -> exists a, f_args (hypothesis s) = [a]).
  { intros K. unfold arity_ok in A. rewrite K in A. destruct A as [A _].
    destruct (f_args (hypothesis s)) as [|a [|b l]]; simpl in A; try lia. eauto. }
  assert (ALL : f_conn (hypothesis s) = And \/ f_conn (hypothesis s) = Null ->
                forall env, holds env (hypothesis s) <-> all_occur env s).
  { intros [K|K] env; [now apply and_means_all|]. destruct (NULL K) as (a & E).
    unfold holds, count_true, all_occur, hypothesis_events. rewrite K, E. simpl.
    assert (X : arg_true env a = env (event a)).
    { unfold arg_true. rewrite (NC a) by (rewrite E; simpl; auto). simpl. now destruct (env (event a)). }
    rewrite X. destruct (env (event a)) eqn:Ev; simpl; split; auto; try discriminate.
    - intros _ e (b & [<-|[]] & <-). auto.
    - intros H. assert (env (event a) = true) by (apply H; eauto). congruence. }
  unfold substitution_type. destruct (source s) as [|e l] eqn:S.
  - destruct (s_target s) as [t|b] eqn:T.
    + destruct (f_conn (hypothesis s)) eqn:K; auto. split; [eauto|]. split; [auto|congruence].
    + destruct (is_mutually_exclusive (hypothesis s)) eqn:X; auto. split; auto. split.
      * destruct HC as [(_ & _ & H)|(H & _)]; [|congruence]. destruct b; congruence.
      * intros env. rewrite <- (two_count s env NC ND). unfold is_mutually_exclusive in X. unfold holds.
        unfold arity_ok in A. destruct (f_conn (hypothesis s)) eqn:K; try discriminate.
        -- apply Nat.eqb_eq in X. assert (count_true env (f_args (hypothesis s)) <= Z.of_nat (length (f_args (hypothesis s))))%Z.
           { unfold count_true. apply inj_le. apply filter_length_le. }
           lia.
        -- unfold min_number in X. rewrite K in X. simpl in X. apply Z.eqb_eq in X. rewrite X. tauto.
  - destruct (s_target s) as [t|b] eqn:T; auto.
    assert (G : f_conn (hypothesis s) = And \/ f_conn (hypothesis s) = Null ->
      match (if Nat.eqb (length (e :: l)) (length (f_args (hypothesis s)))
             then if forallb (in_hypothesis s) (e :: l) then Some RecoveryRule else None
             else match l with [] => if in_hypothesis s e then Some ExchangeEvent else None | _ => None end) with
      | Some DeleteTerms => False
      | Some RecoveryRule => (exists t0, TEvent t = TEvent t0) /\
          (forall env, holds env (hypothesis s) <-> all_occur env s) /\
          (e :: l <> [] -> forall e0, In e0 (e :: l) <-> hypothesis_events s e0)
      | Some ExchangeEvent => (exists t0, TEvent t = TEvent t0) /\
          (forall env, holds env (hypothesis s) <-> all_occur env s) /\
          exists e0, e :: l = [e0] /\ hypothesis_events s e0 /\ exists e', e' <> e0 /\ hypothesis_events s e'
      | None => True
      end).
    { intros K. specialize (ALL K).
      assert (IH : forall x, in_hypothesis s x = true <-> hypothesis_events s x).
      { intros x. unfold in_hypothesis, hypothesis_events. rewrite existsb_exists. split; intros (a & Ha & E).
        - apply Nat.eqb_eq in E. eauto.
        - exists a. split; auto. now apply Nat.eqb_eq. }
      destruct (Nat.eqb_spec (length (e :: l)) (length (f_args (hypothesis s)))) as [L|L].
      - destruct (forallb (in_hypothesis s) (e :: l)) eqn:F; auto. rewrite forallb_forall in F.
        split; [eauto|]. split; auto. intros _ x. split; [intros Hx; apply IH; auto|].
        intros (a & Ha & <-).
        assert (incl (map event (f_args (hypothesis s))) (e :: l)).
        { apply NoDup_length_incl; auto.
          - rewrite map_length. lia.
          - intros x Hx. specialize (F x Hx). apply IH in F. destruct F as (b & Hb & <-). now apply in_map. }
        apply H. now apply in_map.
      - destruct l; auto. destruct (in_hypothesis s e) eqn:F; auto. apply IH in F.
        split; [eauto|]. split; auto. exists e. split; auto. split; auto.
        destruct F as (a & Ha & <-). destruct (f_args (hypothesis s)) as [|x [|y r]] eqn:FA; simpl in L; [contradiction|lia|].
        simpl in ND. inversion ND as [|? ? N1 N2]; subst. destruct (Nat.eq_dec (event x) (event a)) as [E|E].
        + exists (event y). split; [intros E2; apply N1; simpl; left; congruence|]. exists y. rewrite FA. simpl. auto.
        + exists (event x). split; auto. exists x. rewrite FA. simpl. auto. }
    destruct (f_conn (hypothesis s)) eqn:K; auto; specialize (G ltac:(auto));
      match goal with |- context [match ?x with Some _ => _ | None => _ end] => destruct x as [[| |]|]; tauto end.
Qed.

(** No type goes unreported: the converse for each declared form. *)
Theorem C29_type_complete s h : source s = build_source ev_id h ->
  formula_ok ev_id kTrue kFalse (hypothesis s) ->
  (source s = [] -> s_target s = TConst false -> f_conn (hypothesis s) = Atleast -> min_number (hypothesis s) = Some 2%Z ->
     substitution_type s = Some DeleteTerms) /\
  (source s = [] -> s_target s = TConst false -> f_conn (hypothesis s) = And -> length (f_args (hypothesis s)) = 2 ->
     substitution_type s = Some DeleteTerms) /\
  (forall t, source s = [] -> s_target s = TEvent t -> f_conn (hypothesis s) = And ->
     substitution_type s = Some RecoveryRule) /\
  (forall t, source s <> [] -> s_target s = TEvent t -> f_conn (hypothesis s) = And \/ f_conn (hypothesis s) = Null ->
     (forall e, In e (source s) <-> hypothesis_events s e) -> substitution_type s = Some RecoveryRule) /\
  (forall t e, source s = [e] -> s_target s = TEvent t -> f_conn (hypothesis s) = And -> hypothesis_events s e ->
     substitution_type s = Some ExchangeEvent).
Proof.
  intros ES (D & A & N).
  assert (ND : NoDup (map event (f_args (hypothesis s)))).
  { unfold distinct_ids in D. rewrite <- map_map in D. eapply NoDup_map_inv; eauto. }
  assert (NS : NoDup (source s)) by (rewrite ES; apply build_source_nodup).
  assert (IH : forall x, in_hypothesis s x = true <-> hypothesis_events s x).
  { intros x. unfold in_hypothesis, hypothesis_events. rewrite existsb_exists. split; intros (a & Ha & E).
    - apply Nat.eqb_eq in E. eauto.
    - exists a. split; auto. now apply Nat.eqb_eq. }
  unfold substitution_type, is_mutually_exclusive. repeat split.
  - intros -> -> -> ->. reflexivity.
  - intros -> -> -> ->. reflexivity.
  - intros t -> -> ->. reflexivity.
  - intros t NE T K H.
    assert (L : length (source s) = length (f_args (hypothesis s))).
    { rewrite <- (map_length event). apply Permutation_length. apply NoDup_Permutation; auto.
      intros x. rewrite H. unfold hypothesis_events. rewrite in_map_iff. split; intros (a & B & C); eauto. }
    assert (F : forallb (in_hypothesis s) (source s) = true).
    { apply forallb_forall. intros x Hx. apply IH. now apply H. }
    destruct (source s) as [|e l] eqn:S; [congruence|]. rewrite T, L, Nat.eqb_refl, F. destruct K as [-> | ->]; reflexivity.
  - intros t e E T K H. rewrite E, T, K. unfold arity_ok in A. rewrite K in A. destruct A as [A _].
    cbn [length]. destruct (Nat.eqb_spec 1 (length (f_args (hypothesis s)))); [lia|].
    now rewrite (proj2 (IH e) H).
Qed.
End subst.

Example C29_example :
  let h := mkFormula And 0 0 [mkArg false 1; mkArg false 2] in
  let s := mkSub h [2] (TEvent 3) in
  validate_substitution (fun _ => KBasic) s = None /\ formula_ok (fun x => x) 100 101 h /\
  substitution_type s = Some ExchangeEvent /\ source s = build_source (fun x => x) [2; 2].
Proof.
  simpl. repeat split; auto; try lia.
  - repeat constructor; simpl; intuition lia.
  - simpl. lia.
Qed.
