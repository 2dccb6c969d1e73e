(** Properties C25, C26, C27: common cause failure groups.
    Independent specification first, then the theorems about Ccf.v. *)
From Coq Require Import List Arith ZArith QArith Lqa Lia Bool Permutation.
From Verif Require Import Combination Ccf.
Import ListNotations.
Local Open Scope nat_scope.

(** ** Specification *)

(** The levels (multiplicities) that carry a probability: single failures and total
    failure for the beta-factor model; single failures and the given levels for MGL; the
    given levels for alpha and phi factors. *)
Definition has_level (g : group) (k : nat) : Prop :=
  match g_model g with
  | Beta => k = 1 \/ k = length (members g)
  | Mgl => k = 1 \/ exists e, In (Z.of_nat k, Some e) (factors g)
  | Alpha | Phi => exists e, In (Z.of_nat k, Some e) (factors g)
  end.

Definition sumQ (l : list Q) : Q := fold_right Qplus 0%Q l.

(** Reachable validated groups. *)
Definition valid_group (g : group) : Prop :=
  exists m h, run h (new_group m) = Ok g /\ validate g = None.

(** ** The levels of the computed probabilities *)
Lemma valid_inv g : valid_group g -> inv g /\ validate g = None.
Proof. intros (m & h & R & V). split; auto. now apply (run_inv h (new_group m) g (inv_new m) R). Qed.

Lemma last_level_ok g : inv g -> validate g = None ->
  last_level g = Z.to_nat (min_level g) + length (factors g) - 1.
Proof.
  intros I V. destruct (validated_levels g I V) as (NF & _ & _ & ML & B & L).
  unfold last_level.
  assert (LN : 0 < length (factors g)) by (destruct (factors g); simpl; [congruence|lia]).
  pose proof (last_nth (factors g) (0%Z, None) NF) as E. rewrite (L (length (factors g) - 1)) in E by lia.
  inversion E as [E1]. simpl. lia.
Qed.

Lemma factors_length_beta g : inv g -> validate g = None -> g_model g = Beta -> length (factors g) = 1.
Proof.
  intros I V M. destruct (validated_levels g I V) as (NF & _ & _ & ML & B & L).
  unfold min_level in B. rewrite M in B.
  destruct (factors g); simpl in *; [congruence|lia].
Qed.

Lemma nth_error_ext {A} : forall l1 l2 : list A, (forall i, nth_error l1 i = nth_error l2 i) -> l1 = l2.
Proof.
  induction l1 as [|x l1 IH]; intros [|y l2] H; auto; try (specialize (H 0); discriminate H).
  f_equal; [specialize (H 0); now inversion H|]. apply IH. intros i. apply (H (S i)).
Qed.

Lemma factors_map g : inv g -> validate g = None ->
  factors g = map (fun i => ((min_level g + Z.of_nat i)%Z, Some (the_factor g i))) (seq 0 (length (factors g))).
Proof.
  intros I V. destruct (validated_levels g I V) as (_ & _ & _ & _ & _ & L).
  apply nth_error_ext. intros i.
  destruct (Nat.lt_ge_cases i (length (factors g))) as [H|H].
  - rewrite L by auto. symmetry. apply (map_nth_error (fun i => ((min_level g + Z.of_nat i)%Z, Some (the_factor g i)))).
    rewrite nth_error_nth' with (d := 0) by (rewrite seq_length; auto).
    rewrite seq_nth by auto. reflexivity.
  - rewrite (proj2 (nth_error_None _ _)) by auto. symmetry. apply nth_error_None.
    rewrite map_length, seq_length. auto.
Qed.

(** Levels of the probabilities: [1; n] for Beta, 1..max for the others. *)
Definition levels (g : group) : list nat :=
  match g_model g with
  | Beta => [1; length (members g)]
  | _ => seq 1 (last_level g)
  end.
Lemma probabilities_levels g : inv g -> validate g = None ->
  map fst (probabilities g) = levels g.
Proof.
  intros I V. pose proof (last_level_ok g I V) as LL. pose proof (factors_map g I V) as FM.
  destruct (validated_levels g I V) as (NF & _ & _ & ML & B & L).
  unfold probabilities, levels. destruct (g_model g) eqn:M.
  - simpl. f_equal. f_equal. destruct (factors g) as [|f fs]; [congruence|].
    specialize (L 0 ltac:(simpl; lia)). simpl in L. inversion L. simpl.
    unfold min_level. rewrite M. lia.
  - rewrite map_map. simpl. now rewrite seq_shift.
  - rewrite map_map. simpl. now rewrite seq_shift.
  - rewrite map_map. cbn [fst]. rewrite LL. unfold min_level in *. rewrite M in *.
    rewrite FM at 1. rewrite map_map.
    replace (Z.to_nat 1 + length (factors g) - 1) with (length (factors g)) by lia.
    rewrite <- seq_shift. apply map_ext. intros i. cbn [fst]. lia.
Qed.

Lemma levels_spec g : inv g -> validate g = None ->
  NoDup (levels g) /\ (forall k, In k (levels g) <-> has_level g k) /\
  (forall k, In k (levels g) -> 1 <= k <= length (members g)).
Proof.
  intros I V. pose proof (last_level_ok g I V) as LL. pose proof (factors_map g I V) as FM.
  destruct (validated_levels g I V) as (NF & _ & N2 & ML & B & L).
  unfold levels, has_level, min_level in *. destruct (g_model g) eqn:M.
  - split; [|split].
    + repeat constructor; simpl; intuition lia.
    + intros k. simpl. intuition.
    + intros k. simpl. intuition lia.
  - split; [apply seq_NoDup|]. split; intros k; rewrite in_seq; [|lia]. split.
    + intros H. destruct (Nat.eq_dec k 1) as [->|]; auto. right. exists (the_factor g (k - 2)).
      rewrite FM. apply in_map_iff. exists (k - 2). split; [|apply in_seq; lia]. f_equal. lia.
    + intros [->|(e & H)]; [lia|]. rewrite FM in H. apply in_map_iff in H.
      destruct H as (i & E & H). apply in_seq in H. apply (f_equal fst) in E. cbn [fst] in E. lia.
  - split; [apply seq_NoDup|]. split; intros k; rewrite in_seq; [|lia]. split.
    + intros H. exists (the_factor g (k - 1)).
      rewrite FM. apply in_map_iff. exists (k - 1). split; [|apply in_seq; lia]. f_equal. lia.
    + intros (e & H). rewrite FM in H. apply in_map_iff in H.
      destruct H as (i & E & H). apply in_seq in H. apply (f_equal fst) in E. cbn [fst] in E. lia.
  - split; [apply seq_NoDup|]. split; intros k; rewrite in_seq; [|lia]. split.
    + intros H. exists (the_factor g (k - 1)).
      rewrite FM. apply in_map_iff. exists (k - 1). split; [|apply in_seq; lia]. f_equal. lia.
    + intros (e & H). rewrite FM in H. apply in_map_iff in H.
      destruct H as (i & E & H). apply in_seq in H. apply (f_equal fst) in E. cbn [fst] in E. lia.
Qed.

(** ** C26 *)
Definition expected_events (g : group) : list event :=
  flat_map (fun kp => map (fun c => mkEvent c (snd kp)) (combs (fst kp) (members g))) (probabilities g).

Lemma choose_pos : forall n k, k <= n -> 1 <= choose n k.
Proof. induction n as [|n IH]; intros [|k] H; simpl; try lia. specialize (IH k). lia. Qed.

Lemma containing_length m ms ps : NoDup ms -> In m ms ->
  (forall k p, In (k, p) ps -> 1 <= k <= length ms) ->
  length ps <= length (filter (fun e => existsb (Nat.eqb m) (ev_members e))
     (flat_map (fun kp => map (fun c => mkEvent c (snd kp)) (combs (fst kp) ms)) ps)).
Proof.
  intros ND Hm. induction ps as [|[k p] ps IH]; intros H; cbn [flat_map]; [simpl; lia|].
  rewrite filter_app, app_length, filter_map_comm, map_length. cbn [length fst snd].
  assert (K : 1 <= k <= length ms) by (apply (H k p); simpl; auto).
  destruct k as [|k]; [lia|].
  change (fun x => existsb (Nat.eqb m) (ev_members (mkEvent x p))) with (existsb (Nat.eqb m)).
  rewrite combs_containing by auto. pose proof (choose_pos (length ms - 1) k ltac:(lia)).
  specialize (IH (fun k p Hp => H k p (or_intror Hp))). lia.
Qed.

Lemma apply_model_ok g : inv g -> validate g = None -> 2 <= length (levels g) ->
  exists args, apply_model g = Ok (expected_events g, args) /\
    NoDup (map ev_members (expected_events g)) /\
    (forall m, args m = filter (fun e => existsb (Nat.eqb m) (ev_members e)) (expected_events g)).
Proof.
  intros I V H2. pose proof (probabilities_levels g I V) as PL.
  destruct (levels_spec g I V) as (NL & _ & BL).
  unfold apply_model. rewrite <- (map_length fst), PL.
  destruct (Nat.ltb_spec (length (levels g)) 2); [lia|].
  assert (BP : forall k p, In (k, p) (probabilities g) -> 1 <= k <= length (members g)).
  { intros k p Hp. apply BL. rewrite <- PL. apply in_map_iff. exists (k, p). auto. }
  destruct (apply_levels_ok (members g) (i_nodup _ I) (probabilities g) ([], fun _ => [])) as (st & E & C & F).
  - repeat split; simpl; try contradiction. constructor.
  - intros k p Hp. apply (BP k p Hp).
  - rewrite PL. auto.
  - simpl. auto.
  - rewrite E. destruct st as [events args]. simpl in F. fold (expected_events g) in F. subst events.
    destruct C as (C1 & C2 & C3). cbn [fst snd] in *. exists args.
    replace (forallb _ _) with true; auto. symmetry. apply forallb_forall. intros m Hm.
    apply Nat.leb_le. rewrite C3. eapply Nat.le_trans; [|apply containing_length; eauto using i_nodup].
    rewrite <- (map_length fst), PL. auto.
Qed.

(** Expansion of a validated group with at least one level above 1. *)
Theorem C26_expansion g : valid_group g -> (exists k, 2 <= k /\ has_level g k) ->
  exists events args, apply_model g = Ok (events, args) /\
    (* every event is a set of members whose size is a level *)
    (forall e, In e events -> NoDup (ev_members e) /\ incl (ev_members e) (members g)
                              /\ has_level g (length (ev_members e))) /\
    (* events are pairwise different sets *)
    NoDup events /\
    (forall e1 e2, In e1 events -> In e2 events -> Permutation (ev_members e1) (ev_members e2) -> e1 = e2) /\
    (* every such set of members has its event *)
    (forall S, NoDup S -> incl S (members g) -> has_level g (length S) ->
       exists e, In e events /\ Permutation (ev_members e) S) /\
    (* the arguments of a member's gate are the events that contain it, each once *)
    (forall m, In m (members g) -> NoDup (args m) /\ 2 <= length (args m)) /\
    (forall m e, In m (members g) -> (In e (args m) <-> In e events /\ In m (ev_members e))).
Proof.
  intros VG (k0 & K2 & HK). destruct (valid_inv g VG) as [I V].
  pose proof (probabilities_levels g I V) as PL.
  destruct (levels_spec g I V) as (NL & HL & BL).
  assert (N2 : 2 <= length (levels g)).
  { assert (H1 : In 1 (levels g)).
    { unfold levels. destruct (g_model g); simpl; auto; apply HL in HK; apply in_seq;
      pose proof (last_level_ok g I V);
      destruct (validated_levels g I V) as (NF & _ & _ & ML & _ & _);
      destruct (factors g); simpl in *; try congruence; lia. }
    apply HL in HK. destruct (levels g) as [|a [|b l]]; simpl in *; lia. }
  destruct (apply_model_ok g I V N2) as (args & E & ND & A).
  exists (expected_events g), args. split; auto.
  assert (IN : forall e, In e (expected_events g) <-> exists k, In (k, ev_prob e) (probabilities g)
             /\ In (ev_members e) (combs k (members g))).
  { intros e. unfold expected_events. rewrite in_flat_map. split.
    - intros ([k p] & Hp & He). apply in_map_iff in He. destruct He as (c & <- & Hc). eauto.
    - intros (k & Hp & Hc). exists (k, ev_prob e). split; auto. apply in_map_iff.
      exists (ev_members e). split; auto. now destruct e. }
  assert (LEN : forall e, In e (expected_events g) ->
     In (length (ev_members e), ev_prob e) (probabilities g) /\
     In (ev_members e) (combs (length (ev_members e)) (members g))).
  { intros e He. apply IN in He. destruct He as (k & Hp & Hc).
    destruct (combs_in k _ _ Hc) as (-> & _). auto. }
  split; [|split; [|split; [|split; [|split]]]].
  - intros e He. destruct (LEN e He) as [Hp Hc]. apply combs_in in Hc. destruct Hc as (_ & Hi & Hn).
    split; [apply Hn, (i_nodup _ I)|]. split; auto. apply HL. rewrite <- PL. apply in_map_iff.
    exists (length (ev_members e), ev_prob e). auto.
  - eapply NoDup_map_inv; eauto.
  - intros e1 e2 H1 H2 P. destruct (LEN e1 H1) as [Hp1 Hc1]. destruct (LEN e2 H2) as [Hp2 Hc2].
    rewrite <- (Permutation_length P) in Hc2, Hp2.
    assert (EM : ev_members e1 = ev_members e2).
    { apply (combs_unique (length (ev_members e1)) (members g)); auto. apply (i_nodup _ I). }
    assert (EP : ev_prob e1 = ev_prob e2).
    { rewrite <- PL in NL. clear -NL Hp1 Hp2. revert Hp1 Hp2. generalize (length (ev_members e1)).
      induction (probabilities g) as [|[k p] l IH]; intros n H1 H2; [contradiction|].
      simpl in NL. inversion NL as [|? ? N1 N2']; subst.
      destruct H1 as [H1|H1], H2 as [H2|H2].
      - congruence.
      - inversion H1; subst. exfalso. apply N1. apply in_map_iff. eexists; split; eauto. auto.
      - inversion H2; subst. exfalso. apply N1. apply in_map_iff. eexists; split; eauto. auto.
      - eapply IH; eauto. }
    destruct e1, e2. simpl in *. congruence.
  - intros S NS IS HS. apply HL in HS. rewrite <- PL in HS. apply in_map_iff in HS.
    destruct HS as ([k p] & Ek & Hp). simpl in Ek.
    destruct (combs_complete Nat.eq_dec k (members g) S (i_nodup _ I) NS IS (eq_sym Ek)) as (c & Hc & P).
    exists (mkEvent c p). split; auto. apply IN. exists k. auto.
  - intros m Hm. split.
    + rewrite A. apply NoDup_filter. eapply NoDup_map_inv; eauto.
    + rewrite A. eapply Nat.le_trans; [|apply containing_length; auto using i_nodup].
      * rewrite <- (map_length fst), PL. auto.
      * intros k p Hp. apply BL. rewrite <- PL. apply in_map_iff. exists (k, p). auto.
  - intros m e Hm. rewrite A, filter_In, existsb_In. tauto.
Qed.

(** A validated group with level 1 only (alpha or phi factors) is refused by ApplyModel's
    assertions: C26 without its second hypothesis is false. *)
Definition single_level_history : list op :=
  [OpMember 1; OpMember 2; OpDistribution (EVal (1 # 10)); OpFactor (EVal 1) (Some 1%Z)].
Theorem C26_single_level_refuted : forall m, m = Alpha \/ m = Phi ->
  exists g, run single_level_history (new_group m) = Ok g /\ validate g = None
            /\ apply_model g = Throw AssertFailure.
Proof. intros m [-> | ->]; eexists; split; [reflexivity| |reflexivity|]; split; reflexivity. Qed.

(** ** C27 *)
Definition reachable (g : group) : Prop := exists m h, run h (new_group m) = Ok g.
Lemma reachable_inv g : reachable g -> inv g.
Proof. intros (m & h & R). now apply (run_inv h (new_group m) g (inv_new m) R). Qed.

(** The level given, or else the one after the previous, starting from the minimum. *)
Definition requested_level (g : group) (level : option Z) : Z :=
  match level with
  | Some l => l
  | None => if (prev_level g =? 0)%Z then min_level g else (prev_level g + 1)%Z
  end.

Theorem C27_add_factor g f level : reachable g ->
  let l := requested_level g level in
  (* accepted exactly for a free level within bounds of a group with members *)
  ((exists g', add_factor f level g = Ok g') <->
     members g <> [] /\ (1 <= l)%Z /\ (min_level g <= l <= Z.of_nat (length (members g)))%Z
     /\ ~ exists e, In (l, Some e) (factors g)) /\
  (* and then exactly that level is added *)
  (forall g', add_factor f level g = Ok g' ->
     members g' = members g /\ g_model g' = g_model g /\ distribution g' = distribution g /\
     prev_level g' = l /\
     forall k e, In (k, Some e) (factors g') <-> In (k, Some e) (factors g) \/ (k = l /\ e = f)).
Proof.
  intros R l. pose proof (reachable_inv g R) as I.
  pose proof (add_factor_spec g f level I) as S. cbn zeta in S. fold l in S.
  change (deduced_level g level) with l in S.
  split.
  - destruct (add_factor f level g) as [g'|] eqn:A.
    + destruct S as ((S1 & S2 & S3 & S4) & _). split; [|eauto]. intros _.
      repeat split; auto; try lia. intros (e & He). apply (S4 e He).
    + split; [intros (? & ?); discriminate|]. intros (H1 & H2 & H3 & H4). exfalso. apply S.
      repeat split; auto; try lia. intros e1 He. apply H4. exists e1. exact He.
  - intros g' A. assert (P : prev_level g' = l).
    { clear S. unfold add_factor in A. fold (deduced_level g level) in A.
      change (deduced_level g level) with l in A.
      repeat match type of A with
      | (if ?b then _ else _) = _ => destruct b; try discriminate
      | match ?b with _ => _ end = _ => destruct b as [[? [?|]]|]; try discriminate
      end; inversion A; reflexivity. }
    rewrite A in S. destruct S as (_ & _ & S1 & S2 & S3 & S4). repeat split; auto; apply S4.
Qed.

Theorem C27_add_member g n : reachable g ->
  ((exists g', add_member n g = Ok g') <->
     distribution g = None /\ factors g = [] /\ ~ In n (members g)) /\
  (forall g', add_member n g = Ok g' -> members g' = members g ++ [n] /\ distribution g' = None /\ factors g' = []).
Proof.
  intros R. pose proof (add_member_spec n g (reachable_inv g R)) as S.
  destruct (add_member n g) as [g'|].
  - split; [split; [|eauto]; tauto|]. intros ? [= <-]. tauto.
  - split; [split; [intros (? & ?); discriminate|]|intros ? ?; discriminate].
    intros (? & ? & ?). exfalso. destruct S as [S|[S|S]]; congruence || contradiction.
Qed.

Theorem C27_add_distribution g d : reachable g ->
  ((exists g', add_distribution d g = Ok g') <-> distribution g = None /\ 2 <= length (members g)) /\
  (forall g', add_distribution d g = Ok g' ->
     members g' = members g /\ distribution g' = Some d /\ factors g' = factors g).
Proof.
  intros R. pose proof (add_distribution_spec d g (reachable_inv g R)) as S.
  destruct (add_distribution d g) as [g'|].
  - split; [split; [|eauto]; tauto|]. intros ? [= <-]. tauto.
  - split; [split; [intros (? & ?); discriminate|]|intros ? ?; discriminate].
    intros (H1 & H2). exfalso. destruct S as [S|S]; [congruence|lia].
Qed.

(** Validation passes exactly when everything is given, the factor levels are consecutive
    from the model's minimum up to a maximum that the group can have, the values are
    probabilities, and (phi model) the factors sum to 1 within 1e-4. *)
Definition prob_value (e : expr) : Prop := (0 <= value e /\ value e <= 1)%Q.
Definition levels_consecutive (g : group) : Prop :=
  exists max, (min_level g <= max <= Z.of_nat (length (members g)))%Z /\
    forall l, (exists e, In (l, Some e) (factors g)) <-> (min_level g <= l <= max)%Z.
Definition phi_sum (g : group) : Q :=
  sumQ (map (fun f => match snd f with Some e => value e | None => 0%Q end) (factors g)).

Lemma is_prob_spec e : is_prob e = true <-> prob_value e.
Proof. unfold is_prob, prob_value. rewrite andb_true_iff, !Qle_bool_iff. tauto. Qed.
Lemma do_validate_spec g : do_validate g = None <->
  (g_model g = Phi -> (phi_sum g - (1 # 10000) <= 1 /\ 1 <= phi_sum g + (1 # 10000))%Q).
Proof.
  unfold do_validate. destruct (g_model g); try (split; [intros _ ?; discriminate|reflexivity]).
  change (Qsum (factor_values g)) with (phi_sum g). generalize (phi_sum g). intros s.
  destruct (Qle_bool (1 - s) (1 # 10000)) eqn:A; simpl;
  [destruct (Qle_bool (- (1 - s)) (1 # 10000)) eqn:B|].
  - apply Qle_bool_iff in A. apply Qle_bool_iff in B. split; auto. intros _ _. split; lra.
  - split; [discriminate|]. intros H. destruct (H eq_refl) as [H1 H2].
    assert (Qle_bool (- (1 - s)) (1 # 10000) = true); [|congruence]. apply Qle_bool_iff. lra.
  - split; [discriminate|]. intros H. destruct (H eq_refl) as [H1 H2].
    assert (Qle_bool (1 - s) (1 # 10000) = true); [|congruence]. apply Qle_bool_iff. lra.
Qed.

Theorem C27_validate g : reachable g ->
  (validate g = None <->
     (exists d, distribution g = Some d /\ prob_value d) /\ members g <> [] /\
     levels_consecutive g /\ (forall l e, In (l, Some e) (factors g) -> prob_value e) /\
     (g_model g = Phi -> (phi_sum g - (1 # 10000) <= 1 /\ 1 <= phi_sum g + (1 # 10000))%Q)).
Proof.
  intros R. pose proof (reachable_inv g R) as I. split.
  - intros V. destruct (validated_levels g I V) as (NF & D & N2 & ML & B & L).
    pose proof (factors_map g I V) as FM.
    unfold validate in V. destruct (distribution g) as [d|] eqn:Dg; [|discriminate].
    destruct (members g) as [|m ms] eqn:M; [discriminate|].
    destruct (factors g) as [|f fs] eqn:F; [discriminate|]. rewrite <- M, <- F in *.
    destruct (is_prob d) eqn:P; [|discriminate].
    destruct (check_factors (factors g)) eqn:C; [discriminate|]. rewrite check_factors_ok in C.
    split; [exists d; split; auto; now apply is_prob_spec|]. split; [congruence|].
    split; [|split].
    + exists (min_level g + Z.of_nat (length (factors g)) - 1)%Z. split.
      * assert (1 <= length (factors g)) by (rewrite F; simpl; lia). lia.
      * intros l. split.
        -- intros (e & He). rewrite FM in He. apply in_map_iff in He. destruct He as (i & E & Hi).
           apply in_seq in Hi. apply (f_equal fst) in E. cbn [fst] in E. lia.
        -- intros Hl. exists (the_factor g (Z.to_nat (l - min_level g))). rewrite FM. apply in_map_iff.
           exists (Z.to_nat (l - min_level g)). split; [f_equal; lia|apply in_seq; lia].
    + intros l e He. destruct (C _ He) as (k & e' & [= -> ->] & Pe). now apply is_prob_spec.
    + now apply do_validate_spec.
  - intros ((d & Dg & P) & NM & (mx & Hmx & LC) & HP & HS). unfold validate. rewrite Dg.
    destruct (members g) as [|m ms] eqn:M; [congruence|].
    destruct (factors g) as [|f fs] eqn:F.
    { exfalso. destruct (proj2 (LC (min_level g)) ltac:(lia)) as (e & []). }
    rewrite <- F in *. rewrite (proj2 (is_prob_spec d) P).
    rewrite (proj2 (check_factors_ok (factors g))).
    + now apply do_validate_spec.
    + intros [k o] Hf. destruct (In_nth_error _ _ Hf) as (i & Hi).
      destruct o as [e|].
      * exists k, e. split; auto. apply is_prob_spec. eauto.
      * exfalso. assert (NF : factors g <> []) by (rewrite F; discriminate).
        (* the last entry is defined, so level min + i is below the maximum *)
        destruct (i_last _ I NF) as (l1 & e1 & E1). pose proof (last_nth _ (0%Z, None) NF) as LN.
        rewrite E1 in LN.
        assert (Hlen : i < length (factors g)) by (apply nth_error_Some; congruence).
        pose proof (i_level _ I _ _ _ LN) as LL.
        assert (Hl1 : (min_level g <= l1 <= mx)%Z) by (apply LC; exists e1; eapply nth_error_In; eauto).
        destruct (proj2 (LC (min_level g + Z.of_nat i)%Z)) as (e & He); [lia|].
        apply (defined_nth g _ e I) in He. destruct He as [_ He].
        replace (Z.to_nat (min_level g + Z.of_nat i - min_level g)) with i in He by lia. congruence.
Qed.

(** ** C25 *)
Local Open Scope Q_scope.

Lemma sumQ_app a b : sumQ (a ++ b) == sumQ a + sumQ b.
Proof. induction a as [|x a IH]; simpl; [ring|]. rewrite IH. ring. Qed.
Lemma sumQ_const {X} (f : X -> Q) c l : (forall x, In x l -> f x == c) -> sumQ (map f l) == nq (length l) * c.
Proof.
  induction l as [|x l IH]; intros H.
  - unfold nq. simpl. ring.
  - cbn [map sumQ fold_right length]. fold (sumQ (map f l)). rewrite IH by (intros; apply H; simpl; auto).
    rewrite (H x) by (simpl; auto).
    unfold nq. rewrite Nat2Z.inj_succ. unfold Z.succ. rewrite inject_Z_plus. change (inject_Z 1) with 1. ring.
Qed.
Lemma sumQ_ext {X} (f g : X -> Q) l : (forall x, In x l -> f x == g x) -> sumQ (map f l) == sumQ (map g l).
Proof.
  induction l as [|x l IH]; intros H; simpl; [reflexivity|].
  rewrite (H x) by (simpl; auto). rewrite IH by (intros; apply H; simpl; auto). reflexivity.
Qed.
Lemma sumQ_scale {X} (f : X -> Q) c l : sumQ (map (fun x => f x * c) l) == sumQ (map f l) * c.
Proof. induction l as [|x l IH]; simpl; [ring|]. rewrite IH. ring. Qed.

Lemma value_mul l : value (EMul l) = fold_right Qmult 1 (map value l).
Proof. induction l as [|x l IH]; [reflexivity|]. simpl in *. now rewrite IH. Qed.
Lemma value_add l : value (EAdd l) = sumQ (map value l).
Proof. induction l as [|x l IH]; [reflexivity|]. simpl in *. now rewrite IH. Qed.
Lemma prod_app a b : fold_right Qmult 1 (a ++ b) == fold_right Qmult 1 a * fold_right Qmult 1 b.
Proof. induction a as [|x a IH]; simpl; [ring|]. rewrite IH. ring. Qed.

Lemma member_total m ms ps : NoDup ms -> In m ms ->
  (forall k p, In (k, p) ps -> (1 <= k <= length ms)%nat) ->
  sumQ (map (fun e => value (ev_prob e)) (filter (fun e => existsb (Nat.eqb m) (ev_members e))
     (flat_map (fun kp => map (fun c => mkEvent c (snd kp)) (combs (fst kp) ms)) ps)))
  == sumQ (map (fun kp => nq (choose (length ms - 1) (fst kp - 1)) * value (snd kp)) ps).
Proof.
  intros ND Hm. induction ps as [|[k p] ps IH]; intros H; cbn [flat_map]; [reflexivity|].
  rewrite filter_app, map_app, sumQ_app, IH by (intros k' p' Hp; apply (H k' p'); simpl; auto).
  cbn [map sumQ fold_right fst snd]. apply Qplus_comp; [|reflexivity].
  assert (K : (1 <= k <= length ms)%nat) by (apply (H k p); simpl; auto).
  destruct k as [|k]; [lia|].
  rewrite filter_map_comm, map_map.
  change (fun x => existsb (Nat.eqb m) (ev_members (mkEvent x p))) with (existsb (Nat.eqb m)).
  rewrite (sumQ_const _ (value p)) by (intros; reflexivity).
  rewrite combs_containing by auto. rewrite Nat.sub_succ, Nat.sub_0_r. reflexivity.
Qed.

Lemma applied_total g events args m : valid_group g -> apply_model g = Ok (events, args) -> In m (members g) ->
  sumQ (map (fun e => value (ev_prob e)) (args m))
  == sumQ (map (fun kp => nq (choose (length (members g) - 1) (fst kp - 1)) * value (snd kp)) (probabilities g)).
Proof.
  intros VG A Hm. destruct (valid_inv g VG) as [I V].
  pose proof (probabilities_levels g I V) as PL. destruct (levels_spec g I V) as (NL & HL & BL).
  assert (N2 : (2 <= length (levels g))%nat).
  { unfold apply_model in A. rewrite <- PL, map_length.
    destruct (Nat.ltb_spec (length (probabilities g)) 2); [discriminate|auto]. }
  destruct (apply_model_ok g I V N2) as (args' & E & ND & AA). rewrite A in E. inversion E; subst.
  rewrite AA. apply member_total; auto; [apply (i_nodup _ I)|].
  intros k p Hp. apply BL. rewrite <- PL. apply in_map_iff. exists (k, p). auto.
Qed.

(** telescoping of the MGL products *)
Definition rho_prod (f : nat -> Q) (i : nat) : Q := fold_right Qmult 1 (map f (seq 0 i)).
Lemma rho_prod_S f i : rho_prod f (S i) == rho_prod f i * f i.
Proof. unfold rho_prod. rewrite seq_S, map_app, prod_app. simpl. ring. Qed.
Lemma mgl_telescope f q : forall L, (1 <= L)%nat ->
  sumQ (map (fun i => rho_prod f i * (if (i <? L - 1)%nat then 1 - f i else 1) * q) (seq 0 L)) == q.
Proof.
  assert (T : forall n, sumQ (map (fun i => rho_prod f i * (1 - f i) * q) (seq 0 n)) == q - rho_prod f n * q).
  { induction n as [|n IH]; [unfold rho_prod; simpl; ring|].
    rewrite seq_S, map_app, sumQ_app, IH, rho_prod_S. simpl. ring. }
  intros [|n] H; [lia|]. rewrite seq_S, map_app, sumQ_app.
  rewrite (sumQ_ext _ (fun i => rho_prod f i * (1 - f i) * q)).
  - rewrite T. cbn [map sumQ fold_right Nat.add].
    destruct (Nat.ltb_spec n (S n - 1)); [lia|]. ring.
  - intros i Hi. apply in_seq in Hi. destruct (Nat.ltb_spec i (S n - 1)); [reflexivity|lia].
Qed.

Definition alpha_sum (g : group) : Q :=
  sumQ (map (fun f => inject_Z (fst f) * match snd f with Some e => value e | None => 0 end) (factors g)).

(** The contributions of the events of a member add up to the member's total failure
    probability: beta, MGL, and alpha (when the weighted sum of factors is not zero). *)
Theorem C25_conservation g d events args m :
  valid_group g -> g_model g <> Phi -> (g_model g = Alpha -> ~ alpha_sum g == 0) ->
  distribution g = Some d ->
  apply_model g = Ok (events, args) -> In m (members g) ->
  sumQ (map (fun e => value (ev_prob e)) (args m)) == value d.
Proof.
  intros VG NP HA D A Hm. rewrite (applied_total g events args m VG A Hm).
  destruct (valid_inv g VG) as [I V].
  pose proof (last_level_ok g I V) as LL. pose proof (factors_map g I V) as FM.
  destruct (validated_levels g I V) as (NF & _ & N2 & ML & B & L).
  assert (TD : the_distribution g = d) by (unfold the_distribution; now rewrite D).
  assert (LF : (1 <= length (factors g))%nat) by (destruct (factors g); simpl; [congruence|lia]).
  unfold probabilities. rewrite TD. unfold min_level in *. destruct (g_model g) eqn:M.
  - (* beta *)
    cbn [map sumQ fold_right fst snd]. rewrite !value_mul. cbn [map fold_right].
    specialize (L 0%nat LF). destruct (factors g) as [|f fs] eqn:F; [congruence|].
    simpl in L. inversion L; subst f. cbn [hd fst].
    replace (Z.to_nat (Z.of_nat (length (members g)) + 0)) with (length (members g)) by lia.
    rewrite choose_nn. simpl (choose _ (1 - 1)). rewrite choose_0. change (nq 1) with 1.
    cbn [value]. ring.
  - (* mgl *)
    rewrite map_map. cbn [fst snd].
    rewrite (sumQ_ext _ (fun i => rho_prod (fun j => value (the_factor g j)) i *
        (if (i <? last_level g - 1)%nat then 1 - value (the_factor g i) else 1) * value d)).
    + apply mgl_telescope. lia.
    + intros i Hi. apply in_seq in Hi. rewrite Nat.sub_succ, Nat.sub_0_r.
      rewrite value_mul, !map_app, !prod_app, map_map. cbn [map fold_right value].
      fold (rho_prod (fun j => value (the_factor g j)) i).
      pose proof (reciprocal_spec (length (members g) - 1) i ltac:(lia)) as RS.
      set (c := nq _) in *. set (r := reciprocal _ _) in *.
      transitivity (c * r * (rho_prod (fun j => value (the_factor g j)) i *
        fold_right Qmult 1 (map value (if (i <? last_level g - 1)%nat then [ESub (EVal 1) (the_factor g i)] else [])) * value d)).
      { ring. }
      rewrite RS. destruct (i <? last_level g - 1)%nat; cbn [map fold_right value]; ring.
  - (* alpha *)
    rewrite map_map. cbn [fst snd]. specialize (HA eq_refl).
    set (sum := EAdd _). assert (SE : value sum == alpha_sum g).
    { unfold sum. rewrite value_add, map_map. unfold alpha_sum. apply sumQ_ext. intros [k o] _.
      rewrite value_mul. cbn [map fold_right value fst snd]. destruct o; cbn [value]; ring. }
    rewrite (sumQ_ext _ (fun i => (inject_Z (Z.of_nat (S i)) * value (the_factor g i)) * (value d / alpha_sum g))).
    + rewrite sumQ_scale.
      assert (AS : sumQ (map (fun i => inject_Z (Z.of_nat (S i)) * value (the_factor g i)) (seq 0 (last_level g))) == alpha_sum g).
      { unfold alpha_sum. rewrite LL. replace (Z.to_nat 1 + length (factors g) - 1)%nat with (length (factors g)) by lia.
        rewrite FM at 2. rewrite map_map. apply sumQ_ext. intros i _. cbn [fst snd].
        replace (Z.of_nat (S i)) with (1 + Z.of_nat i)%Z by lia. reflexivity. }
      rewrite AS. field. auto.
    + intros i Hi. apply in_seq in Hi. rewrite Nat.sub_succ, Nat.sub_0_r.
      rewrite value_mul. cbn [map fold_right value].
      pose proof (reciprocal_spec (length (members g) - 1) i ltac:(lia)) as RS.
      set (c := nq _) in *. set (r := reciprocal _ _) in *.
      transitivity (c * r * (inject_Z (Z.of_nat (S i)) * (value (the_factor g i) / value sum) * value d)); [unfold Qdiv; ring|].
      rewrite RS. rewrite SE. field. auto.
  - congruence.
Qed.

(** Phi factors: the total is the weighted sum, which is not the member's probability. *)
Theorem C25_phi_total g d events args m :
  valid_group g -> g_model g = Phi -> distribution g = Some d ->
  apply_model g = Ok (events, args) -> In m (members g) ->
  sumQ (map (fun e => value (ev_prob e)) (args m)) ==
  sumQ (map (fun f => nq (choose (length (members g) - 1) (Z.to_nat (fst f) - 1))
                      * match snd f with Some e => value e | None => 0 end) (factors g)) * value d.
Proof.
  intros VG M D A Hm. rewrite (applied_total g events args m VG A Hm).
  assert (TD : the_distribution g = d) by (unfold the_distribution; now rewrite D).
  unfold probabilities. rewrite M, TD, map_map. rewrite <- sumQ_scale. apply sumQ_ext. intros [k o] _.
  cbn [fst snd]. rewrite value_mul. cbn [map fold_right]. destruct o; cbn [value]; ring.
Qed.

Definition phi_history : list op :=
  [OpMember 1; OpMember 2; OpMember 3; OpDistribution (EVal (1 # 10));
   OpFactor (EVal (5 # 10)) (Some 1%Z); OpFactor (EVal (3 # 10)) None; OpFactor (EVal (2 # 10)) None].
Theorem C25_phi_refuted : exists g events args,
  run phi_history (new_group Phi) = Ok g /\ validate g = None /\
  apply_model g = Ok (events, args) /\ In 1%nat (members g) /\
  distribution g = Some (EVal (1 # 10)) /\
  sumQ (map (fun e => value (ev_prob e)) (args 1%nat)) == 13 # 100.
Proof.
  eexists _, _, _. split; [vm_compute; reflexivity|]. split; [vm_compute; reflexivity|].
  split; [vm_compute; reflexivity|]. split; [simpl; auto|]. split; [reflexivity|]. vm_compute. reflexivity.
Qed.

(** Non-vacuity: concrete groups of the three conserving models. *)
Definition example_history (m : model) : list op :=
  [OpMember 4; OpMember 7; OpMember 9; OpDistribution (EVal (1 # 10))] ++
  match m with
  | Beta => [OpFactor (EVal (2 # 10)) None]
  | Mgl => [OpFactor (EVal (2 # 10)) None; OpFactor (EVal (3 # 10)) (Some 3%Z)]
  | _ => [OpFactor (EVal (2 # 10)) (Some 2%Z); OpFactor (EVal (7 # 10)) (Some 1%Z); OpFactor (EVal (1 # 10)) (Some 3%Z)]
  end.
Example C25_example : forall m, exists g events args,
  run (example_history m) (new_group m) = Ok g /\ validate g = None /\
  apply_model g = Ok (events, args) /\ (2 <= length events)%nat /\
  (m = Alpha -> ~ alpha_sum g == 0) /\
  (exists k, (2 <= k)%nat /\ has_level g k).
Proof.
  intros m. destruct m; eexists _, _, _;
  (split; [vm_compute; reflexivity|]; split; [vm_compute; reflexivity|];
   split; [vm_compute; reflexivity|]; split; [vm_compute; lia|]; split;
   [intros; try discriminate; vm_compute; discriminate|]; exists 3%nat; split; [lia|]; unfold has_level; simpl; eauto 8).
Qed.
