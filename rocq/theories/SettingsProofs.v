From Coq Require Import ZArith QArith String Bool List Lia.
From Verif Require Import Settings.
Import ListNotations.

Ltac brk :=
  repeat match goal with
  | H : context [match ?x with _ => _ end] |- _ => destruct x eqn:?; try discriminate
  | H : context [if ?x then _ else _] |- _ => destruct x eqn:?; try discriminate
  end.

Lemma alg_eqb_iff a b : algorithm_eqb a b = true <-> a = b.
Proof. destruct a, b; simpl; split; congruence. Qed.
Lemma apx_eqb_iff a b : approximation_eqb a b = true <-> a = b.
Proof. destruct a, b; simpl; split; congruence. Qed.

Lemma default_consistent : consistent default_settings.
Proof. constructor; simpl; try discriminate; try lia; intuition discriminate. Qed.

Ltac solve_step :=
  repeat match goal with
  | H : Ok _ = Ok _ |- _ => injection H as <-
  | H : Throw _ = Throw _ |- _ => injection H as <-
  | H : Throw _ = Ok _ |- _ => discriminate H
  | H : Ok _ = Throw _ |- _ => discriminate H
  | H : Terminate = _ |- _ => discriminate H
  end.

Lemma do_approximation_Ok v s s' : do_approximation v s = Ok s' ->
  s' = set_approx v s /\ (v = kNone \/ prime_implicants s = false).
Proof.
  unfold do_approximation. destruct v; simpl; intros H;
  destruct (prime_implicants s) eqn:E; try discriminate; injection H as <-; auto.
Qed.
Lemma do_approximation_Throw v s s' : do_approximation v s = Throw s' -> s' = s.
Proof. unfold do_approximation. destruct (_ && _); congruence. Qed.

Lemma do_prime_Ok b s s' : do_prime_implicants b s = Ok s' ->
  (b = true /\ algo s = kBdd /\ s' = set_approx kNone (set_prime true s)) \/
  (b = false /\ s' = set_prime false s).
Proof.
  unfold do_prime_implicants. destruct s as [pa sil imp unc cc pi al ap lo sd nt nq nb mt ts co]; destruct b; simpl; destruct al; simpl; intros H;
    try discriminate; injection H as <-; auto.
Qed.
Lemma do_prime_Throw b s s' : do_prime_implicants b s = Throw s' -> s' = s.
Proof.
  unfold do_prime_implicants. destruct s as [pa sil imp unc cc pi al ap lo sd nt nq nb mt ts co]; destruct b; simpl; destruct al; simpl; intros H; try discriminate H; congruence.
Qed.

Lemma do_algorithm_cases v s :
  do_algorithm v s =
  match v with
  | kBdd => Ok (set_approx kNone (set_algo v s))
  | _ => if approximation_eqb (approx s) kNone
         then if prime_implicants s then Terminate
              else Ok (set_approx kRareEvent (set_algo v s))
         else Ok (if prime_implicants s then set_prime false (set_algo v s) else set_algo v s)
  end.
Proof.
  destruct s as [pa sil imp unc cc pi al ap lo sd nt nq nb mt ts co]; destruct v, ap, pi; reflexivity.
Qed.

Lemma step_consistent c s s' :
  consistent s -> (run_call c s = Ok s' \/ run_call c s = Throw s') -> consistent s'.
Proof.
  intros [P1 P2 P3 P4 P5 P6 P7 P8] H.
  assert (Halg : forall v t, do_algorithm v s = Ok t -> consistent t).
  { intros v t Ht. rewrite do_algorithm_cases in Ht.
    destruct s as [pa sil imp unc cc pi al ap lo sd nt nq nb mt ts co]; destruct v, ap, pi; simpl in *; try discriminate;
      injection Ht as <-; constructor; simpl; auto; try discriminate; intuition congruence. }
  assert (Halg2 : forall v t, do_algorithm v s = Throw t -> consistent t).
  { intros v t Ht. rewrite do_algorithm_cases in Ht. brk; discriminate. }
  assert (Happ : forall v t, do_approximation v s = Ok t -> consistent t).
  { intros v t Ht. apply do_approximation_Ok in Ht as [-> Hv].
    destruct s as [pa sil imp unc cc pi al ap lo sd nt nq nb mt ts co]; simpl in *; constructor; simpl; auto.
    intros ->; destruct Hv; [|discriminate]; subst; intuition. }
  assert (Hself : forall t, t = s -> consistent t) by (intros t ->; constructor; auto).
  destruct c; simpl in H; destruct H as [H|H].
  - eauto. - eauto.
  - unfold do_algorithm_str in H; destruct (algorithm_of_string x); [eauto|discriminate].
  - unfold do_algorithm_str in H; destruct (algorithm_of_string x); [eauto|]; injection H as <-; auto.
  - eauto. - apply do_approximation_Throw in H; auto.
  - unfold do_approximation_str in H; destruct (approximation_of_string x); [eauto|discriminate].
  - unfold do_approximation_str in H; destruct (approximation_of_string x);
      [apply do_approximation_Throw in H; auto|]; injection H as <-; auto.
  - apply do_prime_Ok in H as [(-> & Ha & ->)|(-> & ->)]; destruct s as [pa sil imp unc cc pi al ap lo sd nt nq nb mt ts co]; simpl in *; constructor; simpl; auto; discriminate.
  - apply do_prime_Throw in H; auto.
  - unfold do_limit_order in H; destruct (Z.ltb_spec n 0); [discriminate|].
    injection H as <-; destruct s as [pa sil imp unc cc pi al ap lo sd nt nq nb mt ts co]; constructor; simpl in *; auto.
  - unfold do_limit_order in H; destruct (Z.ltb_spec n 0); [|discriminate]; injection H as <-; auto.
  - unfold do_cut_off in H; destruct (_ || _); [discriminate|].
    injection H as <-; destruct s as [pa sil imp unc cc pi al ap lo sd nt nq nb mt ts co]; constructor; simpl in *; auto.
  - unfold do_cut_off in H; destruct (_ || _); [|discriminate]; injection H as <-; auto.
  - unfold do_num_trials in H; destruct (Z.ltb_spec n 1); [discriminate|].
    injection H as <-; destruct s as [pa sil imp unc cc pi al ap lo sd nt nq nb mt ts co]; constructor; simpl in *; auto.
  - unfold do_num_trials in H; destruct (Z.ltb_spec n 1); [|discriminate]; injection H as <-; auto.
  - unfold do_num_quantiles in H; destruct (Z.ltb_spec n 1); [discriminate|].
    injection H as <-; destruct s as [pa sil imp unc cc pi al ap lo sd nt nq nb mt ts co]; constructor; simpl in *; auto.
  - unfold do_num_quantiles in H; destruct (Z.ltb_spec n 1); [|discriminate]; injection H as <-; auto.
  - unfold do_num_bins in H; destruct (Z.ltb_spec n 1); [discriminate|].
    injection H as <-; destruct s as [pa sil imp unc cc pi al ap lo sd nt nq nb mt ts co]; constructor; simpl in *; auto.
  - unfold do_num_bins in H; destruct (Z.ltb_spec n 1); [|discriminate]; injection H as <-; auto.
  - unfold do_seed in H; destruct (Z.ltb_spec n 0); [discriminate|].
    injection H as <-; destruct s as [pa sil imp unc cc pi al ap lo sd nt nq nb mt ts co]; constructor; simpl in *; auto.
  - unfold do_seed in H; destruct (Z.ltb_spec n 0); [|discriminate]; injection H as <-; auto.
  - unfold do_mission_time in H; destruct (dlt _ _); [discriminate|].
    injection H as <-; destruct s as [pa sil imp unc cc pi al ap lo sd nt nq nb mt ts co]; constructor; simpl in *; auto.
  - unfold do_mission_time in H; destruct (dlt _ _); [|discriminate]; injection H as <-; auto.
  - unfold do_time_step in H; destruct (dlt _ _); [discriminate|].
    destruct (dzero t) eqn:Ez; destruct (safety_integrity_levels s) eqn:Es; simpl in H; try discriminate;
    injection H as <-; destruct s as [pa sil imp unc cc pi al ap lo sd nt nq nb mt ts co]; simpl in *; constructor; simpl in *; auto; intuition congruence.
  - unfold do_time_step in H; destruct (dlt _ _); [injection H as <-; auto|].
    destruct (_ && _); [|discriminate]; injection H as <-; auto.
  - unfold do_sil in H. destruct b; simpl in H.
    + destruct (dzero (time_step s)) eqn:E; [discriminate|]. injection H as <-.
      destruct s as [pa sil imp unc cc pi al ap lo sd nt nq nb mt ts co]; constructor; simpl in *; auto.
    + injection H as <-. destruct s as [pa sil imp unc cc pi al ap lo sd nt nq nb mt ts co]; constructor; simpl in *; auto; try discriminate; intuition discriminate.
  - unfold do_sil in H. destruct (_ && _); [|discriminate]; injection H as <-; auto.
  - unfold do_probability in H. injection H as <-.
    destruct s as [pa sil imp unc cc pi al ap lo sd nt nq nb mt ts co]; simpl; destruct imp, unc, sil; simpl in *; constructor; simpl; auto; intuition congruence.
  - unfold do_probability in H. discriminate.
  - unfold do_importance in H. injection H as <-.
    destruct s as [pa sil imp unc cc pi al ap lo sd nt nq nb mt ts co]; destruct b; constructor; simpl in *; auto; intuition congruence.
  - discriminate.
  - unfold do_uncertainty in H. injection H as <-.
    destruct s as [pa sil imp unc cc pi al ap lo sd nt nq nb mt ts co]; destruct b; constructor; simpl in *; auto; intuition congruence.
  - discriminate.
  - unfold do_ccf in H. injection H as <-. destruct s as [pa sil imp unc cc pi al ap lo sd nt nq nb mt ts co]; constructor; simpl in *; auto.
  - discriminate.
Qed.

Lemma throw_unchanged c s s' : run_call c s = Throw s' -> s' = s.
Proof.
  destruct c; simpl; intros H;
  try (apply do_approximation_Throw in H; assumption);
  try (apply do_prime_Throw in H; assumption).
  - rewrite do_algorithm_cases in H; brk.
  - unfold do_algorithm_str in H; destruct (algorithm_of_string x); [|congruence].
    rewrite do_algorithm_cases in H; brk.
  - unfold do_approximation_str in H; destruct (approximation_of_string x); [|congruence].
    now apply do_approximation_Throw in H.
  - unfold do_limit_order in H; brk; congruence.
  - unfold do_cut_off in H; destruct (_ || _); congruence.
  - unfold do_num_trials in H; destruct (_ <? _)%Z; congruence.
  - unfold do_num_quantiles in H; destruct (_ <? _)%Z; congruence.
  - unfold do_num_bins in H; destruct (_ <? _)%Z; congruence.
  - unfold do_seed in H; destruct (_ <? _)%Z; congruence.
  - unfold do_mission_time in H; destruct (dlt _ _); congruence.
  - unfold do_time_step in H; destruct (dlt _ _); [congruence|]; destruct (_ && _); congruence.
  - unfold do_sil in H; destruct (_ && _); congruence.
  - unfold do_probability in H; congruence.
  - unfold do_importance in H; congruence.
  - unfold do_uncertainty in H; congruence.
  - unfold do_ccf in H; congruence.
Qed.

Lemma run_calls_consistent cs : forall s s',
  consistent s -> run_calls cs s = Some s' -> consistent s'.
Proof.
  induction cs as [|c cs IH]; simpl; intros s s' Hs H; [congruence|].
  destruct (run_call c s) eqn:E; try discriminate;
    eapply IH; [|exact H| |exact H]; eapply step_consistent; eauto.
Qed.

(** Which calls abort the process: exactly a switch to a non-BDD algorithm while
    prime implicants are requested (in a reachable state). *)
Definition selects_non_bdd (c : call) : Prop :=
  (exists v, c = CAlgorithm v /\ v <> kBdd) \/ c = CAlgorithmStr "zbdd" \/ c = CAlgorithmStr "mocus".

Lemma algorithm_of_string_Some x v : algorithm_of_string x = Some v ->
  (x = "bdd" /\ v = kBdd) \/ (x = "zbdd" /\ v = kZbdd) \/ (x = "mocus" /\ v = kMocus).
Proof.
  unfold algorithm_of_string.
  destruct (String.eqb_spec x "bdd"); [intros [= <-]; auto|].
  destruct (String.eqb_spec x "zbdd"); [intros [= <-]; auto|].
  destruct (String.eqb_spec x "mocus"); [intros [= <-]; auto|discriminate].
Qed.

Lemma do_algorithm_terminate v s : consistent s ->
  (do_algorithm v s = Terminate <-> prime_implicants s = true /\ v <> kBdd).
Proof.
  intros C. rewrite do_algorithm_cases. pose proof (c_prime s C) as HP.
  destruct v.
  - split; [discriminate|]. intros [_ H]; congruence.
  - destruct (prime_implicants s).
    + destruct (HP eq_refl) as [_ ->]. simpl. split; [split; congruence|auto].
    + destruct (approximation_eqb _ _); split; try discriminate; intuition discriminate.
  - destruct (prime_implicants s).
    + destruct (HP eq_refl) as [_ ->]. simpl. split; [split; congruence|auto].
    + destruct (approximation_eqb _ _); split; try discriminate; intuition discriminate.
Qed.

Lemma terminate_iff c s : consistent s ->
  (run_call c s = Terminate <-> prime_implicants s = true /\ selects_non_bdd c).
Proof.
  intros C. unfold selects_non_bdd.
  destruct c; simpl;
  try (split; [|intros [_ [(?&?&_)|[?|?]]]; congruence];
       unfold do_approximation, do_limit_order, do_cut_off, do_num_trials, do_num_quantiles,
         do_num_bins, do_seed, do_mission_time, do_time_step, do_sil, do_probability,
         do_importance, do_uncertainty, do_ccf;
       repeat match goal with |- context [if ?x then _ else _] => destruct x end; discriminate).
  - rewrite do_algorithm_terminate by auto. split.
    + intros [? ?]; split; eauto.
    + intros [? [(w & [= <-] & ?)|[?|?]]]; [auto| |]; discriminate.
  - unfold do_algorithm_str. destruct (algorithm_of_string x) eqn:E.
    + rewrite do_algorithm_terminate by auto.
      apply algorithm_of_string_Some in E as [[-> ->]|[[-> ->]|[-> ->]]].
      * split; [intuition|]. intros [? [(?&?&_)|[?|?]]]; congruence.
      * split; intros [? ?]; split; auto; discriminate.
      * split; intros [? ?]; split; auto; discriminate.
    + split; [discriminate|]. intros [_ [(?&?&_)|[E1|E1]]]; [discriminate| |];
        injection E1 as ->; discriminate.
  - unfold do_approximation_str. destruct (approximation_of_string x).
    + unfold do_approximation. split; [destruct (_ && _); discriminate|].
      intros [_ [(?&?&_)|[?|?]]]; congruence.
    + split; [discriminate|]. intros [_ [(?&?&_)|[?|?]]]; congruence.
  - split.
    + unfold do_prime_implicants. destruct s as [pa sil imp unc cc pi al ap lo sd nt nq nb mt ts co]; destruct b, al; simpl; discriminate.
    + intros [_ [(?&?&_)|[?|?]]]; congruence.
Qed.

Lemma dlt_fin0 t : dlt t (Fin 0) = false -> t <> NaN -> nonneg_time t.
Proof.
  destruct t; simpl; intros H N; try congruence.
  - right. exists q; split; auto. apply Qle_bool_iff. now destruct (Qle_bool 0 q).
  - now left.
Qed.
Lemma unit_ok p : dlt p (Fin 0) || dlt (Fin 1) p = false -> p <> NaN -> in_unit p.
Proof.
  rewrite orb_false_iff. intros [A B] N. destruct p; simpl in *; try congruence.
  exists q. split; auto. split; apply Qle_bool_iff; [now destruct (Qle_bool 0 q)|now destruct (Qle_bool q 1)].
Qed.

Lemma default_ranges : float_ranges default_settings.
Proof.
  split; [|split]; simpl.
  - eexists; split; [reflexivity|]. split; discriminate.
  - right; eexists; split; [reflexivity|]. discriminate.
  - right; eexists; split; [reflexivity|]. discriminate.
Qed.

Lemma ranges_ext s s' : cut_off s' = cut_off s -> mission_time s' = mission_time s ->
  time_step s' = time_step s -> float_ranges s -> float_ranges s'.
Proof. unfold float_ranges. now intros -> -> ->. Qed.

Lemma step_ranges c s s' : no_nan_arg c -> float_ranges s -> run_call c s = Ok s' -> float_ranges s'.
Proof.
  intros N R H.
  assert (Ha : forall v t, do_algorithm v s = Ok t -> float_ranges t).
  { intros v t Ht. rewrite do_algorithm_cases in Ht.
    eapply ranges_ext; [..|exact R]; destruct s as [pa sil imp unc cc pi al ap lo sd nt nq nb mt ts co]; destruct v, ap, pi; simpl in *;
      try discriminate; injection Ht as <-; reflexivity. }
  assert (Hx : forall v t, do_approximation v s = Ok t -> float_ranges t).
  { intros v t Ht. apply do_approximation_Ok in Ht as [-> _].
    eapply ranges_ext; [..|exact R]; destruct s as [pa sil imp unc cc pi al ap lo sd nt nq nb mt ts co]; reflexivity. }
  destruct c; simpl in H.
  - eauto.
  - unfold do_algorithm_str in H; destruct (algorithm_of_string x); [eauto|discriminate].
  - eauto.
  - unfold do_approximation_str in H; destruct (approximation_of_string x); [eauto|discriminate].
  - apply do_prime_Ok in H as [(-> & Ha' & ->)|(-> & ->)];
      (eapply ranges_ext; [..|exact R]; destruct s as [pa sil imp unc cc pi al ap lo sd nt nq nb mt ts co]; reflexivity).
  - unfold do_limit_order in H; destruct (_ <? _)%Z; [discriminate|]; injection H as <-.
    eapply ranges_ext; [..|exact R]; destruct s as [pa sil imp unc cc pi al ap lo sd nt nq nb mt ts co]; reflexivity.
  - unfold do_cut_off in H; destruct (_ || _) eqn:E; [discriminate|]; injection H as <-.
    destruct R as (R1 & R2 & R3). apply unit_ok in E; [|exact N].
    destruct s as [pa sil imp unc cc pi al ap lo sd nt nq nb mt ts co]; repeat split; simpl in *; auto.
  - unfold do_num_trials in H; destruct (_ <? _)%Z; [discriminate|]; injection H as <-.
    eapply ranges_ext; [..|exact R]; destruct s as [pa sil imp unc cc pi al ap lo sd nt nq nb mt ts co]; reflexivity.
  - unfold do_num_quantiles in H; destruct (_ <? _)%Z; [discriminate|]; injection H as <-.
    eapply ranges_ext; [..|exact R]; destruct s as [pa sil imp unc cc pi al ap lo sd nt nq nb mt ts co]; reflexivity.
  - unfold do_num_bins in H; destruct (_ <? _)%Z; [discriminate|]; injection H as <-.
    eapply ranges_ext; [..|exact R]; destruct s as [pa sil imp unc cc pi al ap lo sd nt nq nb mt ts co]; reflexivity.
  - unfold do_seed in H; destruct (_ <? _)%Z; [discriminate|]; injection H as <-.
    eapply ranges_ext; [..|exact R]; destruct s as [pa sil imp unc cc pi al ap lo sd nt nq nb mt ts co]; reflexivity.
  - unfold do_mission_time in H; destruct (dlt _ _) eqn:E; [discriminate|]; injection H as <-.
    destruct R as (R1 & R2 & R3). apply dlt_fin0 in E; [|exact N].
    destruct s as [pa sil imp unc cc pi al ap lo sd nt nq nb mt ts co]; repeat split; simpl in *; auto.
  - unfold do_time_step in H; destruct (dlt _ _) eqn:E; [discriminate|].
    destruct (_ && _); [discriminate|]; injection H as <-.
    destruct R as (R1 & R2 & R3). apply dlt_fin0 in E; [|exact N].
    destruct s as [pa sil imp unc cc pi al ap lo sd nt nq nb mt ts co]; repeat split; simpl in *; auto.
  - unfold do_sil in H. destruct (_ && _); [discriminate|]. injection H as <-.
    eapply ranges_ext; [..|exact R]; destruct s as [pa sil imp unc cc pi al ap lo sd nt nq nb mt ts co]; destruct b; reflexivity.
  - unfold do_probability in H. injection H as <-.
    eapply ranges_ext; [..|exact R]; destruct (_ && _); destruct s as [pa sil imp unc cc pi al ap lo sd nt nq nb mt ts co]; reflexivity.
  - unfold do_importance in H. injection H as <-.
    eapply ranges_ext; [..|exact R]; destruct s as [pa sil imp unc cc pi al ap lo sd nt nq nb mt ts co]; destruct b; reflexivity.
  - unfold do_uncertainty in H. injection H as <-.
    eapply ranges_ext; [..|exact R]; destruct s as [pa sil imp unc cc pi al ap lo sd nt nq nb mt ts co]; destruct b; reflexivity.
  - unfold do_ccf in H. injection H as <-.
    eapply ranges_ext; [..|exact R]; destruct s as [pa sil imp unc cc pi al ap lo sd nt nq nb mt ts co]; reflexivity.
Qed.

Lemma run_calls_ranges cs : forall s s', Forall no_nan_arg cs ->
  float_ranges s -> run_calls cs s = Some s' -> float_ranges s'.
Proof.
  induction cs as [|c cs IH]; simpl; intros s s' HN Hs H; [congruence|].
  apply Forall_cons_iff in HN as [N1 N2].
  destruct (run_call c s) eqn:E; try discriminate.
  - eapply IH; [exact N2|eapply step_ranges; eauto|exact H].
  - apply throw_unchanged in E. subst. eapply IH; eauto.
Qed.

(** Setters set: after a successful call the getter returns the argument. *)
Definition set_ok (c : call) (s : settings) : Prop :=
  match c with
  | CAlgorithm v => algo s = v
  | CAlgorithmStr x => algorithm_of_string x = Some (algo s)
  | CApproximation v => approx s = v
  | CApproximationStr x => approximation_of_string x = Some (approx s)
  | CPrimeImplicants b => prime_implicants s = b
  | CLimitOrder n => limit_order s = n
  | CCutOff p => cut_off s = p
  | CNumTrials n => num_trials s = n
  | CNumQuantiles n => num_quantiles s = n
  | CNumBins n => num_bins s = n
  | CSeed n => seed s = n
  | CMissionTime t => mission_time s = t
  | CTimeStep t => time_step s = t
  | CSil b => safety_integrity_levels s = b
  | CProbability b => probability_analysis s = b \/ importance_analysis s = true
      \/ uncertainty_analysis s = true \/ safety_integrity_levels s = true
  | CImportance b => importance_analysis s = b
  | CUncertainty b => uncertainty_analysis s = b
  | CCcf b => ccf_analysis s = b
  end.

Lemma setters_set c s s' : run_call c s = Ok s' -> set_ok c s'.
Proof.
  intros H.
  assert (Ha : forall v t, do_algorithm v s = Ok t -> algo t = v).
  { intros v t Ht. rewrite do_algorithm_cases in Ht.
    destruct s as [pa sil imp unc cc pi al ap lo sd nt nq nb mt ts co]; destruct v, ap, pi; simpl in *; try discriminate; injection Ht as <-; reflexivity. }
  assert (Hx : forall v t, do_approximation v s = Ok t -> approx t = v).
  { intros v t Ht. apply do_approximation_Ok in Ht as [-> _]. destruct s as [pa sil imp unc cc pi al ap lo sd nt nq nb mt ts co]; reflexivity. }
  destruct c; simpl in *.
  - eauto.
  - unfold do_algorithm_str in H; destruct (algorithm_of_string x); [|discriminate]. f_equal; symmetry; eauto.
  - eauto.
  - unfold do_approximation_str in H; destruct (approximation_of_string x); [|discriminate]. f_equal; symmetry; eauto.
  - apply do_prime_Ok in H as [(-> & Ha' & ->)|(-> & ->)]; destruct s as [pa sil imp unc cc pi al ap lo sd nt nq nb mt ts co]; reflexivity.
  - unfold do_limit_order in H; destruct (_ <? _)%Z; [discriminate|]; injection H as <-; destruct s as [pa sil imp unc cc pi al ap lo sd nt nq nb mt ts co]; reflexivity.
  - unfold do_cut_off in H; destruct (_ || _); [discriminate|]; injection H as <-; destruct s as [pa sil imp unc cc pi al ap lo sd nt nq nb mt ts co]; reflexivity.
  - unfold do_num_trials in H; destruct (_ <? _)%Z; [discriminate|]; injection H as <-; destruct s as [pa sil imp unc cc pi al ap lo sd nt nq nb mt ts co]; reflexivity.
  - unfold do_num_quantiles in H; destruct (_ <? _)%Z; [discriminate|]; injection H as <-; destruct s as [pa sil imp unc cc pi al ap lo sd nt nq nb mt ts co]; reflexivity.
  - unfold do_num_bins in H; destruct (_ <? _)%Z; [discriminate|]; injection H as <-; destruct s as [pa sil imp unc cc pi al ap lo sd nt nq nb mt ts co]; reflexivity.
  - unfold do_seed in H; destruct (_ <? _)%Z; [discriminate|]; injection H as <-; destruct s as [pa sil imp unc cc pi al ap lo sd nt nq nb mt ts co]; reflexivity.
  - unfold do_mission_time in H; destruct (dlt _ _); [discriminate|]; injection H as <-; destruct s as [pa sil imp unc cc pi al ap lo sd nt nq nb mt ts co]; reflexivity.
  - unfold do_time_step in H; destruct (dlt _ _); [discriminate|]; destruct (_ && _); [discriminate|]; injection H as <-; destruct s as [pa sil imp unc cc pi al ap lo sd nt nq nb mt ts co]; reflexivity.
  - unfold do_sil in H; destruct (_ && _); [discriminate|]; injection H as <-; destruct s as [pa sil imp unc cc pi al ap lo sd nt nq nb mt ts co]; destruct b; reflexivity.
  - unfold do_probability in H; injection H as <-. destruct s as [pa sil imp unc cc pi al ap lo sd nt nq nb mt ts co]; destruct imp, unc, sil; simpl; auto.
  - unfold do_importance in H; injection H as <-; destruct s as [pa sil imp unc cc pi al ap lo sd nt nq nb mt ts co]; destruct b; reflexivity.
  - unfold do_uncertainty in H; injection H as <-; destruct s as [pa sil imp unc cc pi al ap lo sd nt nq nb mt ts co]; destruct b; reflexivity.
  - unfold do_ccf in H; injection H as <-; destruct s as [pa sil imp unc cc pi al ap lo sd nt nq nb mt ts co]; reflexivity.
Qed.
