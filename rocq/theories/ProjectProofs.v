(** The settings a project file and a command line lead to: closed forms (Project.v). *)
From Coq Require Import ZArith QArith String Ascii Bool List Lia.
From Verif Require Import Settings SettingsProofs Project.
Import ListNotations.
Local Open Scope string_scope.
Local Open Scope list_scope.

(** ** What is asked for *)
(** What a project file says that follows the schema (share/project.rng): each option at most once, in this
    order; the limits in any order. *)
Record asked := mkAsked { a_algorithm : option algorithm; a_prime : bool; a_flags : option flags; a_approximation : option approximation; a_limits : option (list limit) }.
Definition algorithm_name (v : algorithm) : string := match v with kBdd => "bdd" | kZbdd => "zbdd" | kMocus => "mocus" end.
Definition approximation_name (v : approximation) : string := match v with kNone => "none" | kRareEvent => "rare-event" | kMcub => "mcub" end.
Definition child {A} (v : option A) (f : A -> group) : list group := match v with Some x => [f x] | None => [] end.
Definition document (a : asked) : list group :=
  child (a_algorithm a) (fun v => GAlgorithm (algorithm_name v)) ++ (if a_prime a then [GPrimeImplicants] else []) ++ child (a_flags a) GAnalysis ++
  child (a_approximation a) (fun v => GApproximation (approximation_name v)) ++ child (a_limits a) GLimits.
(** The value given, else another one. *)
Definition over {A} (v : option A) (x : A) : A := match v with Some y => y | None => x end.
(** The last value given by the limits of a kind. *)
Fixpoint wanted {A} (f : limit -> option A) (ls : list limit) : option A :=
  match ls with [] => None | l :: ls => match wanted f ls with Some x => Some x | None => f l end end.
Definition order_of l := match l with LProductOrder n => Some n | _ => None end.
Definition cut_of l := match l with LCutOff p => Some p | _ => None end.
Definition mission_of l := match l with LMissionTime t => Some t | _ => None end.
Definition step_of l := match l with LTimeStep t => Some t | _ => None end.
Definition trials_of l := match l with LTrials n => Some n | _ => None end.
Definition quantiles_of l := match l with LQuantiles n => Some n | _ => None end.
Definition bins_of l := match l with LBins n => Some n | _ => None end.
Definition seed_of l := match l with LSeed n => Some n | _ => None end.
(** The ranges. *)
Definition fits (l : limit) : bool :=
  match l with
  | LProductOrder n | LSeed n => (0 <=? n)%Z
  | LTrials n | LQuantiles n | LBins n => (1 <=? n)%Z
  | LCutOff p => negb (dlt p (Fin 0)) && negb (dlt (Fin 1) p)
  | LMissionTime t | LTimeStep t => negb (dlt t (Fin 0))
  end.
Definition limits (a : asked) : list limit := over (a_limits a) [].
Definition p_algorithm (a : asked) : algorithm := over (a_algorithm a) kBdd.
Definition p_approximation (a : asked) : approximation := over (a_approximation a) (match p_algorithm a with kBdd => kNone | _ => kRareEvent end).
Definition p_flag (f : flags -> option bool) (a : asked) : bool := match a_flags a with Some x => over (f x) false | None => false end.
Definition p_step (a : asked) : dbl := over (wanted step_of (limits a)) (Fin 0).
Definition is_bdd (v : algorithm) : bool := match v with kBdd => true | _ => false end.
Definition is_none (v : approximation) : bool := match v with kNone => true | _ => false end.
Definition valid_project (a : asked) : bool :=
  (negb (a_prime a) || (is_bdd (p_algorithm a) && is_none (over (a_approximation a) kNone))) &&
  forallb fits (limits a) &&
  (negb (p_flag f_sil a) || negb (dzero (p_step a))).

(** ** Errors without their state *)
Definition hush (o : outcome) : outcome := match o with Throw _ => Throw default_settings | _ => o end.
Lemma finish_hush f o : finish f (hush o) = finish f o. Proof. now destruct o. Qed.
Lemma steps_app a b s : steps (a ++ b) s = bind (steps a s) (steps b).
Proof. revert s. induction a as [|c a IH]; intros s; [reflexivity|]. cbn [app steps]. destruct (run_call c s); cbn [bind]; auto. Qed.
Definition no : outcome := Throw default_settings.

(** ** Values *)
Definition values (ls : list limit) (s : settings) : settings :=
  set_limit (over (wanted order_of ls) (limit_order s)) (set_cut (over (wanted cut_of ls) (cut_off s)) (set_mission (over (wanted mission_of ls) (mission_time s))
  (set_step (over (wanted step_of ls) (time_step s)) (set_trials (over (wanted trials_of ls) (num_trials s)) (set_quantiles (over (wanted quantiles_of ls) (num_quantiles s))
  (set_bins (over (wanted bins_of ls) (num_bins s)) (set_seed (over (wanted seed_of ls) (seed s)) s))))))).
Lemma over_wanted {A} f l ls (x : A) : over (wanted f (l :: ls)) x = over (wanted f ls) (over (f l) x).
Proof. cbn [wanted]. now destruct (wanted f ls). Qed.
Lemma limit_step l s : safety_integrity_levels s = false -> hush (run_call (limit_call l) s) = if fits l then Ok (values [l] s) else no.
Proof.
  intros S0. destruct s as [pa sil imp unc cc pi al ap lo sd nt nq nb mt ts co]. cbn in S0. subst sil. destruct l; cbn [fits limit_call run_call];
    unfold do_limit_order, do_cut_off, do_num_trials, do_num_quantiles, do_num_bins, do_seed, do_mission_time, do_time_step; cbn [safety_integrity_levels];
    rewrite ?andb_false_r, <- ?negb_orb, ?Z.ltb_antisym; match goal with |- context [negb ?b] => destruct b end; reflexivity.
Qed.
Lemma values_cons l ls s : values ls (values [l] s) = values (l :: ls) s.
Proof. destruct s as [pa sil imp unc cc pi al ap lo sd nt nq nb mt ts co]. unfold values. cbn -[over wanted]. rewrite !over_wanted. destruct l; reflexivity. Qed.
Lemma values_sil ls s : safety_integrity_levels (values ls s) = safety_integrity_levels s. Proof. now destruct s. Qed.
Lemma hush_bind o k : hush (bind o k) = match hush o with Ok s => hush (k s) | o => o end. Proof. now destruct o. Qed.
Lemma limits_steps ls s : safety_integrity_levels s = false -> hush (steps (map limit_call ls) s) = if forallb fits ls then Ok (values ls s) else no.
Proof.
  revert s. induction ls as [|l ls IH]; intros s S0; [destruct s; reflexivity|]. cbn [map steps forallb]. rewrite hush_bind, limit_step by exact S0.
  destruct (fits l); [|reflexivity]. rewrite IH by (now rewrite values_sil). now rewrite values_cons.
Qed.

(** ** The project *)
Definition project_settings (a : asked) : settings :=
  values (limits a)
    (mk (p_flag f_probability a || p_flag f_importance a || p_flag f_uncertainty a || p_flag f_sil a) (p_flag f_sil a) (p_flag f_importance a) (p_flag f_uncertainty a)
        (p_flag f_ccf a) (a_prime a) (p_algorithm a) (p_approximation a) 20 0 1000 20 20 (Fin 8760) (Fin 0) (Fin (1 # 100000000))).
Lemma calls_of_document a : option_calls (document a) =
  (match a_algorithm a with Some v => [CAlgorithmStr (algorithm_name v)] | None => [] end ++ (if a_prime a then [CPrimeImplicants true] else []) ++
   match a_approximation a with Some v => [CApproximationStr (approximation_name v)] | None => [] end) ++ map limit_call (limits a) ++
  match a_flags a with Some f => analysis_calls f | None => [] end.
Proof. destruct a as [[al|] [|] [f|] [ap|] [ls|]]; unfold option_calls, document, limits; cbn -[analysis_calls map]; rewrite ?app_nil_r; reflexivity. Qed.
Lemma head_steps a : hush (steps (match a_algorithm a with Some v => [CAlgorithmStr (algorithm_name v)] | None => [] end ++ (if a_prime a then [CPrimeImplicants true] else []) ++
   match a_approximation a with Some v => [CApproximationStr (approximation_name v)] | None => [] end) default_settings) =
  if negb (a_prime a) || (is_bdd (p_algorithm a) && is_none (over (a_approximation a) kNone))
  then Ok (mk false false false false false (a_prime a) (p_algorithm a) (p_approximation a) 20 0 1000 20 20 (Fin 8760) (Fin 0) (Fin (1 # 100000000))) else no.
Proof. destruct a as [[[]|] [|] f [[]|] l]; reflexivity. Qed.
Definition no_flags := mkFlags None None None None None.
Lemma flags_steps f s : probability_analysis s = false -> safety_integrity_levels s = false -> importance_analysis s = false -> uncertainty_analysis s = false -> ccf_analysis s = false ->
  hush (steps (analysis_calls f) s) = if negb (over (f_sil f) false) || negb (dzero (time_step s))
  then Ok (set_prob (over (f_probability f) false || over (f_importance f) false || over (f_uncertainty f) false || over (f_sil f) false)
      (set_sil (over (f_sil f) false) (set_imp (over (f_importance f) false) (set_unc (over (f_uncertainty f) false) (set_ccf (over (f_ccf f) false) s))))) else no.
Proof.
  destruct s as [pa sil imp unc cc pi al ap lo sd nt nq nb mt ts co]. cbn. intros -> -> -> -> ->. destruct f as [p i u c [[|]|]]; unfold analysis_calls; cbn [f_probability f_importance f_uncertainty f_ccf f_sil over negb orb].
  - destruct p as [[|]|], i as [[|]|], u as [[|]|], c as [[|]|]; cbn; unfold do_sil; cbn; destruct (dzero ts); reflexivity.
  - destruct p as [[|]|], i as [[|]|], u as [[|]|], c as [[|]|]; reflexivity.
  - destruct p as [[|]|], i as [[|]|], u as [[|]|], c as [[|]|]; reflexivity.
Qed.
Theorem project_steps a : hush (steps (option_calls (document a)) default_settings) = if valid_project a then Ok (project_settings a) else no.
Proof.
  rewrite calls_of_document, steps_app, hush_bind, head_steps. unfold valid_project. destruct (_ || _); [|reflexivity]. cbn [andb].
  rewrite steps_app, hush_bind, limits_steps by reflexivity. destruct (forallb fits (limits a)); [|reflexivity]. cbn [andb].
  destruct (a_flags a) as [f|] eqn:F.
  - rewrite flags_steps by reflexivity. unfold project_settings, p_flag, p_step. rewrite F. unfold values. cbn -[over wanted dzero]. destruct (_ || _); reflexivity.
  - unfold project_settings, p_flag. rewrite F. reflexivity.
Qed.

(** ** The command line *)
Definition command_algorithm (v : command) : option algorithm := if v_bdd v then Some kBdd else if v_zbdd v then Some kZbdd else if v_mocus v then Some kMocus else None.
Definition given {A} (v : option A) (f : A -> limit) : list limit := match v with Some x => [f x] | None => [] end.
Definition command_values (v : command) : list limit :=
  given (v_seed v) LSeed ++ given (v_limit_order v) LProductOrder ++ given (v_cut_off v) LCutOff ++ given (v_mission_time v) LMissionTime ++
  given (v_trials v) LTrials ++ given (v_quantiles v) LQuantiles ++ given (v_bins v) LBins.
Definition aborts (s : settings) (v : command) : bool := prime_implicants s && match command_algorithm v with Some kZbdd | Some kMocus => true | _ => false end.
Definition command_approximation (s : settings) (v : command) : approximation :=
  if v_rare v then kRareEvent else if v_mcub v then kMcub else if v_prime v then kNone else
  match command_algorithm v with Some kBdd => kNone | Some _ => (match approx s with kNone => kRareEvent | x => x end) | None => approx s end.
Definition valid_command (s : settings) (v : command) : bool :=
  (negb (v_prime v) || (is_bdd (over (command_algorithm v) (algo s)) && negb (v_rare v || v_mcub v))) &&
  match v_time_step v with Some t => negb (dlt t (Fin 0)) && negb (dzero t && safety_integrity_levels s) | None => true end &&
  (negb (v_sil v) || negb (dzero (over (v_time_step v) (time_step s)))) &&
  forallb fits (command_values v).
Definition command_settings (s : settings) (v : command) : settings :=
  mk (v_probability v || v_importance v || v_uncertainty v || v_sil v || importance_analysis s || uncertainty_analysis s) (v_sil v) (v_importance v) (v_uncertainty v) (v_ccf v)
     (v_prime v) (over (command_algorithm v) (algo s)) (command_approximation s v) (over (v_limit_order v) (limit_order s)) (over (v_seed v) (seed s))
     (over (v_trials v) (num_trials s)) (over (v_quantiles v) (num_quantiles s)) (over (v_bins v) (num_bins s)) (over (v_mission_time v) (mission_time s))
     (over (v_time_step v) (time_step s)) (over (v_cut_off v) (cut_off s)).
Lemma value_steps l r s : (match l with LTimeStep _ => False | _ => True end) -> hush (bind (run_call (limit_call l) s) r) = if fits l then hush (r (values [l] s)) else no.
Proof.
  intros N. rewrite hush_bind. destruct s as [pa sil imp unc cc pi al ap lo sd nt nq nb mt ts co]. destruct l; try contradiction; cbn [fits limit_call run_call];
    unfold do_limit_order, do_cut_off, do_num_trials, do_num_quantiles, do_num_bins, do_seed, do_mission_time;
    rewrite <- ?negb_orb, ?Z.ltb_antisym; match goal with |- context [negb ?b] => destruct b end; reflexivity.
Qed.
Lemma plain_steps ls s : Forall (fun l => match l with LTimeStep _ => False | _ => True end) ls -> hush (steps (map limit_call ls) s) = if forallb fits ls then Ok (values ls s) else no.
Proof.
  revert s. induction ls as [|l ls IH]; intros s F; [destruct s; reflexivity|]. inversion F; subst. cbn [map steps forallb]. rewrite value_steps by assumption.
  destruct (fits l); [|reflexivity]. rewrite IH by assumption. now rewrite values_cons.
Qed.
Lemma wanted_app {A} (f : limit -> option A) a b x : over (wanted f (a ++ b)) x = over (wanted f b) (over (wanted f a) x).
Proof.
  assert (E : wanted f (a ++ b) = match wanted f b with Some y => Some y | None => wanted f a end).
  { induction a as [|l a IH]; cbn [app wanted]; [now destruct (wanted f b)|]. rewrite IH. now destruct (wanted f b), (wanted f a). }
  rewrite E. now destruct (wanted f b).
Qed.
Lemma values_given v s : values (command_values v) s =
  set_limit (over (v_limit_order v) (limit_order s)) (set_cut (over (v_cut_off v) (cut_off s)) (set_mission (over (v_mission_time v) (mission_time s))
  (set_trials (over (v_trials v) (num_trials s)) (set_quantiles (over (v_quantiles v) (num_quantiles s)) (set_bins (over (v_bins v) (num_bins s)) (set_seed (over (v_seed v) (seed s)) s)))))).
Proof.
  unfold values, command_values. rewrite !wanted_app. destruct s as [pa sil imp unc cc pi al ap lo sd nt nq nb mt ts co].
  destruct (v_seed v), (v_limit_order v), (v_cut_off v), (v_mission_time v), (v_trials v), (v_quantiles v), (v_bins v); reflexivity.
Qed.
Lemma calls_of_command v : construct_calls v =
  ((if v_bdd v then [CAlgorithm kBdd] else if v_zbdd v then [CAlgorithm kZbdd] else if v_mocus v then [CAlgorithm kMocus] else []) ++ [CPrimeImplicants (v_prime v)] ++
   (if v_rare v then [CApproximation kRareEvent] else if v_mcub v then [CApproximation kMcub] else [])) ++
  (set_call (v_time_step v) CTimeStep ++ [CSil (v_sil v)]) ++
  [CProbability (v_probability v); CImportance (v_importance v); CUncertainty (v_uncertainty v); CCcf (v_ccf v)] ++ map limit_call (command_values v).
Proof.
  unfold construct_calls, command_values. destruct (v_seed v), (v_limit_order v), (v_cut_off v), (v_mission_time v), (v_trials v), (v_quantiles v), (v_bins v); cbn [given app map limit_call set_call];
    rewrite <- !app_assoc; reflexivity.
Qed.
Lemma command_head v s : (prime_implicants s = true -> algo s = kBdd /\ approx s = kNone) -> v_rare v && v_mcub v = false ->
  hush (steps ((if v_bdd v then [CAlgorithm kBdd] else if v_zbdd v then [CAlgorithm kZbdd] else if v_mocus v then [CAlgorithm kMocus] else []) ++ [CPrimeImplicants (v_prime v)] ++
   (if v_rare v then [CApproximation kRareEvent] else if v_mcub v then [CApproximation kMcub] else [])) s) =
  if aborts s v then Terminate else
  if negb (v_prime v) || (is_bdd (over (command_algorithm v) (algo s)) && negb (v_rare v || v_mcub v))
  then Ok (set_prime (v_prime v) (set_algo (over (command_algorithm v) (algo s)) (set_approx (command_approximation s v) s))) else no.
Proof.
  destruct s as [pa sil imp unc cc pi al ap lo sd nt nq nb mt ts co]. unfold aborts, command_approximation, command_algorithm. cbn [prime_implicants algo approx]. intros P R.
  destruct pi; [destruct (P eq_refl); subst al ap|clear P; destruct al, ap];
    destruct (v_bdd v), (v_zbdd v), (v_mocus v), (v_prime v), (v_rare v), (v_mcub v); first [discriminate R | reflexivity].
Qed.
Lemma command_step v s : hush (steps (set_call (v_time_step v) CTimeStep ++ [CSil (v_sil v)]) s) =
  if match v_time_step v with Some t => negb (dlt t (Fin 0)) && negb (dzero t && safety_integrity_levels s) | None => true end &&
     (negb (v_sil v) || negb (dzero (over (v_time_step v) (time_step s))))
  then Ok (set_step (over (v_time_step v) (time_step s)) (set_sil (v_sil v) (set_prob (probability_analysis s || v_sil v) s))) else no.
Proof.
  destruct s as [pa sil imp unc cc pi al ap lo sd nt nq nb mt ts co]. destruct (v_time_step v) as [t|]; cbn [set_call app steps run_call over safety_integrity_levels time_step probability_analysis].
  - unfold do_time_step. destruct (dlt t (Fin 0)); [reflexivity|]. cbn [negb andb safety_integrity_levels]. destruct (dzero t) eqn:Z0, sil; cbn; unfold do_sil; cbn; rewrite ?Z0; destruct (v_sil v); cbn; rewrite ?Z0, ?orb_true_r, ?orb_false_r; reflexivity.
  - cbn [andb]. unfold do_sil. cbn [time_step]. destruct (v_sil v), (dzero ts); cbn; rewrite ?orb_true_r, ?orb_false_r; reflexivity.
Qed.
Lemma command_flags v s r : (safety_integrity_levels s = true \/ importance_analysis s = true \/ uncertainty_analysis s = true -> probability_analysis s = true) ->
  hush (steps ([CProbability (v_probability v); CImportance (v_importance v); CUncertainty (v_uncertainty v); CCcf (v_ccf v)] ++ r) s) =
  hush (steps r (set_prob (v_probability v || v_importance v || v_uncertainty v || safety_integrity_levels s || importance_analysis s || uncertainty_analysis s)
    (set_imp (v_importance v) (set_unc (v_uncertainty v) (set_ccf (v_ccf v) s))))).
Proof.
  intros P. destruct s as [pa sil imp unc cc pi al ap lo sd nt nq nb mt ts co]. cbn [safety_integrity_levels importance_analysis uncertainty_analysis probability_analysis] in P |- *.
  cbn [app steps run_call bind]. unfold do_probability, do_importance, do_uncertainty, do_ccf.
  destruct sil, imp, unc; try (rewrite P by tauto); destruct (v_probability v), (v_importance v), (v_uncertainty v); reflexivity.
Qed.
Theorem command_steps v s : consistent s -> v_rare v && v_mcub v = false ->
  hush (steps (construct_calls v) s) = if aborts s v then Terminate else if valid_command s v then Ok (command_settings s v) else no.
Proof.
  intros C R. rewrite calls_of_command, steps_app, hush_bind, command_head by (try exact R; apply C). destruct (aborts s v); [reflexivity|]. unfold valid_command.
  destruct (negb (v_prime v) || _); [|reflexivity]. cbn [andb]. rewrite steps_app, hush_bind, command_step.
  destruct s as [pa sil imp unc cc pi al ap lo sd nt nq nb mt ts co]. cbn -[over dzero dlt steps map command_values forallb command_settings].
  destruct (match v_time_step v with Some t => _ | None => true end); [|reflexivity]. cbn [andb]. destruct (negb (v_sil v) || _); [|reflexivity]. cbn [andb].
  pose proof (c_prob _ C) as P. cbn in P.
  change (CProbability (v_probability v) :: ?a) with ([CProbability (v_probability v)] ++ a).
  etransitivity; [apply (command_flags v _ (map limit_call (command_values v)))|].
  { cbn. intros [->|H]; [apply orb_true_r|]. rewrite P by tauto. reflexivity. }
  rewrite plain_steps by (unfold command_values, given; destruct (v_seed v), (v_limit_order v), (v_cut_off v), (v_mission_time v), (v_trials v), (v_quantiles v), (v_bins v); repeat constructor).
  destruct (forallb fits (command_values v)); [|reflexivity]. f_equal. rewrite values_given. unfold command_settings. reflexivity.
Qed.
