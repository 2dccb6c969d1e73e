(** Property C57: the project file and the command line configure the analysis. *)
From Coq Require Import ZArith QArith String Ascii Bool List Lia.
From Verif Require Import Settings SettingsProofs Project ProjectProofs.
Import ListNotations.
Local Open Scope string_scope.
Local Open Scope list_scope.

(** Every configuration, from any children of <options> in any order and any command line, is consistent. *)
Lemma steps_consistent cs : forall s s', consistent s -> steps cs s = Ok s' -> consistent s'.
Proof.
  induction cs as [|c cs IH]; intros s s' C E; cbn [steps] in E; [now injection E as <-|].
  destruct (run_call c s) as [s1|s1|] eqn:R; cbn [bind] in E; try discriminate. eapply IH; [|exact E]. eapply step_consistent; [exact C|]. left. exact R.
Qed.
Theorem C57_consistent current p v s files : configure current p v = Configured s files -> consistent s.
Proof.
  unfold configure. destruct (parse_arguments _ v); [|discriminate]. destruct p as [p|].
  - destruct (version_ok _ _); [|discriminate]. destruct (steps _ default_settings) as [s1|s1|] eqn:E1; cbn [bind]; try discriminate.
    destruct (steps (construct_calls v) s1) as [s2|s2|] eqn:E2; cbn [finish]; try discriminate. intros [= <- _]. eapply steps_consistent; [|exact E2]. eapply steps_consistent; [|exact E1]. exact default_consistent.
  - destruct (steps (construct_calls v) default_settings) as [s2|s2|] eqn:E2; cbn [finish]; try discriminate. intros [= <- _]. eapply steps_consistent; [|exact E2]. exact default_consistent.
Qed.

(** The command line is taken by itself: no two algorithms, no two approximations, some input. *)
Definition valid_arguments (v : command) : Prop :=
  ~ (v_bdd v = true /\ v_zbdd v = true) /\ ~ (v_bdd v = true /\ v_mocus v = true) /\ ~ (v_zbdd v = true /\ v_mocus v = true) /\ ~ (v_rare v = true /\ v_mcub v = true).
Theorem C57_arguments current p v : configure current p v = BadArguments <-> ~ (valid_arguments v /\ (p <> None \/ v_files v <> [])).
Proof.
  assert (B : configure current p v = BadArguments <-> parse_arguments match p with Some _ => true | None => false end v = false).
  { unfold configure. destruct (parse_arguments _ v); [|tauto]. split; [|discriminate]. destruct p as [p|]; [destruct (version_ok _ _); [|discriminate]|];
      match goal with |- finish _ ?o = _ -> _ => destruct o end; discriminate. }
  rewrite B. unfold parse_arguments, valid_arguments. split.
  - intros E ((H1 & H2 & H3 & H4) & F). destruct (v_files v) as [|f l]; [destruct p; cbn [negb] in E; [|now destruct F]|];
      destruct (v_bdd v), (v_zbdd v), (v_mocus v), (v_rare v), (v_mcub v); cbn in E; try discriminate E; tauto.
  - intros N. destruct (v_files v) as [|f l] eqn:F; [destruct p; cbn [negb]; [|reflexivity]|];
      destruct (v_bdd v), (v_zbdd v), (v_mocus v), (v_rare v), (v_mcub v); try reflexivity; exfalso; apply N; repeat split; try (intros (? & ?); discriminate); try (left; discriminate); right; discriminate.
Qed.
(** A run without a project is one with an empty project. *)
Theorem C57_no_project current v : v_files v <> [] -> configure current None v = configure current (Some (mkProject None [] None)) v.
Proof. intros N. unfold configure, parse_arguments. destruct (v_files v); [contradiction|]. reflexivity. Qed.

(** For a project that follows the schema and valid arguments the outcome is exactly known. *)
Lemma project_consistent a : valid_project a = true -> consistent (project_settings a).
Proof.
  intros V. pose proof (project_steps a) as E. rewrite V in E. destruct (steps (option_calls (document a)) default_settings) as [s|s|] eqn:S0; try discriminate.
  assert (Q : s = project_settings a) by (cbn [hush] in E; congruence). subst s. eapply steps_consistent; [exact default_consistent|exact S0].
Qed.
Lemma parse_valid b v : parse_arguments b v = true -> v_rare v && v_mcub v = false.
Proof. unfold parse_arguments. destruct (match v_files v with [] => _ | _ => _ end); [discriminate|]. destruct (_ <? _)%Z; [discriminate|]. now destruct (_ && _). Qed.
Theorem C57_outcome current files a ver v : valid_arguments v -> version_ok current ver = true ->
  configure current (Some (mkProject ver files (Some (document a)))) v =
  if valid_project a then
    if aborts (project_settings a) v then Aborted
    else if valid_command (project_settings a) v then Configured (command_settings (project_settings a) v) (files ++ v_files v) else Error
  else Error.
Proof.
  intros A V. assert (PA : parse_arguments true v = true).
  { destruct (parse_arguments true v) eqn:E; [reflexivity|]. exfalso.
    assert (B : configure current (Some (mkProject ver files (Some (document a)))) v = BadArguments) by (unfold configure; now rewrite E).
    apply C57_arguments in B. apply B. split; [exact A|left; discriminate]. }
  unfold configure. rewrite PA. cbn [p_version p_files p_options]. rewrite V, <- finish_hush, hush_bind, project_steps. destruct (valid_project a) eqn:VP; [|reflexivity].
  rewrite command_steps by (try apply project_consistent; try exact VP; now apply (parse_valid true)). destruct (aborts _ v); [reflexivity|]. now destruct (valid_command _ v).
Qed.
(** The settings in words.  A value is the one of the command line, else of the project, else the default; the
    algorithm too; the flags are those of the command line; a requested importance, uncertainty or SIL analysis
    has the probability analysis on. *)
Theorem C57_settings current files a ver v s fs : configure current (Some (mkProject ver files (Some (document a)))) v = Configured s fs ->
  fs = files ++ v_files v /\
  (limit_order s = over (v_limit_order v) (over (wanted order_of (limits a)) 20%Z) /\
   seed s = over (v_seed v) (over (wanted seed_of (limits a)) 0%Z) /\
   num_trials s = over (v_trials v) (over (wanted trials_of (limits a)) 1000%Z) /\
   num_quantiles s = over (v_quantiles v) (over (wanted quantiles_of (limits a)) 20%Z) /\
   num_bins s = over (v_bins v) (over (wanted bins_of (limits a)) 20%Z) /\
   mission_time s = over (v_mission_time v) (over (wanted mission_of (limits a)) (Fin 8760)) /\
   time_step s = over (v_time_step v) (over (wanted step_of (limits a)) (Fin 0)) /\
   cut_off s = over (v_cut_off v) (over (wanted cut_of (limits a)) (Fin (1 # 100000000)))) /\
  algo s = over (command_algorithm v) (over (a_algorithm a) kBdd) /\
  (prime_implicants s = v_prime v /\ safety_integrity_levels s = v_sil v /\ importance_analysis s = v_importance v /\ uncertainty_analysis s = v_uncertainty v /\ ccf_analysis s = v_ccf v) /\
  (probability_analysis s = true <-> v_probability v = true \/ v_importance v = true \/ v_uncertainty v = true \/ v_sil v = true \/
     p_flag f_importance a = true \/ p_flag f_uncertainty a = true) /\
  (v_rare v = true -> approx s = kRareEvent) /\ (v_mcub v = true -> approx s = kMcub) /\
  (v_prime v = true -> approx s = kNone) /\
  (v_rare v = false -> v_mcub v = false -> v_prime v = false -> command_algorithm v = None -> approx s = p_approximation a).
Proof.
  intros E. assert (A : valid_arguments v).
  { destruct (parse_arguments true v) eqn:P; [|unfold configure in E; rewrite P in E; discriminate].
    unfold parse_arguments in P. destruct (match v_files v with [] => _ | _ => _ end); [discriminate|]. unfold valid_arguments.
    destruct (v_bdd v), (v_zbdd v), (v_mocus v), (v_rare v), (v_mcub v); try discriminate P; repeat split; intros (? & ?); discriminate. }
  assert (V : version_ok current ver = true).
  { unfold configure in E. destruct (parse_arguments true v); [|discriminate]. cbn [p_version] in E. destruct (version_ok current ver); [reflexivity|discriminate]. }
  rewrite (C57_outcome current files a ver v A V) in E. destruct (valid_project a); [|discriminate]. destruct (aborts _ v); [discriminate|].
  destruct (valid_command (project_settings a) v) eqn:VC; [|discriminate]. injection E as <- <-. split; [reflexivity|]. split; [repeat split|]. split; [reflexivity|]. split; [repeat split|].
  assert (NR : v_prime v = true -> v_rare v || v_mcub v = false).
  { intros VP. unfold valid_command in VC. rewrite VP in VC. destruct (v_rare v || v_mcub v); [rewrite andb_false_r in VC; discriminate VC|reflexivity]. }
  split; [|unfold command_settings, command_approximation; cbn [approx]; repeat split].
  - cbn [probability_analysis command_settings project_settings values importance_analysis uncertainty_analysis set_limit set_cut set_mission set_step set_trials set_quantiles set_bins set_seed].
    rewrite !orb_true_iff. tauto.
  - now intros ->.
  - intros M. rewrite M. destruct (v_rare v) eqn:R; [|reflexivity]. destruct A as (_ & _ & _ & A). exfalso. now apply A.
  - intros VP. specialize (NR VP). apply orb_false_iff in NR. destruct NR as (-> & ->). now rewrite VP.
  - intros -> -> -> ->. reflexivity.
Qed.

(** ** What one would expect and is not so *)
Definition quiet : command :=
  mkCommand false false false false false false false false false false false None None None None None None None None [].
Definition study : asked := mkAsked (Some kBdd) true (Some (mkFlags (Some true) None None (Some true) (Some true))) None (Some [LTimeStep (Fin 24); LProductOrder 5]).
(** The analyses that a project asks for are not performed: the command line switches them all off, although
    only options that are given are meant to overwrite those of the project (scram.cc:187-189, 258-259). *)
Theorem C57_project_flags_refuted : ~ (forall current files a s fs,
  configure current (Some (mkProject None files (Some (document a)))) quiet = Configured s fs ->
  (p_flag f_probability a = true -> probability_analysis s = true) /\ (a_prime a = true -> prime_implicants s = true) /\ (p_flag f_ccf a = true -> ccf_analysis s = true)).
Proof.
  intros H. destruct (H (0, 16, 2)%Z ["model.xml"] study (command_settings (project_settings study) quiet) ["model.xml"] eq_refl) as (H1 & H2 & H3).
  specialize (H1 eq_refl). discriminate H1.
Qed.
(** A project with prime implicants aborts the program if the command line asks for another algorithm. *)
Theorem C57_error_or_settings_refuted : ~ (forall current p v, configure current p v <> Aborted).
Proof.
  intros H. apply (H (0, 16, 2)%Z (Some (mkProject None ["model.xml"] (Some (document study))))
    (mkCommand false false true false false false true false false false false None None None None None None None None [])). reflexivity.
Qed.
(** Exactly then. *)
Theorem C57_aborts current files a ver v : configure current (Some (mkProject ver files (Some (document a)))) v = Aborted <->
  valid_arguments v /\ version_ok current ver = true /\ valid_project a = true /\ a_prime a = true /\ v_bdd v = false /\ (v_zbdd v = true \/ v_mocus v = true).
Proof.
  split.
  - intros E. assert (P : parse_arguments true v = true) by (unfold configure in E; destruct (parse_arguments true v); [reflexivity|discriminate]).
    assert (A : valid_arguments v).
    { destruct (parse_arguments true v) eqn:P'; [|discriminate]. unfold parse_arguments in P'. destruct (match v_files v with [] => _ | _ => _ end); [discriminate|]. unfold valid_arguments.
      destruct (v_bdd v), (v_zbdd v), (v_mocus v), (v_rare v), (v_mcub v); try discriminate P'; repeat split; intros (? & ?); discriminate. }
    assert (V : version_ok current ver = true) by (unfold configure in E; rewrite P in E; cbn [p_version] in E; destruct (version_ok current ver); [reflexivity|discriminate]).
    rewrite (C57_outcome current files a ver v A V) in E. destruct (valid_project a); [|discriminate]. destruct (aborts (project_settings a) v) eqn:B; [|destruct (valid_command _ v); discriminate].
    unfold aborts in B. apply andb_true_iff in B. destruct B as (B & B'). change (prime_implicants (project_settings a)) with (a_prime a) in B.
    unfold command_algorithm in B'. destruct (v_bdd v), (v_zbdd v), (v_mocus v); try discriminate B'; tauto.
  - intros (A & V & VP & PR & B & H). rewrite (C57_outcome current files a ver v A V), VP. replace (aborts (project_settings a) v) with true; [reflexivity|].
    unfold aborts. change (prime_implicants (project_settings a)) with (a_prime a). rewrite PR. unfold command_algorithm. rewrite B. destruct (v_zbdd v), (v_mocus v); try reflexivity; destruct H; discriminate.
Qed.
(** An example: the command line changes the order and asks for uncertainty; the project gives the rest. *)
Example C57_witness : valid_project study = true /\
  exists s, configure (0, 16, 2)%Z (Some (mkProject (Some "0.16") ["model.xml"] (Some (document study))))
    (mkCommand false false false false true false false false true false false None (Some 7%Z) (Some 3%Z) None None None None None ["more.xml"]) = Configured s ["model.xml"; "more.xml"] /\
    limit_order s = 3%Z /\ seed s = 7%Z /\ time_step s = Fin 24 /\ approx s = kRareEvent /\ uncertainty_analysis s = true /\ probability_analysis s = true.
Proof. split; [reflexivity|]. eexists. split; [reflexivity|]. repeat split. Qed.

(** ** Versions *)
(** The groups of characters between the dots. *)
Fixpoint groups (l : list ascii) : list (list ascii) :=
  match l with [] => [[]] | c :: l => if Ascii.eqb c "." then [] :: groups l else match groups l with g :: gs => (c :: g) :: gs | [] => [[c]] end end.
Definition is_digit (c : ascii) : bool := match digit c with Some _ => true | None => false end.
(** The number a group of digits stands for, read after [x]. *)
Definition number (x : Z) (g : list ascii) : Z := fold_left (fun x c => x * 10 + over (digit c) 0)%Z g x.
Definition filled (g : list ascii) : bool := match g with [] => false | _ => true end.
Fixpoint fill (n : Z * Z * Z) (i : nat) (gs : list (list ascii)) : Z * Z * Z := match gs with [] => n | g :: gs => fill (set_third n i (fun x => number x g)) (S i) gs end.
(** At most three numbers, only the last may be missing (after a dot). *)
Definition proper (e : bool) (gs : list (list ascii)) : bool :=
  forallb (forallb is_digit) gs && match gs with g :: ((_ :: _) as r) => (e || filled g) && forallb filled (removelast r) | _ => true end.
Lemma groups_ne l : groups l <> []. Proof. destruct l as [|c l]; cbn; [discriminate|]. destruct (Ascii.eqb c "."); [discriminate|]. destruct (groups l); discriminate. Qed.
Lemma extract_spec l : forall n i e, (i < 3)%nat ->
  extract l n i e = if proper e (groups l) && (i + List.length (groups l) <=? 3)%nat then Some (fill n i (groups l)) else None.
Proof.
  induction l as [|c l IH]; intros n i e I.
  - cbn. replace (i + 1 <=? 3)%nat with true by (symmetry; apply Nat.leb_le; lia). destruct n as [[a b] d], i as [|[|[|i]]]; try lia; reflexivity.
  - cbn [extract groups]. destruct (Ascii.eqb c ".") eqn:D.
    + destruct e.
      * destruct (Nat.eqb_spec (S i) 3) as [E|NE].
        -- replace (_ <=? 3)%nat with false; [now rewrite andb_false_r|]. symmetry. apply Nat.leb_gt. pose proof (groups_ne l). destruct (groups l); [contradiction|]. cbn [List.length]. lia.
        -- rewrite IH by lia. cbn [List.length]. replace (i + S (List.length (groups l)))%nat with (S i + List.length (groups l))%nat by lia. unfold proper. cbn [forallb andb].
           pose proof (groups_ne l) as GN. destruct (groups l) as [|g gs] eqn:G; [contradiction|].
           cbn [orb fill number fold_left]. replace (set_third n i (fun x => x)) with n by (destruct n as [[? ?] ?], i as [|[|[|?]]]; reflexivity).
           destruct gs as [|g' gs]; [reflexivity|]. change (removelast (g :: g' :: gs)) with (g :: removelast (g' :: gs)). reflexivity.
      * unfold proper. pose proof (groups_ne l) as GN. destruct (groups l) as [|g gs]; [contradiction|]. cbn [orb filled andb]. now rewrite andb_false_r.
    + destruct (digit c) as [k|] eqn:K.
      * rewrite IH by exact I. pose proof (groups_ne l) as GN. destruct (groups l) as [|g gs]; [contradiction|]. cbn [List.length]. 
        replace (proper true (g :: gs)) with (proper e ((c :: g) :: gs)).
        -- destruct (_ && _); [|reflexivity]. f_equal. cbn [fill]. f_equal. destruct n as [[a b] d], i as [|[|[|i]]]; try lia; cbn [set_third number fold_left]; now rewrite K.
        -- unfold proper. cbn [forallb]. unfold is_digit at 1. rewrite K. cbn [andb filled]. destruct gs; [reflexivity|]. now rewrite orb_true_r.
      * unfold proper. pose proof (groups_ne l) as GN. destruct (groups l) as [|g gs]; [contradiction|]. cbn [forallb]. unfold is_digit at 1. rewrite K. reflexivity.
Qed.
(** Which versions are read, and as what. *)
Theorem C57_version s n : extract_version s = Some n <->
  exists gs, groups (list_ascii_of_string s) = gs /\ s <> "" /\ (List.length gs <= 3)%nat /\ (forall g c, In g gs -> In c g -> is_digit c = true) /\
    (forall g, In g (removelast gs) -> g <> []) /\
    n = (number 0 (nth 0 gs []), number 0 (nth 1 gs []), number 0 (nth 2 gs [])).
Proof.
  unfold extract_version. destruct (list_ascii_of_string s) as [|c l] eqn:L.
  - split; [discriminate|]. intros (gs & _ & N & _). destruct s; [contradiction|discriminate].
  - assert (NE : s <> "") by (intros ->; discriminate). rewrite extract_spec by lia. pose proof (groups_ne (c :: l)) as GN. set (gs := groups (c :: l)) in *. clearbody gs.
    assert (P : proper false gs = true <-> (forall g c, In g gs -> In c g -> is_digit c = true) /\ (forall g, In g (removelast gs) -> g <> [])).
    { unfold proper. rewrite andb_true_iff, forallb_forall. split.
      - intros (D & F). split; [intros g x I J; specialize (D g I); rewrite forallb_forall in D; auto|]. intros g I. destruct gs as [|g0 [|g1 gs]]; [contradiction|contradiction|].
        cbn [orb] in F. apply andb_true_iff in F. destruct F as (F0 & F). rewrite forallb_forall in F. change (removelast (g0 :: g1 :: gs)) with (g0 :: removelast (g1 :: gs)) in I.
        destruct I as [<-|I]; [now destruct g0|]. specialize (F g I). now destruct g.
      - intros (D & F). split; [intros g I; apply forallb_forall; intros x J; eauto|]. destruct gs as [|g0 [|g1 gs]]; [reflexivity|reflexivity|].
        cbn [orb]. apply andb_true_iff. split.
        + assert (g0 <> []) by (apply F; now left). now destruct g0.
        + apply forallb_forall. intros g I. assert (g <> []) by (apply F; right; exact I). now destruct g. }
    assert (Q : (List.length gs <= 3)%nat -> fill (0, 0, 0)%Z 0 gs = (number 0 (nth 0 gs []), number 0 (nth 1 gs []), number 0 (nth 2 gs []))).
    { intros B. destruct gs as [|g0 [|g1 [|g2 [|? ?]]]]; [contradiction|reflexivity|reflexivity|reflexivity|cbn in B; lia]. }
    cbn [Nat.add]. split.
    + destruct (proper false gs) eqn:PG; [|discriminate]. destruct (Nat.leb_spec (List.length gs) 3) as [B|B]; [|discriminate]. cbn [andb]. intros [= <-].
      exists gs. destruct (proj1 P eq_refl) as (D & F). repeat split; auto.
    + intros (gs' & <- & _ & B & D & F & ->). rewrite (proj2 P (conj D F)). replace (List.length gs <=? 3)%nat with true by (symmetry; apply Nat.leb_le; exact B). cbn [andb]. now rewrite Q.
Qed.
(** A project for a later version than the program is not accepted, for this or an earlier one it is. *)
Theorem C57_later (a1 a2 a3 b1 b2 b3 : Z) : later (a1, a2, a3) (b1, b2, b3) = true <-> (b1 < a1 \/ (a1 = b1 /\ (b2 < a2 \/ (a2 = b2 /\ b3 < a3))))%Z.
Proof. unfold later. rewrite orb_true_iff, andb_true_iff, orb_true_iff, andb_true_iff, !Z.ltb_lt, !Z.eqb_eq. tauto. Qed.
Theorem C57_version_checked current p v s files w : configure current (Some p) v = Configured s files -> p_version p = Some w -> w <> "" ->
  exists n, extract_version w = Some n /\ later n current = false.
Proof.
  unfold configure. destruct (parse_arguments true v); [|discriminate]. intros E V N. rewrite V in E. destruct (version_ok current (Some w)) eqn:O; [|discriminate].
  unfold version_ok in O. destruct w; [contradiction|]. destruct (extract_version _) as [n|]; [|discriminate]. exists n. split; [reflexivity|]. now apply negb_true_iff.
Qed.
Example C57_version_witness : extract_version "0.16.2" = Some (0, 16, 2)%Z /\ extract_version "12." = Some (12, 0, 0)%Z /\ extract_version "1..2" = None /\ extract_version "1.2.3.4" = None.
Proof. repeat split. Qed.
