(** C31: analysis settings stay mutually consistent. *)
From Coq Require Import ZArith QArith String Bool List.
From Verif Require Import Settings SettingsProofs.
Import ListNotations.

(** Every state reachable from the defaults by any sequence of setter calls
    (thrown errors caught) is mutually consistent. *)
Theorem settings_always_consistent : forall cs s,
  run_calls cs default_settings = Some s -> consistent s.
Proof. exact (fun cs s => run_calls_consistent cs default_settings s default_consistent). Qed.
Print Assumptions settings_always_consistent.

(** A setter that raises leaves the object unchanged. *)
Theorem settings_throw_unchanged : forall c s s', run_call c s = Throw s' -> s' = s.
Proof. exact throw_unchanged. Qed.
Print Assumptions settings_throw_unchanged.

(** A setter that returns normally has set its option. *)
Theorem settings_setter_sets : forall c s s', run_call c s = Ok s' -> set_ok c s'.
Proof. exact setters_set. Qed.
Print Assumptions settings_setter_sets.

(** Documented ranges of cut-off, mission time, time step hold if no NaN is passed. *)
Theorem settings_float_ranges : forall cs s, Forall no_nan_arg cs ->
  run_calls cs default_settings = Some s -> float_ranges s.
Proof. exact (fun cs s H => run_calls_ranges cs default_settings s H default_ranges). Qed.
Print Assumptions settings_float_ranges.

(** ... and fail with NaN: the range checks let NaN through. *)
Theorem settings_float_ranges_nan_refuted : exists cs s,
  run_calls cs default_settings = Some s /\ ~ float_ranges s.
Proof.
  exists [CCutOff NaN]. eexists. split; [reflexivity|].
  intros [(q & H & _) _]. discriminate H.
Qed.
Print Assumptions settings_float_ranges_nan_refuted.

(** Exactly which calls abort the process through the [noexcept] setter. *)
Theorem settings_terminate_iff : forall c s, consistent s ->
  (run_call c s = Terminate <-> prime_implicants s = true /\ selects_non_bdd c).
Proof. exact terminate_iff. Qed.
Print Assumptions settings_terminate_iff.

(** "No setter aborts the process" is false of the code. *)
Theorem settings_never_abort_refuted : exists cs, run_calls cs default_settings = None.
Proof. exists [CPrimeImplicants true; CAlgorithm kMocus]. reflexivity. Qed.
Print Assumptions settings_never_abort_refuted.

(** Non-vacuity: a long non-trivial history reaches a state with everything on. *)
Example settings_history_ok :
  exists s, run_calls [CTimeStep (Fin 1); CSil true; CPrimeImplicants true; CApproximationStr "mcub";
                       CProbability false; CTimeStep (Fin 0)] default_settings = Some s
            /\ safety_integrity_levels s = true /\ prime_implicants s = true
            /\ probability_analysis s = true /\ time_step s = Fin 1.
Proof. eexists. split; [reflexivity|]. repeat split. Qed.
Example settings_terminate_hyp : consistent default_settings.
Proof. exact default_consistent. Qed.
