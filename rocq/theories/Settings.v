(** Model of the analysis settings object.
    Source: /repo/src/settings.h (lines 36-316) and /repo/src/settings.cc (lines 31-175). *)
From Coq Require Import ZArith QArith String Bool List.
Import ListNotations.
Open Scope string_scope.

(** C++ [double] arguments.  Finite doubles are rationals (a superset of the
    binary64 values: the setters only compare), plus infinities and NaN.
    Comparisons with NaN are false, as in IEEE 754. *)
Inductive dbl := Fin (q : Q) | PInf | NInf | NaN.

Definition dlt (a b : dbl) : bool :=
  match a, b with
  | NaN, _ | _, NaN => false
  | Fin x, Fin y => negb (Qle_bool y x)
  | NInf, NInf => false | NInf, _ => true | _, NInf => false
  | PInf, _ => false | _, PInf => true
  end.

(** C++ [!x] for a double: true iff x compares equal to zero (NaN is truthy). *)
Definition dzero (a : dbl) : bool :=
  match a with Fin q => Qeq_bool q 0 | _ => false end.

(** settings.h:30-33 [enum class Algorithm], [kAlgorithmToString]. *)
Inductive algorithm := kBdd | kZbdd | kMocus.
(** settings.h:36-39 [enum class Approximation]. *)
Inductive approximation := kNone | kRareEvent | kMcub.

Definition algorithm_eqb (a b : algorithm) : bool :=
  match a, b with kBdd, kBdd | kZbdd, kZbdd | kMocus, kMocus => true | _, _ => false end.
Definition approximation_eqb (a b : approximation) : bool :=
  match a, b with kNone, kNone | kRareEvent, kRareEvent | kMcub, kMcub => true | _, _ => false end.

(** settings.h:295-313, the private members. *)
Record settings := mk {
  probability_analysis : bool;
  safety_integrity_levels : bool;
  importance_analysis : bool;
  uncertainty_analysis : bool;
  ccf_analysis : bool;
  prime_implicants : bool;
  algo : algorithm;
  approx : approximation;
  limit_order : Z;
  seed : Z;
  num_trials : Z;
  num_quantiles : Z;
  num_bins : Z;
  mission_time : dbl;
  time_step : dbl;
  cut_off : dbl }.

(** Default member initialisers, settings.h:296-313. *)
Definition default_settings : settings :=
  mk false false false false false false kBdd kNone 20 0 1000 20 20
     (Fin 8760) (Fin 0) (Fin (1 # 100000000)).

(** Outcome of a member call: normal return, a thrown SettingsError (with the
    object state left behind), or [std::terminate] because an exception
    tried to leave a [noexcept] function. *)
Inductive outcome := Ok (s : settings) | Throw (s : settings) | Terminate.

Definition set_prob v s := let '(mk _ a b c d e f g h i j k l m n o) := s in mk v a b c d e f g h i j k l m n o.
Definition set_sil v s := let '(mk a _ b c d e f g h i j k l m n o) := s in mk a v b c d e f g h i j k l m n o.
Definition set_imp v s := let '(mk a b _ c d e f g h i j k l m n o) := s in mk a b v c d e f g h i j k l m n o.
Definition set_unc v s := let '(mk a b c _ d e f g h i j k l m n o) := s in mk a b c v d e f g h i j k l m n o.
Definition set_ccf v s := let '(mk a b c d _ e f g h i j k l m n o) := s in mk a b c d v e f g h i j k l m n o.
Definition set_prime v s := let '(mk a b c d e _ f g h i j k l m n o) := s in mk a b c d e v f g h i j k l m n o.
Definition set_algo v s := let '(mk a b c d e f _ g h i j k l m n o) := s in mk a b c d e f v g h i j k l m n o.
Definition set_approx v s := let '(mk a b c d e f g _ h i j k l m n o) := s in mk a b c d e f g v h i j k l m n o.
Definition set_limit v s := let '(mk a b c d e f g h _ i j k l m n o) := s in mk a b c d e f g h v i j k l m n o.
Definition set_seed v s := let '(mk a b c d e f g h i _ j k l m n o) := s in mk a b c d e f g h i v j k l m n o.
Definition set_trials v s := let '(mk a b c d e f g h i j _ k l m n o) := s in mk a b c d e f g h i j v k l m n o.
Definition set_quantiles v s := let '(mk a b c d e f g h i j k _ l m n o) := s in mk a b c d e f g h i j k v l m n o.
Definition set_bins v s := let '(mk a b c d e f g h i j k l _ m n o) := s in mk a b c d e f g h i j k l v m n o.
Definition set_mission v s := let '(mk a b c d e f g h i j k l m _ n o) := s in mk a b c d e f g h i j k l m v n o.
Definition set_step v s := let '(mk a b c d e f g h i j k l m n _ o) := s in mk a b c d e f g h i j k l m n v o.
Definition set_cut v s := let '(mk a b c d e f g h i j k l m n o _) := s in mk a b c d e f g h i j k l m n o v.

(** settings.cc:56-62 *)
Definition do_approximation (v : approximation) (s : settings) : outcome :=
  if negb (approximation_eqb v kNone) && prime_implicants s then Throw s
  else Ok (set_approx v s).

(** settings.cc:75-84 *)
Definition do_prime_implicants (flag : bool) (s : settings) : outcome :=
  if flag && negb (algorithm_eqb (algo s) kBdd) then Throw s
  else
    let s1 := set_prime flag s in
    if prime_implicants s1 then do_approximation kNone s1 else Ok s1.

(** [noexcept] boundary. *)
Definition noexcept (o : outcome) : outcome :=
  match o with Throw _ => Terminate | _ => o end.

Definition bind (o : outcome) (k : settings -> outcome) : outcome :=
  match o with Ok s => k s | _ => o end.

(** settings.cc:31-44, declared noexcept. *)
Definition do_algorithm (v : algorithm) (s : settings) : outcome :=
  noexcept (
    let s1 := set_algo v s in
    match v with
    | kBdd => do_approximation kNone s1
    | _ =>
        bind (if approximation_eqb (approx s1) kNone
              then do_approximation kRareEvent s1 else Ok s1)
             (fun s2 => if prime_implicants s2 then do_prime_implicants false s2 else Ok s2)
    end).

(** settings.cc:46-54 and the table settings.h:33. *)
Definition algorithm_of_string (x : string) : option algorithm :=
  if x =? "bdd" then Some kBdd else if x =? "zbdd" then Some kZbdd
  else if x =? "mocus" then Some kMocus else None.
Definition do_algorithm_str (x : string) (s : settings) : outcome :=
  match algorithm_of_string x with Some v => do_algorithm v s | None => Throw s end.

(** settings.cc:64-73 and the table settings.h:39. *)
Definition approximation_of_string (x : string) : option approximation :=
  if x =? "none" then Some kNone else if x =? "rare-event" then Some kRareEvent
  else if x =? "mcub" then Some kMcub else None.
Definition do_approximation_str (x : string) (s : settings) : outcome :=
  match approximation_of_string x with Some v => do_approximation v s | None => Throw s end.

(** settings.cc:86-144: range-checked setters. *)
Definition do_limit_order (n : Z) s := if (n <? 0)%Z then Throw s else Ok (set_limit n s).
Definition do_cut_off (p : dbl) s :=
  if dlt p (Fin 0) || dlt (Fin 1) p then Throw s else Ok (set_cut p s).
Definition do_num_trials (n : Z) s := if (n <? 1)%Z then Throw s else Ok (set_trials n s).
Definition do_num_quantiles (n : Z) s := if (n <? 1)%Z then Throw s else Ok (set_quantiles n s).
Definition do_num_bins (n : Z) s := if (n <? 1)%Z then Throw s else Ok (set_bins n s).
Definition do_seed (n : Z) s := if (n <? 0)%Z then Throw s else Ok (set_seed n s).
Definition do_mission_time (t : dbl) s := if dlt t (Fin 0) then Throw s else Ok (set_mission t s).

(** settings.cc:151-161 *)
Definition do_time_step (t : dbl) s :=
  if dlt t (Fin 0) then Throw s
  else if dzero t && safety_integrity_levels s then Throw s
  else Ok (set_step t s).

(** settings.cc:163-172 *)
Definition do_sil (flag : bool) s :=
  if flag && dzero (time_step s) then Throw s
  else let s1 := set_sil flag s in
       Ok (if safety_integrity_levels s1 then set_prob true s1 else s1).

(** settings.h:221-227 *)
Definition do_probability (flag : bool) s :=
  Ok (if negb (importance_analysis s) && negb (uncertainty_analysis s)
         && negb (safety_integrity_levels s)
      then set_prob flag s else s).
(** settings.h:253-258 *)
Definition do_importance (flag : bool) s :=
  let s1 := set_imp flag s in
  Ok (if importance_analysis s1 then set_prob true s1 else s1).
(** settings.h:270-275 *)
Definition do_uncertainty (flag : bool) s :=
  let s1 := set_unc flag s in
  Ok (if uncertainty_analysis s1 then set_prob true s1 else s1).
(** settings.h:285-288 *)
Definition do_ccf (flag : bool) s := Ok (set_ccf flag s).

(** The public API as a set of calls. *)
Inductive call :=
| CAlgorithm (v : algorithm) | CAlgorithmStr (x : string)
| CApproximation (v : approximation) | CApproximationStr (x : string)
| CPrimeImplicants (b : bool) | CLimitOrder (n : Z) | CCutOff (p : dbl)
| CNumTrials (n : Z) | CNumQuantiles (n : Z) | CNumBins (n : Z) | CSeed (n : Z)
| CMissionTime (t : dbl) | CTimeStep (t : dbl) | CSil (b : bool)
| CProbability (b : bool) | CImportance (b : bool) | CUncertainty (b : bool) | CCcf (b : bool).

Definition run_call (c : call) (s : settings) : outcome :=
  match c with
  | CAlgorithm v => do_algorithm v s
  | CAlgorithmStr x => do_algorithm_str x s
  | CApproximation v => do_approximation v s
  | CApproximationStr x => do_approximation_str x s
  | CPrimeImplicants b => do_prime_implicants b s
  | CLimitOrder n => do_limit_order n s
  | CCutOff p => do_cut_off p s
  | CNumTrials n => do_num_trials n s
  | CNumQuantiles n => do_num_quantiles n s
  | CNumBins n => do_num_bins n s
  | CSeed n => do_seed n s
  | CMissionTime t => do_mission_time t s
  | CTimeStep t => do_time_step t s
  | CSil b => do_sil b s
  | CProbability b => do_probability b s
  | CImportance b => do_importance b s
  | CUncertainty b => do_uncertainty b s
  | CCcf b => do_ccf b s
  end.

(** A client that makes a sequence of calls and survives thrown errors
    (catching them and going on); [None] if the process was terminated. *)
Fixpoint run_calls (cs : list call) (s : settings) : option settings :=
  match cs with
  | [] => Some s
  | c :: cs' =>
      match run_call c s with
      | Ok s' | Throw s' => run_calls cs' s'
      | Terminate => None
      end
  end.

(** ---- Specification (independent of the setters) ---- *)
Definition in_unit (d : dbl) : Prop := exists q, d = Fin q /\ (0 <= q <= 1)%Q.
Definition nonneg_time (d : dbl) : Prop := d = PInf \/ exists q, d = Fin q /\ (0 <= q)%Q.

(** Logical consistency between options. *)
Record consistent (s : settings) : Prop := {
  c_prime : prime_implicants s = true -> algo s = kBdd /\ approx s = kNone;
  c_prob : importance_analysis s = true \/ uncertainty_analysis s = true
           \/ safety_integrity_levels s = true -> probability_analysis s = true;
  c_sil : safety_integrity_levels s = true -> dzero (time_step s) = false;
  c_limit : (0 <= limit_order s)%Z;
  c_seed : (0 <= seed s)%Z;
  c_trials : (1 <= num_trials s)%Z;
  c_quantiles : (1 <= num_quantiles s)%Z;
  c_bins : (1 <= num_bins s)%Z }.

(** Documented ranges of the floating-point settings. *)
Definition float_ranges (s : settings) : Prop :=
  in_unit (cut_off s) /\ nonneg_time (mission_time s) /\ nonneg_time (time_step s).

Definition no_nan_arg (c : call) : Prop :=
  match c with CCutOff d | CMissionTime d | CTimeStep d => d <> NaN | _ => True end.
