(** How an analysis is configured: /repo/src/project.cc:60-197 (Project: version, GatherInputFiles,
    GatherOptions, SetAnalysis, SetLimits), src/ext/version.cc:22-50 (extract_version) and
    src/scram.cc:110-254 (ParseArguments, ConstructSettings, RunScram to the Initializer), on the setters of
    Settings.v.  Simplifications: the XML and the command line are taken as parsed: the children of <options>
    in document order with typed values, the variables map as a record; paths are not made absolute
    (project.cc:42-52); [--help], [--version], verbosity and the debug options are left out.  The type [outcome]
    of Settings.v tells a thrown error from std::terminate in a noexcept function. *)
From Coq Require Import ZArith QArith String Ascii Bool List.
From Verif Require Import Settings.
Import ListNotations.
Local Open Scope string_scope.
Local Open Scope list_scope.

(** ** The project file *)
(** SetLimits, project.cc:167-196: the children of <limits> that are known. *)
Inductive limit := LProductOrder (n : Z) | LCutOff (p : dbl) | LMissionTime (t : dbl) | LTimeStep (t : dbl) | LTrials (n : Z)
  | LQuantiles (n : Z) | LBins (n : Z) | LSeed (n : Z).
Definition limit_call (l : limit) : call :=
  match l with LProductOrder n => CLimitOrder n | LCutOff p => CCutOff p | LMissionTime t => CMissionTime t | LTimeStep t => CTimeStep t
  | LTrials n => CNumTrials n | LQuantiles n => CNumQuantiles n | LBins n => CNumBins n | LSeed n => CSeed n end.
(** The attributes of <analysis>. *)
Record flags := mkFlags { f_probability : option bool; f_importance : option bool; f_uncertainty : option bool; f_ccf : option bool; f_sil : option bool }.
(** The children of <options>. *)
Inductive group := GAlgorithm (name : string) | GPrimeImplicants | GApproximation (name : string) | GLimits (l : list limit) | GAnalysis (f : flags).
(** 149-165 *)
Definition flag_call (f : option bool) (set : bool -> call) : list call := match f with Some b => [set b] | None => [] end.
Definition analysis_calls (f : flags) : list call :=
  flag_call (f_probability f) CProbability ++ flag_call (f_importance f) CImportance ++ flag_call (f_uncertainty f) CUncertainty ++
  flag_call (f_ccf f) CCcf ++ flag_call (f_sil f) CSil.
(** 108-147: the loop over the children, then the first <analysis>. *)
Definition group_calls (g : group) : list call :=
  match g with GAlgorithm n => [CAlgorithmStr n] | GPrimeImplicants => [CPrimeImplicants true] | GApproximation n => [CApproximationStr n]
  | GLimits l => map limit_call l | GAnalysis _ => [] end.
Fixpoint first_analysis (l : list group) : option flags := match l with [] => None | GAnalysis f :: _ => Some f | _ :: l => first_analysis l end.
Definition option_calls (l : list group) : list call :=
  flat_map group_calls l ++ match first_analysis l with Some f => analysis_calls f | None => [] end.
(** The calls up to the first that throws. *)
Fixpoint steps (cs : list call) (s : settings) : outcome := match cs with [] => Ok s | c :: cs => bind (run_call c s) (steps cs) end.

(** extract_version; [n]: the numbers, the one at [i] last; [e]: expect_separator. *)
Definition set_third {A} (n : A * A * A) (i : nat) (f : A -> A) : A * A * A :=
  let '(a, b, c) := n in match i with 0%nat => (f a, b, c) | 1%nat => (a, f b, c) | _ => (a, b, f c) end.
Definition digit (c : ascii) : option Z := let k := (Z.of_N (N_of_ascii c) - 48)%Z in if (0 <=? k)%Z && (k <=? 9)%Z then Some k else None.
Fixpoint extract (l : list ascii) (n : Z * Z * Z) (i : nat) (e : bool) : option (Z * Z * Z) :=
  match l with
  | [] => Some n
  | c :: l =>
      if Ascii.eqb c "." then (if e then if Nat.eqb (S i) 3 then None else extract l n (S i) false else None)
      else match digit c with
           | Some k => extract l (set_third n i (fun x => x * 10 + k)%Z) i true
           | None => None
           end
  end.
Definition extract_version (v : string) : option (Z * Z * Z) :=
  match list_ascii_of_string v with [] => None | l => extract l (0, 0, 0)%Z 0 false end.
(** operator> of std::array, lexicographic *)
Definition later (a b : Z * Z * Z) : bool :=
  let '(a1, a2, a3) := a in let '(b1, b2, b3) := b in
  (b1 <? a1)%Z || (Z.eqb a1 b1 && ((b2 <? a2)%Z || (Z.eqb a2 b2 && (b3 <? a3)%Z))).
Record project := mkProject { p_version : option string; p_files : list string; p_options : option (list group) }.
(** 73-90: an absent or empty version is not checked *)
Definition version_ok (current : Z * Z * Z) (v : option string) : bool :=
  match v with
  | None | Some "" => true
  | Some v => match extract_version v with Some n => negb (later n current) | None => false end
  end.

(** ** The command line *)
Record command := mkCommand {
  v_bdd : bool; v_zbdd : bool; v_mocus : bool; v_prime : bool; v_rare : bool; v_mcub : bool;
  v_probability : bool; v_importance : bool; v_uncertainty : bool; v_ccf : bool; v_sil : bool;
  v_time_step : option dbl; v_seed : option Z; v_limit_order : option Z; v_cut_off : option dbl; v_mission_time : option dbl;
  v_trials : option Z; v_quantiles : option Z; v_bins : option Z; v_files : list string }.
(** ParseArguments, scram.cc:160-182; false: returns 1 *)
Definition parse_arguments (has_project : bool) (v : command) : bool :=
  if match v_files v with [] => negb has_project | _ => false end then false
  else if (1 <? Z.b2z (v_bdd v) + Z.b2z (v_zbdd v) + Z.b2z (v_mocus v))%Z then false
  else negb (v_rare v && v_mcub v).
(** ConstructSettings, 201-240 *)
Definition set_call {A} (v : option A) (f : A -> call) : list call := match v with Some x => [f x] | None => [] end.
Definition construct_calls (v : command) : list call :=
  (if v_bdd v then [CAlgorithm kBdd] else if v_zbdd v then [CAlgorithm kZbdd] else if v_mocus v then [CAlgorithm kMocus] else []) ++
  [CPrimeImplicants (v_prime v)] ++
  (if v_rare v then [CApproximation kRareEvent] else if v_mcub v then [CApproximation kMcub] else []) ++
  set_call (v_time_step v) CTimeStep ++ [CSil (v_sil v)] ++
  [CProbability (v_probability v); CImportance (v_importance v); CUncertainty (v_uncertainty v); CCcf (v_ccf v)] ++
  set_call (v_seed v) CSeed ++ set_call (v_limit_order v) CLimitOrder ++ set_call (v_cut_off v) CCutOff ++ set_call (v_mission_time v) CMissionTime ++
  set_call (v_trials v) CNumTrials ++ set_call (v_quantiles v) CNumQuantiles ++ set_call (v_bins v) CNumBins.
(** RunScram to the Initializer, 249-272, after ParseArguments *)
Inductive result := BadArguments | Error | Aborted | Configured (s : settings) (files : list string).
Definition finish (files : list string) (o : outcome) : result := match o with Ok s => Configured s files | Throw _ => Error | Terminate => Aborted end.
Definition configure (current : Z * Z * Z) (p : option project) (v : command) : result :=
  if parse_arguments (match p with Some _ => true | None => false end) v then
    match p with
    | None => finish (v_files v) (steps (construct_calls v) default_settings)
    | Some p =>
        if version_ok current (p_version p) then
          finish (p_files p ++ v_files v)
            (bind (steps (match p_options p with Some l => option_calls l | None => [] end) default_settings) (steps (construct_calls v)))
        else Error
    end
  else BadArguments.
