(** Uncertainty analysis: src/uncertainty_analysis.cc:35-121, src/uncertainty_analysis.h:128-158.
    Simplifications: real numbers for doubles; a division by zero is [None]; the quantiles and the histogram
    that Boost.Accumulators estimates are not modelled; in a trial all expressions are sampled before their
    values are stored (the code alternates: storing does not influence sampling). *)
From Coq Require Import Reals List ZArith.
From Verif Require Import Sampling Deviates.
Import ListNotations.
Local Open Scope R_scope.

(** A basic event of the graph: IsDeviate of its expression, and the expression (a node of [Sampling]). *)
Record event := Event { uncertain : bool; expression : nat }.
(** GatherDeviateExpressions, uncertainty_analysis.cc:55-65: variables are numbered from
    Pdag::kVariableStartIndex = 2 on (pdag.h) in the order of the basic events. *)
Fixpoint gather (index : Z) (events : list event) : list (Z * nat) :=
  match events with
  | [] => []
  | e :: es => (if uncertain e then [(index, expression e)] else []) ++ gather (index + 1) es
  end.
Definition kVariableStartIndex : Z := 2.
Definition deviate_expressions (events : list event) : list (Z * nat) := gather kVariableStartIndex events.

Definition store (p : Z -> R) (i : Z) (x : R) : Z -> R := fun j => if Z.eqb j i then x else p j.
Fixpoint store_all (p : Z -> R) (is : list Z) (xs : list R) : Z -> R :=
  match is, xs with i :: is, x :: xs => store_all (store p i (clamp x)) is xs | _, _ => p end.
(** SampleExpressions, uncertainty_analysis.cc:67-85 *)
Definition sample_expressions (rng : nat -> R) (G : graph R) (fuel : nat) (ds : list (Z * nat)) (p : Z -> R) (s : state R) :
    option ((Z -> R) * state R) :=
  match trial rng G fuel (map snd ds) s with
  | Some (xs, s) => Some (store_all p (map fst ds) xs, s)
  | None => None
  end.
(** The loop of UncertaintyAnalyzer::Sample, uncertainty_analysis.h:141-156: the probabilities of the variables
    with which the total is calculated, trial by trial; one map is updated from trial to trial. *)
Fixpoint trial_loop (rng : nat -> R) (G : graph R) (fuel : nat) (ds : list (Z * nat)) (n : nat) (p : Z -> R) (s : state R) :
    option (list (Z -> R) * state R) :=
  match n with
  | O => Some ([], s)
  | S n =>
      match sample_expressions rng G fuel ds p s with
      | None => None
      | Some (p, s) =>
          match trial_loop rng G fuel ds n p s with Some (l, s) => Some (p :: l, s) | None => None end
      end
  end.
Definition all_trials (rng : nat -> R) (G : graph R) (fuel : nat) (events : list event) (num_trials : nat) (p_vars : Z -> R) (s : state R) :
    option (list (Z -> R) * state R) :=
  trial_loop rng G fuel (deviate_expressions events) num_trials p_vars s.

(** The mean and the variance of Boost.Accumulators are updated sample by sample:
    mean_n = (mean_(n-1) (n - 1) + x) / n and
    var_n = var_(n-1) (n - 1) / n + (x - mean_n)^2 / (n - 1) for n > 1, 0 for n = 1. *)
Record accumulator := Acc { count : nat; acc_mean : R; acc_variance : R }.
Definition empty : accumulator := Acc 0 0 0.
Definition accumulate (a : accumulator) (x : R) : accumulator :=
  let n := S (count a) in
  let m := (acc_mean a * (INR n - 1) + x) / INR n in
  Acc n m (if Nat.ltb 1 n then acc_variance a * (INR n - 1) / INR n + (x - m) ^ 2 / (INR n - 1) else acc_variance a).
(** CalculateStatistics, uncertainty_analysis.cc:87-121: mean, sigma, error factor, confidence interval. *)
Record statistics := Statistics { mean : R; sigma : R; error_factor : R; confidence : R * R }.
Definition calculate_statistics (num_trials : nat) (samples : list R) : option statistics :=
  let acc := fold_left accumulate samples empty in
  let n := INR num_trials in
  match div (n * acc_variance acc) (n - 1) with
  | None => None
  | Some q =>
      let s := sqrt q in
      let m := acc_mean acc in
      Some (Statistics m s (exp (196 / 100 * s)) (m - s * (196 / 100) / sqrt n, m + s * (196 / 100) / sqrt n))
  end.
(** The levels of the quantiles, uncertainty_analysis.cc:93-97 *)
Definition quantile_levels (num_quantiles : nat) : list R :=
  map (fun i => 1 / INR num_quantiles * (INR i + 1)) (seq 0 num_quantiles).
