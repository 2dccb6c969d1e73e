(** Random deviates: src/expression/random_deviate.h:64-285, src/expression/random_deviate.cc:40-236, and
    the checks of expressions used as probabilities: src/expression.h:36-55, src/expression.cc:75-87.
    Simplifications: real numbers for doubles; a parameter expression is its value() (the code uses only
    the value() of the arguments of a deviate, also to sample); the functions of Boost.Math (inverse
    complementary error function, incomplete gamma and beta functions) are arguments of the model; a
    division by zero is [None]; the random engine gives arbitrary numbers of the distribution's support. *)
From Coq Require Import Reals Lra Lia List Bool.
Import ListNotations.
Local Open Scope R_scope.

(** The functions of Boost.Math that the code calls: random_deviate.cc:27-30 *)
Record special := Special {
  erfc_inv : R -> R;
  gamma_q : R -> R -> R;
  ibeta : R -> R -> R -> R }.

(** The constructors: random_deviate.h:64-285. A histogram has one boundary more than weights
    (random_deviate.cc:173-189): its first boundary, then each upper boundary with its weight. *)
Inductive deviate :=
  | Uniform (min max : R)
  | Normal (mean sigma : R)
  | LognormalEf (mean ef level : R)
  | LognormalMu (mu sigma : R)
  | Gamma (k theta : R)
  | Beta (alpha beta : R)
  | Histogram (bound : R) (bins : list (R * R)).

(** Histogram::Histogram, random_deviate.cc:173-189: [None] is the ValidityError. *)
Definition histogram (boundaries weights : list R) : option deviate :=
  match boundaries with
  | [] => None
  | b :: bs => if Nat.eqb (length weights) (length bs) then Some (Histogram b (combine bs weights)) else None
  end.

Definition le (x y : R) : bool := if Rle_dec x y then true else false.
Definition lt (x y : R) : bool := if Rlt_dec x y then true else false.
(** boost::is_sorted with the comparator <=, random_deviate.cc:195-197: it fails at an element which
    compares before its predecessor. *)
Fixpoint is_sorted (prev : R) (bs : list R) : bool :=
  match bs with [] => true | b :: bs => if le b prev then false else is_sorted b bs end.
(** Validate: random_deviate.cc:44-49, 59-63, 79-89, 110-113, 122-132, 150-160, 191-201 *)
Definition validate (d : deviate) : bool :=
  match d with
  | Uniform min max => negb (le max min)
  | Normal _ sigma => negb (le sigma 0)
  | LognormalEf mean ef level =>
      if le level 0 || le 1 level then false else if le ef 1 then false else if le mean 0 then false else true
  | LognormalMu _ sigma => negb (le sigma 0)
  | Gamma k theta => if le k 0 then false else if le theta 0 then false else true
  | Beta alpha beta => if le alpha 0 then false else if le beta 0 then false else true
  | Histogram b bins =>
      if existsb (fun w => lt w 0) (map snd bins) then false else is_sorted b (map fst bins)
  end.

Definition div (x y : R) : option R := if Req_EM_T y 0 then None else Some (x / y).
(** LognormalDeviate::Logarithmic::scale and location, random_deviate.cc:101-108 *)
Definition quantile (s : special) (level : R) : R := - sqrt 2 * erfc_inv s (2 * level).
Definition log_scale (s : special) (ef level : R) : option R := div (ln ef) (quantile s level).
Definition log_location (s : special) (mean ef level : R) : option R :=
  match log_scale s ef level with Some c => Some (ln mean - c ^ 2 / 2) | None => None end.
(** Histogram::value, random_deviate.cc:203-216 *)
Fixpoint hist_sums (prev : R) (bins : list (R * R)) (product weights : R) : R * R :=
  match bins with
  | [] => (product, weights)
  | (b, w) :: bins => hist_sums b bins (product + (b + prev) * w) (weights + w)
  end.
(** value(): random_deviate.h:75, 99, 138, 208, 231-234; random_deviate.cc:115-117, 203-216 *)
Definition value (d : deviate) : option R :=
  match d with
  | Uniform min max => Some ((min + max) / 2)
  | Normal mean _ => Some mean
  | LognormalEf mean _ _ => Some mean
  | LognormalMu mu sigma => Some (exp (mu + sigma ^ 2 / 2))
  | Gamma k theta => Some (k * theta)
  | Beta alpha beta => div alpha (alpha + beta)
  | Histogram b bins => let '(p, w) := hist_sums b bins 0 0 in div p (2 * w)
  end.

(** An interval of values, closed above; [open] tells if the lower bound is excluded. *)
Record interval := Interval { open : bool; lower : R; upper : R }.
Definition contains (i : interval) (x : R) : Prop :=
  (if open i then lower i < x else lower i <= x) /\ x <= upper i.
Definition last_bound (b : R) (bins : list (R * R)) : R := last (map fst bins) b.
(** interval(): random_deviate.h:76-78, 101-105, 267-270; random_deviate.cc:96-99, 134-140, 162-166.
    [None]: a division by zero on the way. *)
Definition interval_of (s : special) (d : deviate) : option interval :=
  match d with
  | Uniform min max => Some (Interval false min max)
  | Normal mean sigma => let delta := 6 * sigma in Some (Interval false (mean - delta) (mean + delta))
  | LognormalEf mean ef level =>
      match log_scale s ef level, log_location s mean ef level with
      | Some c, Some l => Some (Interval true 0 (exp (3 * c + l)))
      | _, _ => None
      end
  | LognormalMu mu sigma => Some (Interval true 0 (exp (3 * sigma + mu)))
  | Gamma k theta =>
      match div 1 (gamma_q s k (gamma_q s k 0 - 99 / 100)) with
      | Some r => Some (Interval true 0 (theta * r))
      | None => None
      end
  | Beta alpha beta =>
      match div 1 (ibeta s alpha beta (99 / 100)) with
      | Some r => Some (Interval false 0 r)
      | None => None
      end
  | Histogram b bins => Some (Interval false b (last_bound b bins))
  end.

(** DoSample: random_deviate.cc:51-54, 65-68, 91-94, 142-145, 168-171, 228-236. The numbers come from
    the distributions of the standard library and of Boost: [u] is uniform in [0, 1), [n] standard
    normal, [g] positive (gamma), [x] in [0, 1] (beta); a histogram draws one of its bins with a positive
    weight and a point between the two bounds. *)
Inductive in_bin : R -> list (R * R) -> R -> Prop :=
  | bin_here prev b w bins u : 0 < w -> 0 <= u < 1 -> in_bin prev ((b, w) :: bins) (prev + u * (b - prev))
  | bin_later prev b w bins x : in_bin b bins x -> in_bin prev ((b, w) :: bins) x.
Definition sample (s : special) (d : deviate) (x : R) : Prop :=
  match d with
  | Uniform min max => exists u, 0 <= u < 1 /\ x = min + u * (max - min)
  | Normal mean sigma => exists n, x = mean + sigma * n
  | LognormalEf mean ef level =>
      exists c l n, log_scale s ef level = Some c /\ log_location s mean ef level = Some l /\ x = exp (l + c * n)
  | LognormalMu mu sigma => exists n, x = exp (mu + sigma * n)
  | Gamma _ theta => exists g, 0 < g /\ x = g * theta
  | Beta _ _ => 0 <= x <= 1
  | Histogram b bins => in_bin b bins x
  end.

(** IsProbability (boost::icl::within), expression.h:45-47; EnsureProbability, expression.cc:75-87.
    An interval with no points (upper bound not above an excluded lower bound, or below the lower bound)
    is within every interval. *)
Definition is_empty (i : interval) : bool := if open i then le (upper i) (lower i) else lt (upper i) (lower i).
Definition is_probability (i : interval) : bool := is_empty i || (le 0 (lower i) && le (upper i) 1).
Definition ensure_probability (v : R) (i : interval) : bool :=
  if lt v 0 || lt 1 v then false else is_probability i.
(** BasicEvent::Validate with a deviate as the event's expression, event.cc:42-50; [None]: the value or the
    interval is not a number. *)
Definition event_accepted (s : special) (d : deviate) : option bool :=
  match value d, interval_of s d with
  | Some v, Some i => Some (ensure_probability v i)
  | _, _ => None
  end.
(** The clamp on sampled probabilities, uncertainty_analysis.cc:80-84 *)
Definition clamp (p : R) : R := if lt 1 p then 1 else if lt p 0 then 0 else p.
