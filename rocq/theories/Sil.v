(** Probability over time and the SIL metrics: src/probability_analysis.cc:58-150, 197-223.
    Simplification: doubles are real numbers; the addition of the time loop is a parameter, so
    that binary64 rounding can be put in (P_Sil.v). *)
From Coq Require Import List Arith Reals Lra Lia Bool.
Import ListNotations.
Local Open Scope R_scope.

(** ** CalculateProbabilityOverTime, probability_analysis.cc:197-223 *)
Section Grid.
Context (add : R -> R -> R) (total step : R).
(** The times at which the loop calls update; None: the loop has not ended within [fuel] rounds. *)
Fixpoint times (fuel : nat) (t : R) : option (list R) :=
  match fuel with
  | 0%nat => None
  | S fuel =>
      if Rlt_dec t total then option_map (cons t) (times fuel (add t step)) else Some [total]
  end.
(** The curve of <probability, time> points and the final value of the mission time. *)
Definition over_time (p : R -> R) (fuel : nat) : option (list (R * R) * R) :=
  if Req_EM_T step 0 then Some ([], total)
  else option_map (fun l => (map (fun t => (p t, t)) l, last l total)) (times fuel 0).
End Grid.

(** ** Points are <y, x> pairs *)
Definition point := (R * R)%type.
(** Integrate, probability_analysis.cc:64-73 *)
Fixpoint trapezoid (l : list point) : R :=
  match l with
  | p0 :: ((p1 :: _) as r) => (fst p1 + fst p0) * (snd p1 - snd p0) + trapezoid r
  | _ => 0
  end.
Definition integrate (l : list point) : R := trapezoid l / 2.
Definition front (l : list point) : point := hd (0, 0) l.
Definition back (l : list point) : point := last l (0, 0).
Definition range_x (l : list point) : R := snd (back l) - snd (front l).
(** AverageY, probability_analysis.cc:76-80 *)
Definition average_y (l : list point) : R := integrate l / range_x l.
(** The lambda in PartitionY, probability_analysis.cc:103-117; k and the order of p_0, p_1 are
    already adjusted *)
Definition le (x y : R) : bool := if Rle_dec x y then true else false.
Definition fraction (k p0 p1 t0 t1 b0 b1 : R) : R :=
  if le p0 b0 && le b1 p1 then (b1 - b0) / k
  else if le b0 p0 && le p1 b1 then t1 - t0
  else if le p0 b0 && le b0 p1 then (p1 - b0) / k
  else if le p0 b1 && le b1 p1 then (b1 - p0) / k
  else 0.
(** one segment: probability_analysis.cc:94-125 *)
Definition segment (a b : point) (b0 b1 : R) : R :=
  let k := (fst b - fst a) / (snd b - snd a) in
  if Rlt_dec k 0 then fraction (- k) (fst b) (fst a) (snd a) (snd b) b0 b1
  else fraction k (fst a) (fst b) (snd a) (snd b) b0 b1.
Fixpoint add_segment (a b : point) (b0 : R) (bs : list (R * R)) : list (R * R) :=
  match bs with
  | [] => []
  | (b1, y) :: bs => (b1, y + segment a b b0 b1) :: add_segment a b b1 bs
  end.
Fixpoint add_segments (l : list point) (bs : list (R * R)) : list (R * R) :=
  match l with
  | a :: ((b :: _) as r) => add_segments r (add_segment a b 0 bs)
  | _ => bs
  end.
(** PartitionY, probability_analysis.cc:92-132 *)
Definition partition_y (l : list point) (bs : list (R * R)) : list (R * R) :=
  map (fun b => (fst b, snd b / range_x l)) (add_segments l bs).
(** ComputeSil, probability_analysis.cc:135-162; the buckets start at 0 (probability_analysis.h:40-54) *)
Definition pfd_bounds : list R := [/ 100000; / 10000; / 1000; / 100; / 10; 1].
Definition pfh_bounds : list R := [/ 1000000000; / 100000000; / 10000000; / 1000000; / 100000; 1].
Definition buckets (bounds : list R) : list (R * R) := map (fun b => (b, 0)) bounds.
Fixpoint put_one (y : R) (bs : list (R * R)) : option (list (R * R)) :=
  match bs with
  | [] => None                                  (* the assertion fails *)
  | (b, v) :: bs => if Rle_dec y b then Some ((b, 1) :: bs) else option_map (cons (b, v)) (put_one y bs)
  end.
Definition hourly (p : point) : point := (if Req_EM_T (snd p) 0 then 0 else fst p / snd p, snd p).
Record sil := mkSil { pfd_avg : R; pfh_avg : R; pfd_fractions : list (R * R); pfh_fractions : list (R * R) }.
Definition compute_sil (p_time : list point) : option sil :=
  match p_time with
  | [] => None
  | [p] => option_map (fun f => mkSil (fst p) 0 f (buckets pfh_bounds)) (put_one (fst p) (buckets pfd_bounds))
  | _ =>
      let pfh := map hourly p_time in
      Some (mkSil (average_y p_time) (average_y pfh) (partition_y p_time (buckets pfd_bounds)) (partition_y pfh (buckets pfh_bounds)))
  end.

(** ** Specification *)
Fixpoint increasing (l : list R) : Prop :=
  match l with a :: ((b :: _) as r) => a < b /\ increasing r | _ => True end.
Definition curve (l : list point) : Prop :=
  (2 <= length l)%nat /\ increasing (map snd l) /\ forall p, In p l -> 0 <= fst p <= 1.
(** linear interpolation between two points *)
Definition line (a b : point) (t : R) : R := fst a + (fst b - fst a) * (t - snd a) / (snd b - snd a).
(** [d] is the length of the set of times within the segment at which the line is within [b0, b1] *)
Definition time_within (a b : point) (b0 b1 d : R) : Prop :=
  (exists s e, snd a <= s <= e /\ e <= snd b /\ d = e - s /\ forall t, snd a <= t <= snd b -> (b0 <= line a b t <= b1 <-> s <= t <= e)) \/
  (d = 0 /\ forall t, snd a <= t <= snd b -> ~ (b0 <= line a b t <= b1)).
Fixpoint total_time_within (l : list point) (b0 b1 d : R) : Prop :=
  match l with
  | a :: ((b :: _) as r) => exists d1 d2, time_within a b b0 b1 d1 /\ total_time_within r b0 b1 d2 /\ d = d1 + d2
  | _ => d = 0
  end.
Definition sum (bs : list (R * R)) : R := fold_right (fun b s => snd b + s) 0 bs.
(** the time the curve stays flat on one of the values [v] *)
Fixpoint flat_time (l : list point) (v : list R) : R :=
  match l with
  | a :: ((b :: _) as r) =>
      (if Req_EM_T (fst a) (fst b) then if in_dec Req_EM_T (fst a) v then snd b - snd a else 0 else 0) + flat_time r v
  | _ => 0
  end.
