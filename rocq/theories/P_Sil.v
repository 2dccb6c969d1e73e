(** Properties C23 (SIL histogram) and C24 (time grid). *)
From Coq Require Import List Arith ZArith Reals Lra Lia Bool.
From Flocq Require Import Core.
From Verif Require Import Sil SilProofs.
Import ListNotations.
Local Open Scope R_scope.

(** ** C24 *)
(** consecutive values differ by at most [g a] after a *)
Fixpoint gaps (g : R -> R) (l : list R) : Prop :=
  match l with a :: ((b :: _) as r) => b - a <= g a /\ gaps g r | _ => True end.
Definition good_grid (total : R) (g : R -> R) (l : list R) : Prop :=
  hd 0 l = 0 /\ last l 0 = total /\ increasing l /\ gaps g l.

Section Generic.
Context (add : R -> R -> R) (total step m : R) (P : R -> Prop) (g : R -> R).
Context (M : 0 < m) (PR : forall t, P t -> 0 <= t < total -> P (add t step) /\ t + m <= add t step /\ add t step - t <= g t).
Lemma times_ok n : forall t, P t -> 0 <= t <= total -> total - t <= INR n * m ->
  exists l, times add total step (S n) t = Some l /\ hd t l = t /\ l <> [] /\ last l total = total /\ increasing l /\ gaps g l /\ forall x, In x l -> t <= x <= total.
Proof.
  induction n as [|n IH]; intros t H0 H1 H2.
  - simpl in H2. assert (t = total) by lra. subst. exists [total]. cbn [times]. destruct (Rlt_dec total total); [lra|].
    split; auto. repeat split; auto; try discriminate; destruct H as [<-|[]]; lra.
  - rewrite S_INR in H2. change (times add total step (S (S n)) t) with (if Rlt_dec t total then option_map (cons t) (times add total step (S n) (add t step)) else Some [total]).
    destruct (Rlt_dec t total) as [L|L].
    + destruct (PR t H0) as (P1 & P2 & P3); [lra|]. destruct (Rle_dec (add t step) total) as [Q|Q].
      * destruct (IH (add t step) P1) as (l & E & HD & NE & LA & IN & GA & BO); [lra|lra|]. rewrite E. exists (t :: l). split; [reflexivity|].
        destruct l as [|b r]; [congruence|]. simpl in HD. subst b.
        split; [reflexivity|]. split; [discriminate|]. split; [exact LA|]. split; [split; [lra|exact IN]|]. split; [split; [exact P3|exact GA]|].
        intros x [<-|X]; [lra|]. specialize (BO x X). lra.
      * cbn [times]. destruct (Rlt_dec (add t step) total); [lra|]. exists [t; total]. split; [reflexivity|]. cbn.
        split; auto. split; [discriminate|]. split; auto. split; [lra|]. split; [lra|]. intros x [<-|[<-|[]]]; lra.
    + assert (t = total) by lra. subst. exists [total]. split; [reflexivity|]. repeat split; auto; try discriminate; destruct H as [<-|[]]; lra.
Qed.
Lemma times_grid : P 0 -> 0 <= total -> exists fuel l, times add total step fuel 0 = Some l /\ good_grid total g l.
Proof.
  intros P0 T. destruct (archimed (total / m)) as [A _].
  assert (U : 0 <= total / m) by (apply Rmult_le_pos; [lra|apply Rlt_le, Rinv_0_lt_compat, M]).
  destruct (times_ok (Z.to_nat (up (total / m))) 0 P0) as (l & E & HD & NE & LA & IN & GA & _); [lra| |].
  - rewrite INR_IZR_INZ, Z2Nat.id by (apply le_IZR; lra). replace (total - 0) with (total / m * m) by (field; lra). apply Rmult_le_compat_r; lra.
  - exists (S (Z.to_nat (up (total / m)))), l. split; auto. repeat split; auto. destruct l as [|x l]; [congruence|]. rewrite (last_indep l 0 total). exact LA.
Qed.
End Generic.
(** the number of rounds allowed does not matter *)
Theorem C24_fuel add total step : forall fuel t l, times add total step fuel t = Some l -> forall fuel', (fuel <= fuel')%nat -> times add total step fuel' t = Some l.
Proof.
  induction fuel as [|fuel IH]; intros t l E fuel' L; [discriminate|]. destruct fuel' as [|fuel']; [lia|]. cbn [times] in *.
  destruct (Rlt_dec t total); auto. destruct (times add total step fuel (add t step)) as [r0|] eqn:Q; [|discriminate]. rewrite (IH _ _ Q) by lia. exact E.
Qed.

(** In exact arithmetic the loop ends, and the times start at 0, increase strictly, end exactly
    at the mission time, and are at most one step apart. *)
Theorem C24_exact (total step : R) : 0 <= total -> 0 < step ->
  exists fuel l, times Rplus total step fuel 0 = Some l /\ good_grid total (fun _ => step) l.
Proof. intros T S. apply (times_grid Rplus total step step (fun _ => True) (fun _ => step)); auto. intros; split; auto; lra. Qed.

(** In binary64 arithmetic (round to nearest, ties to even), the same holds, up to half a unit in
    the last place in the gaps, provided that the step is not below the spacing of floating-point
    numbers at the mission time. *)
Notation b64 := (FLT_exp (-1074) 53).
Definition double (x : R) : Prop := generic_format radix2 b64 x.
Definition add64 (x y : R) : R := round radix2 b64 ZnearestE (x + y).
Global Instance prec_53 : Prec_gt_0 53. Proof. unfold Prec_gt_0. lia. Qed.
Lemma b64_pos x : bpow radix2 (-1074) <= ulp radix2 b64 x.
Proof. rewrite <- (ulp_FLT_0 radix2 (-1074) 53). apply ulp_ge_ulp_0; typeclasses eauto. Qed.
Theorem C24_binary64 (total step : R) : double total -> double step -> 0 <= total -> 0 < step -> ulp radix2 b64 total <= step ->
  exists fuel l, times add64 total step fuel 0 = Some l /\ good_grid total (fun t => step + / 2 * ulp radix2 b64 (t + step)) l.
Proof.
  intros FT FS T S U. apply (times_grid add64 total step (bpow radix2 (-1074)) double); auto.
  - apply bpow_gt_0.
  - intros t D L. unfold add64, double. split; [|split].
    + apply generic_format_round; typeclasses eauto.
    + apply Rle_trans with (succ radix2 b64 t).
      * rewrite succ_eq_pos by lra. pose proof (b64_pos t). lra.
      * apply round_ge_generic; try typeclasses eauto; [apply generic_format_succ; auto; typeclasses eauto|]. rewrite succ_eq_pos by lra.
        assert (ulp radix2 b64 t <= ulp radix2 b64 total) by (apply ulp_le_pos; try typeclasses eauto; lra). lra.
    + pose proof (error_le_half_ulp radix2 b64 (fun x => negb (Z.even x)) (t + step)) as E. apply Rabs_le_inv in E. fold ZnearestE in E. lra.
  - apply generic_format_0.
Qed.
(** Without that condition the loop need not end: with mission time 2^54 and step 1/2, the time stalls at or before 2^53. *)
Lemma bpow_double e : (-1074 <= e)%Z -> double (bpow radix2 e).
Proof. intros H. apply generic_format_bpow. unfold FLT_exp. lia. Qed.
Theorem C24_stall_refuted : exists total step, double total /\ double step /\ 0 < step < total /\ forall fuel, times add64 total step fuel 0 = None.
Proof.
  exists (bpow radix2 54), (bpow radix2 (-1)). split; [apply bpow_double; lia|]. split; [apply bpow_double; lia|]. split.
  { split; [apply bpow_gt_0|]. apply bpow_lt. lia. }
  assert (ST : forall t, t <= bpow radix2 53 -> add64 t (bpow radix2 (-1)) <= bpow radix2 53).
  { intros t L. unfold add64. apply round_N_le_midp; [typeclasses eauto|apply bpow_double; lia|]. rewrite succ_eq_pos by apply bpow_ge_0.
    rewrite ulp_bpow. change (b64 (53 + 1)) with 1%Z.
    replace (bpow radix2 1) with 2 by reflexivity. replace (bpow radix2 (-1)) with (/ 2) by (simpl; lra). lra. }
  assert (G : forall fuel t, t <= bpow radix2 53 -> times add64 (bpow radix2 54) (bpow radix2 (-1)) fuel t = None).
  { induction fuel as [|fuel IH]; intros t L; [reflexivity|]. cbn [times]. destruct (Rlt_dec t (bpow radix2 54)) as [Q|Q].
    - rewrite IH by (apply ST, L). reflexivity.
    - exfalso. apply Q. apply Rle_lt_trans with (bpow radix2 53); auto. apply bpow_lt. lia. }
  intros fuel. apply G. apply bpow_ge_0.
Qed.
(** The curve has one point per time, and the mission time has its original value afterwards. *)
Theorem C24_curve add total step p fuel pts final : over_time add total step p fuel = Some (pts, final) ->
  final = total /\ (forall y t, In (y, t) pts -> y = p t) /\ (step <> 0 -> times add total step fuel 0 = Some (map snd pts)).
Proof.
  unfold over_time. destruct (Req_EM_T step 0).
  - intros [= <- <-]. split; auto. split; [intros y t []|congruence].
  - destruct (times add total step fuel 0) as [l|] eqn:E; [|discriminate]. cbn [option_map]. intros [= <- <-]. split; [|split].
    + assert (A : last l total = total /\ l <> []); [|apply A].
      revert E. generalize 0. revert l. induction fuel as [|fuel IH]; intros l t E; [discriminate|]. cbn [times] in E.
      destruct (Rlt_dec t total); [|injection E as <-; split; [reflexivity|discriminate]].
      destruct (times add total step fuel (add t step)) as [r0|] eqn:Q; [|discriminate]. injection E as <-. apply IH in Q. destruct Q as [Q1 Q2].
      split; [|discriminate]. destruct r0; [congruence|exact Q1].
    + intros y t I. apply in_map_iff in I. destruct I as (x & [= <- <-] & _). reflexivity.
    + intros _. rewrite map_map. cbn [snd]. now rewrite map_id.
Qed.
Example C24_witness : exists l, times Rplus 5 2 9 0 = Some l /\ l = [0; 0 + 2; 0 + 2 + 2; 5].
Proof. eexists. split; [|reflexivity]. cbn [times]. repeat match goal with |- context [Rlt_dec ?x ?y] => destruct (Rlt_dec x y); try lra end. reflexivity. Qed.
Example C24_binary64_witness : double 8 /\ double 1 /\ ulp radix2 b64 8 <= 1.
Proof.
  replace 8 with (bpow radix2 3) by reflexivity. replace 1 with (bpow radix2 0) by reflexivity. split; [apply bpow_double; lia|]. split; [apply bpow_double; lia|].
  rewrite ulp_bpow. apply bpow_le. unfold FLT_exp. lia.
Qed.

(** ** C23 *)
(** Bucket i, the values between bound i-1 (or 0) and bound i, gets the part of the time that the
    (interpolated) curve spends within it. *)
Theorem C23_buckets (l : list point) (bounds : list R) i : curve l -> ok_bounds bounds -> (i < length bounds)%nat ->
  exists d, total_time_within l (nth i (0 :: bounds) 0) (nth i bounds 0) d /\
    nth i (partition_y l (buckets bounds)) (0, 0) = (nth i bounds 0, d / range_x l).
Proof.
  intros (L & I & Y) (BI & BN & BL) H. exists (seg_time l (nth i (0 :: bounds) 0) (nth i bounds 0)). split.
  - apply seg_time_within; auto. apply (increasing_nth (0 :: bounds) BI i). simpl. lia.
  - unfold partition_y. rewrite add_segments_all.
    assert (LN : (i < length (add_all l 0 (buckets bounds)))%nat). { clear -H. revert H. generalize 0. revert i. induction bounds as [|b bs IH]; intros i r H; simpl in *; [lia|]. destruct i; [lia|]. apply -> Nat.succ_lt_mono. apply IH. lia. }
    rewrite (nth_indep _ (0, 0) (fst (0, 0), snd (0, 0) / range_x l)) by (rewrite map_length; exact LN).
    rewrite (map_nth (fun b => (fst b, snd b / range_x l)) (add_all l 0 (buckets bounds)) (0, 0) i), nth_partition by exact H. reflexivity.
Qed.
Theorem C23_nonnegative (l : list point) (bounds : list R) i : curve l -> ok_bounds bounds -> (i < length bounds)%nat ->
  0 <= snd (nth i (partition_y l (buckets bounds)) (0, 0)).
Proof.
  intros C B H. destruct (C23_buckets l bounds i C B H) as (d & T & ->). cbn [snd]. apply total_time_nonneg in T.
  apply Rmult_le_pos; auto. apply Rlt_le, Rinv_0_lt_compat, range_pos; apply C.
Qed.
(** The fractions add up to one, plus the part of the time that the curve stays flat exactly on an inner bucket bound. *)
Theorem C23_sum (l : list point) (bounds : list R) : curve l -> ok_bounds bounds ->
  sum (partition_y l (buckets bounds)) = 1 + flat_time l (removelast bounds) / range_x l.
Proof.
  intros (L & I & Y) B. unfold partition_y. rewrite sum_div, (sum_partition bounds l B I Y).
  - pose proof (range_pos l L I). field. lra.
  - intros ->. simpl in L. lia.
Qed.
Theorem C23_partition (l : list point) (bounds : list R) : curve l -> ok_bounds bounds ->
  (forall p, In p l -> ~ In (fst p) (removelast bounds)) -> sum (partition_y l (buckets bounds)) = 1.
Proof.
  intros C B N. rewrite C23_sum by auto. assert (F : flat_time l (removelast bounds) = 0).
  { clear C B. induction l as [|a l IH]; [reflexivity|]. destruct l as [|b r]; [reflexivity|].
    change (flat_time (a :: b :: r) (removelast bounds)) with ((if Req_EM_T (fst a) (fst b) then if in_dec Req_EM_T (fst a) (removelast bounds) then snd b - snd a else 0 else 0) + flat_time (b :: r) (removelast bounds)).
    rewrite IH by (intros p H; apply N; now right). destruct (Req_EM_T (fst a) (fst b)); [|lra]. destruct (in_dec Req_EM_T (fst a) (removelast bounds)) as [X|X]; [|lra].
    exfalso. apply (N a); auto. now left. }
  rewrite F. unfold Rdiv. lra.
Qed.
Theorem C23_average (l : list point) m M : curve l -> (forall p, In p l -> m <= fst p <= M) -> m <= average_y l <= M.
Proof.
  intros (L & I & Y) B. unfold average_y, integrate. pose proof (range_pos l L I) as R0.
  destruct (trapezoid_bounds m M l I B) as [T1 T2]; [intros ->; simpl in L; lia|].
  assert (E : trapezoid l / 2 / range_x l = trapezoid l / (2 * range_x l)) by (field; lra). rewrite E. split.
  - apply le_div_iff; lra.
  - apply div_le_iff; lra.
Qed.
(** The report: bounds used, no failed assertion, the metrics as above. *)
Lemma pfd_ok : ok_bounds pfd_bounds.
Proof. unfold ok_bounds, pfd_bounds. split; [|split; [discriminate|reflexivity]]. cbn. repeat split; lra. Qed.
Lemma pfh_ok : ok_bounds pfh_bounds.
Proof. unfold ok_bounds, pfh_bounds. split; [|split; [discriminate|reflexivity]]. cbn. repeat split; lra. Qed.
Lemma put_one_sum y bounds : bounds <> [] -> (forall d, y <= last bounds d) -> exists f, put_one y (buckets bounds) = Some f /\ sum f = 1 /\ Forall (fun b => 0 <= snd b) f.
Proof.
  assert (Z : forall bs, sum (buckets bs) = 0 /\ Forall (fun b => 0 <= snd b) (buckets bs)).
  { induction bs as [|b bs [IH1 IH2]]; split; try reflexivity; try constructor; auto.
    - unfold sum, buckets in *. cbn [map fold_right snd]. rewrite IH1. lra.
    - simpl. lra. }
  induction bounds as [|b bs IH]; intros N L; [congruence|]. unfold buckets. cbn [map put_one]. fold (buckets bs). destruct (Rle_dec y b).
  - eexists. split; [reflexivity|]. destruct (Z bs) as [Z1 Z2]. split; [unfold sum in *; cbn [fold_right snd]; rewrite Z1; lra|]. constructor; auto. simpl. lra.
  - destruct bs as [|c bs]; [specialize (L 0); simpl in L; lra|]. destruct IH as (f & E & S & F); [discriminate|intros d; exact (L d)|]. rewrite E. eexists. split; [reflexivity|].
    split; [unfold sum in *; cbn [fold_right snd]; rewrite S; lra|]. constructor; auto. simpl. lra.
Qed.
Theorem C23_report (l : list point) : l <> [] -> increasing (map snd l) -> (forall p, In p l -> 0 <= fst p <= 1) ->
  exists r, compute_sil l = Some r /\ 
    (length l = 1%nat -> pfd_avg r = fst (front l) /\ sum (pfd_fractions r) = 1 /\ Forall (fun b => 0 <= snd b) (pfd_fractions r)) /\
    ((2 <= length l)%nat -> pfd_avg r = average_y l /\ pfd_fractions r = partition_y l (buckets pfd_bounds) /\
       pfh_avg r = average_y (map hourly l) /\ pfh_fractions r = partition_y (map hourly l) (buckets pfh_bounds)).
Proof.
  intros N I Y. destruct l as [|p [|q l]]; [congruence| |].
  - cbn [compute_sil]. destruct (put_one_sum (fst p) pfd_bounds) as (f & E & S & F); [discriminate|intros d; cbn; apply (Y p); now left|].
    rewrite E. eexists. split; [reflexivity|]. split; [intros _; auto|simpl; lia].
  - eexists. split; [reflexivity|]. split; [simpl; lia|]. auto.
Qed.
(** The hourly curve has values in [0, 1] only if the probability is at most the time; otherwise part of the time belongs to no bucket. *)
Theorem C23_hourly (l : list point) : curve l -> (forall p, In p l -> 0 <= snd p /\ (snd p <> 0 -> fst p <= snd p)) -> curve (map hourly l).
Proof.
  intros (L & I & Y) H. split; [rewrite map_length; exact L|]. split; [rewrite map_map; exact I|].
  intros p X. apply in_map_iff in X. destruct X as (q & <- & Q). unfold hourly. cbn [fst]. destruct (Req_EM_T (snd q) 0); [lra|].
  specialize (Y q Q). destruct (H q Q) as [H1 H2]. specialize (H2 n). split.
  - apply le_div_iff; lra.
  - apply div_le_iff; lra.
Qed.
Example C23_witness : let l := [(0, 0); (/ 2, 10); (/ 4, 15)] in
  curve l /\ curve (map hourly l) /\ forall p, In p l -> ~ In (fst p) (removelast pfd_bounds).
Proof.
  cbn zeta. assert (C : curve [(0, 0); (/ 2, 10); (/ 4, 15)]). { split; [simpl; lia|]. split; [cbn; lra|]. intros p [<-|[<-|[<-|[]]]]; cbn; lra. }
  split; auto. split.
  - apply C23_hourly; auto. intros p [<-|[<-|[<-|[]]]]; cbn; lra.
  - intros p [<-|[<-|[<-|[]]]]; cbn; intuition lra.
Qed.
(** A curve that stays on a bucket bound is counted in both buckets: the fractions add up to 2. *)
Theorem C23_flat_refuted : exists l, curve l /\ sum (partition_y l (buckets pfd_bounds)) = 2.
Proof.
  exists [(/ 10, 0); (/ 10, 1)]. assert (C : curve [(/ 10, 0); (/ 10, 1)]). { split; [simpl; lia|]. split; [cbn; lra|]. intros p [<-|[<-|[]]]; cbn; lra. }
  split; auto. rewrite C23_sum by (auto using pfd_ok). unfold range_x. cbn [flat_time fst snd back front last hd removelast pfd_bounds].
  destruct (Req_EM_T (/ 10) (/ 10)); [|lra]. destruct (in_dec Req_EM_T (/ 10) _) as [_|X]; [field|]. exfalso. apply X. simpl. auto 10.
Qed.
(** A high probability early in the mission: the hourly fractions do not add up to one. *)
Theorem C23_hourly_refuted : exists l, curve l /\ sum (partition_y (map hourly l) (buckets pfh_bounds)) < 1.
Proof.
  exists [(/ 2, / 10); (/ 2, / 5)]. split.
  { split; [simpl; lia|]. split; [cbn; lra|]. intros p [<-|[<-|[]]]; cbn; lra. }
  unfold partition_y. rewrite sum_div. unfold range_x, back, front. cbn [map last hd]. unfold hourly. cbn [fst snd].
  destruct (Req_EM_T (/ 10) 0); [lra|]. destruct (Req_EM_T (/ 5) 0); [lra|].
  rewrite add_segments_all.
  assert (S : forall b0 b1, b0 < b1 -> b1 <= 1 -> seg_time [(/ 2 / / 10, / 10); (/ 2 / / 5, / 5)] b0 b1 = 0).
  { intros b0 b1 B B1. cbn [seg_time]. assert (E1 : / 2 / / 10 = 5) by field. assert (E2 : / 2 / / 5 = 5 / 2) by field. rewrite E1, E2.
    destruct (segment_cases (5, / 10) (5 / 2, / 5)) as [(X & _)|[(_ & k & K & _ & S)|(X & _)]]; cbn [fst snd] in *; try lra.
    rewrite S by auto. replace (clamp (5 / 2) 5 b1) with (5 / 2) by (clamps; lra). replace (clamp (5 / 2) 5 b0) with (5 / 2) by (clamps; lra). unfold Rdiv. lra. }
  unfold sum, buckets, pfh_bounds. cbn [map add_all fold_right snd]. repeat match goal with |- context [seg_time ?l ?a ?b] => replace (seg_time l a b) with 0 by (symmetry; apply S; lra) end. unfold Rdiv. lra.
Qed.
