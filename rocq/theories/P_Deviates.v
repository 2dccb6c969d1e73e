(** C51: random deviates. *)
From Coquelicot Require Import Coquelicot.
From Coq Require Import Reals Lra Lia List Bool Sorted.
From Verif Require Import Deviates.
Import ListNotations.
Local Open Scope R_scope.

(** * The specification *)
(** Parameters of the distributions. *)
Definition in_domain (d : deviate) : Prop :=
  match d with
  | Uniform min max => min < max
  | Normal _ sigma => 0 < sigma
  | LognormalEf mean ef level => 0 < level < 1 /\ 1 < ef /\ 0 < mean
  | LognormalMu _ sigma => 0 < sigma
  | Gamma k theta => 0 < k /\ 0 < theta
  | Beta alpha beta => 0 < alpha /\ 0 < beta
  | Histogram b bins => Forall (fun w => 0 <= w) (map snd bins) /\ StronglySorted Rlt (b :: map fst bins)
  end.

(** What is known of the mathematical functions behind Boost.Math: erfc_inv decreases from infinity to minus
    infinity on (0, 2) through 0 at 1; Q(k, x) is a survival function, with the Erlang form for natural
    shapes; I_x(a, b) is a distribution function on (0, 1), with I_x(1, 1) = x. *)
Record real_functions (s : special) : Prop := {
  erfc_inv_1 : erfc_inv s 1 = 0;
  erfc_inv_decr : forall x y, 0 < x -> x < y -> y < 2 -> erfc_inv s y < erfc_inv s x;
  gamma_q_0 : forall k, 0 < k -> gamma_q s k 0 = 1;
  gamma_q_range : forall k x, 0 < k -> 0 <= x -> 0 < gamma_q s k x <= 1;
  gamma_q_erlang : forall n x, 0 <= x ->
    gamma_q s (INR (S n)) x = exp (- x) * sum_f_R0 (fun i => / INR (fact i) * x ^ i) n;
  ibeta_range : forall a b x, 0 < a -> 0 < b -> 0 < x < 1 -> 0 < ibeta s a b x < 1;
  ibeta_1_1 : forall x, 0 <= x <= 1 -> ibeta s 1 1 x = x }.

(** The mean of a deviate is in the interval it reports. *)
Definition mean_inside (s : special) (d : deviate) : Prop :=
  exists v i, value d = Some v /\ interval_of s d = Some i /\ contains i v.
(** When this is so. *)
Definition mean_inside_when (s : special) (d : deviate) : Prop :=
  match d with
  | Uniform _ _ | Normal _ _ | Beta _ _ => True
  | LognormalEf _ ef level => 1 / 2 < level /\ ln ef <= 6 * quantile s level
  | LognormalMu _ sigma => sigma <= 6
  | Gamma k _ => k * gamma_q s k (1 / 100) <= 1
  | Histogram _ bins => Exists (fun w => 0 < w) (map snd bins)
  end.

(** The mean of the distribution of a histogram: a bin is drawn in proportion to its weight, a point of the
    bin uniformly. *)
Definition total (bins : list (R * R)) : R := fold_right Rplus 0 (map snd bins).
Fixpoint expected (W prev : R) (bins : list (R * R)) : R :=
  match bins with
  | [] => 0
  | (b, w) :: bins => w / W * RInt (fun u => prev + u * (b - prev)) 0 1 + expected W b bins
  end.

(** * Validation *)
Lemma le_iff x y : le x y = true <-> x <= y.
Proof. unfold le. destruct (Rle_dec x y); intuition congruence. Qed.
Lemma le_false x y : le x y = false <-> y < x.
Proof. unfold le. destruct (Rle_dec x y); split; intros; try congruence; lra. Qed.
Lemma lt_iff x y : lt x y = true <-> x < y.
Proof. unfold lt. destruct (Rlt_dec x y); intuition congruence. Qed.
Lemma lt_false x y : lt x y = false <-> y <= x.
Proof. unfold lt. destruct (Rlt_dec x y); split; intros; try congruence; lra. Qed.
Lemma sorted_iff b bs : is_sorted b bs = true <-> StronglySorted Rlt (b :: bs).
Proof.
  revert b. induction bs as [|c bs IH]; intros b; cbn.
  - split; auto. intros _. repeat constructor.
  - destruct (le c b) eqn:E.
    + split; [discriminate|]. apply le_iff in E. intros H. inversion H as [|? ? ? F]; subst. inversion F; subst. lra.
    + apply le_false in E. rewrite IH. split.
      * intros H. constructor; auto. inversion H as [|? ? H1 F]; subst. constructor; auto. eapply Forall_impl; [|apply F]. intros x; cbn; lra.
      * intros H. now inversion H.
Qed.
Lemma weights_iff ws : existsb (fun w => lt w 0) ws = false <-> Forall (fun w => 0 <= w) ws.
Proof.
  induction ws as [|w ws IH]; cbn.
  - split; auto.
  - rewrite orb_false_iff, IH, lt_false. split; [intros [? ?]; now constructor|intros H; inversion H; auto].
Qed.
Theorem C51_validate d : validate d = true <-> in_domain d.
Proof.
  destruct d as [a b|m c|m e l|m c|k t|a b|b bins]; cbn.
  - rewrite negb_true_iff, le_false. tauto.
  - rewrite negb_true_iff, le_false. tauto.
  - destruct (le l 0) eqn:E1; cbn; [apply le_iff in E1; split; [discriminate|lra]|apply le_false in E1].
    destruct (le 1 l) eqn:E2; cbn; [apply le_iff in E2; split; [discriminate|lra]|apply le_false in E2].
    destruct (le e 1) eqn:E3; cbn; [apply le_iff in E3; split; [discriminate|lra]|apply le_false in E3].
    destruct (le m 0) eqn:E4; cbn; [apply le_iff in E4; split; [discriminate|lra]|apply le_false in E4]. lra.
  - rewrite negb_true_iff, le_false. tauto.
  - destruct (le k 0) eqn:E1; cbn; [apply le_iff in E1; split; [discriminate|lra]|apply le_false in E1].
    destruct (le t 0) eqn:E2; cbn; [apply le_iff in E2; split; [discriminate|lra]|apply le_false in E2]. lra.
  - destruct (le a 0) eqn:E1; cbn; [apply le_iff in E1; split; [discriminate|lra]|apply le_false in E1].
    destruct (le b 0) eqn:E2; cbn; [apply le_iff in E2; split; [discriminate|lra]|apply le_false in E2]. lra.
  - destruct (existsb _ _) eqn:E.
    + split; [discriminate|]. intros [F _]. apply weights_iff in F. congruence.
    + apply weights_iff in E. rewrite sorted_iff. tauto.
Qed.

(** A histogram is made exactly of n + 1 boundaries and n weights, in their order. *)
Theorem C51_histogram boundaries weights d : histogram boundaries weights = Some d <->
  exists b bins, d = Histogram b bins /\ boundaries = b :: map fst bins /\ weights = map snd bins.
Proof.
  unfold histogram. destruct boundaries as [|b bs].
  - split; [discriminate|]. intros (? & ? & _ & ? & _). discriminate.
  - destruct (Nat.eqb_spec (length weights) (length bs)) as [E|E].
    + split.
      * injection 1 as <-. exists b, (combine bs weights). split; auto.
        revert weights E. induction bs as [|c bs IH]; intros [|w ws] E; cbn in *; try discriminate; auto.
        injection E as E. destruct (IH ws E) as [A B]. injection A as A. split; congruence.
      * intros (b' & bins & -> & A & ->). injection A as -> ->. do 2 f_equal. clear E.
        induction bins as [|[c w] bins IH]; cbn; congruence.
    + split; [discriminate|]. intros (b' & bins & -> & A & ->). injection A as -> ->. rewrite !map_length in E. congruence.
Qed.

(** * Histograms *)
Lemma div_some x y : y <> 0 -> div x y = Some (x / y).
Proof. intros E. unfold div. destruct (Req_EM_T y 0); congruence. Qed.
Lemma hist_sums_weights b bins p w : snd (hist_sums b bins p w) = w + total bins.
Proof.
  revert b p w. induction bins as [|[c v] bins IH]; intros b p w; cbn.
  - unfold total; cbn; lra.
  - rewrite IH. unfold total; cbn. lra.
Qed.
Lemma total_nonneg bins : Forall (fun w => 0 <= w) (map snd bins) -> 0 <= total bins.
Proof. induction bins as [|[b w] bins IH]; unfold total in *; cbn; [lra|]. intros H; inversion H; subst. specialize (IH ltac:(auto)). lra. Qed.
Lemma total_pos bins : Forall (fun w => 0 <= w) (map snd bins) ->
  (0 < total bins <-> Exists (fun w => 0 < w) (map snd bins)).
Proof.
  induction bins as [|[b w] bins IH]; unfold total; cbn; intros F.
  - split; [lra|]. intros H; inversion H.
  - inversion F as [|? ? F1 F2]; subst. specialize (IH F2). pose proof (total_nonneg bins F2) as N. fold (total bins). cbn in F1. split.
    + intros P. destruct (Rle_lt_dec w 0); [apply Exists_cons_tl, IH; lra|now apply Exists_cons_hd].
    + intros H; inversion H; subst; [lra|]. apply IH in H1. lra.
Qed.
(** The sum of products lies between the bounds times the total weight. *)
Lemma hist_sums_bounds lo hi : forall bins b p w, lo <= b <= hi -> Forall (fun w => 0 <= w) (map snd bins) ->
  Forall (fun c => lo <= c <= hi) (map fst bins) -> 2 * lo * w <= p <= 2 * hi * w ->
  2 * lo * (w + total bins) <= fst (hist_sums b bins p w) <= 2 * hi * (w + total bins).
Proof.
  induction bins as [|[c v] bins IH]; intros b p w B F C P; unfold total; cbn.
  - lra.
  - inversion F as [|? ? F1 F2]; subst. inversion C as [|? ? C1 C2]; subst. cbn in F1, C1.
    specialize (IH c (p + (c + b) * v) (w + v) C1 F2 C2). fold (total bins).
    replace (w + (v + total bins)) with (w + v + total bins) by lra. apply IH.
    assert (2 * lo * v <= (c + b) * v) by (apply Rmult_le_compat_r; lra).
    assert ((c + b) * v <= 2 * hi * v) by (apply Rmult_le_compat_r; lra). lra.
Qed.
Lemma last_cons b c bins w : last_bound b ((c, w) :: bins) = last_bound c bins.
Proof.
  unfold last_bound. cbn [map fst]. generalize (map fst bins) as l. clear. intros l. destruct l as [|d l]; [reflexivity|].
  change (last (c :: d :: l) b) with (last (d :: l) b). revert d. induction l as [|e l IH]; intros d; [reflexivity|].
  change (last (e :: l) b = last (e :: l) c). apply IH.
Qed.
Lemma sorted_bounds : forall bins b, StronglySorted Rlt (b :: map fst bins) ->
  b <= last_bound b bins /\ Forall (fun c => b <= c <= last_bound b bins) (map fst bins).
Proof.
  induction bins as [|[c w] bins IH]; intros b H.
  - unfold last_bound; cbn. split; [lra|constructor].
  - rewrite last_cons. cbn in *. inversion H as [|? ? H1 F]; subst. destruct (IH c H1) as [A B].
    inversion F as [|? ? F1 F2]; subst. split; [lra|]. constructor; [lra|]. eapply Forall_impl; [|apply B]. intros x; cbn; lra.
Qed.
Lemma hist_value b bins : value (Histogram b bins) = div (fst (hist_sums b bins 0 0)) (2 * total bins).
Proof.
  cbn. pose proof (hist_sums_weights b bins 0 0) as E. destruct (hist_sums b bins 0 0) as [p w]. cbn in *. rewrite E. f_equal. lra.
Qed.
Lemma hist_inside s b bins : in_domain (Histogram b bins) ->
  (mean_inside s (Histogram b bins) <-> Exists (fun w => 0 < w) (map snd bins)).
Proof.
  intros [F SS]. rewrite <- (total_pos bins F). pose proof (total_nonneg bins F) as TN. split.
  - intros (v & i & V & _ & _). rewrite hist_value in V. unfold div in V. destruct (Req_EM_T _ _) as [E|E]; [discriminate|]. lra.
  - intros P. unfold mean_inside. rewrite hist_value, div_some by lra. do 2 eexists. split; [reflexivity|]. split; [reflexivity|].
    destruct (sorted_bounds bins b SS) as [A B].
    destruct (hist_sums_bounds b (last_bound b bins) bins b 0 0) as [L U]; auto; try lra. rewrite Rplus_0_l in L, U.
    unfold contains; cbn. split.
    + apply (Rmult_le_reg_r (2 * total bins)); [lra|]. unfold Rdiv. rewrite Rmult_assoc, Rinv_l by lra. lra.
    + apply (Rmult_le_reg_r (2 * total bins)); [lra|]. unfold Rdiv. rewrite Rmult_assoc, Rinv_l by lra. lra.
Qed.

(** * Means and intervals *)
Lemma quantile_sign s level : real_functions s -> 0 < level < 1 ->
  (level < 1 / 2 -> quantile s level < 0) /\ (level = 1 / 2 -> quantile s level = 0) /\ (1 / 2 < level -> 0 < quantile s level).
Proof.
  intros K L. unfold quantile. assert (Q : 0 < sqrt 2) by (apply sqrt_lt_R0; lra). repeat split; intros H.
  - assert (erfc_inv s 1 < erfc_inv s (2 * level)) as A by (apply (erfc_inv_decr s K); lra). rewrite (erfc_inv_1 s K) in A.
    pose proof (Rmult_lt_0_compat _ _ Q A). lra.
  - replace (2 * level) with 1 by lra. rewrite (erfc_inv_1 s K). lra.
  - assert (erfc_inv s (2 * level) < erfc_inv s 1) as A by (apply (erfc_inv_decr s K); lra). rewrite (erfc_inv_1 s K) in A.
    assert (0 < sqrt 2 * - erfc_inv s (2 * level)) by (apply Rmult_lt_0_compat; lra). lra.
Qed.
Lemma ln_pos x : 1 < x -> 0 < ln x.
Proof. intros H. rewrite <- ln_1. apply ln_increasing; lra. Qed.
Lemma exp_le x y : exp x <= exp y <-> x <= y.
Proof.
  split; intros H.
  - destruct (Rle_lt_dec x y) as [L|L]; auto. apply exp_increasing in L. lra.
  - destruct H as [H| ->]; [left; now apply exp_increasing|lra].
Qed.
Lemma half_sq c : c ^ 2 / 2 <= 3 * c <-> 0 <= c <= 6.
Proof. split; intros H; nra. Qed.

Theorem C51_mean_inside s d : real_functions s -> validate d = true -> (mean_inside s d <-> mean_inside_when s d).
Proof.
  intros K V. apply C51_validate in V. destruct d as [a b|m c|m e l|m c|k t|a b|b bins]; cbn [mean_inside_when].
  - split; auto. intros _. cbn in V. do 2 eexists. split; [reflexivity|]. split; [reflexivity|]. unfold contains; cbn. lra.
  - split; auto. intros _. cbn in V. do 2 eexists. split; [reflexivity|]. split; [reflexivity|]. unfold contains; cbn. lra.
  - cbn in V. destruct V as (L & E & M). destruct (quantile_sign s l K L) as (Q1 & Q2 & Q3). pose proof (ln_pos e E) as LE.
    assert (HM : forall c, contains (Interval true 0 (exp (3 * c + (ln m - c ^ 2 / 2)))) m <-> 0 <= c <= 6).
    { intros c. unfold contains; cbn [open lower upper]. rewrite <- half_sq. rewrite <- (exp_ln m M) at 2. rewrite exp_le. split; [intros [_ A]; lra|intros A; split; lra]. }
    unfold mean_inside. cbn [value interval_of]. unfold log_location. unfold log_scale, div. destruct (Req_EM_T (quantile s l) 0) as [Z0|Z0].
    + split; [intros (v & i & _ & A & _); discriminate|]. intros [A _]. apply Q3 in A. lra.
    + split.
      * intros (v & i & A & B & C). injection A as <-. injection B as <-. apply HM in C.
        assert (1 / 2 < l) as LL. { destruct (Rle_lt_dec l (1 / 2)) as [G|G]; auto. destruct G as [G|G]; [|elim Z0; auto]. apply Q1 in G.
          assert (/ quantile s l < 0) by now apply Rinv_lt_0_compat. assert (0 < ln e * - / quantile s l) by (apply Rmult_lt_0_compat; lra).
          unfold Rdiv in C. lra. }
        split; auto. apply Q3 in LL. destruct C as [_ C]. apply (Rmult_le_compat_r (quantile s l)) in C; [|lra].
        unfold Rdiv in C. rewrite Rmult_assoc, Rinv_l in C by lra. lra.
      * intros [A B]. apply Q3 in A. do 2 eexists. split; [reflexivity|]. split; [reflexivity|]. apply HM.
        assert (ln e / quantile s l * quantile s l = ln e) as G by (field; lra). split.
        -- apply Rlt_le, Rdiv_lt_0_compat; lra.
        -- apply (Rmult_le_reg_r (quantile s l)); lra.
  - cbn in V. unfold mean_inside; cbn [value interval_of]. split.
    + intros (v & i & A & B & C). injection A as <-. injection B as <-. destruct C as [_ C]; cbn [upper] in C. rewrite exp_le in C.
      assert (c ^ 2 / 2 <= 3 * c) as G by lra. apply half_sq in G. lra.
    + intros H. do 2 eexists. split; [reflexivity|]. split; [reflexivity|]. split; cbn [open lower upper]; [apply exp_pos|].
      rewrite exp_le. assert (c ^ 2 / 2 <= 3 * c) by (apply half_sq; lra). lra.
  - cbn in V. destruct V as [Vk Vt]. unfold mean_inside; cbn [value interval_of]. rewrite (gamma_q_0 s K k Vk). replace (1 - 99 / 100) with (1 / 100) by lra.
    destruct (gamma_q_range s K k (1 / 100) Vk ltac:(lra)) as [G1 G2]. rewrite div_some by lra. set (q := gamma_q s k (1 / 100)) in *. split.
    + intros (v & i & A & B & C). injection A as <-. injection B as <-. destruct C as [_ C]; cbn [upper] in C.
      rewrite (Rmult_comm k) in C. apply Rmult_le_reg_l in C; auto. apply (Rmult_le_compat_r q) in C; [|lra]. unfold Rdiv in C. rewrite Rmult_assoc, Rinv_l in C by lra. lra.
    + intros H. do 2 eexists. split; [reflexivity|]. split; [reflexivity|]. split; cbn [open lower upper]; [now apply Rmult_lt_0_compat|].
      rewrite (Rmult_comm k). apply Rmult_le_compat_l; [lra|]. apply (Rmult_le_reg_r q); auto. unfold Rdiv. rewrite Rmult_assoc, Rinv_l by lra. lra.
  - split; auto. intros _. cbn in V. destruct V as [Va Vb]. unfold mean_inside; cbn [value interval_of].
    destruct (ibeta_range s K a b (99 / 100) Va Vb ltac:(lra)) as [G1 G2]. set (q := ibeta s a b (99 / 100)) in *. rewrite !div_some by lra.
    do 2 eexists. split; [reflexivity|]. split; [reflexivity|]. split; cbn [open lower upper].
    + apply Rlt_le, Rdiv_lt_0_compat; lra.
    + apply Rle_trans with 1.
      * apply (Rmult_le_reg_r (a + b)); [lra|]. unfold Rdiv. rewrite Rmult_assoc, Rinv_l by lra. lra.
      * unfold Rdiv. rewrite Rmult_1_l. rewrite <- Rinv_1 at 1. apply Rinv_le_contravar; lra.
  - now apply hist_inside.
Qed.

(** * The reported mean is the mean of the distribution *)
Lemma mid a b : RInt (fun u => a + u * (b - a)) 0 1 = (a + b) / 2.
Proof.
  apply is_RInt_unique. replace ((a + b) / 2) with (minus (a * 1 + (b - a) * 1 ^ 2 / 2) (a * 0 + (b - a) * 0 ^ 2 / 2)) by (unfold minus, plus, opp; cbn; lra).
  apply (is_RInt_derive (fun u => a * u + (b - a) * u ^ 2 / 2)).
  - intros x _. auto_derive; auto. lra.
  - intros x _. apply (ex_derive_continuous (fun u => a + u * (b - a))). auto_derive. auto.
Qed.
Lemma hist_sums_expected W : W <> 0 -> forall bins b p w, fst (hist_sums b bins p w) / (2 * W) = p / (2 * W) + expected W b bins.
Proof.
  intros HW. induction bins as [|[c v] bins IH]; intros b p w; cbn [hist_sums expected].
  - cbn. lra.
  - rewrite IH, (mid b c). field. auto.
Qed.
Theorem C51_uniform_mean a b : value (Uniform a b) = Some (RInt (fun u => a + u * (b - a)) 0 1).
Proof. cbn [value]. now rewrite (mid a b). Qed.
Theorem C51_histogram_mean b bins : validate (Histogram b bins) = true -> Exists (fun w => 0 < w) (map snd bins) ->
  value (Histogram b bins) = Some (expected (total bins) b bins).
Proof.
  intros V E. apply C51_validate in V. destruct V as [F _]. apply (total_pos bins F) in E. rewrite hist_value, div_some by lra.
  f_equal. rewrite hist_sums_expected by lra. lra.
Qed.
(** Of log-normal deviates given by mean and error factor: the location and the scale handed to the
    distribution are those with this mean, E = exp(mu + sigma^2 / 2), and this error factor,
    EF = exp(z sigma). Without this (level 1/2) there is no scale; below 1/2 the scale is negative. *)
Theorem C51_lognormal s m e l : real_functions s -> validate (LognormalEf m e l) = true ->
  (l <> 1 / 2 -> exists c mu, log_scale s e l = Some c /\ log_location s m e l = Some mu /\
     exp (mu + c ^ 2 / 2) = m /\ exp (quantile s l * c) = e /\ (0 < c <-> 1 / 2 < l)) /\
  (l = 1 / 2 -> log_scale s e l = None /\ log_location s m e l = None /\ interval_of s (LognormalEf m e l) = None).
Proof.
  intros K V. apply C51_validate in V. cbn in V. destruct V as (L & E & M). destruct (quantile_sign s l K L) as (Q1 & Q2 & Q3).
  pose proof (ln_pos e E) as LE. split.
  - intros N. assert (quantile s l <> 0) as QN. { destruct (Rtotal_order l (1 / 2)) as [G|[G|G]]; [apply Q1 in G|tauto|apply Q3 in G]; lra. }
    unfold log_location, log_scale. rewrite div_some by auto. do 2 eexists. split; [reflexivity|]. split; [reflexivity|]. split; [|split].
    + replace (ln m - (ln e / quantile s l) ^ 2 / 2 + (ln e / quantile s l) ^ 2 / 2) with (ln m) by lra. now apply exp_ln.
    + replace (quantile s l * (ln e / quantile s l)) with (ln e) by (field; auto). apply exp_ln. lra.
    + split.
      * intros P. destruct (Rtotal_order l (1 / 2)) as [G|[G|G]]; [apply Q1 in G|tauto|auto].
        assert (/ quantile s l < 0) by now apply Rinv_lt_0_compat. assert (0 < ln e * - / quantile s l) by (apply Rmult_lt_0_compat; lra). unfold Rdiv in P. lra.
      * intros G. apply Q3 in G. apply Rdiv_lt_0_compat; lra.
  - intros G. apply Q2 in G. cbn [interval_of]. unfold log_location, log_scale, div. rewrite G. destruct (Req_EM_T 0 0); [auto|congruence].
Qed.

(** * Samples *)
Definition bounded (d : deviate) : Prop := match d with Uniform _ _ | Beta _ _ | Histogram _ _ => True | _ => False end.
Theorem C51_samples_inside s d x : real_functions s -> validate d = true -> bounded d -> sample s d x ->
  exists i, interval_of s d = Some i /\ contains i x.
Proof.
  intros K V B X. apply C51_validate in V. destruct d as [a b|m c|m e l|m c|k t|a b|b bins]; cbn [bounded] in B; try tauto.
  - cbn in *. destruct X as (u & U & ->). eexists. split; [reflexivity|]. unfold contains; cbn.
    assert (0 <= u * (b - a)) by (apply Rmult_le_pos; lra). assert (u * (b - a) <= 1 * (b - a)) by (apply Rmult_le_compat_r; lra). lra.
  - cbn in *. destruct V as [Va Vb]. destruct (ibeta_range s K a b (99 / 100) Va Vb ltac:(lra)) as [G1 G2]. rewrite div_some by lra.
    eexists. split; [reflexivity|]. unfold contains; cbn. split; [lra|]. apply Rle_trans with 1; [lra|].
    unfold Rdiv. rewrite Rmult_1_l. rewrite <- Rinv_1 at 1. apply Rinv_le_contravar; lra.
  - eexists. split; [reflexivity|]. cbn in V, X. destruct V as [_ SS]. unfold contains; cbn [open lower upper].
    revert SS. induction X as [p c w bins u W U|p c w bins x X IH]; intros SS; rewrite last_cons.
    + cbn in SS. inversion SS as [|? ? S1 F]; subst. inversion F as [|? ? F1 _]; subst. destruct (sorted_bounds bins c S1) as [A _].
      assert (0 <= u * (c - p)) by (apply Rmult_le_pos; lra). assert (u * (c - p) <= 1 * (c - p)) by (apply Rmult_le_compat_r; lra). lra.
    + cbn in SS. inversion SS as [|? ? S1 F]; subst. inversion F as [|? ? F1 _]; subst. specialize (IH S1). lra.
Qed.
(** The other distributions are not bounded: some samples are outside the reported interval, whatever the
    parameters. *)
Theorem C51_samples_refuted s d i : real_functions s -> validate d = true -> ~ bounded d -> interval_of s d = Some i ->
  exists x, sample s d x /\ ~ contains i x.
Proof.
  intros K V B I. pose proof V as V'. apply C51_validate in V. destruct d as [a b|m c|m e l|m c|k t|a b|b bins]; cbn [bounded] in B; try tauto.
  - cbn in *. injection I as <-. exists (m + c * 7). split; [now exists 7|]. unfold contains; cbn. lra.
  - destruct (C51_lognormal s m e l K V') as [A1 A2]. destruct (Req_EM_T l (1 / 2)) as [G|G].
    { destruct (A2 G) as (_ & _ & N). congruence. }
    destruct (A1 G) as (c & mu & C & M & _). cbn [interval_of] in I. rewrite C, M in I. injection I as <-.
    exists (exp (mu + c * ((3 * c + 1) / c))). split. { cbn [sample]. exists c, mu, ((3 * c + 1) / c). auto. }
    unfold contains; cbn [open lower upper]. rewrite exp_le. intros [_ H].
    assert (c <> 0) as N. { unfold log_scale, div in C. destruct (Req_EM_T _ _) as [Z0|Z0]; [discriminate|]. injection C as <-.
      cbn in V. pose proof (ln_pos e ltac:(lra)) as LP. intros Z1. assert (ln e / quantile s l * quantile s l = ln e) as X by (field; auto). rewrite Z1 in X. lra. }
    replace (c * ((3 * c + 1) / c)) with (3 * c + 1) in H by (field; auto). lra.
  - cbn in *. injection I as <-. exists (exp (m + c * 4)). split; [now exists 4|]. unfold contains; cbn [open lower upper].
    rewrite exp_le. lra.
  - cbn [interval_of] in I. cbn in V. destruct V as [Vk Vt]. unfold div in I. destruct (Req_EM_T _ _) as [Z0|Z0]; [discriminate|]. injection I as <-.
    set (r := 1 / gamma_q s k (gamma_q s k 0 - 99 / 100)). exists ((Rabs r + 1) * t). cbn [sample]. split.
    + exists (Rabs r + 1). split; [pose proof (Rabs_pos r); lra|auto].
    + unfold contains; cbn [open lower upper]. intros [_ H]. rewrite (Rmult_comm t) in H. apply Rmult_le_reg_r in H; auto. pose proof (Rle_abs r). fold r in H. lra.
Qed.

(** * Refuted expectations *)
(** Of a gamma deviate with a natural shape above 1 the mean is never in the interval: the
    99 percentile is not computed. *)
Lemma erlang_bounds n x : 0 <= x -> 0 < sum_f_R0 (fun i => / INR (fact i) * x ^ i) n <= exp x.
Proof.
  intros H. assert (T : forall i, 0 <= / INR (fact i) * x ^ i) by (intros i; apply Rmult_le_pos; [apply Rlt_le, Rinv_0_lt_compat, INR_fact_lt_0|now apply pow_le]). split.
  - apply Rlt_le_trans with 1; [lra|]. clear - T. induction n as [|n IH]; cbn [sum_f_R0].
    + cbn. lra.
    + specialize (T (S n)). lra.
  - apply sum_incr; auto. pose proof (E1_cvg x) as C. apply C.
Qed.
Lemma erlang_two s n x : real_functions s -> 0 <= x -> exp (- x) * (1 + x) <= gamma_q s (INR (S (S n))) x.
Proof.
  intros K H. rewrite (gamma_q_erlang s K) by auto. apply Rmult_le_compat_l; [apply Rlt_le, exp_pos|].
  induction n as [|n IH]; [cbn; lra|]. rewrite tech5.
  assert (0 <= / INR (fact (S (S n))) * x ^ S (S n)) by (apply Rmult_le_pos; [apply Rlt_le, Rinv_0_lt_compat, INR_fact_lt_0|now apply pow_le]). lra.
Qed.
Theorem C51_gamma_refuted s n theta : real_functions s -> 0 < theta ->
  validate (Gamma (INR (S (S n))) theta) = true /\ ~ mean_inside s (Gamma (INR (S (S n))) theta).
Proof.
  intros K T. assert (2 <= INR (S (S n))) as N by (rewrite !S_INR; pose proof (pos_INR n); lra).
  assert (V : validate (Gamma (INR (S (S n))) theta) = true) by (apply C51_validate; cbn -[INR]; lra). split; auto.
  rewrite (C51_mean_inside s _ K V). cbn [mean_inside_when]. intros H. pose proof (erlang_two s n (1 / 100) K ltac:(lra)) as E.
  pose proof (exp_ineq1_le (- (1 / 100))) as X.
  assert ((1 + - (1 / 100)) * (1 + 1 / 100) <= exp (- (1 / 100)) * (1 + 1 / 100)) by (apply Rmult_le_compat_r; lra).
  set (q := gamma_q s (INR (S (S n))) (1 / 100)) in *. assert (2 * q <= INR (S (S n)) * q) by (apply Rmult_le_compat_r; lra). lra.
Qed.
(** So such a deviate with shape 2 and scale 1/2 is accepted as a probability although it exceeds 1 with
    probability Q(2, 1 / (1/2)) > 3/10. *)
Theorem C51_gamma_probability_refuted s : real_functions s ->
  event_accepted s (Gamma (INR 2) (1 / 2)) = Some true /\ 3 / 10 < gamma_q s (INR 2) (1 / (1 / 2)) /\
  exists x, sample s (Gamma (INR 2) (1 / 2)) x /\ 1 < x.
Proof.
  intros K. pose proof (erlang_two s 0 (1 / 100) K ltac:(lra)) as E. pose proof (exp_ineq1_le (- (1 / 100))) as X.
  assert ((1 + - (1 / 100)) * (1 + 1 / 100) <= exp (- (1 / 100)) * (1 + 1 / 100)) as Y by (apply Rmult_le_compat_r; lra).
  assert (INR 2 = 2) as I2 by (cbn; lra). split; [|split].
  - unfold event_accepted. cbn [value interval_of]. rewrite (gamma_q_0 s K) by lra. replace (1 - 99 / 100) with (1 / 100) by lra.
    set (q := gamma_q s (INR 2) (1 / 100)) in *. rewrite div_some by lra. unfold ensure_probability.
    replace (lt (INR 2 * (1 / 2)) 0) with false by (symmetry; apply lt_false; lra). replace (lt 1 (INR 2 * (1 / 2))) with false by (symmetry; apply lt_false; lra).
    cbn [orb]. unfold is_probability. cbn [open lower upper]. rewrite (proj2 (le_iff 0 0)) by lra.
    rewrite (proj2 (le_iff (1 / 2 * (1 / q)) 1)). { cbn. now rewrite orb_true_r. }
    assert (1 / q <= 2); [|lra]. apply (Rmult_le_reg_r q); [lra|]. unfold Rdiv. rewrite Rmult_assoc, Rinv_l by lra. lra.
  - pose proof (erlang_two s 0 (1 / (1 / 2)) K ltac:(lra)) as E2. replace (1 / (1 / 2)) with 2 in * by lra.
    assert (exp (Ropp 2) * exp 2 = 1) as P by (rewrite <- exp_plus, Rplus_opp_l; apply exp_0).
    assert (exp 2 <= 9) as Q. { replace 2 with (1 + 1) by lra. rewrite exp_plus. pose proof exp_le_3. pose proof (exp_pos 1). nra. }
    pose proof (exp_pos (Ropp 2)) as P0. assert (1 <= exp (Ropp 2) * 9) by (rewrite <- P; apply Rmult_le_compat_l; lra). lra.
  - exists 2. split; [|lra]. cbn [sample]. exists 4. lra.
Qed.
(** No beta deviate is accepted as a probability, although it is always one: the upper bound of its
    interval, 1 / I, is above 1. For the parameters (1, 1) it is 100/99: this is no matter of rounding. *)
Theorem C51_beta_refuted s a b : real_functions s -> validate (Beta a b) = true ->
  (forall x, sample s (Beta a b) x -> 0 <= x <= 1) /\ event_accepted s (Beta a b) = Some false.
Proof.
  intros K V. apply C51_validate in V. cbn in V. destruct V as [Va Vb]. split; [auto|].
  destruct (ibeta_range s K a b (99 / 100) Va Vb ltac:(lra)) as [G1 G2]. unfold event_accepted. cbn [value interval_of].
  set (q := ibeta s a b (99 / 100)) in *. rewrite !div_some by lra. unfold ensure_probability. destruct (_ || _); auto. f_equal.
  assert (1 < 1 / q) as U. { apply (Rmult_lt_reg_r q); [lra|]. unfold Rdiv. rewrite Rmult_assoc, Rinv_l by lra. lra. }
  unfold is_probability, is_empty. cbn [open lower upper]. rewrite (proj2 (lt_false (1 / q) 0)) by lra. rewrite (proj2 (le_false (1 / q) 1)) by lra.
  now rewrite andb_false_r.
Qed.
Theorem C51_beta_margin s i : real_functions s -> interval_of s (Beta 1 1) = Some i -> upper i = 100 / 99.
Proof. intros K. cbn. rewrite (ibeta_1_1 s K) by lra. rewrite div_some by lra. injection 1 as <-. cbn. lra. Qed.
(** Log-normal deviates with a large scale exclude their mean; so does a histogram without weight have no
    mean: both are accepted. *)
Theorem C51_lognormal_refuted s mu sigma : real_functions s -> 6 < sigma ->
  validate (LognormalMu mu sigma) = true /\ ~ mean_inside s (LognormalMu mu sigma).
Proof.
  intros K H. assert (V : validate (LognormalMu mu sigma) = true) by (apply C51_validate; cbn; lra). split; auto.
  rewrite (C51_mean_inside s _ K V). cbn. lra.
Qed.
Theorem C51_level_refuted s : real_functions s ->
  validate (LognormalEf 1 2 (1 / 2)) = true /\ event_accepted s (LognormalEf 1 2 (1 / 2)) = None.
Proof.
  intros K. assert (V : validate (LognormalEf 1 2 (1 / 2)) = true) by (apply C51_validate; cbn; lra). split; auto.
  unfold event_accepted. destruct (C51_lognormal s _ _ _ K V) as [_ A]. destruct (A eq_refl) as (_ & _ & ->). now destruct (value _).
Qed.
Theorem C51_weightless_refuted b bins : in_domain (Histogram b bins) -> Forall (fun w => w = 0) (map snd bins) ->
  validate (Histogram b bins) = true /\ value (Histogram b bins) = None.
Proof.
  intros D Z0. split; [now apply C51_validate|]. rewrite hist_value. assert (total bins = 0) as ->.
  { clear D. induction bins as [|[c w] bins IH]; unfold total in *; cbn; auto. inversion Z0 as [|? ? Z1 Z2]; subst. rewrite IH; auto. lra. }
  unfold div. destruct (Req_EM_T _ _); auto. lra.
Qed.

(** * Sampled probabilities are probabilities *)
Theorem C51_clamp p : 0 <= clamp p <= 1 /\ (0 <= p <= 1 -> clamp p = p).
Proof.
  unfold clamp. destruct (lt 1 p) eqn:E; [apply lt_iff in E|apply lt_false in E]; [split; intros; lra|].
  destruct (lt p 0) eqn:F; [apply lt_iff in F|apply lt_false in F]; split; intros; lra.
Qed.

(** * Non-vacuity: functions with the properties assumed of the special functions. *)
Definition natural (k : R) : nat := Z.to_nat (Int_part k).
Definition some_functions : special := Special
  (fun x => 1 - x)
  (fun k x => if Req_EM_T k (INR (S (pred (natural k)))) then exp (- x) * sum_f_R0 (fun i => / INR (fact i) * x ^ i) (pred (natural k)) else exp (- x))
  (fun a b x => x).
Lemma natural_INR n : natural (INR n) = n.
Proof.
  unfold natural. rewrite INR_IZR_INZ. assert (Int_part (IZR (Z.of_nat n)) = Z.of_nat n) as ->; [|apply Nat2Z.id].
  destruct (base_Int_part (IZR (Z.of_nat n))) as [A B]. apply le_IZR in A.
  assert (IZR (Z.of_nat n) < IZR (Int_part (IZR (Z.of_nat n)) + 1)) as C by (rewrite plus_IZR; lra). apply lt_IZR in C. lia.
Qed.
Example C51_nonvacuous : real_functions some_functions.
Proof.
  assert (Q : forall k x, 0 <= x -> gamma_q some_functions k x =
    exp (- x) * sum_f_R0 (fun i => / INR (fact i) * x ^ i) (if Req_EM_T k (INR (S (pred (natural k)))) then pred (natural k) else 0)).
  { intros k x _. cbn. destruct (Req_EM_T _ _); auto. cbn. lra. }
  split.
  - cbn. lra.
  - intros x y. cbn. lra.
  - intros k H. rewrite Q by lra. rewrite Ropp_0, exp_0. generalize (if Req_EM_T k (INR (S (pred (natural k)))) then pred (natural k) else 0%nat) as n. clear.
    induction n as [|n IH]; [cbn; lra|]. rewrite tech5. rewrite Rmult_plus_distr_l, IH. rewrite pow_i by lia. lra.
  - intros k x H X. rewrite Q by auto. match goal with |- context [sum_f_R0 _ ?n] => destruct (erlang_bounds n x X) as [A B] end. split.
    + apply Rmult_lt_0_compat; auto. apply exp_pos.
    + replace 1 with (exp (- x) * exp x) by (rewrite <- exp_plus; replace (- x + x) with 0 by lra; apply exp_0). apply Rmult_le_compat_l; auto. apply Rlt_le, exp_pos.
  - intros n x X. rewrite Q by auto. rewrite natural_INR. cbn [pred]. destruct (Req_EM_T _ _); congruence.
  - intros a b x _ _ H. cbn. lra.
  - intros x _. reflexivity.
Qed.
(** A histogram with three bins, one of them without weight. *)
Definition bins3 : list (R * R) := [(1 / 10, 2); (3 / 10, 0); (1, 6)].
Example bins3_ok : validate (Histogram 0 bins3) = true /\ value (Histogram 0 bins3) = Some (1 / 2) /\
  mean_inside some_functions (Histogram 0 bins3) /\ event_accepted some_functions (Histogram 0 bins3) = Some true.
Proof.
  assert (V : validate (Histogram 0 bins3) = true).
  { apply C51_validate. cbn. split; [repeat constructor; lra|]. repeat constructor; lra. }
  assert (W : value (Histogram 0 bins3) = Some (1 / 2)).
  { rewrite hist_value. unfold total, bins3. cbn. rewrite div_some by lra. f_equal. lra. }
  split; [auto|]. split; [auto|]. split.
  - apply C51_mean_inside; auto. { apply C51_nonvacuous. } cbn. apply Exists_cons_hd. lra.
  - unfold event_accepted. rewrite W. cbn. unfold ensure_probability, is_probability, last_bound. cbn.
    rewrite !(proj2 (lt_false _ _)) by lra. cbn. rewrite !(proj2 (le_iff _ _)) by lra. cbn. reflexivity.
Qed.
