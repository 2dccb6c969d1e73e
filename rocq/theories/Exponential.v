(** Failure models: src/expression/exponential.cc.
    Simplifications: real numbers for doubles (rounding is not modelled); a conversion of a
    non-negative double to int is the integer part (no overflow). *)
From Coq Require Import Reals Lra Lia ZArith.
Local Open Scope R_scope.

(** p_exp(lambda, time), exponential.cc:35-37 *)
Definition p_exp (lambda time : R) : R := 1 - exp (- lambda * time).
(** p_exp(p_mu, p_lambda, mu, lambda, time), exponential.cc:51-55 *)
Definition p_exp2 (p_mu p_lambda mu lambda time : R) : R :=
  if Req_EM_T lambda mu then p_lambda - (1 - p_lambda) * lambda * time
  else (lambda * p_mu - mu * p_lambda) / (lambda - mu).

(** Exponential::Compute, exponential.cc:67-69 *)
Definition exponential_compute (lambda time : R) : R := p_exp lambda time.
(** Glm::Compute, exponential.cc:85-89 *)
Definition glm_compute (gamma lambda mu time : R) : R :=
  let r := lambda + mu in (lambda - (lambda - gamma * r) * exp (- r * time)) / r.
(** Weibull::Compute, exponential.cc:106-109 *)
Definition weibull_compute (alpha beta t0 time : R) : R :=
  if Rle_dec time t0 then 0 else 1 - exp (- Rpower ((time - t0) / alpha) beta).

(** static_cast<int> of a non-negative number *)
Definition to_int (x : R) : Z := Int_part x.

(** PeriodicTest::InstantRepair::Compute, exponential.cc:160-168 *)
Definition instant_repair (lambda tau theta time : R) : R :=
  if Rle_dec time theta then p_exp lambda time
  else
    let delta := time - theta in
    let time_after_test := delta - IZR (to_int (delta / tau)) * tau in
    p_exp lambda (if Req_EM_T time_after_test 0 then tau else time_after_test).

(** PeriodicTest::InstantTest::Compute, exponential.cc:181-207; the second component says that
    no division by zero happened. *)
Definition carry (lambda mu p_lambda p_mu t : R) : R :=
  let p_mu_lambda := p_exp2 p_lambda p_mu lambda mu t in 1 - p_mu + p_mu_lambda - p_lambda.
Definition instant_test (lambda mu tau theta time : R) : R * Prop :=
  if Rle_dec time theta then (p_exp lambda time, True)
  else
    let prob := p_exp lambda theta in
    let delta := time - theta in
    let num_periods := to_int (delta / tau) in
    let fraction := carry lambda mu (p_exp lambda tau) (p_exp mu tau) tau in
    let compound := pow fraction (Z.to_nat num_periods) in
    let prob := prob * compound + p_exp lambda tau * (compound - 1) / (fraction - 1) in
    let time_after_test := delta - IZR num_periods * tau in
    let p_lambda := p_exp lambda time_after_test in
    let p_mu := p_exp mu time_after_test in
    (prob * carry lambda mu p_lambda p_mu time_after_test + p_lambda, fraction - 1 <> 0).

(** PeriodicTest::Complete::Compute, exponential.cc:220-296.  The state is (p_fail, p_repair,
    p_available); [ok] collects the assertions. *)
Record pstate := mkP { p_fail : R; p_repair : R; p_available : R }.
Definition p_mu_lambda (omega mu lambda p_mu p_lambda t : R) : R :=
  p_mu * omega + (1 - omega) * p_exp2 p_mu p_lambda mu lambda t.
Definition asserts (s : pstate) : Prop :=
  (p_repair s >= 0 /\ p_repair s <= 1) /\ (p_fail s >= 0 /\ p_fail s <= 1) /\ p_available s >= 0.
Definition p_test (lambda mu gamma sigma omega : R) (s : pstate) (p_lambda_test p_mu p_lambda t : R) (available : bool) : pstate :=
  let p_fail_transient := p_fail s + p_available s * (gamma + (1 - gamma) * p_lambda_test) in
  let fail := p_repair s * p_mu_lambda omega mu lambda p_mu p_lambda t + (1 - sigma) * p_fail_transient in
  let repair := (1 - p_mu) * p_repair s + sigma * p_fail_transient in
  mkP fail repair
    (1 - fail - repair - (if available then 0 else p_available s * (1 - gamma) * (1 - p_lambda_test))).
Definition p_period (lambda mu omega : R) (s : pstate) (p_lambda p_mu t : R) : pstate :=
  let fail := p_available s * p_lambda + p_fail s + p_repair s * p_mu_lambda omega mu lambda p_mu p_lambda t in
  let repair := p_repair s * (1 - p_mu) in
  mkP fail repair (1 - fail - repair).
(** all the states passed, newest first *)
Fixpoint periods (lambda lambda_test mu tau gamma test_duration sigma omega : R) (n : nat) (s : pstate) : pstate * Prop :=
  match n with
  | O => (s, True)
  | S n =>
      let s1 := p_test lambda mu gamma sigma omega s (p_exp lambda_test test_duration) (p_exp mu test_duration)
                  (p_exp lambda test_duration) test_duration true in
      let s2 := p_period lambda mu omega s1 (p_exp lambda (tau - test_duration)) (p_exp mu (tau - test_duration)) (tau - test_duration) in
      let '(s3, ok) := periods lambda lambda_test mu tau gamma test_duration sigma omega n s2 in
      (s3, asserts s1 /\ asserts s2 /\ ok)
  end.
Definition complete (lambda lambda_test mu tau theta gamma test_duration : R) (available_at_test : bool)
  (sigma omega time : R) : R * Prop :=
  if Rle_dec time theta then (p_exp lambda time, True)
  else
    let s0 := mkP (p_exp lambda theta) 0 (1 - p_exp lambda theta) in
    let delta := time - theta in
    let num_periods := to_int (delta / tau) in
    let '(s, ok) := periods lambda lambda_test mu tau gamma test_duration sigma omega (Z.to_nat num_periods) s0 in
    let time_after_test := delta - IZR num_periods * tau in
    if Rle_dec time_after_test test_duration then
      let s1 := p_test lambda mu gamma sigma omega s (p_exp lambda_test time_after_test) (p_exp mu time_after_test)
                  (p_exp lambda time_after_test) time_after_test available_at_test in
      (1 - p_available s1, ok /\ asserts s1 /\ p_available s1 >= 0 /\ p_available s1 <= 1)
    else
      let s1 := p_test lambda mu gamma sigma omega s (p_exp lambda_test test_duration) (p_exp mu test_duration)
                  (p_exp lambda test_duration) test_duration true in
      let leftover_time := time_after_test - test_duration in
      let s2 := p_period lambda mu omega s1 (p_exp lambda leftover_time) (p_exp mu leftover_time) leftover_time in
      (1 - p_available s2, ok /\ asserts s1 /\ asserts s2 /\ p_available s2 >= 0 /\ p_available s2 <= 1).

(** ** Proofs *)
Lemma exp_neg_le x : 0 <= x -> exp (- x) <= 1.
Proof. intros. destruct H; [|subst; rewrite Ropp_0, exp_0; lra]. rewrite <- exp_0. left. apply exp_increasing. lra. Qed.
Lemma p_exp_range lambda t : 0 <= lambda -> 0 <= t -> 0 <= p_exp lambda t <= 1.
Proof.
  intros. unfold p_exp. replace (- lambda * t) with (- (lambda * t)) by ring.
  pose proof (exp_neg_le (lambda * t) (Rmult_le_pos _ _ H H0)). pose proof (exp_pos (- (lambda * t))). lra.
Qed.
Lemma p_exp_pos lambda t : 0 < lambda -> 0 < t -> 0 < p_exp lambda t.
Proof.
  intros. unfold p_exp. assert (exp (- lambda * t) < exp 0); [|rewrite exp_0 in *; lra]. apply exp_increasing.
  pose proof (Rmult_lt_0_compat _ _ H H0). lra.
Qed.
Lemma p_exp_mono a b t : a <= b -> 0 <= t -> p_exp a t <= p_exp b t.
Proof.
  intros L T. unfold p_exp. assert (exp (- b * t) <= exp (- a * t)); [|lra].
  assert (- b * t <= - a * t) by nra. destruct H; [left; now apply exp_increasing|rewrite H; lra].
Qed.
(** concavity of 1 - e^-x *)
Lemma concave a b : 0 <= a -> a <= b -> a * (1 - exp (- b)) <= b * (1 - exp (- a)).
Proof.
  intros A B. pose proof (exp_ineq1_le a) as E1. pose proof (exp_ineq1_le (- (b - a))) as E2.
  pose proof (exp_pos (- a)) as P.
  assert (Eb : exp (- b) = exp (- a) * exp (- (b - a))). { rewrite <- exp_plus. f_equal. ring. }
  assert (Ea : exp (- a) * exp a = 1). { rewrite <- exp_plus. replace (- a + a) with 0 by ring. apply exp_0. }
  assert (1 - exp (- b) <= 1 - exp (- a) + exp (- a) * (b - a)). { rewrite Eb. nra. }
  assert (a * exp (- a) <= 1 - exp (- a)) by nra. nra.
Qed.
Lemma p_exp2_range mu lambda t : 0 <= mu -> 0 <= lambda -> 0 <= t ->
  0 <= p_exp2 (p_exp mu t) (p_exp lambda t) mu lambda t <= p_exp mu t /\
  p_exp2 (p_exp mu t) (p_exp lambda t) mu lambda t <= p_exp lambda t.
Proof.
  intros M L T. unfold p_exp2. destruct (Req_EM_T lambda mu) as [->|N].
  - pose proof (p_exp_range mu t M T). assert (0 <= mu * t) by nra. unfold p_exp in *.
    replace (- mu * t) with (- (mu * t)) in * by ring. pose proof (exp_ineq1_le (mu * t)) as E.
    assert (Ea : exp (- (mu * t)) * exp (mu * t) = 1). { rewrite <- exp_plus. replace (- (mu * t) + mu * t) with 0 by ring. apply exp_0. }
    pose proof (exp_pos (- (mu * t))). assert (exp (- (mu * t)) * (1 + mu * t) <= 1) by nra. nra.
  - assert (G : forall m l, 0 <= m -> m < l -> 0 <= (l * p_exp m t - m * p_exp l t) / (l - m) <= p_exp m t /\
                 (l * p_exp m t - m * p_exp l t) / (l - m) <= p_exp l t).
    { intros m l Hm Hl. pose proof (p_exp_mono m l t (Rlt_le _ _ Hl) T) as MO.
      assert (D : 0 < l - m) by lra.
      assert (LO : 0 <= l * p_exp m t - m * p_exp l t).
      { destruct T as [T|<-].
        - assert (m * t <= l * t) by nra. pose proof (concave (m * t) (l * t) ltac:(nra) H) as C. unfold p_exp.
          replace (- m * t) with (- (m * t)) by ring. replace (- l * t) with (- (l * t)) by ring.
          apply Rmult_le_reg_l with t; auto. nra.
        - unfold p_exp. rewrite !Rmult_0_r, exp_0. lra. }
      assert (HI : l * p_exp m t - m * p_exp l t <= p_exp m t * (l - m)) by nra.
      assert (X : (l * p_exp m t - m * p_exp l t) / (l - m) <= p_exp m t).
      { apply Rmult_le_reg_r with (l - m); auto. unfold Rdiv. rewrite Rmult_assoc, Rinv_l, Rmult_1_r by lra. auto. }
      split; [split|]; auto; [|lra]. apply Rmult_le_pos; auto. left. now apply Rinv_0_lt_compat. }
    destruct (Rlt_or_le mu lambda) as [Q|Q].
    + apply G; auto.
    + assert (lambda < mu) by lra. destruct (G lambda mu L H) as [[A B] C].
      assert (E : (lambda * p_exp mu t - mu * p_exp lambda t) / (lambda - mu) = (mu * p_exp lambda t - lambda * p_exp mu t) / (mu - lambda)).
      { field. split; lra. }
      rewrite E. split; [split|]; auto.
Qed.
Lemma p_exp2_sym mu lambda t : p_exp2 (p_exp mu t) (p_exp lambda t) mu lambda t = p_exp2 (p_exp lambda t) (p_exp mu t) lambda mu t.
Proof.
  unfold p_exp2. destruct (Req_EM_T lambda mu) as [->|N].
  - destruct (Req_EM_T mu mu); [reflexivity|congruence].
  - destruct (Req_EM_T mu lambda); [congruence|]. field. split; lra.
Qed.

Lemma glm_range gamma lambda mu t : 0 <= gamma <= 1 -> 0 < lambda -> 0 <= mu -> 0 <= t -> 0 <= glm_compute gamma lambda mu t <= 1.
Proof.
  intros G L M T. unfold glm_compute. set (r := lambda + mu). assert (0 < r) by (unfold r; lra).
  replace (- r * t) with (- (r * t)) by ring. pose proof (exp_neg_le (r * t) ltac:(nra)). pose proof (exp_pos (- (r * t))).
  set (e := exp (- (r * t))) in *.
  assert (A : 0 <= lambda - (lambda - gamma * r) * e). { assert (0 <= lambda * (1 - e)) by nra. assert (0 <= gamma * r * e) by (repeat apply Rmult_le_pos; lra). nra. }
  assert (B : lambda - (lambda - gamma * r) * e <= r).
  { assert (gamma * r * e <= r * e). { assert (0 <= r * e * (1 - gamma)) by (repeat apply Rmult_le_pos; lra). nra. } unfold r in *. nra. }
  split.
  - apply Rmult_le_pos; auto. left. now apply Rinv_0_lt_compat.
  - apply Rmult_le_reg_r with r; auto. unfold Rdiv. rewrite Rmult_assoc, Rinv_l by lra. lra.
Qed.
Lemma weibull_range alpha beta t0 t : 0 <= weibull_compute alpha beta t0 t <= 1.
Proof.
  unfold weibull_compute. destruct (Rle_dec t t0); [lra|]. pose proof (exp_pos (beta * ln ((t - t0) / alpha))).
  pose proof (exp_neg_le (Rpower ((t - t0) / alpha) beta) (Rlt_le _ _ H)). pose proof (exp_pos (- Rpower ((t - t0) / alpha) beta)). lra.
Qed.

(** the time since the last test *)
Lemma after_test delta tau : 0 <= delta -> 0 < tau ->
  0 <= delta - IZR (to_int (delta / tau)) * tau < tau /\ (0 <= to_int (delta / tau))%Z.
Proof.
  intros D T. unfold to_int. destruct (base_Int_part (delta / tau)) as [A B].
  assert (Q : delta / tau * tau = delta) by (field; lra).
  assert (0 <= delta / tau). { apply Rmult_le_pos; auto. left. now apply Rinv_0_lt_compat. }
  split; [nra|]. assert (-1 < IZR (Int_part (delta / tau))) by lra. apply lt_IZR in H0. lia.
Qed.
Lemma instant_repair_range lambda tau theta t : 0 < lambda -> 0 < tau -> 0 <= theta -> 0 <= t -> 0 <= instant_repair lambda tau theta t <= 1.
Proof.
  intros L Ta Th T. unfold instant_repair. destruct (Rle_dec t theta); [apply p_exp_range; lra|].
  destruct (after_test (t - theta) tau ltac:(lra) Ta) as [A _]. cbn zeta.
  destruct (Req_EM_T _ _); apply p_exp_range; lra.
Qed.

Lemma step_range lambda mu t x : 0 <= lambda -> 0 <= mu -> 0 <= t -> 0 <= x <= 1 ->
  0 <= x * carry lambda mu (p_exp lambda t) (p_exp mu t) t + p_exp lambda t <= 1.
Proof.
  intros L M T X. unfold carry. destruct (p_exp2_range lambda mu t L M T) as [[A B] C].
  pose proof (p_exp_range lambda t L T). pose proof (p_exp_range mu t M T).
  set (q := p_exp2 _ _ _ _ _) in *. set (l := p_exp lambda t) in *. set (m := p_exp mu t) in *.
  replace (x * (1 - m + q - l) + l) with (x * (1 - m + q) + (1 - x) * l) by ring.
  assert (0 <= x * (1 - m + q)) by (apply Rmult_le_pos; lra). assert (x * (1 - m + q) <= x) by nra.
  assert (0 <= (1 - x) * l) by (apply Rmult_le_pos; lra). assert ((1 - x) * l <= 1 - x) by nra. lra.
Qed.
Fixpoint iter_step (f c : R) (n : nat) (x : R) : R := match n with O => x | S n => iter_step f c n x * f + c end.
Lemma geometric f c n x : f - 1 <> 0 -> x * f ^ n + c * (f ^ n - 1) / (f - 1) = iter_step f c n x.
Proof.
  intros N. induction n as [|n IH]; simpl; [field; auto|]. rewrite <- IH. field. auto.
Qed.
Lemma instant_test_range lambda mu tau theta t : 0 < lambda -> 0 <= mu -> 0 < tau -> 0 <= theta -> 0 <= t ->
  0 <= fst (instant_test lambda mu tau theta t) <= 1 /\ snd (instant_test lambda mu tau theta t).
Proof.
  intros L M Ta Th T. unfold instant_test. destruct (Rle_dec t theta); [simpl; split; auto; apply p_exp_range; lra|].
  destruct (after_test (t - theta) tau ltac:(lra) Ta) as [[A A'] _]. cbn zeta. cbn [fst snd].
  set (f := carry lambda mu (p_exp lambda tau) (p_exp mu tau) tau). set (np := Z.to_nat (to_int ((t - theta) / tau))).
  set (ta := t - theta - _) in *.
  assert (F : f - 1 < 0).
  { unfold f, carry. destruct (p_exp2_range lambda mu tau) as [[_ B] C]; try lra. pose proof (p_exp_pos lambda tau L Ta).
    destruct (p_exp2_range lambda mu tau); try lra. }
  split; [|lra]. rewrite geometric by lra. apply step_range; try lra.
  induction np as [|np IH]; simpl; [apply p_exp_range; lra|]. apply step_range; lra.
Qed.

(** the state of the complete model *)
Definition good (s : pstate) : Prop := 0 <= p_fail s /\ 0 <= p_repair s /\ 0 <= p_available s /\ p_fail s + p_repair s + p_available s = 1.
Definition sub_good (s : pstate) : Prop := 0 <= p_fail s /\ 0 <= p_repair s /\ 0 <= p_available s /\ p_fail s + p_repair s + p_available s <= 1.
Lemma good_sub s : good s -> sub_good s.
Proof. unfold good, sub_good. intros (?&?&?&?). repeat split; lra. Qed.
Lemma sub_good_asserts s : sub_good s -> asserts s.
Proof. unfold sub_good, asserts. intros (?&?&?&?). repeat split; lra. Qed.
Lemma p_mu_lambda_range omega mu lambda t : 0 <= omega <= 1 -> 0 <= mu -> 0 <= lambda -> 0 <= t ->
  0 <= p_mu_lambda omega mu lambda (p_exp mu t) (p_exp lambda t) t <= p_exp mu t.
Proof.
  intros O M L T. unfold p_mu_lambda. destruct (p_exp2_range mu lambda t M L T) as [[A B] _]. pose proof (p_exp_range mu t M T).
  set (q := p_exp2 _ _ _ _ _) in *. set (m := p_exp mu t) in *. split.
  - assert (0 <= m * omega) by (apply Rmult_le_pos; lra). assert (0 <= (1 - omega) * q) by (apply Rmult_le_pos; lra). lra.
  - assert ((1 - omega) * q <= (1 - omega) * m) by (apply Rmult_le_compat_l; lra). lra.
Qed.
Lemma p_test_good lambda mu gamma sigma omega s plt t available : 0 <= lambda -> 0 <= mu -> 0 <= gamma <= 1 -> 0 <= sigma <= 1 -> 0 <= omega <= 1 ->
  0 <= plt <= 1 -> 0 <= t -> good s ->
  sub_good (p_test lambda mu gamma sigma omega s plt (p_exp mu t) (p_exp lambda t) t available) /\
  (available = true -> good (p_test lambda mu gamma sigma omega s plt (p_exp mu t) (p_exp lambda t) t available)).
Proof.
  intros L M G Si O P T (F & R & A & S). pose proof (p_mu_lambda_range omega mu lambda t O M L T) as [Q1 Q2]. pose proof (p_exp_range mu t M T) as [M1 M2].
  unfold p_test, good, sub_good. cbn [p_fail p_repair p_available].
  set (q := p_mu_lambda _ _ _ _ _ _) in *. set (m := p_exp mu t) in *.
  set (f := p_fail s) in *. set (r := p_repair s) in *. set (a := p_available s) in *.
  set (g := gamma + (1 - gamma) * plt).
  assert (G1 : 0 <= g <= 1). { unfold g. assert (0 <= (1 - gamma) * plt) by (apply Rmult_le_pos; lra). assert ((1 - gamma) * plt <= 1 - gamma) by nra. lra. }
  assert (G2 : (1 - gamma) * (1 - plt) = 1 - g) by (unfold g; ring).
  assert (T1 : 0 <= f + a * g) by (assert (0 <= a * g) by (apply Rmult_le_pos; lra); lra).
  assert (T2 : a * g <= a) by nra.
  set (tr := f + a * g) in *.
  assert (X1 : 0 <= r * q) by (apply Rmult_le_pos; lra).
  assert (X2 : r * q <= r * m) by (apply Rmult_le_compat_l; lra).
  assert (X3 : 0 <= (1 - sigma) * tr) by (apply Rmult_le_pos; lra).
  assert (X4 : 0 <= sigma * tr) by (apply Rmult_le_pos; lra).
  assert (X5 : 0 <= (1 - m) * r) by (apply Rmult_le_pos; lra).
  assert (X6 : 0 <= a * (1 - gamma) * (1 - plt)). { repeat apply Rmult_le_pos; lra. }
  assert (X7 : a * (1 - gamma) * (1 - plt) = a - a * g). { rewrite Rmult_assoc, G2. ring. }
  assert (X8 : r * q + (1 - sigma) * tr + ((1 - m) * r + sigma * tr) = tr + r - (r * m - r * q)) by ring.
  assert (X9 : tr = f + a * g) by reflexivity.
  split.
  - repeat split; try lra. destruct available; lra. destruct available; lra.
  - intros ->. repeat split; lra.
Qed.
Lemma p_period_good lambda mu omega s t : 0 <= lambda -> 0 <= mu -> 0 <= omega <= 1 -> 0 <= t -> good s ->
  good (p_period lambda mu omega s (p_exp lambda t) (p_exp mu t) t).
Proof.
  intros L M O T (F & R & A & S). pose proof (p_mu_lambda_range omega mu lambda t O M L T) as [Q1 Q2]. pose proof (p_exp_range mu t M T) as [M1 M2].
  pose proof (p_exp_range lambda t L T) as [L1 L2].
  unfold p_period, good. cbn [p_fail p_repair p_available].
  set (q := p_mu_lambda _ _ _ _ _ _) in *. set (m := p_exp mu t) in *. set (l := p_exp lambda t) in *.
  set (f := p_fail s) in *. set (r := p_repair s) in *. set (a := p_available s) in *.
  assert (0 <= a * l) by (apply Rmult_le_pos; lra). assert (a * l <= a) by nra.
  assert (0 <= r * q) by (apply Rmult_le_pos; lra). assert (r * q <= r * m) by (apply Rmult_le_compat_l; lra).
  assert (0 <= r * (1 - m)) by (apply Rmult_le_pos; lra). assert (r * (1 - m) = r - r * m) by ring.
  repeat split; lra.
Qed.
Lemma periods_good lambda lambda_test mu tau gamma td sigma omega : 0 < lambda -> 0 <= lambda_test -> 0 <= mu -> 0 < tau ->
  0 <= gamma <= 1 -> 0 < td -> td <= tau -> 0 <= sigma <= 1 -> 0 <= omega <= 1 ->
  forall n s, good s -> let '(s', ok) := periods lambda lambda_test mu tau gamma td sigma omega n s in good s' /\ ok.
Proof.
  intros L LT M Ta G D DT Si O. induction n as [|n IH]; intros s Gs; simpl; [auto|].
  destruct (p_test_good lambda mu gamma sigma omega s (p_exp lambda_test td) td true) as [T1 T2]; auto; try lra; [apply p_exp_range; lra|].
  specialize (T2 eq_refl). set (s1 := p_test _ _ _ _ _ _ _ _ _ _ _) in *.
  pose proof (p_period_good lambda mu omega s1 (tau - td) ltac:(lra) M O ltac:(lra) T2) as P.
  set (s2 := p_period _ _ _ _ _ _ _) in *. specialize (IH s2 P). destruct (periods _ _ _ _ _ _ _ _ n s2) as [s3 ok].
  destruct IH. split; auto. split; [now apply sub_good_asserts|]. split; auto. apply sub_good_asserts, good_sub, P.
Qed.
Lemma complete_range lambda lambda_test mu tau theta gamma td avail sigma omega t :
  0 < lambda -> 0 <= lambda_test -> 0 <= mu -> 0 < tau -> 0 <= theta -> 0 <= gamma <= 1 -> 0 < td -> td <= tau ->
  0 <= sigma <= 1 -> 0 <= omega <= 1 -> 0 <= t ->
  let r := complete lambda lambda_test mu tau theta gamma td avail sigma omega t in 0 <= fst r <= 1 /\ snd r.
Proof.
  intros L LT M Ta Th G D DT Si O T. unfold complete. destruct (Rle_dec t theta); [simpl; split; auto; apply p_exp_range; lra|].
  destruct (after_test (t - theta) tau ltac:(lra) Ta) as [[A A'] _]. cbn zeta.
  set (np := Z.to_nat _). set (ta := t - theta - _) in *.
  assert (G0 : good (mkP (p_exp lambda theta) 0 (1 - p_exp lambda theta))).
  { pose proof (p_exp_range lambda theta ltac:(lra) Th). unfold good. simpl. lra. }
  pose proof (periods_good lambda lambda_test mu tau gamma td sigma omega L LT M Ta G D DT Si O np _ G0) as P.
  destruct (periods _ _ _ _ _ _ _ _ np _) as [s ok]. destruct P as [Gs OK].
  destruct (Rle_dec ta td).
  - destruct (p_test_good lambda mu gamma sigma omega s (p_exp lambda_test ta) ta avail) as [T1 _]; auto; try lra; [apply p_exp_range; lra|].
    set (s1 := p_test _ _ _ _ _ _ _ _ _ _ _) in *. cbn [fst snd]. pose proof (sub_good_asserts _ T1). destruct T1 as (B1 & B2 & B3 & B4).
    split; [lra|]. split; auto. split; auto. lra.
  - destruct (p_test_good lambda mu gamma sigma omega s (p_exp lambda_test td) td true) as [T1 T2]; auto; try lra; [apply p_exp_range; lra|].
    specialize (T2 eq_refl). set (s1 := p_test _ _ _ _ _ _ _ _ _ _ _) in *.
    pose proof (p_period_good lambda mu omega s1 (ta - td) ltac:(lra) M O ltac:(lra) T2) as P.
    set (s2 := p_period _ _ _ _ _ _ _) in *. cbn [fst snd]. pose proof (sub_good_asserts _ T1). pose proof (sub_good_asserts _ (good_sub _ P)).
    destruct P as (B1 & B2 & B3 & B4). split; [lra|]. split; auto. split; auto. split; auto. lra.
Qed.
