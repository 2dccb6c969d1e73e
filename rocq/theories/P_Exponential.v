(** Property C44: failure models yield probabilities (over the real numbers). *)
From Coq Require Import Reals Lra Lia ZArith.
From Verif Require Import Exponential.
Local Open Scope R_scope.

(** What the Validate functions require of the values (exponential.cc:62-65, 78-83, 98-103,
    131-158): the same conditions are required of every sample. *)
Definition probability (x : R) : Prop := 0 <= x <= 1.
Definition positive (x : R) : Prop := 0 < x.
Definition non_negative (x : R) : Prop := 0 <= x.

Theorem C44_exponential lambda time : non_negative lambda -> non_negative time -> probability (exponential_compute lambda time).
Proof. intros. now apply p_exp_range. Qed.
Theorem C44_glm gamma lambda mu time : probability gamma -> positive lambda -> non_negative mu -> non_negative time ->
  probability (glm_compute gamma lambda mu time).
Proof. intros. now apply glm_range. Qed.
Theorem C44_weibull alpha beta t0 time : positive alpha -> positive beta -> non_negative t0 -> non_negative time ->
  probability (weibull_compute alpha beta t0 time).
Proof. intros. apply weibull_range. Qed.
Theorem C44_instant_repair lambda tau theta time : positive lambda -> positive tau -> non_negative theta -> non_negative time ->
  probability (instant_repair lambda tau theta time).
Proof. intros. now apply instant_repair_range. Qed.
(** ... and the division by (fraction - 1) is never a division by zero. *)
Theorem C44_instant_test lambda mu tau theta time : positive lambda -> non_negative mu -> positive tau -> non_negative theta -> non_negative time ->
  probability (fst (instant_test lambda mu tau theta time)) /\ snd (instant_test lambda mu tau theta time).
Proof. intros. now apply instant_test_range. Qed.
(** ... and none of its assertions fails, however many periods there are. *)
Theorem C44_complete lambda lambda_test mu tau theta gamma test_duration available sigma omega time :
  positive lambda -> non_negative lambda_test -> non_negative mu -> positive tau -> non_negative theta -> probability gamma ->
  positive test_duration -> test_duration <= tau -> probability sigma -> probability omega -> non_negative time ->
  probability (fst (complete lambda lambda_test mu tau theta gamma test_duration available sigma omega time)) /\
  snd (complete lambda lambda_test mu tau theta gamma test_duration available sigma omega time).
Proof. intros. now apply complete_range. Qed.

(** The conditions matter: a negative rate gives a negative "probability". *)
Theorem C44_rate_needed : ~ probability (exponential_compute (-1) 1).
Proof.
  unfold probability, exponential_compute, p_exp. intros [H _]. pose proof (exp_ineq1_le 1).
  replace (- -1 * 1) with 1 in H by ring. lra.
Qed.

(** At time 0 a GLM component is failed with the on-demand probability; a component that is
    never tested follows the exponential law until the first test. *)
Theorem C44_glm_start gamma lambda mu : positive lambda -> non_negative mu -> glm_compute gamma lambda mu 0 = gamma.
Proof. unfold positive, non_negative. intros. unfold glm_compute. rewrite Rmult_0_r, exp_0. field. lra. Qed.
Theorem C44_before_first_test lambda lt mu tau theta gamma td av sigma omega time : time <= theta ->
  instant_repair lambda tau theta time = exponential_compute lambda time /\
  fst (instant_test lambda mu tau theta time) = exponential_compute lambda time /\
  fst (complete lambda lt mu tau theta gamma td av sigma omega time) = exponential_compute lambda time.
Proof.
  intros H. unfold instant_repair, instant_test, complete. destruct (Rle_dec time theta); [auto|contradiction].
Qed.
(** A test with instantaneous repair is as good as new: the law is periodic after the first test. *)
Theorem C44_instant_repair_periodic lambda tau theta time : positive tau -> theta < time ->
  instant_repair lambda tau theta (time + tau) = instant_repair lambda tau theta time.
Proof.
  unfold positive. intros Ta H. unfold instant_repair.
  destruct (Rle_dec (time + tau) theta); [lra|]. destruct (Rle_dec time theta); [lra|]. cbn zeta.
  assert (E : to_int ((time + tau - theta) / tau) = (to_int ((time - theta) / tau) + 1)%Z).
  { unfold to_int. replace ((time + tau - theta) / tau) with ((time - theta) / tau + 1) by (field; lra).
    set (x := (time - theta) / tau). destruct (base_Int_part x) as [A B]. destruct (base_Int_part (x + 1)) as [A' B'].
    assert (IZR (Int_part (x + 1)) < IZR (Int_part x + 2)) by (rewrite plus_IZR; lra).
    assert (IZR (Int_part x) < IZR (Int_part (x + 1))) by lra.
    apply lt_IZR in H0. apply lt_IZR in H1. lia. }
  rewrite E, plus_IZR. replace (time + tau - theta - (IZR (to_int ((time - theta) / tau)) + 1) * tau)
    with (time - theta - IZR (to_int ((time - theta) / tau)) * tau) by ring.
  reflexivity.
Qed.

(** The hypotheses are met, with a time many periods after the first test. *)
Example C44_applies : positive (1/1000) /\ non_negative (1/2000) /\ non_negative (1/20) /\ positive 100 /\ non_negative 50 /\
  probability (1/10) /\ positive 5 /\ 5 <= 100 /\ probability (9/10) /\ non_negative 8760.
Proof. unfold positive, non_negative, probability. repeat split; lra. Qed.
