(** C62: whatever is done in the settings dialog, its result is what it shows and is consistent. *)
From Coq Require Import List ZArith QArith Qround Bool Lia Lqa.
From Verif Require Import Settings Dialog.
Import ListNotations.
Local Open Scope list_scope.

(** ** Specification *)
(** The settings that the dialog shows. *)
Record shows (d : dialog) (s : settings) : Prop := {
  s_bdd : algo s = kBdd <-> b_bdd (buttons_of d) = true;
  s_zbdd : algo s = kZbdd <-> b_zbdd (buttons_of d) = true;
  s_mocus : algo s = kMocus <-> b_mocus (buttons_of d) = true;
  s_prime : prime_implicants s = b_prime (buttons_of d);
  s_prob : probability_analysis s = b_prob (buttons_of d);
  s_imp : importance_analysis s = b_imp (buttons_of d);
  s_none : approx s = kNone <-> b_box (buttons_of d) = false;
  s_rare : approx s = kRareEvent <-> b_box (buttons_of d) = true /\ b_rare (buttons_of d) = true;
  s_mcub : approx s = kMcub <-> b_box (buttons_of d) = true /\ b_mcub (buttons_of d) = true;
  s_order : limit_order s = order d;
  s_time : mission_time s = Fin (time d) }.

Definition both (P : bool -> bool) : bool := P true && P false.
Lemma both_all P : both P = true -> forall b, P b = true.
Proof. unfold both. intros H b. apply andb_true_iff in H as [A B]. now destruct b. Qed.
Definition every (P : buttons -> bool) : bool :=
  both (fun m => both (fun d => both (fun z => both (fun x => both (fun r => both (fun c => both (fun p => both (fun q => both (fun i => P (mkB m d z x r c p q i)))))))))).
Lemma every_all P : every P = true -> forall b, P b = true.
Proof.
  unfold every. intros H [m d z x r c p q i].
  pose proof (both_all _ H m) as H1. pose proof (both_all _ H1 d) as H2. pose proof (both_all _ H2 z) as H3. pose proof (both_all _ H3 x) as H4.
  pose proof (both_all _ H4 r) as H5. pose proof (both_all _ H5 c) as H6. pose proof (both_all _ H6 p) as H7. pose proof (both_all _ H7 q) as H8. exact (both_all _ H8 i).
Qed.
Definition one3 (a b c : bool) : bool := (a && negb b && negb c) || (negb a && b && negb c) || (negb a && negb b && c).
Definition inv (b : buttons) : bool :=
  one3 (b_mocus b) (b_bdd b) (b_zbdd b) && xorb (b_rare b) (b_mcub b) && implb (b_imp b) (b_prob b) && implb (b_prime b) (b_bdd b && negb (b_box b)).
Definition widgets : list widget := [WMocus; WBdd; WZbdd; WBox; WRare; WMcub; WPrime; WProb; WImp].
Definition radio (w : widget) : bool := match w with WMocus | WBdd | WZbdd | WRare | WMcub => true | _ => false end.
Definition click_ok (b : buttons) (w : widget) : bool :=
  match set_checked enough true w (negb (get w b)) b with
  | None => false
  | Some b' => inv b' && Bool.eqb (get w b') (if radio w then true else negb (get w b))
  end.
Lemma click_all b w : inv b = true -> click_ok b w = true.
Proof.
  intros I. assert (E : every (fun b => implb (inv b) (forallb (click_ok b) widgets)) = true) by (vm_compute; reflexivity).
  pose proof (every_all _ E b) as K. cbn beta in K. rewrite I in K. cbn in K. rewrite andb_true_r in K.
  repeat (apply andb_true_iff in K as [? K]). destruct w; assumption.
Qed.
Definition ok (d : dialog) : Prop := inv (buttons_of d) = true /\ (0 <= order d <= 99)%Z /\ (1 <= time d <= inject_Z (10 ^ 9))%Q.
Lemma bound_order_ok n : (0 <= bound_order n <= 99)%Z.
Proof. unfold bound_order. destruct (Z.ltb_spec n 0); [lia|]. destruct (Z.ltb_spec 99 n); lia. Qed.
Lemma bound_time_ok t : (1 <= bound_time t <= inject_Z (10 ^ 9))%Q.
Proof.
  assert (B : (1 <= inject_Z (10 ^ 9))%Q) by (unfold Qle; cbn; lia).
  destruct t as [q| | |]; unfold bound_time; try (split; lra).
  destruct (Qle_bool (round1 q) 1) eqn:E1; [split; lra|]. destruct (Qle_bool (inject_Z (10 ^ 9)) (round1 q)) eqn:E2; [split; lra|].
  assert (A1 : ~ (round1 q <= 1)%Q) by (intros L; apply Qle_bool_iff in L; congruence).
  assert (A2 : ~ (inject_Z (10 ^ 9) <= round1 q)%Q) by (intros L; apply Qle_bool_iff in L; congruence).
  split; lra.
Qed.
Lemma setup_ok s : consistent s -> exists d, setup s = Some d /\ ok d /\ order d = bound_order (limit_order s) /\ time d = bound_time (mission_time s) /\
  b_prime (buttons_of d) = prime_implicants s /\ b_prob (buttons_of d) = probability_analysis s /\ b_imp (buttons_of d) = importance_analysis s /\
  buttons_of d = mkB (algorithm_eqb (algo s) kMocus) (algorithm_eqb (algo s) kBdd) (algorithm_eqb (algo s) kZbdd) (negb (approximation_eqb (approx s) kNone))
    (negb (approximation_eqb (approx s) kMcub)) (approximation_eqb (approx s) kMcub) (prime_implicants s) (probability_analysis s) (importance_analysis s).
Proof.
  intros C. pose proof (c_prime s C) as P. pose proof (c_prob s C) as Q. unfold setup, ok.
  destruct (algo s), (approx s), (prime_implicants s), (probability_analysis s), (importance_analysis s);
  try (destruct (P eq_refl); discriminate); try (specialize (Q (or_introl eq_refl)); discriminate);
  (eexists; split; [reflexivity|]; split; [split; [reflexivity|split; [apply bound_order_ok|apply bound_time_ok]]|]; repeat split).
Qed.
Lemma act_ok a d : ok d -> exists d', act a d = Some d' /\ ok d'.
Proof.
  intros (I & O & T). destruct a as [w|n|t]; cbn [act].
  - destruct ((match w with WRare | WMcub => true | _ => false end) && negb (b_box (buttons_of d))); [exists d; repeat split; try assumption; tauto|].
    pose proof (click_all (buttons_of d) w I) as K. unfold click_ok in K. destruct (set_checked _ _ _ _ _) as [b|]; [|discriminate].
    apply andb_true_iff in K as [K _]. eexists. split; [reflexivity|]. unfold ok. cbn [buttons_of order time]. tauto.
  - eexists. split; [reflexivity|]. unfold ok. cbn [buttons_of order time]. pose proof (bound_order_ok n). tauto.
  - eexists. split; [reflexivity|]. unfold ok. cbn [buttons_of order time]. pose proof (bound_time_ok (Fin t)). tauto.
Qed.
Lemma acts_ok l d : ok d -> exists d', acts l d = Some d' /\ ok d'.
Proof. revert d. induction l as [|a l IH]; intros d O; [exists d; split; [reflexivity|exact O]|]. destruct (act_ok a d O) as (d1 & E & O1). cbn [acts]. rewrite E. now apply IH. Qed.
Lemma result_ok d : ok d -> exists r, result d = Some r /\ consistent r /\ shows d r /\
  r = mk (b_prob (buttons_of d)) false (b_imp (buttons_of d)) false false (b_prime (buttons_of d)) (algo r) (approx r) (order d) 0 1000 20 20 (Fin (time d)) (Fin 0) (Fin (1 # 100000000)).
Proof.
  destruct d as [[m d z x r c p q i] n t]. intros (I & O & T). cbn [buttons_of order time] in *.
  assert (N : (n <? 0)%Z = false) by (apply Z.ltb_ge; lia).
  assert (U : negb (Qle_bool 0 t) = false). { apply negb_false_iff, Qle_bool_iff. lra. }
  unfold inv in I. cbn [b_mocus b_bdd b_zbdd b_box b_rare b_mcub b_prime b_prob b_imp] in I.
  unfold result. cbn [buttons_of order time b_mocus b_bdd b_zbdd b_box b_rare b_mcub b_prime b_prob b_imp].
  destruct m, d, z; try discriminate; destruct x, r, c; try discriminate; destruct p; try discriminate; destruct q, i; try discriminate;
    cbn -[Z.ltb Qle_bool]; unfold do_limit_order; rewrite N; cbn -[Z.ltb Qle_bool]; unfold do_mission_time; cbn -[Z.ltb Qle_bool]; rewrite U;
    (eexists; split; [reflexivity|]; split; [constructor; cbn; try lia; intros; try discriminate; try (split; reflexivity); try reflexivity; try (now intuition congruence)|];
     split; [constructor; cbn; try reflexivity; try tauto; (split; intros; try discriminate; try tauto; try (split; reflexivity); intuition congruence)|reflexivity]).
Qed.

(** C62.  Opened on consistent settings, after any actions of the user, the dialog returns consistent settings,
    those it shows, without a failed assertion or an endless exchange of signals. *)
Theorem C62_result s l : consistent s -> exists d0 d r, setup s = Some d0 /\ acts l d0 = Some d /\ result d = Some r /\ consistent r /\ shows d r.
Proof.
  intros C. destruct (setup_ok s C) as (d0 & E & O & _). destruct (acts_ok l d0 O) as (d & A & O1). destruct (result_ok d O1) as (r & R & K & S & _).
  exists d0, d, r. tauto.
Qed.
(** C62.  A click does what it says: a check box changes, a radio button is chosen. *)
Theorem C62_click s l w d0 d d' : consistent s -> setup s = Some d0 -> acts l d0 = Some d -> act (Click w) d = Some d' ->
  (w = WRare \/ w = WMcub -> b_box (buttons_of d) = true) ->
  get w (buttons_of d') = (match w with WMocus | WBdd | WZbdd | WRare | WMcub => true | _ => negb (get w (buttons_of d)) end).
Proof.
  intros C E A K X. destruct (setup_ok s C) as (e & E' & O & _). assert (e = d0) by congruence. subst e.
  destruct (acts_ok l d0 O) as (f & A' & [I _]). assert (f = d) by congruence. subst f. cbn [act] in K.
  assert (N : (match w with WRare | WMcub => true | _ => false end) && negb (b_box (buttons_of d)) = false).
  { destruct w; try reflexivity; rewrite X by auto; reflexivity. }
  rewrite N in K. pose proof (click_all (buttons_of d) w I) as Q. unfold click_ok in Q. destruct (set_checked _ _ _ _ _) as [b|]; [|discriminate].
  apply andb_true_iff in Q as [_ Q]. apply eqb_prop in Q. injection K as <-. cbn [buttons_of]. rewrite Q. now destruct w.
Qed.
(** C62.  Opened and accepted without a change, the dialog keeps what it shows, if its number boxes can hold it. *)
Theorem C62_unchanged s q : consistent s -> mission_time s = Fin q -> (round1 q == q)%Q -> (1 <= q <= inject_Z (10 ^ 9))%Q -> (limit_order s <= 99)%Z ->
  exists d r, setup s = Some d /\ result d = Some r /\ algo r = algo s /\ approx r = approx s /\ prime_implicants r = prime_implicants s /\
    probability_analysis r = probability_analysis s /\ importance_analysis r = importance_analysis s /\ limit_order r = limit_order s /\
    exists q', mission_time r = Fin q' /\ (q' == q)%Q.
Proof.
  intros C M R B L. destruct (setup_ok s C) as (d & E & O & On & Tm & P1 & P2 & P3 & Bt). destruct (result_ok d O) as (r & Rs & K & S & _).
  exists d, r. split; [assumption|]. split; [assumption|]. destruct S as [S1 S2 S3 S4 S5 S6 S7 S8 S9 S10 S11]. rewrite Bt in *. cbn [b_mocus b_bdd b_zbdd b_box b_rare b_mcub b_prime b_prob b_imp] in *.
  split; [destruct (algo s); cbn in *; tauto|].
  split. { destruct (approx s); cbn in *; [tauto|apply S8; auto|apply S9; auto]. }
  split; [assumption|]. split; [assumption|]. split; [assumption|]. split.
  - rewrite S10, On. pose proof (c_limit s C). unfold bound_order. destruct (Z.ltb_spec (limit_order s) 0); [lia|]. destruct (Z.ltb_spec 99 (limit_order s)); lia.
  - exists (time d). split; [assumption|]. rewrite Tm, M. unfold bound_time. destruct (Qle_bool (round1 q) 1) eqn:E1.
    + apply Qle_bool_iff in E1. lra.
    + destruct (Qle_bool (inject_Z (10 ^ 9)) (round1 q)) eqn:E2; [apply Qle_bool_iff in E2; lra|assumption].
Qed.
(** C62 refuted: everything that the dialog does not show is reset to its default, and the numbers that do
    not fit its boxes change, even if nothing was touched. *)
Theorem C62_reset_refuted s l : consistent s -> exists d0 d r, setup s = Some d0 /\ acts l d0 = Some d /\ result d = Some r /\
  uncertainty_analysis r = false /\ ccf_analysis r = false /\ safety_integrity_levels r = false /\ seed r = 0%Z /\ num_trials r = 1000%Z /\
  num_quantiles r = 20%Z /\ num_bins r = 20%Z /\ time_step r = Fin 0 /\ cut_off r = Fin (1 # 100000000) /\ (limit_order r <= 99)%Z.
Proof.
  intros C. destruct (setup_ok s C) as (d0 & E & O & _). destruct (acts_ok l d0 O) as (d & A & O1). destruct (result_ok d O1) as (r & R & K & S & Q).
  exists d0, d, r. split; [assumption|]. split; [assumption|]. split; [assumption|]. pose proof (s_order d r S) as W. destruct O1 as (_ & B & _). rewrite Q. cbn. repeat split. lia.
Qed.
Example C62_witness : exists s d r, consistent s /\ num_trials s = 7%Z /\ setup s = Some d /\
  (exists d1, acts [Click WImp; Click WPrime; Click WZbdd; Click WMcub; EnterOrder 120] d = Some d1 /\ result d1 = Some r) /\
  algo r = kZbdd /\ approx r = kMcub /\ prime_implicants r = false /\ probability_analysis r = true /\ limit_order r = 99%Z.
Proof.
  exists (set_trials 7 default_settings). eexists. eexists. split; [constructor; cbn; try lia; intros; try discriminate; intuition discriminate|].
  split; [reflexivity|]. split; [reflexivity|]. split; [eexists; split; [vm_compute; reflexivity|vm_compute; reflexivity]|]. repeat split.
Qed.
