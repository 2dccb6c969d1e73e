(** C52: uncertainty analysis. *)
From Coq Require Import Reals Lra Lia List ZArith Sorted.
From Verif Require P_Prob.
From Verif Require Import Sampling P_Sampling Deviates P_Deviates Uncertainty Expect.
Import ListNotations.
Local Open Scope R_scope.

(** * The specification *)
(** The probabilities q used in one trial: some values [val] of the expressions explain them. [ran]: the expressions
    computed in this trial, each once, from random draws and from the values of other expressions of this
    trial. Variables are numbered from 2 on in the order of the basic events. *)
Definition one_trial (G : graph R) (events : list event) (p0 q : Z -> R) : Prop :=
  exists (val : nat -> R) (ran : list nat),
    NoDup ran /\
    (forall n, In n ran -> exists draws, outcome val (do_sample G n) draws = Some (val n) /\
       forall m, In m (asked val (do_sample G n) draws) -> In m ran) /\
    (forall e, In e events -> uncertain e = true -> In (expression e) ran) /\
    (forall k e, nth_error events k = Some e ->
       q (2 + Z.of_nat k)%Z = if uncertain e then clamp (val (expression e)) else p0 (2 + Z.of_nat k)%Z) /\
    (forall i, (i < 2 \/ 2 + Z.of_nat (length events) <= i)%Z -> q i = p0 i).
(** Expressions of uncertain events; the graph of expressions is acyclic and registered, nothing is
    sampled yet (a state at the start of the program). *)
Definition roots (events : list event) : list nat := map expression (filter uncertain events).
Definition average (xs : list R) : R := fold_right Rplus 0 xs / INR (length xs).
Definition squares (m : R) (xs : list R) : R := fold_right Rplus 0 (map (fun x => (x - m) ^ 2) xs).

(** * The variables *)
Lemma gather_roots i events : map snd (gather i events) = roots events.
Proof.
  unfold roots. revert i. induction events as [|[u n] es IH]; intros i; cbn; auto. destruct u; cbn; rewrite IH; auto.
Qed.
Lemma gather_index i events j n : In (j, n) (gather i events) <->
  exists k e, nth_error events k = Some e /\ uncertain e = true /\ n = expression e /\ j = (i + Z.of_nat k)%Z.
Proof.
  revert i. induction events as [|e es IH]; intros i; cbn [gather].
  - split; [intros []|]. intros (k & e & H & _). destruct k; discriminate.
  - rewrite in_app_iff, IH. split.
    + intros [H|(k & e' & H)].
      * destruct (uncertain e) eqn:U; [|destruct H]. destruct H as [H|[]]. injection H as <- <-. exists 0%nat, e. repeat split; auto. lia.
      * exists (S k), e'. cbn. intuition lia.
    + intros ([|k] & e' & A & B & C & D).
      * cbn in A. injection A as <-. rewrite B. left. left. f_equal; auto. lia.
      * right. exists k, e'. intuition lia.
Qed.
Lemma gather_sorted i events : NoDup (map fst (gather i events)) /\ forall j, In j (map fst (gather i events)) -> (i <= j)%Z.
Proof.
  revert i. induction events as [|e es IH]; intros i; cbn [gather].
  - split; [constructor|intros j []].
  - destruct (IH (i + 1)%Z) as [A B]. destruct (uncertain e); cbn.
    + split; [constructor; auto; intros H; apply B in H; lia|]. intros j [<-|H]; [lia|]. apply B in H. lia.
    + split; auto. intros j H. apply B in H. lia.
Qed.
Lemma store_all_other is xs : forall p j, ~ In j is -> store_all p is xs j = p j.
Proof.
  revert xs. induction is as [|i is IH]; intros [|x xs] p j H; cbn; auto. rewrite IH by (intros X; apply H; now right).
  unfold store. destruct (Z.eqb_spec j i); auto. subst. elim H. now left.
Qed.
Lemma store_all_in (val : nat -> R) : forall (ds : list (Z * nat)) p i n, NoDup (map fst ds) -> In (i, n) ds ->
  store_all p (map fst ds) (map val (map snd ds)) i = clamp (val n).
Proof.
  induction ds as [|[j m] ds IH]; intros p i n ND I; [destruct I|]. cbn in *. inversion ND as [|? ? N1 N2]; subst. destruct I as [I|I].
  - injection I as -> ->. rewrite store_all_other by auto. unfold store. now rewrite Z.eqb_refl.
  - now apply IH.
Qed.

(** * The trials *)
Section Trials.
Context (rng : nat -> R) (G : graph R) (rank : nat -> nat) (fuel : nat) (events : list event).
Context (SET : setting G rank fuel (roots events)).

(** What is sampled is reachable from the roots through sampled nodes: so the next trial resets it. *)
Definition resettable (s : state R) : Prop := forall n, sampled s n = true -> via G (sampled s) (roots events) n.
Lemma trial_ok s xs s' : resettable s -> trial rng G fuel (roots events) s = Some (xs, s') ->
  resettable s' /\ exists val ran, NoDup ran /\
    (forall n, In n ran -> exists draws, outcome val (do_sample G n) draws = Some (val n) /\
       forall m, In m (asked val (do_sample G n) draws) -> In m ran) /\
    (forall n, In n (roots events) -> In n ran) /\ xs = map val (roots events).
Proof.
  destruct SET as (REG & ACY & R). intros I0 T1. unfold trial in T1. destruct (reset_all G fuel (roots events) (sampled s)) as [f|] eqn:RS; [|discriminate].
  destruct (sample_all_spec rng G rank REG ACY fuel (roots events) _ _ _ T1) as (EG & EF & EE & _).
  destruct (g_runs _ _ EG) as (l0 & E & ND & _ & GI & _). simpl in E. rewrite app_nil_r in E.
  assert (RUN : forall n, sampled s' n = true <-> In n (runs s')).
  { intros n. rewrite E, GI. simpl. split; [|auto]. intros [F|]; auto.
    destruct (reset_all_spec G rank ACY fuel (roots events) R (sampled s)) as (f' & E' & LE & _). assert (f = f') by congruence. subst f'.
    pose proof (reset_clears G rank ACY fuel (roots events) _ _ R RS n (I0 n (LE n F))). congruence. }
  split.
  - intros n F. eapply called_via; eauto. eapply runs_in_calls; eauto. now apply RUN.
  - exists (Sampling.value s'), (runs s'). split; [now rewrite E|]. split; [|split].
    + intros n I. destruct (EE (runs s') ltac:(simpl; now rewrite app_nil_r) n I) as (ds & O & A). exists ds. split; auto. intros m J. now apply RUN, A.
    + intros n I. apply RUN. clear - EF I. induction EF as [|r v rs vs [Fr _] EF IH]; [destruct I|]. destruct I as [<-|I]; auto.
    + clear - EF. induction EF as [|r v rs vs [_ V] EF IH]; cbn; congruence.
Qed.
Lemma loop_ok p0 : forall n p s qs s', resettable s -> (forall i, ~ In i (map fst (deviate_expressions events)) -> p i = p0 i) ->
  trial_loop rng G fuel (deviate_expressions events) n p s = Some (qs, s') ->
  resettable s' /\ length qs = n /\ Forall (one_trial G events p0) qs.
Proof.
  induction n as [|n IH]; intros p s qs s' RS P H; cbn [trial_loop] in H.
  - injection H as <- <-. split; [auto|]. split; [auto|constructor].
  - unfold sample_expressions in H. unfold deviate_expressions in H at 1. rewrite gather_roots in H.
    destruct (trial rng G fuel (roots events) s) as [[xs s1]|] eqn:T; [|discriminate].
    destruct (trial_loop _ _ _ _ _ _ s1) as [[l s2]|] eqn:L; [|discriminate]. injection H as <- <-.
    destruct (trial_ok s xs s1 RS T) as (RS1 & val & ran & ND & EX & RT & ->).
    destruct (gather_sorted kVariableStartIndex events) as [NDI LOW]. fold (deviate_expressions events) in *.
    set (q := store_all p (map fst (deviate_expressions events)) (map val (roots events))) in *.
    assert (OTHER : forall i, ~ In i (map fst (deviate_expressions events)) -> q i = p0 i).
    { intros i N. unfold q. rewrite store_all_other by auto. auto. }
    destruct (IH q s1 l s2 RS1 OTHER L) as (A & B & C). split; [auto|]. split; [cbn; congruence|]. constructor; [|auto].
    exists val, ran. split; [auto|]. split; [auto|]. split; [|split].
    + intros e I U. apply RT. unfold roots. apply in_map, filter_In. auto.
    + intros k e K. destruct (uncertain e) eqn:U.
      * unfold q. rewrite <- (gather_roots kVariableStartIndex). apply store_all_in; auto. apply gather_index. exists k, e. auto.
      * apply OTHER. intros I. apply in_map_iff in I as ([j m] & J & I). cbn [fst] in J. subst j. apply gather_index in I as (k' & e' & K' & U' & _ & D).
        unfold kVariableStartIndex in D. assert (k' = k) by lia. congruence.
    + intros i RI. apply OTHER. intros I. apply in_map_iff in I as ([j m] & J & I). cbn [fst] in J. subst j. apply gather_index in I as (k' & e' & K' & _ & _ & D).
      unfold kVariableStartIndex in D. assert (k' < length events)%nat by (apply nth_error_Some; congruence). lia.
Qed.
(** Every trial of an analysis that starts with nothing sampled: its probabilities are those of this trial
    alone, for the certain variables the point values, whatever happened in earlier trials. *)
Theorem C52_trials n p0 s qs s' : clean (sampled s) -> all_trials rng G fuel events n p0 s = Some (qs, s') ->
  length qs = n /\ Forall (one_trial G events p0) qs.
Proof.
  intros C H. eapply loop_ok; [|reflexivity..|exact H]. intros m F. rewrite C in F. discriminate.
Qed.
Theorem C52_ends n p0 s : all_trials rng G fuel events n p0 s <> None.
Proof.
  unfold all_trials. revert p0 s. induction n as [|n IH]; intros p s; cbn [trial_loop]; [discriminate|]. unfold sample_expressions.
  unfold deviate_expressions at 1. rewrite gather_roots. destruct (trial rng G fuel (roots events) s) as [[xs s1]|] eqn:T.
  - match goal with |- context [trial_loop _ _ _ _ n ?q s1] => specialize (IH q s1); destruct (trial_loop rng G fuel (deviate_expressions events) n q s1) as [[l s2]|]; congruence end.
  - exfalso. revert T. now apply (C34_total rng G rank fuel (roots events) s).
Qed.
(** ** Independence: the values of a trial are those of a first trial at its position in the random stream. *)
Definition new_state (at_ : nat) : state R := mkS (fun _ => false) (fun _ => 0) at_ [] [].
(** Trials each made on unsampled expressions, consuming the stream one after the other. *)
Fixpoint fresh_trials (n at_ : nat) : option (list (list R)) :=
  match n with
  | O => Some []
  | S n =>
      match trial rng G fuel (roots events) (new_state at_) with
      | None => None
      | Some (xs, t) => match fresh_trials n (pos t) with Some l => Some (xs :: l) | None => None end
      end
  end.
Definition like (X : list nat) (s t : state R) : Prop :=
  (forall n, sampled s n = sampled t n) /\ pos s = pos t /\
  forall n, sampled s n = true -> ~ In n X -> Sampling.value s n = Sampling.value t n.
Definition alike {A} (X : list nat) (a b : option (A * state R)) : Prop :=
  match a, b with Some (v, s), Some (w, t) => v = w /\ like X s t | None, None => True | _, _ => False end.
Lemma exec_like X samp n : (forall m s t, In m (args G n) -> like X s t -> alike X (samp m s) (samp m t)) ->
  forall c s t, reads (fun m => In m (args G n)) c -> like X s t -> alike X (exec_with samp rng c s) (exec_with samp rng c t).
Proof.
  intros SA c. induction c as [v|m k IH|k IH]; intros s t RD L; inversion RD; subst; cbn [exec_with].
  - cbn. auto.
  - specialize (SA m s t ltac:(auto) L). unfold alike in SA. destruct (samp m s) as [[v s1]|], (samp m t) as [[w t1]|]; try tauto.
    destruct SA as [-> L1]. auto.
  - destruct L as (A & B & C). rewrite B. apply IH; auto. split; [auto|]. split; [cbn; congruence|auto].
Qed.
Lemma sample_like fl : forall n X s t, (forall x, In x X -> (rank n < rank x)%nat) -> like X s t ->
  alike X (Sampling.sample rng G fl n s) (Sampling.sample rng G fl n t).
Proof.
  destruct SET as (REG & ACY & _). induction fl as [|fl IH]; intros n X s t LX L; cbn [Sampling.sample]; [exact I|].
  pose proof L as (A & B & C). cbn [sampled]. rewrite A. destruct (sampled t n) eqn:F.
  - cbn. split; [|auto]. apply C; [congruence|]. intros X0. apply LX in X0. lia.
  - match goal with |- context [exec_with _ rng (do_sample G n) ?s1] => match goal with |- context [exec_with _ rng (do_sample G n) ?t1] => lazymatch s1 with t1 => fail | _ =>
      assert (E : alike (n :: X) (exec_with (Sampling.sample rng G fl) rng (do_sample G n) s1) (exec_with (Sampling.sample rng G fl) rng (do_sample G n) t1)) end end end.
    { apply (exec_like (n :: X) _ n); auto.
      - intros m s0 t0 I0 L0. apply IH; auto. intros x [<-|J]; [now apply ACY|]. specialize (ACY n m I0). specialize (LX x J). lia.
      - split; [|split]; cbn; auto.
        + intros m. unfold upd. destruct (Nat.eqb m n); auto.
        + intros m. unfold upd. destruct (Nat.eqb_spec m n); [intros _ N; elim N; auto|]. intros H1 H2. apply C; auto. }
    unfold alike in E. match type of E with match ?a with _ => _ end => destruct a as [[v s1]|] end; match type of E with context [match ?a with _ => _ end] => destruct a as [[w t1]|] | _ => idtac end; try tauto.
    destruct E as [-> (A1 & B1 & C1)]. cbn. split; auto. split; [auto|]. split; [auto|]. cbn. intros m H1 H2. unfold upd. destruct (Nat.eqb_spec m n); auto.
    apply C1; auto. intros [J|J]; auto.
Qed.
Lemma sample_all_like fl : forall rs s t, like [] s t -> alike [] (sample_all rng G fl rs s) (sample_all rng G fl rs t).
Proof.
  induction rs as [|r rs IH]; intros s t L; cbn [sample_all]; [cbn; auto|].
  pose proof (sample_like fl r [] s t ltac:(intros x []) L) as H. unfold alike in H.
  destruct (Sampling.sample rng G fl r s) as [[v s1]|], (Sampling.sample rng G fl r t) as [[w t1]|]; try tauto. destruct H as [-> L1].
  specialize (IH s1 t1 L1). unfold alike in IH. destruct (sample_all rng G fl rs s1) as [[l s2]|], (sample_all rng G fl rs t1) as [[l' t2]|]; try tauto.
  destruct IH as [-> L2]. cbn. auto.
Qed.
Lemma trial_like s xs s' : resettable s -> trial rng G fuel (roots events) s = Some (xs, s') ->
  exists t, trial rng G fuel (roots events) (new_state (pos s)) = Some (xs, t) /\ pos t = pos s'.
Proof.
  destruct SET as (REG & ACY & RF). intros I0 T. unfold trial in *. destruct (reset_all G fuel (roots events) (sampled s)) as [f|] eqn:RS; [|discriminate].
  destruct (reset_all_spec G rank ACY fuel (roots events) RF (sampled s)) as (f' & E' & LE & _). assert (f = f') by congruence. subst f'.
  destruct (reset_all_spec G rank ACY fuel (roots events) RF (sampled (new_state (pos s)))) as (f0 & E0 & LE0 & _). rewrite E0.
  assert (Z1 : forall n, f n = false).
  { intros n. destruct (f n) eqn:F; auto. pose proof (reset_clears G rank ACY fuel (roots events) _ _ RF RS n (I0 n (LE n F))). congruence. }
  assert (Z2 : forall n, f0 n = false).
  { intros n. destruct (f0 n) eqn:F; auto. specialize (LE0 n F). cbn in LE0. discriminate. }
  pose proof (sample_all_like fuel (roots events) (mkS f (Sampling.value s) (pos s) [] []) (mkS f0 (Sampling.value (new_state (pos s))) (pos (new_state (pos s))) [] [])) as H.
  rewrite T in H. unfold alike in H. lapply H; [clear H; intros H|].
  - clear T. revert H. destruct (sample_all _ _ _ _ _) as [[l t]|]; [intros H|intros []]. destruct H as [<- (_ & P & _)]. exists t. auto.
  - split; [intros n; cbn; now rewrite Z1, Z2|]. split; [auto|]. cbn. intros n F. rewrite Z1 in F. discriminate.
Qed.
Theorem C52_independent n p0 s qs s' : clean (sampled s) -> all_trials rng G fuel events n p0 s = Some (qs, s') ->
  exists xss, fresh_trials n (pos s) = Some xss /\
    Forall2 (fun q xs => Forall2 (fun d x => q (fst d) = clamp x) (gather 2 events) xs) qs xss.
Proof.
  intros C. assert (RS : resettable s) by (intros m F; rewrite C in F; discriminate). clear C. unfold all_trials. revert p0 s qs s' RS.
  induction n as [|n IH]; intros p s qs s' RS H; cbn [trial_loop fresh_trials] in *.
  - injection H as <- <-. exists []. auto.
  - unfold sample_expressions in H. unfold deviate_expressions in H at 1. rewrite gather_roots in H.
    destruct (trial rng G fuel (roots events) s) as [[xs s1]|] eqn:T; [|discriminate].
    destruct (trial_loop _ _ _ _ _ _ s1) as [[l s2]|] eqn:L; [|discriminate]. injection H as <- <-.
    destruct (trial_ok s xs s1 RS T) as (RS1 & val & ran & _ & _ & _ & XS). destruct (trial_like s xs s1 RS T) as (t & E & P).
    rewrite E, P. destruct (IH _ s1 l s2 RS1 L) as (xss & F & A). rewrite F. exists (xs :: xss). split; [auto|]. constructor; [|auto].
    destruct (gather_sorted kVariableStartIndex events) as [NDI _]. rewrite XS. unfold deviate_expressions. change 2%Z with kVariableStartIndex.
    rewrite <- (gather_roots kVariableStartIndex). set (ds := gather kVariableStartIndex events) in *.
    assert (ALL : forall d, In d ds -> store_all p (map fst ds) (map val (map snd ds)) (fst d) = clamp (val (snd d))).
    { intros [i m] D. now apply store_all_in. }
    revert ALL. generalize (store_all p (map fst ds) (map val (map snd ds))) as q. clear. intros q. induction ds as [|d ds IHd]; intros ALL; cbn; constructor.
    + apply ALL. now left.
    + apply IHd. intros d' D. apply ALL. now right.
Qed.
(** All of them are probabilities, hence so is every total (C19: the calculated total is [prob]). *)
Lemma one_trial_range p0 q i : (forall i, 0 <= p0 i <= 1) -> one_trial G events p0 q -> 0 <= q i <= 1.
Proof.
  intros P (val & ran & _ & _ & _ & A & B). destruct (Z_lt_le_dec i 2) as [L|L]; [rewrite B by auto; auto|].
  destruct (Z_lt_le_dec i (2 + Z.of_nat (length events))) as [U|U]; [|rewrite B by auto; auto].
  destruct (nth_error events (Z.to_nat (i - 2))) as [e|] eqn:K.
  - specialize (A _ _ K). replace (2 + Z.of_nat (Z.to_nat (i - 2)))%Z with i in A by lia. rewrite A. destruct (uncertain e); auto. apply C51_clamp.
  - apply nth_error_None in K. lia.
Qed.
End Trials.

(** * The statistics *)
Lemma accumulate_ok xs : forall a, let b := fold_left accumulate xs a in
  count b = (count a + length xs)%nat /\
  (INR (count b) * acc_mean b = INR (count a) * acc_mean a + fold_right Rplus 0 xs \/ xs = []).
Proof.
  induction xs as [|x xs IH]; intros a; cbn [fold_left].
  - cbn. split; [lia|auto].
  - destruct (IH (accumulate a x)) as [A B]. split; [rewrite A; cbn; lia|]. left.
    assert (P : INR (S (count a)) * acc_mean (accumulate a x) = INR (count a) * acc_mean a + x).
    { cbn [accumulate acc_mean]. rewrite S_INR. pose proof (pos_INR (count a)). field. lra. }
    destruct B as [B| ->].
    + rewrite B. change (count (accumulate a x)) with (S (count a)). rewrite P. cbn [fold_right]. lra.
    + cbn [fold_left fold_right length] in *. change (count (accumulate a x)) with (S (count a)). rewrite P. lra.
Qed.
Lemma squares_shift m m' xs : squares m' xs = squares m xs + 2 * (m - m') * (fold_right Rplus 0 xs - INR (length xs) * m) + INR (length xs) * (m - m') ^ 2.
Proof.
  unfold squares. induction xs as [|x xs IH]; [cbn; lra|]. cbn [map fold_right length]. rewrite IH, S_INR. ring.
Qed.
Lemma sum_app xs ys : fold_right Rplus 0 (xs ++ ys) = fold_right Rplus 0 xs + fold_right Rplus 0 ys.
Proof. induction xs as [|x xs IH]; cbn; [lra|]. rewrite IH. lra. Qed.
Lemma moments xs : let b := fold_left accumulate xs empty in
  count b = length xs /\ (xs <> [] -> acc_mean b = average xs /\ acc_variance b = squares (average xs) xs / INR (length xs)).
Proof.
  induction xs as [|x xs IH] using rev_ind; [cbn; split; [auto|congruence]|]. cbn zeta in *. rewrite fold_left_app. cbn [fold_left].
  set (a := fold_left accumulate xs empty) in *. destruct IH as [C IH]. split; [cbn; rewrite C, app_length; cbn; lia|]. intros _.
  assert (LEN : length (xs ++ [x]) = S (length xs)) by (rewrite app_length; cbn; lia).
  assert (M : acc_mean (accumulate a x) = average (xs ++ [x])).
  { unfold average. rewrite LEN, sum_app. cbn [accumulate acc_mean fold_right]. rewrite C. destruct xs as [|y ys].
    - cbn. field.
    - destruct (IH ltac:(discriminate)) as [-> _]. unfold average. rewrite S_INR. pose proof (pos_INR (length ys)). cbn [length]. rewrite S_INR. field. lra. }
  split; [exact M|]. rewrite <- M. set (m := acc_mean (accumulate a x)) in *.
  change (acc_variance (accumulate a x)) with (if Nat.ltb 1 (S (count a)) then acc_variance a * (INR (S (count a)) - 1) / INR (S (count a)) + (x - m) ^ 2 / (INR (S (count a)) - 1) else acc_variance a).
  rewrite C, LEN. destruct xs as [|y ys].
  - cbn [length Nat.ltb Nat.leb]. unfold a. cbn [fold_left empty acc_variance]. unfold squares. cbn [map fold_right app].
    assert (m = x) as -> by (rewrite M; unfold average; cbn; field). cbn. field.
  - destruct (IH ltac:(discriminate)) as [AM AV]. change (Nat.ltb 1 (S (length (y :: ys)))) with true. cbn iota. rewrite AV.
    set (n := INR (length (y :: ys))). assert (N : 1 <= n) by (unfold n; cbn [length]; rewrite S_INR; pose proof (pos_INR (length ys)); lra).
    rewrite S_INR. fold n. replace (n + 1 - 1) with n by lra.
    assert (SQ : squares m ((y :: ys) ++ [x]) = squares m (y :: ys) + (x - m) ^ 2).
    { unfold squares. rewrite map_app, sum_app. cbn [map fold_right]. lra. }
    rewrite SQ, (squares_shift (average (y :: ys)) m). fold n.
    assert (S0 : fold_right Rplus 0 (y :: ys) = n * average (y :: ys)) by (unfold average; fold n; field; lra).
    assert (MM : m * (n + 1) = n * average (y :: ys) + x).
    { rewrite M. unfold average at 1. rewrite LEN, sum_app, S_INR. fold n. rewrite S0. cbn [fold_right]. field. lra. }
    rewrite S0. set (av := average (y :: ys)) in *. assert (X : x = m * (n + 1) - n * av) by lra. rewrite X. field. lra.
Qed.
Lemma squares_nonneg m xs : 0 <= squares m xs.
Proof. unfold squares. induction xs as [|x xs IH]; cbn [map fold_right]; [lra|]. pose proof (pow2_ge_0 (x - m)). lra. Qed.

(** With two trials or more: the mean is the average of the totals, sigma their corrected standard deviation,
    the interval is the mean plus or minus 1.96 standard errors. *)
Theorem C52_statistics samples : (2 <= length samples)%nat -> exists st,
  calculate_statistics (length samples) samples = Some st /\
  mean st = average samples /\
  sigma st = sqrt (squares (average samples) samples / (INR (length samples) - 1)) /\
  error_factor st = exp (196 / 100 * sigma st) /\
  fst (confidence st) = mean st - 196 / 100 * (sigma st / sqrt (INR (length samples))) /\
  snd (confidence st) = mean st + 196 / 100 * (sigma st / sqrt (INR (length samples))) /\
  1 <= error_factor st /\ fst (confidence st) <= mean st <= snd (confidence st).
Proof.
  intros L. assert (2 <= INR (length samples)) as LR by (apply le_INR in L; cbn in L; lra).
  destruct (moments samples) as [C M]. destruct M as [M V]; [destruct samples; [cbn in L; lia|discriminate]|].
  unfold calculate_statistics. rewrite div_some by lra. eexists. split; [reflexivity|]. cbn [mean sigma error_factor confidence fst snd].
  rewrite M, V. set (n := INR (length samples)) in *.
  replace (n * (squares (average samples) samples / n) / (n - 1)) with (squares (average samples) samples / (n - 1)) by (field; lra).
  set (sg := sqrt (squares (average samples) samples / (n - 1))). pose proof (sqrt_pos (squares (average samples) samples / (n - 1))) as SP. fold sg in SP.
  assert (0 < sqrt n) as SN by (apply sqrt_lt_R0; lra). assert (0 < / sqrt n) as IN by now apply Rinv_0_lt_compat.
  assert (0 <= sg * (196 / 100) / sqrt n) by (unfold Rdiv; apply Rmult_le_pos; lra).
  split; [auto|]. split; [auto|]. split; [auto|]. split; [field; lra|]. split; [field; lra|]. split; [|lra].
  rewrite <- exp_0. apply exp_le. lra.
Qed.
(** The spread is zero exactly if all totals are equal. *)
Theorem C52_no_spread samples st : (2 <= length samples)%nat -> calculate_statistics (length samples) samples = Some st ->
  (sigma st = 0 <-> forall x y, In x samples -> In y samples -> x = y).
Proof.
  intros L H. destruct (C52_statistics samples L) as (st' & E & M & SG & _). assert (st' = st) by congruence. subst st'. rewrite SG.
  assert (2 <= INR (length samples)) as LR by (apply le_INR in L; cbn in L; lra).
  assert (SQ : sqrt (squares (average samples) samples / (INR (length samples) - 1)) = 0 <-> squares (average samples) samples = 0).
  { pose proof (squares_nonneg (average samples) samples) as N. split.
    - intros Z0. apply sqrt_eq_0 in Z0; [|apply Rmult_le_pos; [auto|apply Rlt_le, Rinv_0_lt_compat; lra]].
      apply (Rmult_eq_reg_r (/ (INR (length samples) - 1))); [|apply Rinv_neq_0_compat; lra]. unfold Rdiv in Z0. rewrite Z0. lra.
    - intros ->. unfold Rdiv. rewrite Rmult_0_l. apply sqrt_0. }
  rewrite SQ. assert (ALL : forall m xs, squares m xs = 0 <-> forall x, In x xs -> x = m).
  { intros m xs. unfold squares. induction xs as [|x xs IH]; cbn [map fold_right]; [split; [intros _ x []|auto]|].
    pose proof (squares_nonneg m xs) as N. unfold squares in N. pose proof (pow2_ge_0 (x - m)) as P. split.
    - intros H0 y [<-|I]; [|apply IH; auto; lra]. assert ((x - m) ^ 2 = 0) as Q by lra. assert (x - m = 0) by nra. lra.
    - intros H0. rewrite (proj2 IH) by (intros y I; apply H0; now right). rewrite (H0 x) by now left. ring. }
  rewrite ALL. split.
  - intros H0 x y X Y. rewrite (H0 x X), (H0 y Y). auto.
  - intros H0 x X. unfold average. assert (fold_right Rplus 0 samples = INR (length samples) * x) as ->; [|field; lra].
    assert (forall y, In y samples -> y = x) as H1 by auto. clear - H1. induction samples as [|y ys IH]; [cbn; lra|]. cbn [fold_right length]. rewrite S_INR.
    rewrite IH by (intros z I; apply H1; now right). rewrite (H1 y) by now left. lra.
Qed.
(** The mean of totals lies among them: in particular in [0, 1]. *)
Lemma average_range lo hi xs : xs <> [] -> (forall x, In x xs -> lo <= x <= hi) -> lo <= average xs <= hi.
Proof.
  intros N B. assert (S0 : INR (length xs) * lo <= fold_right Rplus 0 xs <= INR (length xs) * hi).
  { clear N. induction xs as [|x xs IH]; [cbn; lra|]. cbn [length fold_right]. rewrite S_INR. specialize (IH ltac:(intros y I; apply B; now right)). specialize (B x ltac:(now left)). lra. }
  assert (0 < INR (length xs)) by (destruct xs; [congruence|cbn [length]; rewrite S_INR; pose proof (pos_INR (length xs)); lra]).
  unfold average. split; apply (Rmult_le_reg_r (INR (length xs))); auto; unfold Rdiv; rewrite Rmult_assoc, Rinv_l by lra; lra.
Qed.
(** The whole: totals as C19 gives them. *)
Theorem C52_mean rng G rank fuel events n p0 s qs s' vs F : setting G rank fuel (roots events) -> clean (sampled s) ->
  (forall i, 0 <= p0 i <= 1) -> NoDup vs -> (2 <= n)%nat ->
  all_trials rng G fuel events n p0 s = Some (qs, s') ->
  exists st, calculate_statistics n (map (fun q => prob q vs F) qs) = Some st /\
    mean st = average (map (fun q => prob q vs F) qs) /\ 0 <= mean st <= 1 /\ Forall (one_trial G events p0) qs.
Proof.
  intros SET C P ND N H. destruct (C52_trials rng G rank fuel events SET n p0 s qs s' C H) as [LQ Q].
  assert (LM : length (map (fun q => prob q vs F) qs) = n) by now rewrite map_length.
  destruct (C52_statistics (map (fun q => prob q vs F) qs)) as (st & A & B & _); [lia|]. rewrite LM in A. exists st. split; [auto|]. split; [auto|]. split; [|auto].
  rewrite B. apply average_range; [destruct qs; [cbn in LQ; lia|discriminate]|]. intros x I. apply in_map_iff in I as (q & <- & I).
  rewrite Forall_forall in Q. specialize (Q q I). apply P_Prob.C19_range; auto. intros v _. now apply (one_trial_range G events p0).
Qed.
(** Refuted: one trial is an accepted setting (settings.cc:107-114), but has no standard deviation. *)
Theorem C52_one_trial_refuted x : calculate_statistics 1 [x] = None.
Proof. unfold calculate_statistics, div. destruct (Req_EM_T (INR 1 - 1) 0) as [_|E]; auto. elim E. cbn. lra. Qed.
(** Refuted: the reported confidence interval of the mean may exceed [0, 1]. *)
Theorem C52_confidence_refuted : exists st, calculate_statistics 2 [0; 1] = Some st /\ fst (confidence st) < 0 /\ 1 < snd (confidence st).
Proof.
  destruct (C52_statistics [0; 1]) as (st & A & M & SG & _ & L & U & _); [cbn; lia|]. exists st. split; [exact A|]. rewrite L, U, M, SG.
  assert (AV : average [0; 1] = 1 / 2) by (unfold average; cbn; lra). rewrite AV.
  assert (Q : squares (1 / 2) [0; 1] / (INR (length [0; 1]) - 1) = 1 / 2) by (unfold squares; cbn; lra). rewrite Q.
  assert (INR (length [0; 1]) = 2) as -> by (cbn; lra). rewrite <- sqrt_div by lra. replace (1 / 2 / 2) with ((1 / 2) * (1 / 2)) by lra. rewrite sqrt_square by lra. lra.
Qed.
(** The levels of the quantiles are 1/n, 2/n, ..., 1. *)
Theorem C52_quantile_levels n k x : nth_error (quantile_levels n) k = Some x -> (k < n)%nat /\ x = INR (S k) / INR n /\ 0 < x <= 1 /\ (S k = n <-> x = 1).
Proof.
  unfold quantile_levels. intros H. assert (K : (k < n)%nat).
  { assert (nth_error (map (fun i : nat => 1 / INR n * (INR i + 1)) (seq 0 n)) k <> None) as X by congruence. apply nth_error_Some in X. now rewrite map_length, seq_length in X. }
  erewrite map_nth_error in H by (rewrite nth_error_nth' with (d := 0%nat); [rewrite seq_nth by auto; reflexivity|now rewrite seq_length]).
  injection H as <-. cbn [Nat.add]. assert (0 < INR n) as P by (apply lt_0_INR; lia). assert (INR (S k) <= INR n) as Q by (apply le_INR; lia).
  pose proof (pos_INR k) as PK. split; auto. rewrite S_INR in *. split; [field; lra|].
  assert (X : 1 / INR n * (INR k + 1) * INR n = INR k + 1) by (field; lra). split.
  - split; [apply Rmult_lt_0_compat; [apply Rdiv_lt_0_compat; lra|lra]|]. apply (Rmult_le_reg_r (INR n)); lra.
  - split.
    + intros <-. rewrite S_INR. field. lra.
    + intros E. rewrite E in X. apply INR_eq. rewrite S_INR. lra.
Qed.

(** * Non-vacuity: two events share an expression that draws from the engine, a third one is certain. *)
Definition ex_graph : graph R := mkG (fun n => match n with 1%nat => [0%nat] | _ => [] end)
  (fun n => match n with 0%nat => Draw (fun x => Ret x) | 1%nat => Ask 0 (fun x => Ret (3 * x)) | _ => Ret (1 / 3) end).
Definition ex_events : list event := [Event true 0; Event false 2; Event true 1].
Definition ex_start : state R := mkS (fun _ => false) (fun _ => 0) 0 [] [].
Example C52_nonvacuous : setting ex_graph (fun n => n) 2 (roots ex_events) /\ clean (sampled ex_start) /\
  exists qs s', all_trials (fun k => INR k / 2) ex_graph 2 ex_events 2 (fun _ => 1 / 3) ex_start = Some (qs, s') /\
    map (fun q => map q [2%Z; 3%Z; 4%Z]) qs = [[0; 1 / 3; 0]; [1 / 2; 1 / 3; 1]].
Proof.
  split; [|split; [intros n; reflexivity|]].
  - split; [|split].
    + intros [|[|n]]; cbn; repeat constructor.
    + intros [|[|n]] m; cbn; try tauto. intros [<-|[]]. lia.
    + intros r. cbn. intros [<-|[<-|[]]]; lia.
  - do 2 eexists. split; [lazy -[clamp Rdiv Rmult IZR INR]; reflexivity|]. lazy -[clamp Rdiv Rmult IZR INR].
    assert (K1 : clamp (0 / 2) = 0) by (rewrite (proj2 (C51_clamp _)) by lra; lra).
    assert (K2 : clamp (3 * (0 / 2)) = 0) by (rewrite (proj2 (C51_clamp _)) by lra; lra).
    assert (K3 : clamp (1 / 2) = 1 / 2) by (rewrite (proj2 (C51_clamp _)) by lra; lra).
    assert (K4 : clamp (3 * (1 / 2)) = 1) by (unfold clamp; rewrite (proj2 (lt_iff _ _)) by lra; auto).
    cbn [INR]. rewrite K1, K2, K3, K4. reflexivity.
Qed.
