(** Probabilities of independent events: specification and calculus. *)
From Coq Require Import List ZArith Lia Reals Lra Bool.
Import ListNotations.
Open Scope R_scope.

(** ** Specification *)
(** The sets of events that may occur together. *)
Fixpoint subsets (vs : list Z) : list (list Z) :=
  match vs with [] => [[]] | v :: vs => map (cons v) (subsets vs) ++ subsets vs end.
Definition occurs (X : list Z) (v : Z) : bool := if in_dec Z.eq_dec v X then true else false.
(** The probability that the events of X occur and the other events of vs do not. *)
Definition weight (p : Z -> R) (vs X : list Z) : R :=
  fold_right Rmult 1 (map (fun v => if occurs X v then p v else 1 - p v) vs).
Definition sum (l : list R) : R := fold_right Rplus 0 l.
(** The probability that F holds: the sum over the sets of events under which it does. *)
Definition prob (p : Z -> R) (vs : list Z) (F : (Z -> bool) -> bool) : R :=
  sum (map (fun X => if F (occurs X) then weight p vs X else 0) (subsets vs)).

(** The probabilities when event x is known to occur (b = 1) or not to (b = 0). *)
Definition given (p : Z -> R) (x : Z) (b : R) (v : Z) : R := if Z.eq_dec v x then b else p v.

(** ** Expectation *)
Definition set (ρ : Z -> bool) (v : Z) (b : bool) (u : Z) : bool := if Z.eq_dec u v then b else ρ u.
Definition b2r (b : bool) : R := if b then 1 else 0.
Section Expect.
Context (p : Z -> R).
Fixpoint expect (vs : list Z) (F : (Z -> bool) -> R) : R :=
  match vs with
  | [] => F (fun _ => false)
  | v :: vs => p v * expect vs (fun ρ => F (set ρ v true)) + (1 - p v) * expect vs (fun ρ => F (set ρ v false))
  end.
Definition extensional {A} (F : (Z -> bool) -> A) : Prop := forall ρ ρ', (forall v, ρ v = ρ' v) -> F ρ = F ρ'.
Lemma expect_ext vs : forall F G, (forall ρ, F ρ = G ρ) -> expect vs F = expect vs G.
Proof. induction vs as [|v vs IH]; intros F G H; cbn [expect]; [apply H|]. f_equal; f_equal; apply IH; auto. Qed.
Lemma expect_const c vs : expect vs (fun _ => c) = c.
Proof. induction vs as [|v vs IH]; cbn [expect]; auto. rewrite IH. ring. Qed.
Lemma expect_plus vs : forall F G, expect vs (fun ρ => F ρ + G ρ) = expect vs F + expect vs G.
Proof. induction vs as [|v vs IH]; intros F G; cbn [expect]; auto. rewrite !IH. ring. Qed.
Lemma expect_scal c vs : forall F, expect vs (fun ρ => c * F ρ) = c * expect vs F.
Proof. induction vs as [|v vs IH]; intros F; cbn [expect]; auto. rewrite !IH. ring. Qed.
Lemma expect_minus vs F G : expect vs (fun ρ => F ρ - G ρ) = expect vs F - expect vs G.
Proof.
  rewrite (expect_ext vs _ (fun ρ => F ρ + (-1) * G ρ)) by (intros; ring). rewrite expect_plus, expect_scal. ring.
Qed.
Lemma expect_le vs : (forall v, In v vs -> 0 <= p v <= 1) -> forall F G, (forall ρ, F ρ <= G ρ) -> expect vs F <= expect vs G.
Proof.
  induction vs as [|v vs IH]; intros P F G H; cbn [expect]; auto. pose proof (P v (or_introl eq_refl)).
  assert (P' : forall u, In u vs -> 0 <= p u <= 1) by (intros; apply P; right; auto).
  apply Rplus_le_compat; apply Rmult_le_compat_l; try lra; apply IH; auto.
Qed.
(** Independence *)
Lemma expect_indep (A : Z -> bool) vs : forall F G,
  (forall ρ ρ', (forall v, A v = true -> ρ v = ρ' v) -> F ρ = F ρ') ->
  (forall ρ ρ', (forall v, A v = false -> ρ v = ρ' v) -> G ρ = G ρ') ->
  expect vs (fun ρ => F ρ * G ρ) = expect vs F * expect vs G.
Proof.
  induction vs as [|v vs IH]; intros F G HF HG; cbn [expect]; auto.
  assert (SET : forall b ρ ρ' c, (forall u, A u = c -> ρ u = ρ' u) -> forall u, A u = c -> set ρ v b u = set ρ' v b u).
  { intros b ρ ρ' c H u U. unfold set. destruct (Z.eq_dec u v); auto. }
  rewrite !IH by (intros ρ ρ' H; (apply HF || apply HG); apply SET; auto).
  destruct (A v) eqn:Av.
  - assert (E : forall b, expect vs (fun ρ => G (set ρ v b)) = expect vs G).
    { intros b. apply expect_ext. intros ρ. apply HG. intros u U. unfold set. destruct (Z.eq_dec u v); [congruence|auto]. }
    rewrite !E. ring.
  - assert (E : forall b, expect vs (fun ρ => F (set ρ v b)) = expect vs F).
    { intros b. apply expect_ext. intros ρ. apply HF. intros u U. unfold set. destruct (Z.eq_dec u v); [congruence|auto]. }
    rewrite !E. ring.
Qed.
(** A choice between two functions that do not look at what the chooser looks at *)
Lemma expect_ite (A : Z -> bool) vs (C H L : (Z -> bool) -> bool) :
  (forall ρ ρ', (forall v, A v = true -> ρ v = ρ' v) -> C ρ = C ρ') ->
  (forall ρ ρ', (forall v, A v = false -> ρ v = ρ' v) -> H ρ = H ρ') ->
  (forall ρ ρ', (forall v, A v = false -> ρ v = ρ' v) -> L ρ = L ρ') ->
  let E F := expect vs (fun ρ => b2r (F ρ)) in
  E (fun ρ => if C ρ then H ρ else L ρ) = E C * E H + (1 - E C) * E L.
Proof.
  intros HC HH HL E. unfold E.
  rewrite (expect_ext vs _ (fun ρ => b2r (C ρ) * b2r (H ρ) + (1 - b2r (C ρ)) * b2r (L ρ))) by (intros ρ; destruct (C ρ); simpl; ring).
  rewrite expect_plus.
  rewrite (expect_indep A vs (fun ρ => b2r (C ρ))) by (intros ρ ρ' X; rewrite ?(HC ρ ρ' X), ?(HH ρ ρ' X); auto).
  rewrite (expect_indep A vs (fun ρ => 1 - b2r (C ρ))) by (intros ρ ρ' X; rewrite ?(HC ρ ρ' X), ?(HL ρ ρ' X); auto).
  rewrite expect_minus, expect_const. auto.
Qed.
Lemma expect_neg vs (F : (Z -> bool) -> bool) : expect vs (fun ρ => b2r (negb (F ρ))) = 1 - expect vs (fun ρ => b2r (F ρ)).
Proof.
  rewrite (expect_ext vs _ (fun ρ => 1 - b2r (F ρ))) by (intros ρ; destruct (F ρ); simpl; ring). rewrite expect_minus, expect_const. auto.
Qed.
Lemma expect_var v vs : In v vs -> NoDup vs -> expect vs (fun ρ => b2r (ρ v)) = p v.
Proof.
  induction vs as [|u vs IH]; intros I N; [destruct I|]. inversion N as [|? ? NI N']; subst. cbn [expect]. destruct (Z.eq_dec v u) as [->|NE].
  - rewrite (expect_ext vs _ (fun _ => 1)) by (intros ρ; unfold set; destruct (Z.eq_dec u u); [auto|contradiction]).
    rewrite (expect_ext vs (fun ρ => b2r (set ρ u false u)) (fun _ => 0)) by (intros ρ; unfold set; destruct (Z.eq_dec u u); [auto|contradiction]).
    rewrite !expect_const. ring.
  - destruct I as [->|I]; [contradiction|].
    rewrite !(expect_ext vs (fun ρ => b2r (set ρ u _ v)) (fun ρ => b2r (ρ v))) by (intros ρ; unfold set; destruct (Z.eq_dec v u); [contradiction|auto]).
    rewrite (IH I N'). ring.
Qed.
Lemma expect_range vs F : (forall v, In v vs -> 0 <= p v <= 1) -> 0 <= expect vs (fun ρ => b2r (F ρ)) <= 1.
Proof.
  intros P. split.
  - rewrite <- (expect_const 0 vs). apply expect_le; auto. intros ρ. destruct (F ρ); simpl; lra.
  - rewrite <- (expect_const 1 vs). apply expect_le; auto. intros ρ. destruct (F ρ); simpl; lra.
Qed.
End Expect.
(** Changing the probability of an event that F does not look at *)
Lemma expect_p p p' vs : (forall v, In v vs -> p v = p' v) -> forall F, expect p vs F = expect p' vs F.
Proof.
  induction vs as [|v vs IH]; intros H F; cbn [expect]; auto. rewrite (H v (or_introl eq_refl)), !IH by (intros; apply H; right; auto). auto.
Qed.
(** Fixing an event *)
Lemma expect_fix p vs x : NoDup vs -> In x vs -> forall b F, extensional F ->
  expect p vs (fun ρ => F (set ρ x b)) = expect (fun v => if Z.eq_dec v x then b2r b else p v) vs F.
Proof.
  induction vs as [|u vs IH]; intros N I b F X; [destruct I|]. inversion N as [|? ? NI N']; subst. cbn [expect].
  destruct (Z.eq_dec u x) as [->|NE].
  - assert (E : forall c, expect p vs (fun ρ => F (set (set ρ x c) x b)) = expect (fun v => if Z.eq_dec v x then b2r b else p v) vs (fun ρ => F (set ρ x b))).
    { intros c. erewrite (expect_ext p vs (fun ρ => F (set (set ρ x c) x b))); [apply expect_p|].
      - intros v V. destruct (Z.eq_dec v x) as [->|]; [contradiction|auto].
      - intros ρ. apply X. intros v. unfold set. destruct (Z.eq_dec v x); auto. }
    rewrite !E. destruct b; simpl b2r; ring.
  - destruct I as [->|I]; [contradiction|].
    assert (E : forall c, expect p vs (fun ρ => F (set (set ρ x b) u c)) = expect (fun v => if Z.eq_dec v x then b2r b else p v) vs (fun ρ => F (set ρ u c))).
    { intros c. apply (IH N' I b (fun ρ => F (set ρ u c))). intros ρ ρ' H. apply X. intros v. unfold set. destruct (Z.eq_dec v u); auto. }
    rewrite <- !E. f_equal; f_equal; apply expect_ext; intros ρ; apply X; intros v; unfold set; destruct (Z.eq_dec v u), (Z.eq_dec v x); congruence.
Qed.

(** Derivative by an event *)
Section Derivative.
Context (p : Z -> R) (vs : list Z) (x : Z).
Notation E F := (expect p vs (fun ρ => b2r (F ρ))).
Definition derivative (F : (Z -> bool) -> bool) : R := E (fun ρ => F (set ρ x true)) - E (fun ρ => F (set ρ x false)).
Lemma derivative_ext F G : (forall ρ, F ρ = G ρ) -> derivative F = derivative G.
Proof. intros H. unfold derivative. f_equal; apply expect_ext; intros ρ; rewrite H; auto. Qed.
Lemma derivative_none F : (forall ρ b, F (set ρ x b) = F ρ) -> derivative F = 0.
Proof.
  intros H. unfold derivative. rewrite !(expect_ext p vs (fun ρ => b2r (F (set ρ x _))) (fun ρ => b2r (F ρ))) by (intros; rewrite H; auto). ring.
Qed.
Lemma derivative_neg F : derivative (fun ρ => negb (F ρ)) = - derivative F.
Proof. unfold derivative. rewrite !(expect_neg p vs (fun ρ => F (set ρ x _))). ring. Qed.
Lemma derivative_chooser (A : Z -> bool) (C H L : (Z -> bool) -> bool) : A x = true ->
  (forall ρ ρ', (forall v, A v = true -> ρ v = ρ' v) -> C ρ = C ρ') ->
  (forall ρ ρ', (forall v, A v = false -> ρ v = ρ' v) -> H ρ = H ρ') ->
  (forall ρ ρ', (forall v, A v = false -> ρ v = ρ' v) -> L ρ = L ρ') ->
  derivative (fun ρ => if C ρ then H ρ else L ρ) = (E H - E L) * derivative C.
Proof.
  intros Ax HC HH HL. unfold derivative.
  assert (N : forall F, (forall ρ ρ', (forall v, A v = false -> ρ v = ρ' v) -> F ρ = F ρ') -> forall b, E (fun ρ => F (set ρ x b)) = E F).
  { intros F HF b. apply expect_ext. intros ρ. rewrite (HF (set ρ x b) ρ); auto. intros v V. unfold set. destruct (Z.eq_dec v x); [congruence|auto]. }
  assert (K : forall b, E (fun ρ => if C (set ρ x b) then H (set ρ x b) else L (set ρ x b)) = E (fun ρ => C (set ρ x b)) * E H + (1 - E (fun ρ => C (set ρ x b))) * E L).
  { intros b. rewrite <- (N H HH b), <- (N L HL b).
    apply (expect_ite p A vs (fun ρ => C (set ρ x b)) (fun ρ => H (set ρ x b)) (fun ρ => L (set ρ x b))); intros ρ ρ' X; (apply HC || apply HH || apply HL);
      intros v V; unfold set; destruct (Z.eq_dec v x); auto. }
  rewrite !K. ring.
Qed.
Lemma derivative_branches (A : Z -> bool) (C H L : (Z -> bool) -> bool) : A x = false ->
  (forall ρ ρ', (forall v, A v = true -> ρ v = ρ' v) -> C ρ = C ρ') ->
  (forall ρ ρ', (forall v, A v = false -> ρ v = ρ' v) -> H ρ = H ρ') ->
  (forall ρ ρ', (forall v, A v = false -> ρ v = ρ' v) -> L ρ = L ρ') ->
  derivative (fun ρ => if C ρ then H ρ else L ρ) = E C * derivative H + (1 - E C) * derivative L.
Proof.
  intros Ax HC HH HL. unfold derivative.
  assert (N : forall b, E (fun ρ => C (set ρ x b)) = E C).
  { intros b. apply expect_ext. intros ρ. rewrite (HC (set ρ x b) ρ); auto. intros v V. unfold set. destruct (Z.eq_dec v x); [congruence|auto]. }
  assert (K : forall b, E (fun ρ => if C (set ρ x b) then H (set ρ x b) else L (set ρ x b)) =
     E C * E (fun ρ => H (set ρ x b)) + (1 - E C) * E (fun ρ => L (set ρ x b))).
  { intros b. rewrite <- (N b).
    apply (expect_ite p A vs (fun ρ => C (set ρ x b)) (fun ρ => H (set ρ x b)) (fun ρ => L (set ρ x b))); intros ρ ρ' X; (apply HC || apply HH || apply HL);
      intros v V; unfold set; destruct (Z.eq_dec v x); auto. }
  rewrite !K. ring.
Qed.
Lemma derivative_var : derivative (fun ρ => ρ x) = 1.
Proof.
  unfold derivative. rewrite (expect_ext p vs _ (fun _ => 1)) by (intros ρ; unfold set; destruct (Z.eq_dec x x); [auto|contradiction]).
  rewrite (expect_ext p vs (fun ρ => b2r (set ρ x false x)) (fun _ => 0)) by (intros ρ; unfold set; destruct (Z.eq_dec x x); [auto|contradiction]).
  rewrite !expect_const. ring.
Qed.
(** Total probability *)
Lemma expect_total F : NoDup vs -> In x vs -> extensional F ->
  E F = p x * E (fun ρ => F (set ρ x true)) + (1 - p x) * E (fun ρ => F (set ρ x false)).
Proof.
  intros N I X.
  rewrite (expect_ext p vs _ (fun ρ => b2r (if ρ x then F (set ρ x true) else F (set ρ x false)))).
  2:{ intros ρ. f_equal. destruct (ρ x) eqn:R; apply X; intros v; unfold set; destruct (Z.eq_dec v x); congruence. }
  rewrite (expect_ite p (fun v => if Z.eq_dec v x then true else false) vs (fun ρ => ρ x) (fun ρ => F (set ρ x true)) (fun ρ => F (set ρ x false))).
  - rewrite (expect_var p x vs); auto.
  - intros ρ ρ' H. apply H. destruct (Z.eq_dec x x); [auto|contradiction].
  - intros ρ ρ' H. apply X. intros v. unfold set. destruct (Z.eq_dec v x) eqn:D; auto. apply H. rewrite D. auto.
  - intros ρ ρ' H. apply X. intros v. unfold set. destruct (Z.eq_dec v x) eqn:D; auto. apply H. rewrite D. auto.
Qed.
End Derivative.

(** ** The sum over sets of events is the expectation *)
Lemma sum_app l l' : sum (l ++ l') = sum l + sum l'.
Proof. induction l as [|x l IH]; simpl; [ring|]. unfold sum in *. rewrite IH. ring. Qed.
Lemma sum_scal c (f : list Z -> R) l : sum (map (fun X => c * f X) l) = c * sum (map f l).
Proof. unfold sum. induction l as [|x l IH]; simpl; [ring|]. rewrite IH. ring. Qed.
Lemma subsets_incl vs : forall X, In X (subsets vs) -> incl X vs.
Proof.
  induction vs as [|v vs IH]; intros X H; cbn [subsets] in H; [destruct H as [<-|[]]; intros ? []|].
  apply in_app_iff in H as [H|H]; [apply in_map_iff in H as (Y & <- & H)|].
  - intros u [<-|U]; [left; auto|right; apply (IH Y); auto].
  - intros u U. right. apply (IH X); auto.
Qed.
Lemma weight_eq p vs X Y : (forall v, In v vs -> occurs X v = occurs Y v) -> weight p vs X = weight p vs Y.
Proof.
  intros H. unfold weight. f_equal. apply map_ext_in. intros v V. rewrite (H v V). auto.
Qed.
Theorem prob_expect p vs F : NoDup vs -> extensional F -> prob p vs F = expect p vs (fun ρ => b2r (F ρ)).
Proof.
  revert F. induction vs as [|v vs IH]; intros F N X.
  - unfold prob, sum. simpl. unfold weight. simpl. rewrite (X (occurs []) (fun _ => false)); [|intros v; unfold occurs; destruct (in_dec Z.eq_dec v []); [contradiction|auto]].
    destruct (F (fun _ => false)); simpl; ring.
  - inversion N as [|? ? NI N']; subst. unfold prob. cbn [subsets expect]. rewrite map_app, sum_app, map_map.
    assert (XS : forall b, extensional (fun ρ => F (set ρ v b))).
    { intros b ρ ρ' H. apply X. intros u. unfold set. destruct (Z.eq_dec u v); auto. }
    rewrite <- (IH (fun ρ => F (set ρ v true)) N' (XS true)), <- (IH (fun ρ => F (set ρ v false)) N' (XS false)).
    unfold prob. rewrite <- !sum_scal.
    assert (OT : forall X, In X (subsets vs) -> forall u, occurs (v :: X) u = set (occurs X) v true u).
    { intros Y HY u. unfold set, occurs. destruct (Z.eq_dec u v) as [->|NE].
      - destruct (in_dec Z.eq_dec v (v :: Y)) as [|C]; auto. elim C. left; auto.
      - destruct (in_dec Z.eq_dec u (v :: Y)) as [[->|I]|C]; [contradiction| |]; destruct (in_dec Z.eq_dec u Y); auto; [contradiction|elim C; right; auto]. }
    assert (OF : forall X, In X (subsets vs) -> forall u, occurs X u = set (occurs X) v false u).
    { intros Y HY u. unfold set. destruct (Z.eq_dec u v) as [->|NE]; auto. unfold occurs. destruct (in_dec Z.eq_dec v Y) as [I|]; auto.
      elim NI. apply (subsets_incl vs Y HY). auto. }
    f_equal; f_equal; apply map_ext_in; intros Y HY.
    + rewrite (X (occurs (v :: Y)) (set (occurs Y) v true) (OT Y HY)). destruct (F (set (occurs Y) v true)); [|ring].
      assert (E : weight p (v :: vs) (v :: Y) = p v * weight p vs (v :: Y)).
      { unfold weight. cbn [map fold_right]. rewrite (OT Y HY v). unfold set at 1. destruct (Z.eq_dec v v); [auto|contradiction]. }
      rewrite E. f_equal. apply weight_eq. intros u U. rewrite (OT Y HY u). unfold set. destruct (Z.eq_dec u v) as [->|]; [contradiction|auto].
    + rewrite (X (occurs Y) (set (occurs Y) v false) (OF Y HY)). destruct (F (set (occurs Y) v false)); [|ring].
      unfold weight. cbn [map fold_right]. rewrite (OF Y HY v). unfold set at 1. destruct (Z.eq_dec v v); [auto|contradiction].
Qed.
(** Increasing functions are positively correlated. *)
Definition le_rho (ρ ρ' : Z -> bool) : Prop := forall v, ρ v = true -> ρ' v = true.
Definition decreasing (F : (Z -> bool) -> R) : Prop := forall ρ ρ', le_rho ρ ρ' -> F ρ' <= F ρ.
Lemma set_le ρ ρ' v b b' : le_rho ρ ρ' -> (b = true -> b' = true) -> le_rho (set ρ v b) (set ρ' v b').
Proof. intros H K u. unfold set. destruct (Z.eq_dec u v); auto. Qed.
Theorem harris p vs : (forall v, In v vs -> 0 <= p v <= 1) -> forall F G, decreasing F -> decreasing G ->
  expect p vs F * expect p vs G <= expect p vs (fun ρ => F ρ * G ρ).
Proof.
  induction vs as [|v vs IH]; intros P F G HF HG; cbn [expect]; [lra|]. pose proof (P v (or_introl eq_refl)) as Pv.
  assert (P' : forall u, In u vs -> 0 <= p u <= 1) by (intros; apply P; right; auto).
  assert (D : forall H b, decreasing H -> decreasing (fun ρ => H (set ρ v b))) by (intros H b X ρ ρ' L; apply X; apply set_le; auto).
  assert (M : forall H, decreasing H -> expect p vs (fun ρ => H (set ρ v true)) <= expect p vs (fun ρ => H (set ρ v false))).
  { intros H X. apply expect_le; auto. intros ρ. apply X. apply set_le; [intros u; auto|discriminate]. }
  pose proof (IH P' _ _ (D F true HF) (D G true HG)) as I1. pose proof (IH P' _ _ (D F false HF) (D G false HG)) as I0.
  pose proof (M F HF) as MF. pose proof (M G HG) as MG.
  set (F1 := expect p vs (fun ρ => F (set ρ v true))) in *. set (F0 := expect p vs (fun ρ => F (set ρ v false))) in *.
  set (G1 := expect p vs (fun ρ => G (set ρ v true))) in *. set (G0 := expect p vs (fun ρ => G (set ρ v false))) in *.
  apply Rle_trans with (p v * (F1 * G1) + (1 - p v) * (F0 * G0)).
  - assert (0 <= p v * (1 - p v) * ((F0 - F1) * (G0 - G1))).
    { apply Rmult_le_pos; [apply Rmult_le_pos; lra|apply Rmult_le_pos; lra]. }
    nra.
  - apply Rplus_le_compat; apply Rmult_le_compat_l; auto; lra.
Qed.
