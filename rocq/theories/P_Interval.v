(** Property C33: expression intervals contain the expression's values. *)
From Coq Require Import Reals Lra Lia ZArith List.
From Verif Require Import Interval.
Local Open Scope R_scope.

(** For every validated expression all of whose operations are monotone in each argument on the
    reported domains ([safe]: everything but equality tests and modulo; absolute value and cosh
    on domains that do not straddle 0; tan within one branch; logical operations on non-negative
    domains; powers of positive bases). *)
Theorem C33_sound env ienv e : (forall n, within (ienv n) (env n)) -> valid ienv e -> safe ienv e ->
  within (interval_of ienv e) (eval env e).
Proof. intros W V S. now apply (proj1 (sound env ienv W)). Qed.

(** Hence validation of probabilities by intervals is right for such expressions
    (EnsureProbability, expression.cc:76-87). *)
Corollary C33_probability env ienv e : (forall n, within (ienv n) (env n)) -> valid ienv e -> safe ienv e ->
  0 <= fst (interval_of ienv e) -> snd (interval_of ienv e) <= 1 -> 0 <= eval env e <= 1.
Proof. intros W V S L U. pose proof (C33_sound env ienv e W V S) as [A B]. lra. Qed.

(** Division never divides by zero in a validated expression. *)
Theorem C33_no_division_by_zero env ienv e1 e2 : (forall n, within (ienv n) (env n)) ->
  valid ienv (Nary Div e1 (ECons e2 ENil)) -> safe ienv (Nary Div e1 (ECons e2 ENil)) -> eval env e2 <> 0.
Proof.
  intros W (V1 & V2 & V3 & _) (S1 & _ & S2 & _) E. apply V3. rewrite <- E. now apply C33_sound.
Qed.

(** Domains: no function is called outside the domain where it is defined (conditions of
    conditional expressions apart: they are not required to be [safe]). *)
Definition in_domain (u : unary) (x : R) : Prop :=
  match u with Acos | Asin => -1 <= x <= 1 | Log | Log10 => 0 < x | Sqrt => 0 <= x | _ => True end.
Fixpoint defined (env : nat -> R) (e : expr) : Prop :=
  match e with
  | Const _ | Leaf _ => True
  | Un u e => defined env e /\ in_domain u (eval env e)
  | Bi b e1 e2 => defined env e1 /\ defined env e2 /\ (b = Pow -> eval env e1 = 0 -> 0 < eval env e2)
  | Nary o e es => defined env e /\ defineds env (fun x => o = Div -> x <> 0) es
  | Mean es => defineds env (fun _ => True) es
  | Ite _ e1 e2 => defined env e1 /\ defined env e2
  | Switch cs d => defined_cases env cs /\ defined env d
  end
with defineds (env : nat -> R) (P : R -> Prop) (es : exprs) : Prop :=
  match es with ENil => True | ECons e es => defined env e /\ P (eval env e) /\ defineds env P es end
with defined_cases (env : nat -> R) (cs : caselist) : Prop :=
  match cs with CNil => True | CCons _ v cs => defined env v /\ defined_cases env cs end.
Theorem C33_domain env ienv e : (forall n, within (ienv n) (env n)) -> valid ienv e -> safe ienv e -> defined env e.
Proof.
  intros W. revert e. apply (expr_mut (fun e => valid ienv e -> safe ienv e -> defined env e)
    (fun es => forall o, (valids ienv (nary_valid o) es -> safes ienv (nary_safe o) es -> defineds env (fun x => o = Div -> x <> 0) es) /\
       (valids ienv (fun _ => True) es -> safes ienv (fun _ => True) es -> defineds env (fun _ => True) es))
    (fun cs => valid_cases ienv cs -> safe_cases ienv cs -> defined_cases env cs)).
  - simpl; auto.
  - simpl; auto.
  - intros u e IH [V1 V2] [S1 S2]. split; auto. destruct (C33_sound env ienv e W V1 S1) as [A B].
    destruct u; cbn [in_domain un_valid] in *; auto; lra.
  - intros b e1 IH1 e2 IH2 (V1 & V2 & V3) (S1 & S2 & S3). split; auto. split; auto. intros -> E.
    pose proof (C33_sound env ienv e1 W V1 S1) as A. pose proof (C33_sound env ienv e2 W V2 S2) as B.
    cbn [bi_valid bi_safe] in *. rewrite E in A. destruct (Rlt_dec 0 (fst (interval_of ienv e2))) as [L|L]; [destruct B; lra|]. elim V3. auto.
  - intros o e IH es IHs (V1 & V2) (S1 & _ & S2). split; auto. apply (IHs o); auto.
  - intros es IHs V S. apply (IHs Add); auto.
  - intros c _ e1 IH1 e2 IH2 (_ & V1 & V2) (S1 & S2). split; auto.
  - intros cs IHs d IHd (V1 & V2) (S1 & S2). split; auto.
  - simpl; auto.
  - intros e IH es IHs o. split; intros (V1 & V2 & V3) (S1 & S2 & S3).
    + split; auto. split; [|apply (IHs o); auto]. intros -> E. apply V2. rewrite <- E. apply C33_sound; auto.
    + split; auto. split; auto. apply (IHs o); auto.
  - simpl; auto.
  - intros c _ v IHv cs IHs (_ & V1 & V2) (S1 & S2). split; auto.
Qed.

(** ** The other operations: the reported interval misses values. *)
Definition unit_leaf : nat -> interval := fun _ => (-1, 1).
Definition x0 : expr := Leaf 0.
Lemma zero_in_unit : forall n, within (unit_leaf n) ((fun _ => 0) n).
Proof. intros n. unfold within, unit_leaf. simpl. lra. Qed.
Lemma is_zero_0 : is_zero 0 = true.
Proof. unfold is_zero. destruct (Req_EM_T 0 0); congruence. Qed.
Lemma is_zero_n x : x <> 0 -> is_zero x = false.
Proof. unfold is_zero. intros. destruct (Req_EM_T x 0); congruence. Qed.
Definition misses (ienv : nat -> interval) (env : nat -> R) (e : expr) : Prop :=
  (forall n, within (ienv n) (env n)) /\ valid ienv e /\ ~ within (interval_of ienv e) (eval env e).

Theorem C33_abs_refuted : misses unit_leaf (fun _ => 0) (Un Abs x0).
Proof.
  split; [apply zero_in_unit|]. split; [simpl; auto|]. unfold within. simpl. unfold unit_leaf. simpl.
  rewrite Rabs_R0. rewrite (Rabs_left (-1)) by lra. rewrite (Rabs_right 1) by lra. replace (- -1) with 1 by ring.
  unfold Rmin. destruct (Rle_dec 1 1); lra.
Qed.
Theorem C33_cosh_refuted : misses unit_leaf (fun _ => 0) (Un Cosh x0).
Proof.
  split; [apply zero_in_unit|]. split; [simpl; auto|]. unfold within. simpl. unfold unit_leaf. simpl.
  rewrite cosh_0. replace (-1) with (- (1)) by ring. rewrite cosh_even.
  assert (1 < cosh 1). { unfold cosh. pose proof (exp_ineq1 1 ltac:(lra)). pose proof (exp_pos (- (1))). lra. }
  unfold Rmin. destruct (Rle_dec _ _); lra.
Qed.
Theorem C33_tan_refuted : misses (fun _ => (0, PI)) (fun _ => PI / 4) (Un Tan x0).
Proof.
  split; [intros n; unfold within; simpl; pose proof PI_RGT_0; lra|]. split; [simpl; auto|]. unfold within. simpl.
  rewrite tan_PI4, tan_0. replace PI with (0 + PI) at 1 2 by ring. unfold tan. rewrite neg_sin, neg_cos, sin_0, cos_0.
  unfold Rmax, Rmin. replace (- 0 / - (1)) with 0 by lra. destruct (Rle_dec 0 0); lra.
Qed.
Theorem C33_not_refuted : misses unit_leaf (fun _ => 0) (Un Not x0).
Proof.
  split; [apply zero_in_unit|]. split; [simpl; auto|]. unfold within. simpl. unfold unit_leaf. simpl.
  rewrite is_zero_0, (is_zero_n 1), (is_zero_n (-1)) by lra. simpl. unfold Rmax. destruct (Rle_dec 0 0); lra.
Qed.
Theorem C33_and_refuted : misses unit_leaf (fun _ => 0) (Nary And x0 (ECons (Const 1) ENil)).
Proof.
  split; [apply zero_in_unit|]. split; [simpl; auto|]. unfold within. simpl. unfold unit_leaf. simpl.
  rewrite is_zero_0, (is_zero_n 1), (is_zero_n (-1)) by lra. simpl. unfold Rmin. repeat destruct (Rle_dec _ _); lra.
Qed.
Theorem C33_or_refuted : misses unit_leaf (fun _ => 0) (Nary Or x0 (ECons (Const 0) ENil)).
Proof.
  split; [apply zero_in_unit|]. split; [simpl; auto|]. unfold within. simpl. unfold unit_leaf. simpl.
  rewrite is_zero_0, (is_zero_n 1), (is_zero_n (-1)) by lra. simpl. unfold Rmin. repeat destruct (Rle_dec _ _); lra.
Qed.
Theorem C33_eq_refuted : misses unit_leaf (fun _ => 0) (Bi Eq x0 (Const 0)).
Proof.
  split; [apply zero_in_unit|]. split; [simpl; auto|]. unfold within. simpl. unfold unit_leaf. simpl.
  repeat destruct (Req_EM_T _ _); try lra; unfold Rmax; repeat destruct (Rle_dec _ _); lra.
Qed.
Theorem C33_df_refuted : misses unit_leaf (fun _ => 0) (Bi Df x0 (Const 0)).
Proof.
  split; [apply zero_in_unit|]. split; [simpl; auto|]. unfold within. simpl. unfold unit_leaf. simpl.
  repeat destruct (Req_EM_T _ _); try lra; unfold Rmin; repeat destruct (Rle_dec _ _); lra.
Qed.
Lemma int_part_Z z : Int_part (IZR z) = z.
Proof.
  destruct (base_Int_part (IZR z)) as [A B].
  apply le_IZR in A. assert (IZR z < IZR (Int_part (IZR z) + 1)) by (rewrite plus_IZR; lra). apply lt_IZR in H. lia.
Qed.
Lemma trunc_Z z : trunc (IZR z) = z.
Proof. unfold trunc. destruct (Rle_dec 0 (IZR z)); [apply int_part_Z|]. rewrite <- opp_IZR, int_part_Z. lia. Qed.
Theorem C33_mod_refuted : misses (fun _ => (0, 10)) (fun _ => 7) (Bi Mod x0 (Const 5)).
Proof.
  split; [intros n; unfold within; simpl; lra|]. split; [simpl; rewrite !trunc_Z; split; [auto|split; [auto|lia]]|].
  unfold within. cbn [interval_of eval corners2 bi_fun fst snd x0]. rewrite !trunc_Z.
  change (Z.rem 7 5) with 2%Z. change (Z.rem 10 5) with 0%Z. change (Z.rem 0 5) with 0%Z.
  unfold Rmax. repeat destruct (Rle_dec _ _); lra.
Qed.
Theorem C33_pow_refuted : misses unit_leaf (fun _ => 0) (Bi Pow x0 (Const 2)).
Proof.
  split; [apply zero_in_unit|]. split; [simpl; split; [auto|split; [auto|lra]]|].
  unfold within. simpl. unfold unit_leaf. simpl. unfold c_pow. rewrite !int_part_Z.
  destruct (Req_EM_T 2 2) as [_|N]; [|congruence]. destruct (Rlt_dec 0 0); [lra|]. destruct (Rlt_dec 0 1); [|lra]. destruct (Rlt_dec 0 (-1)); [lra|].
  replace 2 with (INR 2) by (simpl; lra). rewrite Rpower_pow by lra. simpl. unfold Rmin. repeat destruct (Rle_dec _ _); lra.
Qed.
(** Consequence: 1.5 - |x| with x in [-1, 1] passes the check of a probability (its interval is
    [0.5, 0.5]), but its value at x = 0 is 1.5. *)
Theorem C33_probability_refuted : exists e, (forall n, within (unit_leaf n) ((fun _ => 0) n)) /\ valid unit_leaf e /\
  0 <= fst (interval_of unit_leaf e) /\ snd (interval_of unit_leaf e) <= 1 /\ eval (fun _ => 0) e > 1.
Proof.
  exists (Nary Sub (Const (3/2)) (ECons (Un Abs x0) ENil)). split; [apply zero_in_unit|]. split; [simpl; auto 10|].
  simpl. unfold unit_leaf. simpl. rewrite Rabs_R0. rewrite (Rabs_left (-1)) by lra. rewrite (Rabs_right 1) by lra. replace (- -1) with 1 by ring.
  unfold Rmin, Rmax. repeat destruct (Rle_dec _ _); lra.
Qed.

(** The positive theorem applies to a non-trivial expression: exp(-x0) * x1 / (2 + x1), with
    x0 in [0, 5] and x1 in [0, 1]. *)
Definition ex_ienv : nat -> interval := fun n => match n with O => (0, 5) | _ => (0, 1) end.
Definition ex_expr : expr :=
  Nary Div (Nary Mul (Un Exp (Un Neg (Leaf 0))) (ECons (Leaf 1) ENil)) (ECons (Nary Add (Const 2) (ECons (Leaf 1) ENil)) ENil).
Example C33_applies : (forall n, within (ex_ienv n) ((fun _ => 1/2) n)) /\ valid ex_ienv ex_expr /\ safe ex_ienv ex_expr.
Proof.
  split; [intros [|n]; unfold within; simpl; lra|]. split; [|simpl; auto 10]. simpl. repeat split; auto.
  unfold within. simpl. unfold Rmin. repeat destruct (Rle_dec _ _); lra.
Qed.
Print Assumptions C33_domain.
