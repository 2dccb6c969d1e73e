(** Expression values and expression intervals: src/expression.h:155-270, src/expression/numerical.h,
    numerical.cc, boolean.h, conditional.h, conditional.cc.
    Simplifications: real numbers for doubles; intervals are closed (the open lower bound of
    some random deviates is not modelled); parameters, deviates and the mission time are leaves
    with an interval of their own; M_PI is pi; a conversion to int truncates without overflow;
    0 stands for NaN of a negative base with a fractional exponent. *)
From Coq Require Import Reals Lra Lia ZArith List.
Import ListNotations.
Local Open Scope R_scope.

Definition interval := (R * R)%type.        (* (lower, upper) *)
Definition within (i : interval) (x : R) : Prop := fst i <= x <= snd i.

Inductive unary := Neg | Abs | Acos | Asin | Atan | Cos | Sin | Tan | Cosh | Sinh | Tanh | Exp | Log | Log10 | Sqrt | Ceil | Floor | Not.
Inductive binary := Eq | Df | Lt | Gt | Leq | Geq | Pow | Mod.
Inductive nary := Add | Sub | Mul | Div | Min | Max | And | Or.
Inductive expr :=
  | Const (r : R) | Leaf (n : nat)
  | Un (u : unary) (e : expr) | Bi (b : binary) (e1 e2 : expr)
  | Nary (o : nary) (e : expr) (es : exprs)       (* at least one more argument; at least two checked *)
  | Mean (es : exprs)
  | Ite (c e1 e2 : expr) | Switch (cases : caselist) (d : expr)
with exprs := ENil | ECons (e : expr) (es : exprs)
with caselist := CNil | CCons (c v : expr) (cs : caselist).

Definition of_bool (b : bool) : R := if b then 1 else 0.
Definition is_zero (x : R) : bool := if Req_EM_T x 0 then true else false.
Definition floor (x : R) : R := IZR (Int_part x).
Definition trunc (x : R) : Z := if Rle_dec 0 x then Int_part x else (- Int_part (- x))%Z.
Definition un_fun (u : unary) (x : R) : R :=
  match u with
  | Neg => - x | Abs => Rabs x | Acos => acos x | Asin => asin x | Atan => atan x | Cos => cos x | Sin => sin x
  | Tan => tan x | Cosh => cosh x | Sinh => sinh x | Tanh => tanh x | Exp => exp x | Log => ln x | Log10 => ln x / ln 10
  | Sqrt => sqrt x | Ceil => - floor (- x) | Floor => floor x | Not => of_bool (is_zero x)
  end.
Definition c_pow (x y : R) : R :=
  if Rlt_dec 0 x then Rpower x y
  else if Req_EM_T y (IZR (Int_part y)) then powerRZ x (Int_part y) else 0.
Definition bi_fun (b : binary) (x y : R) : R :=
  match b with
  | Eq => if Req_EM_T x y then 1 else 0
  | Df => if Req_EM_T x y then 0 else 1
  | Lt => if Rlt_dec x y then 1 else 0
  | Gt => if Rlt_dec y x then 1 else 0
  | Leq => if Rle_dec x y then 1 else 0
  | Geq => if Rle_dec y x then 1 else 0
  | Pow => c_pow x y
  | Mod => IZR (Z.rem (trunc x) (trunc y))
  end.
Definition nary_fun (o : nary) (x y : R) : R :=
  match o with
  | Add => x + y | Sub => x - y | Mul => x * y | Div => x / y | Min => Rmin x y | Max => Rmax x y
  | And => of_bool (negb (is_zero x) && negb (is_zero y))
  | Or => of_bool (negb (is_zero x) || negb (is_zero y))
  end.

Fixpoint count (es : exprs) : R := match es with ENil => 0 | ECons _ es => 1 + count es end.
(** Compute: expression.h:193-196, 226-230, 268-276, numerical.h:108-114, conditional.h:42-45, 67-75 *)
Fixpoint eval (env : nat -> R) (e : expr) : R :=
  match e with
  | Const r => r
  | Leaf n => env n
  | Un u e => un_fun u (eval env e)
  | Bi b e1 e2 => bi_fun b (eval env e1) (eval env e2)
  | Nary o e es => eval_fold env o (eval env e) es
  | Mean es => eval_sum env es / count es
  | Ite c e1 e2 => if is_zero (eval env c) then eval env e2 else eval env e1
  | Switch cs d => eval_cases env cs (eval env d)
  end
with eval_fold (env : nat -> R) (o : nary) (acc : R) (es : exprs) : R :=
  match es with ENil => acc | ECons e es => eval_fold env o (nary_fun o acc (eval env e)) es end
with eval_sum (env : nat -> R) (es : exprs) : R :=
  match es with ENil => 0 | ECons e es => eval env e + eval_sum env es end
with eval_cases (env : nat -> R) (cs : caselist) (d : R) : R :=
  match cs with CNil => d | CCons c v cs => if is_zero (eval env c) then eval_cases env cs d else eval env v end.

(** interval(): expression.h:182-188, 212-222, 247-266; numerical.h:93-105, 164-194; conditional.cc:26-61 *)
Definition corners1 (f : R -> R) (i : interval) : interval :=
  (Rmin (f (snd i)) (f (fst i)), Rmax (f (snd i)) (f (fst i))).
Definition corners2 (f : R -> R -> R) (i j : interval) : interval :=
  let max_max := f (snd i) (snd j) in let max_min := f (snd i) (fst j) in
  let min_max := f (fst i) (snd j) in let min_min := f (fst i) (fst j) in
  (Rmin (Rmin max_max max_min) (Rmin min_max min_min), Rmax (Rmax max_max max_min) (Rmax min_max min_min)).
Definition un_interval (u : unary) (i : interval) : interval :=
  match u with
  | Acos => (0, PI) | Asin => (- (PI / 2), PI / 2) | Atan => (- (PI / 2), PI / 2) | Cos => (-1, 1) | Sin => (-1, 1)
  | _ => corners1 (un_fun u) i
  end.
Fixpoint interval_of (ienv : nat -> interval) (e : expr) : interval :=
  match e with
  | Const r => (r, r)
  | Leaf n => ienv n
  | Un u e => un_interval u (interval_of ienv e)
  | Bi b e1 e2 => corners2 (bi_fun b) (interval_of ienv e1) (interval_of ienv e2)
  | Nary o e es => interval_fold ienv o (interval_of ienv e) es
  | Mean es => let s := interval_sum ienv es in (fst s / count es, snd s / count es)
  | Ite c e1 e2 =>
      let i := interval_of ienv e1 in let j := interval_of ienv e2 in (Rmin (fst i) (fst j), Rmax (snd i) (snd j))
  | Switch cs d => interval_cases ienv cs (interval_of ienv d)
  end
with interval_fold (ienv : nat -> interval) (o : nary) (acc : interval) (es : exprs) : interval :=
  match es with ENil => acc | ECons e es => interval_fold ienv o (corners2 (nary_fun o) acc (interval_of ienv e)) es end
with interval_sum (ienv : nat -> interval) (es : exprs) : interval :=
  match es with
  | ENil => (0, 0)
  | ECons e es => let i := interval_of ienv e in let s := interval_sum ienv es in (fst i + fst s, snd i + snd s)
  end
with interval_cases (ienv : nat -> interval) (cs : caselist) (acc : interval) : interval :=
  match cs with
  | CNil => acc
  | CCons _ v cs => let i := interval_of ienv v in interval_cases ienv cs (Rmin (fst acc) (fst i), Rmax (snd acc) (snd i))
  end.

(** Validate on sample domains: numerical.h:120-160, numerical.cc:28-69 *)
Definition un_valid (u : unary) (i : interval) : Prop :=
  match u with
  | Acos | Asin => -1 <= fst i /\ snd i <= 1
  | Log | Log10 => 0 < fst i
  | Sqrt => 0 <= fst i
  | _ => True
  end.
Definition bi_valid (b : binary) (i j : interval) : Prop :=
  match b with
  | Mod => ~ (trunc (snd j) = 0%Z \/ trunc (fst j) = 0%Z \/ (trunc (fst j) < 0)%Z /\ (0 < trunc (snd j))%Z)
  | Pow => ~ (within i 0 /\ ~ 0 < fst j)
  | _ => True
  end.
Definition nary_valid (o : nary) (j : interval) : Prop := match o with Div => ~ within j 0 | _ => True end.
(** Operations whose corners do bound their values on these domains. *)
Definition un_safe (u : unary) (i : interval) : Prop :=
  match u with
  | Abs | Cosh => 0 <= fst i \/ snd i <= 0
  | Tan => - (PI / 2) < fst i /\ snd i < PI / 2
  | Not => 0 <= fst i
  | _ => True
  end.
Definition bi_safe (b : binary) (i j : interval) : Prop :=
  match b with Eq | Df | Mod => False | Pow => 0 < fst i | _ => True end.
Definition nary_safe (o : nary) (i : interval) : Prop := match o with And | Or => 0 <= fst i | _ => True end.

Fixpoint valid (ienv : nat -> interval) (e : expr) : Prop :=
  match e with
  | Const _ | Leaf _ => True
  | Un u e => valid ienv e /\ un_valid u (interval_of ienv e)
  | Bi b e1 e2 => valid ienv e1 /\ valid ienv e2 /\ bi_valid b (interval_of ienv e1) (interval_of ienv e2)
  | Nary o e es => valid ienv e /\ valids ienv (nary_valid o) es
  | Mean es => valids ienv (fun _ => True) es
  | Ite c e1 e2 => valid ienv c /\ valid ienv e1 /\ valid ienv e2
  | Switch cs d => valid_cases ienv cs /\ valid ienv d
  end
with valids (ienv : nat -> interval) (P : interval -> Prop) (es : exprs) : Prop :=
  match es with ENil => True | ECons e es => valid ienv e /\ P (interval_of ienv e) /\ valids ienv P es end
with valid_cases (ienv : nat -> interval) (cs : caselist) : Prop :=
  match cs with CNil => True | CCons c v cs => valid ienv c /\ valid ienv v /\ valid_cases ienv cs end.
Fixpoint safe (ienv : nat -> interval) (e : expr) : Prop :=
  match e with
  | Const _ | Leaf _ => True
  | Un u e => safe ienv e /\ un_safe u (interval_of ienv e)
  | Bi b e1 e2 => safe ienv e1 /\ safe ienv e2 /\ bi_safe b (interval_of ienv e1) (interval_of ienv e2)
  | Nary o e es => safe ienv e /\ nary_safe o (interval_of ienv e) /\ safes ienv (nary_safe o) es
  | Mean es => safes ienv (fun _ => True) es
  | Ite c e1 e2 => safe ienv e1 /\ safe ienv e2
  | Switch cs d => safe_cases ienv cs /\ safe ienv d
  end
with safes (ienv : nat -> interval) (P : interval -> Prop) (es : exprs) : Prop :=
  match es with ENil => True | ECons e es => safe ienv e /\ P (interval_of ienv e) /\ safes ienv P es end
with safe_cases (ienv : nat -> interval) (cs : caselist) : Prop :=
  match cs with CNil => True | CCons _ v cs => safe ienv v /\ safe_cases ienv cs end.

Scheme expr_mut := Induction for expr Sort Prop
with exprs_mut := Induction for exprs Sort Prop
with caselist_mut := Induction for caselist Sort Prop.
Combined Scheme expr_ind3 from expr_mut, exprs_mut, caselist_mut.

(** ** Corners bound monotone functions *)
Definition mono_on (i : interval) (f : R -> R) : Prop :=
  (forall x y, within i x -> within i y -> x <= y -> f x <= f y) \/
  (forall x y, within i x -> within i y -> x <= y -> f y <= f x).
Lemma corners1_ok f i x : mono_on i f -> within i x -> within (corners1 f i) (f x).
Proof.
  intros M W. assert (WL : within i (fst i)) by (unfold within in *; lra). assert (WU : within i (snd i)) by (unfold within in *; lra).
  unfold corners1, within at 1. simpl. destruct W as [W1 W2]. assert (W : within i x) by (split; auto).
  pose proof (Rmin_l (f (snd i)) (f (fst i))). pose proof (Rmin_r (f (snd i)) (f (fst i))).
  pose proof (Rmax_l (f (snd i)) (f (fst i))). pose proof (Rmax_r (f (snd i)) (f (fst i))).
  destruct M as [M|M]; pose proof (M _ _ WL W W1); pose proof (M _ _ W WU W2); lra.
Qed.
Lemma corners2_ok f i j x y : (forall y, within j y -> mono_on i (fun x => f x y)) -> (forall x, within i x -> mono_on j (f x)) ->
  within i x -> within j y -> within (corners2 f i j) (f x y).
Proof.
  intros M1 M2 Wx Wy.
  assert (IL : within i (fst i)) by (unfold within in *; lra). assert (IU : within i (snd i)) by (unfold within in *; lra).
  destruct (corners1_ok (fun x => f x y) i x (M1 y Wy) Wx) as [A B]. simpl in A, B.
  destruct (corners1_ok (f (fst i)) j y (M2 _ IL) Wy) as [C D]. destruct (corners1_ok (f (snd i)) j y (M2 _ IU) Wy) as [E F].
  unfold corners1, corners2, within in *. simpl in *.
  revert A B C D E F. unfold Rmin, Rmax. repeat destruct (Rle_dec _ _); intros; lra.
Qed.

Lemma floor_mono x y : x <= y -> floor x <= floor y.
Proof.
  intros H. unfold floor. destruct (base_Int_part x) as [A B]. destruct (base_Int_part y) as [C D]. apply IZR_le.
  assert (IZR (Int_part x) < IZR (Int_part y + 1)) by (rewrite plus_IZR; lra). apply lt_IZR in H0. lia.
Qed.
Lemma exp_le x y : x <= y -> exp x <= exp y.
Proof. intros [H| ->]; [left; now apply exp_increasing|lra]. Qed.
Lemma ln_le' x y : 0 < x -> x <= y -> ln x <= ln y.
Proof. intros P [H| ->]; [left; now apply ln_increasing|lra]. Qed.
Lemma sinh_le x y : x <= y -> sinh x <= sinh y.
Proof. intros [H| ->]; [left; now apply sinh_lt|lra]. Qed.
Lemma cosh_pos x : 0 < cosh x.
Proof. unfold cosh. pose proof (exp_pos x). pose proof (exp_pos (- x)). lra. Qed.
Lemma tanh_le x y : x <= y -> tanh x <= tanh y.
Proof.
  intros H. unfold tanh. pose proof (cosh_pos x). pose proof (cosh_pos y).
  apply Rmult_le_reg_r with (cosh x * cosh y); [now apply Rmult_lt_0_compat|].
  replace (sinh x / cosh x * (cosh x * cosh y)) with (sinh x * cosh y) by (field; lra).
  replace (sinh y / cosh y * (cosh x * cosh y)) with (sinh y * cosh x) by (field; lra).
  assert (E : sinh y * cosh x - sinh x * cosh y = sinh (y - x)).
  { unfold sinh, cosh. replace (exp (- (y - x))) with (exp x * exp (- y)) by (rewrite <- exp_plus; f_equal; ring).
    replace (exp (y - x)) with (exp y * exp (- x)) by (rewrite <- exp_plus; f_equal; ring). field. }
  assert (0 <= sinh (y - x)); [|lra]. rewrite <- sinh_0. apply sinh_le. lra.
Qed.
Lemma cosh_mono x y : 0 <= x -> x <= y -> cosh x <= cosh y.
Proof.
  intros P H. unfold cosh. assert (E1 : exp x <= exp y) by now apply exp_le.
  (* cosh y - cosh x = (e^y - e^x)(1 - e^-(x+y)) / 2 *)
  assert (E2 : exp (- x) = exp (- (x + y)) * exp y) by (rewrite <- exp_plus; f_equal; ring).
  assert (E3 : exp (- y) = exp (- (x + y)) * exp x) by (rewrite <- exp_plus; f_equal; ring).
  assert (E4 : exp (- (x + y)) <= 1) by (rewrite <- exp_0; apply exp_le; lra). pose proof (exp_pos (- (x + y))).
  rewrite E2, E3. nra.
Qed.
Lemma cosh_even x : cosh (- x) = cosh x.
Proof. unfold cosh. rewrite Ropp_involutive. lra. Qed.
Lemma tan_le x y : - (PI / 2) < x -> y < PI / 2 -> x <= y -> tan x <= tan y.
Proof. intros A B [H| ->]; [|lra]. left. apply tan_increasing; try lra; rewrite <- Ropp_div in *; lra. Qed.

Lemma un_mono u i : un_valid u i -> un_safe u i -> forall x, within i x -> within (un_interval u i) (un_fun u x).
Proof.
  intros V S x W.
  assert (Wl : fst i <= snd i) by (unfold within in W; lra).
  destruct u; cbn [un_interval]; cbn [un_valid un_safe] in V, S;
    try (apply corners1_ok; [|exact W]).
  - right. intros a b _ _ H. simpl. lra.
  - destruct S as [S|S]; [left|right]; intros a b [Wa Wa'] [Wb Wb'] H; simpl; unfold Rabs; destruct (Rcase_abs a), (Rcase_abs b); lra.
  - unfold within. simpl. apply acos_bound.
  - unfold within. simpl. pose proof (asin_bound x). lra.
  - unfold within. simpl. pose proof (atan_bound x). lra.
  - unfold within. simpl. apply COS_bound.
  - unfold within. simpl. apply SIN_bound.
  - left. intros a b [Wa Wa'] [Wb Wb'] H. simpl. apply tan_le; lra.
  - destruct S as [S|S]; [left|right]; intros a b [Wa Wa'] [Wb Wb'] H; simpl.
    + apply cosh_mono; lra.
    + rewrite <- (cosh_even a), <- (cosh_even b). apply cosh_mono; lra.
  - left. intros a b _ _ H. now apply sinh_le.
  - left. intros a b _ _ H. now apply tanh_le.
  - left. intros a b _ _ H. now apply exp_le.
  - left. intros a b [Wa Wa'] [Wb Wb'] H. apply ln_le'; lra.
  - left. intros a b [Wa Wa'] [Wb Wb'] H. simpl. apply Rmult_le_compat_r; [|apply ln_le'; lra].
    left. apply Rinv_0_lt_compat. rewrite <- ln_1. apply ln_increasing; lra.
  - left. intros a b [Wa Wa'] [Wb Wb'] H. apply sqrt_le_1; lra.
  - left. intros a b _ _ H. simpl. pose proof (floor_mono (- b) (- a) ltac:(lra)). lra.
  - left. intros a b _ _ H. now apply floor_mono.
  - right. intros a b [Wa Wa'] [Wb Wb'] H. simpl. unfold is_zero, of_bool. destruct (Req_EM_T a 0), (Req_EM_T b 0); lra.
Qed.

Lemma Rpower_le_l x y a : 0 < x -> x <= y -> 0 <= a -> Rpower x a <= Rpower y a.
Proof. intros P H A. unfold Rpower. apply exp_le. apply Rmult_le_compat_l; auto. now apply ln_le'. Qed.
Lemma Rpower_le_l' x y a : 0 < x -> x <= y -> a <= 0 -> Rpower y a <= Rpower x a.
Proof. intros P H A. unfold Rpower. apply exp_le. pose proof (ln_le' x y P H). nra. Qed.

Lemma bi_mono b i j : bi_safe b i j -> forall x y, within i x -> within j y -> within (corners2 (bi_fun b) i j) (bi_fun b x y).
Proof.
  intros S x y Wx Wy. apply corners2_ok; auto.
  - intros c Wc. destruct b; try contradiction; simpl in S |- *.
    + right. intros u v _ _ H. destruct (Rlt_dec u c), (Rlt_dec v c); lra.
    + left. intros u v _ _ H. destruct (Rlt_dec c u), (Rlt_dec c v); lra.
    + right. intros u v _ _ H. destruct (Rle_dec u c), (Rle_dec v c); lra.
    + left. intros u v _ _ H. destruct (Rle_dec c u), (Rle_dec c v); lra.
    + unfold c_pow. destruct (Rle_lt_dec 0 c); [left|right]; intros u v [Wu _] [Wv _] H;
        destruct (Rlt_dec 0 u), (Rlt_dec 0 v); try lra; [apply Rpower_le_l; lra|apply Rpower_le_l'; lra].
  - intros c Wc. change (mono_on j (fun y => bi_fun b c y)). destruct b; try contradiction; simpl in S |- *.
    + left. intros u v _ _ H. destruct (Rlt_dec c u), (Rlt_dec c v); lra.
    + right. intros u v _ _ H. destruct (Rlt_dec u c), (Rlt_dec v c); lra.
    + left. intros u v _ _ H. destruct (Rle_dec c u), (Rle_dec c v); lra.
    + right. intros u v _ _ H. destruct (Rle_dec u c), (Rle_dec v c); lra.
    + unfold c_pow. destruct Wc as [Wc _]. destruct (Rlt_dec 0 c); [|lra].
      destruct (Rle_lt_dec 1 c) as [L|L]; [left|right]; intros u v _ _ H; unfold Rpower; apply exp_le.
      * assert (0 <= ln c) by (rewrite <- ln_1; apply ln_le'; lra). nra.
      * assert (ln c <= 0) by (rewrite <- ln_1; apply ln_le'; lra). nra.
Qed.

Lemma nary_mono o i j : nary_valid o j -> nary_safe o i -> nary_safe o j ->
  forall x y, within i x -> within j y -> within (corners2 (nary_fun o) i j) (nary_fun o x y).
Proof.
  intros V Si Sj x y Wx Wy. apply corners2_ok; auto.
  - intros c Wc. destruct o; simpl in V, Si, Sj |- *.
    + left. intros; lra.
    + left. intros; lra.
    + destruct (Rle_lt_dec 0 c); [left|right]; intros; nra.
    + destruct (Rlt_le_dec 0 c) as [P|P].
      * left. intros u v _ _ H. apply Rmult_le_compat_r; auto. left. now apply Rinv_0_lt_compat.
      * assert (c <> 0) by (intros ->; contradiction). assert (N : / c < 0) by (apply Rinv_lt_0_compat; lra).
        right. intros u v _ _ H0. unfold Rdiv. nra.
    + left. intros u v _ _ H. unfold Rmin. destruct (Rle_dec u c), (Rle_dec v c); lra.
    + left. intros u v _ _ H. unfold Rmax. destruct (Rle_dec u c), (Rle_dec v c); lra.
    + left. intros u v [Wu _] [Wv _] H. unfold is_zero, of_bool. destruct (Req_EM_T u 0), (Req_EM_T v 0), (Req_EM_T c 0); simpl; lra.
    + left. intros u v [Wu _] [Wv _] H. unfold is_zero, of_bool. destruct (Req_EM_T u 0), (Req_EM_T v 0), (Req_EM_T c 0); simpl; lra.
  - intros c Wc. change (mono_on j (fun y => nary_fun o c y)). destruct o; simpl in V, Si, Sj |- *.
    + left. intros; lra.
    + right. intros; lra.
    + destruct (Rle_lt_dec 0 c); [left|right]; intros; nra.
    + assert (D : 0 < fst j \/ snd j < 0). { unfold within in V, Wy. destruct (Rlt_le_dec 0 (fst j)); auto. destruct (Rlt_le_dec (snd j) 0); auto. elim V. lra. }
      assert (INV : forall u v, within j u -> within j v -> u <= v -> / v <= / u).
      { intros u v [U1 U2] [V1 V2] H. destruct D as [D|D].
        - apply Rinv_le_contravar; lra.
        - rewrite <- (Ropp_involutive u), <- (Ropp_involutive v). rewrite !(Rinv_opp (- _)) by lra. apply Ropp_le_contravar. apply Rinv_le_contravar; lra. }
      destruct (Rle_lt_dec 0 c); [right|left]; intros u v Wu Wv H; pose proof (INV u v Wu Wv H); unfold Rdiv; nra.
    + left. intros u v _ _ H. unfold Rmin. destruct (Rle_dec c u), (Rle_dec c v); lra.
    + left. intros u v _ _ H. unfold Rmax. destruct (Rle_dec c u), (Rle_dec c v); lra.
    + left. intros u v [Wu _] [Wv _] H. unfold is_zero, of_bool. destruct (Req_EM_T u 0), (Req_EM_T v 0), (Req_EM_T c 0); simpl; lra.
    + left. intros u v [Wu _] [Wv _] H. unfold is_zero, of_bool. destruct (Req_EM_T u 0), (Req_EM_T v 0), (Req_EM_T c 0); simpl; lra.
Qed.
Lemma nary_safe_result o i j : nary_safe o (corners2 (nary_fun o) i j).
Proof.
  destruct o; simpl; auto; unfold of_bool; unfold Rmin; repeat destruct (Rle_dec _ _);
    match goal with |- context [if ?b then 1 else 0] => destruct b; lra end.
Qed.
Lemma count_nonneg es : 0 <= count es.
Proof. induction es; simpl; lra. Qed.

Lemma sound env ienv : (forall n, within (ienv n) (env n)) ->
  (forall e, valid ienv e -> safe ienv e -> within (interval_of ienv e) (eval env e)) /\
  (forall es,
     (forall o acc x, valids ienv (nary_valid o) es -> safes ienv (nary_safe o) es -> nary_safe o acc -> within acc x ->
        within (interval_fold ienv o acc es) (eval_fold env o x es)) /\
     (valids ienv (fun _ => True) es -> safes ienv (fun _ => True) es -> within (interval_sum ienv es) (eval_sum env es))) /\
  (forall cs acc x, valid_cases ienv cs -> safe_cases ienv cs -> within acc x ->
     within (interval_cases ienv cs acc) (eval_cases env cs x)).
Proof.
  intros W. apply expr_ind3.
  - intros r _ _. unfold within. simpl. lra.
  - intros n _ _. apply W.
  - intros u e IH [V1 V2] [S1 S2]. simpl. apply un_mono; auto.
  - intros b e1 IH1 e2 IH2 (V1 & V2 & V3) (S1 & S2 & S3). simpl. apply bi_mono; auto.
  - intros o e IH es [IHf _] (V1 & V2) (S1 & S2 & S3). simpl. apply IHf; auto.
  - intros es [_ IHs] V S. simpl in *. destruct (IHs V S) as [A B]. unfold within. simpl.
    pose proof (count_nonneg es). destruct (Req_EM_T (count es) 0) as [E|N].
    + destruct es as [|e es]; [|simpl in E; pose proof (count_nonneg es); lra]. simpl. unfold Rdiv. rewrite !Rmult_0_l. lra.
    + assert (0 < / count es) by (apply Rinv_0_lt_compat; lra). unfold Rdiv. split; apply Rmult_le_compat_r; lra.
  - intros c _ e1 IH1 e2 IH2 (V0 & V1 & V2) (S1 & S2). simpl. specialize (IH1 V1 S1). specialize (IH2 V2 S2).
    unfold within in *. simpl. pose proof (Rmin_l (fst (interval_of ienv e1)) (fst (interval_of ienv e2))).
    pose proof (Rmin_r (fst (interval_of ienv e1)) (fst (interval_of ienv e2))).
    pose proof (Rmax_l (snd (interval_of ienv e1)) (snd (interval_of ienv e2))). pose proof (Rmax_r (snd (interval_of ienv e1)) (snd (interval_of ienv e2))).
    destruct (is_zero (eval env c)); lra.
  - intros cs IHc d IHd [V1 V2] [S1 S2]. simpl. apply IHc; auto.
  - split; [|intros _ _; unfold within; simpl; lra]. intros. simpl. auto.
  - intros e IH es [IHf IHs]. split.
    + intros o acc x (V1 & V2 & V3) (S1 & S2 & S3) A Wx. simpl. apply IHf; auto; [apply nary_safe_result|]. apply nary_mono; auto.
    + intros (V1 & _ & V3) (S1 & _ & S3). simpl. specialize (IH V1 S1). specialize (IHs V3 S3). unfold within in *. simpl. lra.
  - intros acc x _ _ Wx. simpl. auto.
  - intros c _ v IHv cs IHc acc x (V1 & V2 & V3) (S1 & S2) Wx. simpl. specialize (IHv V2 S1).
    set (acc' := (Rmin (fst acc) (fst (interval_of ienv v)), Rmax (snd acc) (snd (interval_of ienv v)))).
    assert (GROW : forall i j y, within i y -> within (Rmin (fst i) (fst j), Rmax (snd i) (snd j)) y).
    { intros i j y [Y1 Y2]. unfold within. simpl. pose proof (Rmin_l (fst i) (fst j)). pose proof (Rmax_l (snd i) (snd j)). lra. }
    assert (MON : forall cs a y, within a y -> within (interval_cases ienv cs a) y).
    { clear - GROW. induction cs as [|c v cs IH]; intros a y H; simpl; auto. }
    destruct (is_zero (eval env c)).
    + apply IHc; auto. apply GROW, Wx.
    + apply MON. unfold acc', within in *. simpl. pose proof (Rmin_r (fst acc) (fst (interval_of ienv v))). pose proof (Rmax_r (snd acc) (snd (interval_of ienv v))). lra.
Qed.
