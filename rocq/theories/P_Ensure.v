(** C61: what the checks of values and ranges accept. *)
From Coq Require Import ZArith QArith Bool Lqa.
From Verif Require Import Settings Ensure.

(** ** Specification *)
(** [q] is a point of the interval from [a] to [b] *)
Definition point (a b : Q) (a_in b_in : bool) (q : Q) : Prop := (if a_in then a <= q else a < q) /\ (if b_in then q <= b else q < b).

Lemma dlt_fin a b : dlt (Fin a) (Fin b) = true <-> a < b.
Proof. cbn. rewrite negb_true_iff. split; intros H. - apply Qnot_le_lt. intros L. apply Qle_bool_iff in L. congruence. - apply not_true_iff_false. intros L. apply Qle_bool_iff in L. lra. Qed.
Lemma dlt_fin_f a b : dlt (Fin a) (Fin b) = false <-> b <= a.
Proof. cbn. rewrite negb_false_iff. apply Qle_bool_iff. Qed.
Lemma dom_le_fin a b : dom_le (Fin a) (Fin b) = true <-> a <= b.
Proof. unfold dom_le. rewrite negb_true_iff. apply dlt_fin_f. Qed.
Lemma dom_le_fin_f a b : dom_le (Fin a) (Fin b) = false <-> b < a.
Proof. unfold dom_le. rewrite negb_false_iff. apply dlt_fin. Qed.
Ltac step a b := let H := fresh in
  match goal with
  | |- context [dlt (Fin a) (Fin b)] => destruct (dlt (Fin a) (Fin b)) eqn:H; [apply dlt_fin in H|apply dlt_fin_f in H]
  | |- context [dom_le (Fin a) (Fin b)] => destruct (dom_le (Fin a) (Fin b)) eqn:H; [apply dom_le_fin in H|apply dom_le_fin_f in H]
  end.
Ltac steps := repeat match goal with
  | |- context [dlt (Fin ?a) (Fin ?b)] => step a b
  | |- context [dom_le (Fin ?a) (Fin ?b)] => step a b
  end.
Definition empty_spec a b a_in b_in : Prop := forall q, ~ point a b a_in b_in q.
Lemma is_empty_fin a b a_in b_in : is_empty (mkIval (Fin a) (Fin b) a_in b_in) = true -> empty_spec a b a_in b_in.
Proof.
  unfold is_empty, empty_spec, point. cbn [lo hi lo_in hi_in]. steps; cbn [orb andb negb]; intros E q [X Y]; destruct a_in, b_in; cbn in E; try discriminate; lra.
Qed.
Lemma is_empty_false a b a_in b_in : is_empty (mkIval (Fin a) (Fin b) a_in b_in) = false -> a == b /\ a_in = true /\ b_in = true \/ a < b.
Proof.
  unfold is_empty. cbn [lo hi lo_in hi_in]. intros E. apply orb_false_iff in E as [E1 E2]. apply dlt_fin_f in E1.
  destruct (Qlt_le_dec a b) as [L|L]; [right; exact L|left]. apply dom_le_fin in L as L'. apply dom_le_fin in E1 as E1'. rewrite L', E1' in E2. cbn in E2.
  apply negb_false_iff, andb_true_iff in E2. split; [lra|exact E2].
Qed.
(** an interval that is not empty has points close to each of its ends *)
Lemma mid x y : x < y -> x < (x + y) * (1 # 2) < y.
Proof. intros. split; lra. Qed.
Lemma low_point a b a_in b_in c : is_empty (mkIval (Fin a) (Fin b) a_in b_in) = false -> a < c -> exists q, point a b a_in b_in q /\ q < c.
Proof.
  intros E L. apply is_empty_false in E as [(E & -> & ->)|E]; unfold point; [exists a; lra|].
  destruct (Qlt_le_dec b c) as [G|G].
  - exists ((a + b) * (1 # 2)). pose proof (mid a b E). destruct a_in, b_in; lra.
  - exists ((a + c) * (1 # 2)). pose proof (mid a c L). destruct a_in, b_in; lra.
Qed.
Lemma high_point a b a_in b_in c : is_empty (mkIval (Fin a) (Fin b) a_in b_in) = false -> c < b -> exists q, point a b a_in b_in q /\ c < q.
Proof.
  intros E L. apply is_empty_false in E as [(E & -> & ->)|E]; unfold point; [exists b; lra|].
  destruct (Qlt_le_dec c a) as [G|G].
  - exists ((a + b) * (1 # 2)). pose proof (mid a b E). destruct a_in, b_in; lra.
  - exists ((c + b) * (1 # 2)). pose proof (mid c b L). destruct a_in, b_in; lra.
Qed.
Lemma contains_closed l u a b a_in b_in : contains (closed (Fin l) (Fin u)) (mkIval (Fin a) (Fin b) a_in b_in) = true <-> forall q, point a b a_in b_in q -> l <= q <= u.
Proof.
  unfold contains. destruct (is_empty (mkIval (Fin a) (Fin b) a_in b_in)) eqn:E; cbn [orb].
  - split; [|reflexivity]. intros _ q P. now apply is_empty_fin in E; apply E in P.
  - unfold lower_less, upper_less, closed. cbn [lo hi lo_in hi_in]. rewrite andb_false_r. cbn [negb andb].
    rewrite andb_true_iff, !negb_true_iff, !dlt_fin_f. split.
    + intros [A B] q [X Y]. destruct a_in, b_in; lra.
    + intros H. split.
      * apply Qnot_lt_le. intros L. destruct (low_point a b a_in b_in l E L) as (q & P & G). specialize (H q P). lra.
      * apply Qnot_lt_le. intros L. destruct (high_point a b a_in b_in u E L) as (q & P & G). specialize (H q P). lra.
Qed.
Lemma contains_value_closed l u v : contains_value (closed (Fin l) (Fin u)) (Fin v) = true <-> l <= v <= u.
Proof.
  unfold contains_value. unfold closed at 2. rewrite contains_closed. unfold point. split; [intros H; apply H; lra|intros H q P; lra].
Qed.

(** C61.  A value is accepted as a probability exactly if it and every point of its range are between 0
    and 1; and so for any other closed range. *)
Theorem C61_probability v a b a_in b_in : ensure_probability (Fin v) (mkIval (Fin a) (Fin b) a_in b_in) = true <->
  0 <= v <= 1 /\ forall q, point a b a_in b_in q -> 0 <= q <= 1.
Proof.
  unfold ensure_probability, is_probability. pose proof (contains_closed 0 1 a b a_in b_in) as C. step v 0; cbn [orb]; [split; [discriminate|lra]|].
  step 1 v; [split; [discriminate|lra]|]. rewrite C. split; [intros K; split; [lra|exact K]|tauto].
Qed.
Theorem C61_within v a b a_in b_in l u : ensure_within (Fin v) (mkIval (Fin a) (Fin b) a_in b_in) (closed (Fin l) (Fin u)) = true <->
  l <= v <= u /\ forall q, point a b a_in b_in q -> l <= q <= u.
Proof. unfold ensure_within. rewrite andb_true_iff, contains_value_closed, contains_closed. reflexivity. Qed.
(** C61.  A value is accepted as not negative, or as positive, exactly if it and every point of its range
    are, where the range has points at all. *)
Theorem C61_non_negative v a b a_in b_in : (exists q, point a b a_in b_in q) -> ensure_non_negative (Fin v) (mkIval (Fin a) (Fin b) a_in b_in) = true <->
  0 <= v /\ forall q, point a b a_in b_in q -> 0 <= q.
Proof.
  intros [p P]. assert (E : is_empty (mkIval (Fin a) (Fin b) a_in b_in) = false).
  { apply not_true_iff_false. intros E. now apply is_empty_fin in E; apply (E p). }
  unfold ensure_non_negative, is_non_negative. step v 0; [split; [discriminate|lra]|]. cbn [lo cpp_le]. rewrite negb_true_iff, dlt_fin_f. split.
  - intros A. split; [assumption|]. intros q [X _]. destruct a_in; lra.
  - intros [_ A]. apply Qnot_lt_le. intros L. destruct (low_point a b a_in b_in 0 E L) as (q & K & G). specialize (A q K). lra.
Qed.
Theorem C61_positive v a b a_in b_in : (exists q, point a b a_in b_in q) -> ensure_positive (Fin v) (mkIval (Fin a) (Fin b) a_in b_in) = true <->
  0 < v /\ forall q, point a b a_in b_in q -> 0 < q.
Proof.
  intros [p P]. assert (E : is_empty (mkIval (Fin a) (Fin b) a_in b_in) = false).
  { apply not_true_iff_false. intros E. now apply is_empty_fin in E; apply (E p). }
  unfold ensure_positive, is_positive, is_non_negative, contains_value. cbn [cpp_le lo].
  destruct (dlt (Fin 0) (Fin v)) eqn:V; cbn [negb]; [apply dlt_fin in V|apply dlt_fin_f in V; split; [discriminate|lra]].
  assert (Z : is_empty (closed (Fin 0) (Fin 0)) = false) by reflexivity. unfold contains. rewrite Z. cbn [orb].
  unfold lower_less, upper_less, closed. cbn [lo hi lo_in hi_in]. rewrite andb_true_r. cbn [andb].
  rewrite andb_true_iff, !negb_true_iff, andb_false_iff, !negb_false_iff, dlt_fin_f. split.
  - intros [A B]. split; [assumption|]. intros q [X Y].
    destruct a_in, b_in; cbn [negb] in B; destruct B as [B|B]; try apply dlt_fin in B; try apply dom_le_fin in B; lra.
  - intros [_ A]. assert (K : 0 <= a).
    { apply Qnot_lt_le. intros L. destruct (low_point a b a_in b_in 0 E L) as (q & K & G). specialize (A q K). lra. }
    split; [assumption|]. left. destruct a_in; cbn [negb].
    + apply dlt_fin. destruct P as [X Y]. apply A. split; [lra|]. destruct b_in; lra.
    + now apply dom_le_fin.
Qed.
(** C61.  Constants. *)
Theorem C61_constant c : (of_constant ensure_probability (Fin c) = true <-> 0 <= c <= 1) /\
  (of_constant ensure_positive (Fin c) = true <-> 0 < c) /\ (of_constant ensure_non_negative (Fin c) = true <-> 0 <= c).
Proof.
  unfold of_constant, closed. assert (P : exists q, point c c true true q) by (exists c; unfold point; lra).
  rewrite C61_probability, (C61_positive c c c true true P), (C61_non_negative c c c true true P). unfold point. split; [|split].
  - split; [tauto|]. intros H. split; [assumption|]. intros q K. lra.
  - split; [tauto|]. intros H. split; [assumption|]. intros q K. lra.
  - split; [tauto|]. intros H. split; [assumption|]. intros q K. lra.
Qed.
(** C61 refuted: what is not a number is accepted as a probability and as an argument of acos and asin,
    though it is refused as a rate or a time. *)
Theorem C61_nan_refuted : of_constant ensure_probability NaN = true /\ (forall l u, of_constant (fun v i => ensure_within v i (closed l u)) NaN = true) /\
  of_constant ensure_positive NaN = false /\ of_constant ensure_non_negative NaN = false.
Proof. repeat split. intros l u. unfold of_constant, ensure_within, contains_value, contains, is_empty, lower_less, upper_less, dom_le, closed. cbn. destruct u; reflexivity. Qed.
(** C61 refuted: a range without points is within every other, but is not positive unless its lower bound is. *)
Theorem C61_empty_refuted : exists a b, (forall q, ~ point a b false true q) /\
  ensure_probability (Fin (1 # 2)) (mkIval (Fin a) (Fin b) false true) = true /\ ensure_non_negative (Fin (1 # 2)) (mkIval (Fin a) (Fin b) false true) = false.
Proof. exists (-1), (-1). split; [|split; reflexivity]. intros q [X Y]. lra. Qed.
Example C61_witness : ensure_positive (Fin 1) (mkIval (Fin 0) (Fin 2) false true) = true /\ ensure_positive (Fin 1) (closed (Fin 0) (Fin 2)) = false /\
  ensure_probability (Fin (1 # 2)) (mkIval (Fin 0) (Fin (11 # 10)) true false) = false /\ point 0 2 false true 1.
Proof. split; [reflexivity|]. split; [reflexivity|]. split; [reflexivity|]. unfold point. lra. Qed.
