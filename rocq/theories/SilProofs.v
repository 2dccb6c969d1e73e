(** Proofs about the SIL metrics. *)
From Coq Require Import List Arith Reals Lra Lia Bool.
From Verif Require Import Sil.
Import ListNotations.
Local Open Scope R_scope.

Lemma le_spec x y : (le x y = true /\ x <= y) \/ (le x y = false /\ y < x).
Proof. unfold le. destruct (Rle_dec x y); [left|right]; split; auto; lra. Qed.
Ltac les := repeat match goal with |- context [le ?x ?y] => destruct (le_spec x y) as [[-> ?]|[-> ?]] end; cbn [andb].
Definition clamp (p0 p1 x : R) : R := Rmax p0 (Rmin p1 x).
Ltac clamps := unfold clamp, Rmax, Rmin; repeat match goal with |- context [Rle_dec ?x ?y] =>
  lazymatch x with context [Rle_dec] => fail | _ => lazymatch y with context [Rle_dec] => fail | _ => destruct (Rle_dec x y) as [?|?%Rnot_le_lt] end end end.

Lemma fraction_slope k p0 p1 t0 t1 b0 b1 : 0 < k -> p0 < p1 -> p1 - p0 = k * (t1 - t0) -> b0 < b1 ->
  fraction k p0 p1 t0 t1 b0 b1 = (clamp p0 p1 b1 - clamp p0 p1 b0) / k.
Proof.
  intros K P E B. unfold fraction.
  assert (T : t1 - t0 = (p1 - p0) / k) by (rewrite E; field; lra).
  assert (Z : 0 = 0 / k) by (field; lra).
  les; rewrite ?T; try (rewrite Z at 1); unfold Rdiv; f_equal; clamps; lra.
Qed.
Lemma fraction_flat p t0 t1 b0 b1 : b0 < b1 -> fraction 0 p p t0 t1 b0 b1 = if le b0 p && le p b1 then t1 - t0 else 0.
Proof. intros B. unfold fraction. les; try lra; reflexivity. Qed.

(** a segment as an ascending line, a descending line or a flat line *)
Lemma segment_cases a b : snd a < snd b -> 
  (fst a < fst b /\ exists k, 0 < k /\ fst b - fst a = k * (snd b - snd a) /\ forall b0 b1, b0 < b1 -> segment a b b0 b1 = (clamp (fst a) (fst b) b1 - clamp (fst a) (fst b) b0) / k) \/
  (fst b < fst a /\ exists k, 0 < k /\ fst a - fst b = k * (snd b - snd a) /\ forall b0 b1, b0 < b1 -> segment a b b0 b1 = (clamp (fst b) (fst a) b1 - clamp (fst b) (fst a) b0) / k) \/
  (fst a = fst b /\ forall b0 b1, b0 < b1 -> segment a b b0 b1 = if le b0 (fst a) && le (fst a) b1 then snd b - snd a else 0).
Proof.
  intros T. destruct a as [pa ta], b as [pb tb]. cbn [fst snd] in *. unfold segment. cbn [fst snd].
  assert (D : forall x, x / (tb - ta) * (tb - ta) = x) by (intros; field; lra).
  destruct (Rtotal_order pa pb) as [L|[E|G]].
  - left. split; auto. exists ((pb - pa) / (tb - ta)). assert (K : 0 < (pb - pa) / (tb - ta)) by (apply Rdiv_lt_0_compat; lra).
    split; auto. split; [now rewrite D|]. intros b0 b1 B. destruct (Rlt_dec ((pb - pa) / (tb - ta)) 0); [lra|]. apply fraction_slope; auto; lra.
  - right. right. split; auto. subst pb. intros b0 b1 B. replace ((pa - pa) / (tb - ta)) with 0 by (field; lra). destruct (Rlt_dec 0 0); [lra|]. now apply fraction_flat.
  - right. left. split; auto. exists ((pa - pb) / (tb - ta)). assert (K : 0 < (pa - pb) / (tb - ta)) by (apply Rdiv_lt_0_compat; lra).
    split; auto. split; [now rewrite D|]. intros b0 b1 B. replace ((pb - pa) / (tb - ta)) with (- ((pa - pb) / (tb - ta))) by (field; lra).
    destruct (Rlt_dec (- ((pa - pb) / (tb - ta))) 0); [|lra]. rewrite Ropp_involutive. apply fraction_slope; auto; lra.
Qed.
Lemma clamp_le p0 p1 x y : p0 <= p1 -> x <= y -> p0 <= clamp p0 p1 x <= clamp p0 p1 y /\ clamp p0 p1 y <= p1.
Proof. intros. clamps; lra. Qed.
Lemma div_sub k x y : 0 < k -> (x - y) / k = x / k - y / k.
Proof. intros. field. lra. Qed.
Lemma div_le k x y : 0 < k -> x <= y -> x / k <= y / k.
Proof. intros K H. unfold Rdiv. apply Rmult_le_compat_r; auto. apply Rlt_le, Rinv_0_lt_compat, K. Qed.
Lemma div_le_iff k x y : 0 < k -> (x / k <= y <-> x <= k * y).
Proof.
  intros K. split; intros H.
  - replace x with (k * (x / k)) by (field; lra). apply Rmult_le_compat_l; lra.
  - apply (div_le k) in H; auto. replace y with (k * y / k) by (field; lra). exact H.
Qed.
Lemma le_div_iff k x y : 0 < k -> (y <= x / k <-> k * y <= x).
Proof.
  intros K. split; intros H.
  - replace x with (k * (x / k)) by (field; lra). apply Rmult_le_compat_l; lra.
  - apply (div_le k) in H; auto. replace y with (k * y / k) by (field; lra). exact H.
Qed.

(** ** Each bucket gets the time spent in it *)
Lemma segment_time a b b0 b1 : snd a < snd b -> b0 < b1 -> time_within a b b0 b1 (segment a b b0 b1).
Proof.
  intros T B. unfold time_within. destruct (segment_cases a b T) as [(L & k & K & E & S)|[(G & k & K & E & S)|(F & S)]]; rewrite S by auto; clear S.
  - assert (LN : forall t, line a b t = fst a + k * (t - snd a)). { intros t. unfold line. rewrite E. field. lra. }
    pose proof (clamp_le (fst a) (fst b) b0 b1 (Rlt_le _ _ L) (Rlt_le _ _ B)) as [[C1 C2] C3].
    destruct (Rle_dec b0 (fst b)) as [H1|H1]; [destruct (Rle_dec (fst a) b1) as [H2|H2]|].
    + left. exists (snd a + (clamp (fst a) (fst b) b0 - fst a) / k), (snd a + (clamp (fst a) (fst b) b1 - fst a) / k).
      rewrite !div_sub by auto.
      pose proof (div_le k _ _ K C1). pose proof (div_le k _ _ K C2). pose proof (div_le k _ _ K C3).
      assert (X : fst b / k - fst a / k = snd b - snd a). { rewrite <- div_sub by auto. rewrite E. field. lra. }
      split; [lra|]. split; [lra|]. split; [lra|]. intros t R. rewrite LN.
      assert (U : fst a <= fst a + k * (t - snd a) <= fst b). { split; [nra|]. assert (k * (t - snd a) <= k * (snd b - snd a)); [apply Rmult_le_compat_l; lra|lra]. }
      rewrite <- !div_sub by auto.
      assert (I1 : snd a + (clamp (fst a) (fst b) b0 - fst a) / k <= t <-> clamp (fst a) (fst b) b0 - fst a <= k * (t - snd a)). { rewrite <- div_le_iff by auto. split; intros; lra. }
      assert (I2 : t <= snd a + (clamp (fst a) (fst b) b1 - fst a) / k <-> k * (t - snd a) <= clamp (fst a) (fst b) b1 - fst a). { rewrite <- le_div_iff by auto. split; intros; lra. }
      rewrite I1, I2. revert U H1 H2. clear. clamps; lra.
    + right. split.
      * replace (clamp (fst a) (fst b) b1) with (clamp (fst a) (fst b) b0) by (clear -H2 L B; clamps; lra). field. lra.
      * intros t R. rewrite LN. assert (0 <= k * (t - snd a)) by (apply Rmult_le_pos; lra). lra.
    + right. split.
      * replace (clamp (fst a) (fst b) b1) with (clamp (fst a) (fst b) b0) by (clear -H1 L B; clamps; lra). field. lra.
      * intros t R. rewrite LN. assert (k * (t - snd a) <= k * (snd b - snd a)) by (apply Rmult_le_compat_l; lra). lra.
  - assert (LN : forall t, line a b t = fst b + k * (snd b - t)). { intros t. unfold line. replace (fst b - fst a) with (- (k * (snd b - snd a))) by lra. replace (fst b) with (fst a - k * (snd b - snd a)) by lra. field. lra. }
    pose proof (clamp_le (fst b) (fst a) b0 b1 (Rlt_le _ _ G) (Rlt_le _ _ B)) as [[C1 C2] C3].
    destruct (Rle_dec b0 (fst a)) as [H1|H1]; [destruct (Rle_dec (fst b) b1) as [H2|H2]|].
    + left. exists (snd b - (clamp (fst b) (fst a) b1 - fst b) / k), (snd b - (clamp (fst b) (fst a) b0 - fst b) / k).
      rewrite !div_sub by auto.
      pose proof (div_le k _ _ K C1). pose proof (div_le k _ _ K C2). pose proof (div_le k _ _ K C3).
      assert (X : fst a / k - fst b / k = snd b - snd a). { rewrite <- div_sub by auto. rewrite E. field. lra. }
      split; [lra|]. split; [lra|]. split; [lra|]. intros t R. rewrite LN.
      assert (U : fst b <= fst b + k * (snd b - t) <= fst a). { split; [nra|]. assert (k * (snd b - t) <= k * (snd b - snd a)); [apply Rmult_le_compat_l; lra|lra]. }
      rewrite <- !div_sub by auto.
      assert (I1 : t <= snd b - (clamp (fst b) (fst a) b0 - fst b) / k <-> clamp (fst b) (fst a) b0 - fst b <= k * (snd b - t)). { rewrite <- div_le_iff by auto. split; intros; lra. }
      assert (I2 : snd b - (clamp (fst b) (fst a) b1 - fst b) / k <= t <-> k * (snd b - t) <= clamp (fst b) (fst a) b1 - fst b). { rewrite <- le_div_iff by auto. split; intros; lra. }
      rewrite I1, I2. revert U H1 H2. clear. clamps; lra.
    + right. split.
      * replace (clamp (fst b) (fst a) b1) with (clamp (fst b) (fst a) b0) by (clear -H2 G B; clamps; lra). field. lra.
      * intros t R. rewrite LN. assert (0 <= k * (snd b - t)) by (apply Rmult_le_pos; lra). lra.
    + right. split.
      * replace (clamp (fst b) (fst a) b1) with (clamp (fst b) (fst a) b0) by (clear -H1 G B; clamps; lra). field. lra.
      * intros t R. rewrite LN. assert (k * (snd b - t) <= k * (snd b - snd a)) by (apply Rmult_le_compat_l; lra). lra.
  - assert (LN : forall t, line a b t = fst a). { intros t. unfold line. rewrite <- F. field. lra. }
    les.
    + left. exists (snd a), (snd b). split; [lra|]. split; [lra|]. split; [lra|]. intros t R. rewrite LN. lra.
    + right. split; auto. intros t R. rewrite LN. lra.
    + right. split; auto. intros t R. rewrite LN. lra.
    + right. split; auto. intros t R. rewrite LN. lra.
Qed.

Fixpoint seg_time (l : list point) (b0 b1 : R) : R :=
  match l with a :: ((b :: _) as r) => segment a b b0 b1 + seg_time r b0 b1 | _ => 0 end.
Fixpoint add_all (l : list point) (b0 : R) (bs : list (R * R)) : list (R * R) :=
  match bs with [] => [] | (b1, y) :: bs => (b1, y + seg_time l b0 b1) :: add_all l b1 bs end.
Lemma add_segments_all l bs : add_segments l bs = add_all l 0 bs.
Proof.
  assert (Z : forall bs b0 l, (forall x y, seg_time l x y = 0) -> add_all l b0 bs = bs).
  { clear. induction bs as [|[b1 y] bs IH]; intros b0 l H; simpl; auto. rewrite H, Rplus_0_r. f_equal. now apply IH. }
  revert bs. induction l as [|a l IH]; intros bs; [symmetry; apply Z; reflexivity|]. destruct l as [|b r]; [symmetry; apply Z; reflexivity|].
  change (add_segments (a :: b :: r) bs) with (add_segments (b :: r) (add_segment a b 0 bs)). rewrite IH. clear.
  generalize 0 as b0. induction bs as [|[b1 y] bs IH]; intros b0; [reflexivity|]. cbn [add_segment add_all]. rewrite IH. f_equal. f_equal.
  change (seg_time (a :: b :: r) b0 b1) with (segment a b b0 b1 + seg_time (b :: r) b0 b1). lra.
Qed.
Lemma seg_time_within l b0 b1 : increasing (map snd l) -> b0 < b1 -> total_time_within l b0 b1 (seg_time l b0 b1).
Proof.
  intros I B. induction l as [|a l IH]; [reflexivity|]. destruct l as [|b r]; [reflexivity|]. destruct I as [T I].
  exists (segment a b b0 b1), (seg_time (b :: r) b0 b1). split; [now apply segment_time|]. split; [now apply IH|reflexivity].
Qed.
Lemma time_within_nonneg a b b0 b1 d : time_within a b b0 b1 d -> 0 <= d.
Proof. intros [(s & e & H & _ & -> & _)|[-> _]]; lra. Qed.
Lemma total_time_nonneg l b0 b1 d : total_time_within l b0 b1 d -> 0 <= d.
Proof.
  revert d. induction l as [|a l IH]; intros d H; [simpl in H; lra|]. destruct l as [|b r]; [simpl in H; lra|]. destruct H as (d1 & d2 & H1 & H2 & ->).
  apply time_within_nonneg in H1. apply IH in H2. lra.
Qed.

(** ** The sum over buckets *)
Fixpoint sum_segment (a b : point) (b0 : R) (bounds : list R) : R :=
  match bounds with [] => 0 | b1 :: bounds => segment a b b0 b1 + sum_segment a b b1 bounds end.
Lemma sum_add_segment a b r bounds : forall b0, sum (add_all (a :: b :: r) b0 (buckets bounds)) = sum_segment a b b0 bounds + sum (add_all (b :: r) b0 (buckets bounds)).
Proof.
  induction bounds as [|b1 bs IH]; intros b0; [simpl; lra|]. unfold buckets in *. cbn [map add_all sum fold_right sum_segment snd]. fold (sum (add_all (a :: b :: r) b1 (map (fun b => (b, 0)) bs))).
  fold (sum (add_all (b :: r) b1 (map (fun b => (b, 0)) bs))). rewrite IH.
  change (seg_time (a :: b :: r) b0 b1) with (segment a b b0 b1 + seg_time (b :: r) b0 b1). lra.
Qed.
Lemma sum_segment_slope a b f k : 0 < k -> forall bounds b0, increasing (b0 :: bounds) ->
  (forall b0 b1, b0 < b1 -> segment a b b0 b1 = (f b1 - f b0) / k) -> sum_segment a b b0 bounds = (f (last bounds b0) - f b0) / k.
Proof.
  intros K. induction bounds as [|b1 bs IH]; intros b0 I S; cbn [sum_segment].
  - simpl. unfold Rdiv. lra.
  - destruct I as [B I]. rewrite S by auto. rewrite IH by auto. replace (last (b1 :: bs) b0) with (last bs b1).
    + rewrite !div_sub by auto. lra.
    + clear. revert b1. induction bs as [|x bs IH]; intros b1; [reflexivity|]. change (last (b1 :: x :: bs) b0) with (last (x :: bs) b0).
      destruct bs; [reflexivity|]. change (last (x :: r :: bs) b1) with (last (r :: bs) b1). change (last (x :: r :: bs) b0) with (last (r :: bs) b0). clear. revert r. induction bs; intros r; [reflexivity|]. exact (IHbs _).
Qed.
Lemma last_indep {A} (l : list A) d e x : last (x :: l) d = last (x :: l) e.
Proof. revert x. induction l as [|y l IH]; intros x; [reflexivity|]. exact (IH y). Qed.
Lemma increasing_lt x l : increasing (x :: l) -> forall y, In y l -> x < y.
Proof.
  revert x. induction l as [|z l IH]; intros x I y H; [contradiction|]. destruct I as [L I]. destruct H as [<-|H]; auto.
  apply Rlt_trans with z; auto.
Qed.
Lemma last_in {A} (l : list A) x d : In (last (x :: l) d) (x :: l).
Proof. revert x. induction l as [|y l IH]; intros x; [left; reflexivity|]. right. exact (IH y). Qed.
Lemma sum_segment_below a b t : fst a = fst b -> (forall b0 b1, b0 < b1 -> segment a b b0 b1 = if le b0 (fst a) && le (fst a) b1 then t else 0) ->
  forall bounds b0, increasing (b0 :: bounds) -> fst a < b0 -> sum_segment a b b0 bounds = 0.
Proof.
  intros F S. induction bounds as [|b1 bs IH]; intros b0 I L; [reflexivity|]. destruct I as [B I]. cbn [sum_segment]. rewrite S by auto. rewrite IH by (auto; lra).
  les; lra.
Qed.
Lemma sum_segment_flat a b t : fst a = fst b -> (forall b0 b1, b0 < b1 -> segment a b b0 b1 = if le b0 (fst a) && le (fst a) b1 then t else 0) ->
  forall bounds b0, increasing (b0 :: bounds) -> b0 <= fst a -> bounds <> [] -> fst a <= last bounds b0 ->
  sum_segment a b b0 bounds = t + if in_dec Req_EM_T (fst a) (removelast bounds) then t else 0.
Proof.
  intros F S. induction bounds as [|b1 bs IH]; intros b0 I L N U; [congruence|]. destruct I as [B I]. cbn [sum_segment]. rewrite S by auto.
  destruct bs as [|b2 bs].
  - cbn [sum_segment removelast last] in *. destruct (in_dec Req_EM_T (fst a) []) as [[]|_]. les; lra.
  - change (removelast (b1 :: b2 :: bs)) with (b1 :: removelast (b2 :: bs)).
    assert (NI : fst a <= b1 -> ~ In (fst a) (removelast (b2 :: bs))).
    { intros Q X. assert (In (fst a) (b2 :: bs)). { revert X. clear. generalize (fst a). intros r. induction (b2 :: bs) as [|y l IHl]; [auto|]. cbn [removelast]. destruct l; [contradiction|]. intros [->|X]; [now left|]. right. auto. }
      pose proof (increasing_lt b1 (b2 :: bs) I (fst a) H). lra. }
    destruct (Rtotal_order (fst a) b1) as [Q|[Q|Q]].
    + rewrite (sum_segment_below a b t F S (b2 :: bs) b1 I Q).
      destruct (in_dec Req_EM_T (fst a) (b1 :: removelast (b2 :: bs))) as [X|X].
      * destruct X as [X|X]; [lra|]. exfalso. apply NI; auto. lra.
      * les; lra.
    + rewrite (IH b1 I); [|lra|discriminate|].
      * destruct (in_dec Req_EM_T (fst a) (removelast (b2 :: bs))) as [X|X]; [exfalso; apply NI; auto; lra|].
        destruct (in_dec Req_EM_T (fst a) (b1 :: removelast (b2 :: bs))) as [_|Y]; [les; lra|]. exfalso. apply Y. now left.
      * change (last (b1 :: b2 :: bs) b0) with (last (b2 :: bs) b0) in U. rewrite (last_indep bs b1 b0). exact U.
    + rewrite (IH b1 I); [|lra|discriminate|].
      * destruct (in_dec Req_EM_T (fst a) (removelast (b2 :: bs))) as [X|X];
        (destruct (in_dec Req_EM_T (fst a) (b1 :: removelast (b2 :: bs))) as [Y|Y]).
        -- les; lra.
        -- exfalso. apply Y. now right.
        -- destruct Y as [Y|Y]; [lra|contradiction].
        -- les; lra.
      * change (last (b1 :: b2 :: bs) b0) with (last (b2 :: bs) b0) in U. rewrite (last_indep bs b1 b0). exact U.
Qed.
Definition ok_bounds (bounds : list R) : Prop := increasing (0 :: bounds) /\ bounds <> [] /\ last bounds 0 = 1.
Lemma range_cons a b r : range_x (a :: b :: r) = (snd b - snd a) + range_x (b :: r).
Proof. unfold range_x, back, front. cbn [hd]. change (last (a :: b :: r) (0, 0)) with (last (b :: r) (0, 0)). lra. Qed.
Lemma sum_partition bounds (l : list point) : ok_bounds bounds -> increasing (map snd l) -> (forall p : point, In p l -> 0 <= fst p <= 1) -> l <> [] ->
  sum (add_segments l (buckets bounds)) = range_x l + flat_time l (removelast bounds).
Proof.
  intros (BI & BN & BL) I Y N. rewrite add_segments_all. induction l as [|a l IH]; [congruence|]. destruct l as [|b r].
  - unfold range_x, back, front. cbn [hd last flat_time]. 
    assert (Z : forall bs b0, sum (add_all [a] b0 (buckets bs)) = 0). { induction bs; intros; simpl; [reflexivity|]. simpl in IHbs. unfold buckets in IHbs. rewrite IHbs. lra. }
    rewrite Z. lra.
  - rewrite sum_add_segment, range_cons. rewrite IH; [|apply I|intros p H; apply Y; now right|discriminate].
    change (flat_time (a :: b :: r) (removelast bounds)) with ((if Req_EM_T (fst a) (fst b) then if in_dec Req_EM_T (fst a) (removelast bounds) then snd b - snd a else 0 else 0) + flat_time (b :: r) (removelast bounds)).
    assert (YA : 0 <= fst a <= 1) by (apply Y; now left). assert (YB : 0 <= fst b <= 1) by (apply Y; right; now left).
    destruct I as [T I]. destruct (segment_cases a b T) as [(L & k & K & E & S)|[(G & k & K & E & S)|(F & S)]].
    + rewrite (sum_segment_slope a b (clamp (fst a) (fst b)) k K bounds 0 BI S), BL.
      replace (clamp (fst a) (fst b) 1) with (fst b) by (clamps; lra). replace (clamp (fst a) (fst b) 0) with (fst a) by (clamps; lra).
      rewrite E. replace (k * (snd b - snd a) / k) with (snd b - snd a) by (field; lra). destruct (Req_EM_T (fst a) (fst b)); lra.
    + rewrite (sum_segment_slope a b (clamp (fst b) (fst a)) k K bounds 0 BI S), BL.
      replace (clamp (fst b) (fst a) 1) with (fst a) by (clamps; lra). replace (clamp (fst b) (fst a) 0) with (fst b) by (clamps; lra).
      rewrite E. replace (k * (snd b - snd a) / k) with (snd b - snd a) by (field; lra). destruct (Req_EM_T (fst a) (fst b)); lra.
    + rewrite (sum_segment_flat a b (snd b - snd a) F S bounds 0 BI); auto; [|lra|lra].
      destruct (Req_EM_T (fst a) (fst b)); [|lra]. destruct (in_dec Req_EM_T (fst a) (removelast bounds)); lra.
Qed.
Lemma range_pos (l : list point) : (2 <= length l)%nat -> increasing (map snd l) -> 0 < range_x l.
Proof.
  intros L I. destruct l as [|a [|b r]]; simpl in L; try lia. rewrite range_cons. destruct I as [T I].
  assert (0 <= range_x (b :: r)); [|lra]. clear -I. revert b I. induction r as [|c r IH]; intros b I; [unfold range_x, back, front; simpl; lra|].
  rewrite range_cons. destruct I as [T I]. specialize (IH c I). lra.
Qed.
Lemma sum_div bs x : sum (map (fun b => (fst b, snd b / x)) bs) = sum bs / x.
Proof.
  induction bs as [|b bs IH]; [unfold Rdiv; simpl; lra|]. unfold sum in *. cbn [map fold_right snd]. rewrite IH. unfold Rdiv. lra.
Qed.

(** ** The average *)
Lemma trapezoid_bounds m M (l : list point) : increasing (map snd l) -> (forall p : point, In p l -> m <= fst p <= M) -> l <> [] ->
  2 * m * range_x l <= trapezoid l <= 2 * M * range_x l.
Proof.
  intros I Y N. induction l as [|a l IH]; [congruence|]. destruct l as [|b r].
  - unfold range_x, back, front. simpl. lra.
  - rewrite range_cons. change (trapezoid (a :: b :: r)) with ((fst b + fst a) * (snd b - snd a) + trapezoid (b :: r)).
    assert (YA : m <= fst a <= M) by (apply Y; now left). assert (YB : m <= fst b <= M) by (apply Y; right; now left). destruct I as [T I].
    specialize (IH I (fun p H => Y p (or_intror H)) ltac:(discriminate)).
    assert (2 * m * (snd b - snd a) <= (fst b + fst a) * (snd b - snd a) <= 2 * M * (snd b - snd a)) by (split; apply Rmult_le_compat_r; lra).
    lra.
Qed.
Lemma nth_partition l bounds : forall b0 i, (i < length bounds)%nat ->
  nth i (add_all l b0 (buckets bounds)) (0, 0) = (nth i bounds 0, seg_time l (nth i (b0 :: bounds) 0) (nth i bounds 0)).
Proof.
  induction bounds as [|b1 bs IH]; intros b0 i L; simpl in L; [lia|]. unfold buckets in *. cbn [map add_all]. destruct i as [|i]; cbn [nth].
  - now rewrite Rplus_0_l.
  - rewrite (IH b1 i) by lia. reflexivity.
Qed.
Lemma increasing_nth l : increasing l -> forall i, (S i < length l)%nat -> nth i l 0 < nth (S i) l 0.
Proof.
  induction l as [|a l IH]; intros I i L; simpl in L; [lia|]. destruct l as [|b r]; [simpl in L; lia|]. destruct I as [T I].
  destruct i as [|i]; [exact T|]. change (nth (S i) (a :: b :: r) 0) with (nth i (b :: r) 0). change (nth (S (S i)) (a :: b :: r) 0) with (nth (S i) (b :: r) 0).
  apply IH; auto. lia.
Qed.
