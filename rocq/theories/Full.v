(** Gates with the number of arguments that their connectives ask for (TestGateStructure,
    /repo/src/preprocessor.cc:246-270): an argument can be added to such a gate, or to one that has just
    lost an argument, without a failed assertion; the result is such a gate again and its unfolding does
    not grow.  The size of the unfolding bounds the number of steps of the traversals. *)
From stdpp Require Import gmap.
From Coq Require Import Lia Permutation List.
From Verif Require Import Pdag PdagProofs PdagAdd PdagSem PdagKeeps Preproc Decompose Rooted BoolOpt BoolOptProofs BoolOptEdits Shaped ShapedOps.
Import ListNotations.
Open Scope Z_scope.

(** preprocessor.cc:246-270 TestGateStructure; the constant is the argument of NULL gates only. *)
Definition full (x : gate) : Prop :=
  (g_type x <> kNull -> constant x = false) /\ 0 <= g_min x /\ List.NoDup (g_args x) /\
  match g_type x with
  | kAnd | kOr | kNand | kNor => 2 <= size (g_args x)
  | kAtleast => 2 <= g_min x < size (g_args x)
  | kXor => size (g_args x) = 2
  | kNot | kNull => size (g_args x) = 1
  end.
(** A gate that an argument can be added to. *)
Definition open (x : gate) : Prop :=
  constant x = false /\ 0 <= g_min x /\ List.NoDup (g_args x) /\
  match g_type x with
  | kAnd | kOr | kNand | kNor => 1 <= size (g_args x)
  | kAtleast => 2 <= g_min x <= size (g_args x)
  | kXor => size (g_args x) = 1
  | kNot | kNull => size (g_args x) = 0
  end.
Definition full_graph (G : graph) : Prop := 1 < nxt G /\ forall j x, gs G !! j = Some x -> 1 < j < nxt G /\ full x.

(** Size of the unfolding; a K/N gate counts for its expansion. *)
Fixpoint sum (w : Z -> nat) (l : list Z) : nat := match l with [] => 0 | a :: l => w (Z.abs a) + sum w l end%nat.
Definition gate_weight (t : conn) (s : nat) : nat := match t with kAtleast => 4 ^ s | _ => 1 + s end.
Definition weighs (G : graph) (w : Z -> nat) : Prop :=
  forall j, w j = match gs G !! j with Some x => gate_weight (g_type x) (sum w (g_args x)) | None => 1%nat end.

Lemma pow4 s : (s < 4 ^ s)%nat.
Proof. induction s as [|s IH]; cbn [Nat.pow]; lia. Qed.
Lemma gate_weight_lt t s : (s < gate_weight t s)%nat.
Proof. destruct t; cbn [gate_weight]; try lia. apply pow4. Qed.
Lemma gate_weight_mono t s s' : (s <= s')%nat -> (gate_weight t s <= gate_weight t s')%nat.
Proof. intros H. destruct t; cbn [gate_weight]; try lia. apply Nat.pow_le_mono_r; lia. Qed.
Lemma gate_weight_strict t s s' : (s < s')%nat -> (gate_weight t s < gate_weight t s')%nat.
Proof. intros H. destruct t; cbn [gate_weight]; try lia. apply Nat.pow_lt_mono_r; lia. Qed.
Lemma gate_weight_plain t t' s : t <> kAtleast -> (gate_weight t s <= gate_weight t' s)%nat.
Proof. intros H. pose proof (pow4 s). destruct t, t'; cbn [gate_weight]; try congruence; lia. Qed.
Lemma gate_weight_max t s : (gate_weight t s <= 4 ^ s)%nat.
Proof. pose proof (pow4 s). destruct t; cbn [gate_weight]; lia. Qed.
Lemma weight_pos G w j : weighs G w -> (1 <= w j)%nat.
Proof. intros H. rewrite (H j). destruct (gs G !! j) as [x|]; [|lia]. pose proof (gate_weight_lt (g_type x) (sum w (g_args x))). lia. Qed.
Lemma weight_at G w j x : weighs G w -> gs G !! j = Some x -> w j = gate_weight (g_type x) (sum w (g_args x)).
Proof. intros H E. rewrite (H j), E. reflexivity. Qed.
Lemma weight_none G w j : weighs G w -> gs G !! j = None -> w j = 1%nat.
Proof. intros H E. rewrite (H j), E. reflexivity. Qed.
Lemma sum_in w a l : In a l -> (w (Z.abs a) <= sum w l)%nat.
Proof. induction l as [|b l IH]; cbn; [tauto|]. intros [->|H]; [lia|]. specialize (IH H). lia. Qed.
Lemma sum_perm w l l' : Permutation l l' -> sum w l = sum w l'.
Proof. induction 1; cbn; lia. Qed.
Lemma sum_mono w w' l : (forall a, In a l -> w' (Z.abs a) <= w (Z.abs a))%nat -> (sum w' l <= sum w l)%nat.
Proof. induction l as [|a l IH]; intros H; cbn; [lia|]. pose proof (H a ltac:(left; auto)). assert (sum w' l <= sum w l)%nat by (apply IH; intros; apply H; right; auto). lia. Qed.
Lemma sum_length w l : (forall j, 1 <= w j)%nat -> (length l <= sum w l)%nat.
Proof. intros H. induction l as [|a l IH]; cbn; [lia|]. specialize (H (Z.abs a)). lia. Qed.
Lemma sum_erase w a l : List.NoDup l -> In a l -> sum w l = (w (Z.abs a) + sum w (set_erase a l))%nat.
Proof. intros N I. rewrite (sum_perm w _ _ (set_erase_perm a l N I)). reflexivity. Qed.
Lemma sum_insert w a l : ~ In a l -> sum w (set_insert a l) = (w (Z.abs a) + sum w l)%nat.
Proof. intros I. rewrite (sum_perm w _ _ (set_insert_perm a l I)). reflexivity. Qed.

Lemma weight_arg G w j x a : weighs G w -> gs G !! j = Some x -> In a (g_args x) -> (w (Z.abs a) < w j)%nat.
Proof. intros H E I. rewrite (weight_at G w j x H E). pose proof (sum_in w a _ I). pose proof (gate_weight_lt (g_type x) (sum w (g_args x))). lia. Qed.

(** Weights exist and are unique. *)
Fixpoint unfolding (G : graph) (n : nat) (j : Z) : nat :=
  match n with
  | O => 1
  | S n => match gs G !! j with Some x => gate_weight (g_type x) (sum (unfolding G n) (g_args x)) | None => 1 end
  end.
Lemma sum_eq w w' l : (forall a, In a l -> w (Z.abs a) = w' (Z.abs a)) -> sum w l = sum w' l.
Proof. induction l as [|a l IH]; intros H; cbn; [auto|]. rewrite (H a) by (left; auto). rewrite IH; [auto|]. intros; apply H; right; auto. Qed.
Lemma unfolding_stable G r : ranked G r -> forall n m j, (r j < n)%nat -> (r j < m)%nat -> unfolding G n j = unfolding G m j.
Proof.
  intros R. induction n as [|n IH]; intros m j Ln Lm; [lia|]. destruct m as [|m]; [lia|]. cbn [unfolding]. destruct (gs G !! j) as [x|] eqn:E; [|auto]. f_equal. apply sum_eq. intros a I.
  destruct (gs G !! Z.abs a) as [y|] eqn:Ey; [pose proof (R j x a E I ltac:(eauto)); apply IH; lia|]. destruct n, m; cbn [unfolding]; rewrite ?Ey; auto.
Qed.
Lemma weighs_exists G : acyclic G -> exists w, weighs G w.
Proof.
  intros [r R]. exists (fun j => unfolding G (S (r j)) j). intros j. cbn [unfolding]. destruct (gs G !! j) as [x|] eqn:E; [|auto]. f_equal. apply sum_eq. intros a I.
  change (unfolding G (r j) (Z.abs a) = unfolding G (S (r (Z.abs a))) (Z.abs a)). destruct (gs G !! Z.abs a) as [y|] eqn:Ey; [pose proof (R j x a E I ltac:(eauto)); apply (unfolding_stable G r R); lia|]. destruct (r j); cbn [unfolding]; rewrite ?Ey; auto.
Qed.

(** One gate and fresh gates change. *)
Lemma weight_mono G G' w w' i : wf G -> weighs G w -> weighs G' w' ->
  (forall j, j <> i -> j < nxt G -> gs G' !! j = gs G !! j) ->
  ((forall b, Z.abs b < nxt G -> (w (Z.abs b) < w i)%nat -> (w' (Z.abs b) <= w (Z.abs b))%nat) -> (w' i <= w i)%nat) ->
  forall j, j < nxt G -> (w' j <= w j)%nat.
Proof.
  intros W HW HW' OLD IMP. assert (M : forall n j, w j = n -> j < nxt G -> (w' j <= w j)%nat).
  { induction n as [n IH] using (well_founded_induction lt_wf). intros j En Lj. destruct (Z.eq_dec j i) as [->|N].
    - apply IMP. intros b Lb Wb. apply (IH (w (Z.abs b))); auto; lia.
    - destruct (gs G !! j) as [x|] eqn:E.
      + rewrite (weight_at G w j x HW E), (weight_at G' w' j x HW') by (rewrite OLD; auto). apply gate_weight_mono, sum_mono. intros a I. pose proof (weight_arg G w j x a HW E I).
        apply (IH (w (Z.abs a))); [lia|auto|]. apply W in E as (_ & _ & Q). destruct (Q a I) as (_ & ? & _). lia.
      + rewrite (weight_none G w j HW E), (weight_none G' w' j HW') by (rewrite OLD; auto). lia. }
  intros j. apply (M (w j)); auto.
Qed.
Lemma reach_first G j i : reach G j i -> j = i \/ exists x a, gs G !! j = Some x /\ In a (g_args x) /\ reach G (Z.abs a) i.
Proof. induction 1 as [|k x a RC IH E I]; [auto|]. right. destruct IH as [->|(y & b & Ey & Ib & Rb)]; [exists x, a; split; [auto|]; split; [auto|constructor]|]. exists y, b. split; [auto|]. split; [auto|]. eapply reach_arg; eauto. Qed.
Lemma sum_strict w w' a l : (forall b, In b l -> w' (Z.abs b) <= w (Z.abs b))%nat -> In a l -> (w' (Z.abs a) < w (Z.abs a))%nat -> (sum w' l < sum w l)%nat.
Proof.
  intros H I L. induction l as [|b l IH]; [destruct I|]. cbn. pose proof (sum_mono w w' l ltac:(intros; apply H; right; auto)). pose proof (H b ltac:(left; auto)). destruct I as [->|I]; [lia|]. assert (sum w' l < sum w l)%nat by (apply IH; auto; intros; apply H; right; auto). lia.
Qed.
Lemma weight_strict G G' w w' i : wf G -> weighs G w -> weighs G' w' ->
  (forall j, j <> i -> j < nxt G -> gs G' !! j = gs G !! j) ->
  (forall j, j < nxt G -> (w' j <= w j)%nat) -> (w' i < w i)%nat ->
  forall j, j < nxt G -> reach G j i -> (w' j < w j)%nat.
Proof.
  intros W HW HW' OLD LE LT. assert (M : forall n j, w j = n -> j < nxt G -> reach G j i -> (w' j < w j)%nat).
  { induction n as [n IH] using (well_founded_induction lt_wf). intros j En Lj RC. destruct (Z.eq_dec j i) as [->|N]; [auto|]. destruct (reach_first G j i RC) as [->|(x & a & E & I & Ra)]; [auto|].
    rewrite (weight_at G w j x HW E), (weight_at G' w' j x HW') by (rewrite OLD; auto). assert (BD : forall b, In b (g_args x) -> Z.abs b < nxt G) by (intros b Ib; apply W in E as (_ & _ & Q); destruct (Q b Ib) as (_ & ? & _); auto).
    apply gate_weight_strict, (sum_strict w w' a); auto. apply (IH (w (Z.abs a))); auto. pose proof (weight_arg G w j x a HW E I). lia. }
  intros j. apply (M (w j)); auto.
Qed.

(** ** Forward equations *)
Lemma set_type_eq i t G x : gs G !! i = Some x ->
  set_type i t G = Some (Graph (<[i := Gate t (g_min x) (g_args x)]> (gs G)) (nxt G) (if conn_eqb t kNull && reg G then nulls G ++ [i] else nulls G) (reg G)).
Proof. intros E. unfold set_type. rewrite E. reflexivity. Qed.
Lemma make_constant_eq i (s : bool) G x : gs G !! i = Some x -> constant x = false ->
  make_constant i s G = Some (Graph (<[i := Gate kNull (g_min x) [if s then 1 else -1]]> (gs G)) (nxt G) (if reg G then nulls G ++ [i] else nulls G) (reg G)).
Proof.
  intros E C. unfold make_constant. rewrite E. cbn [mbind option_bind]. rewrite C. unfold erase_args. rewrite E. cbn [mbind option_bind]. erewrite set_type_eq by (cbn; apply lookup_insert). cbn [mbind option_bind]. cbn [gs]. rewrite lookup_insert. cbn [mbind option_bind]. unfold put. cbn. rewrite !insert_insert. reflexivity.
Qed.
Lemma erase_arg_eq i a G x : gs G !! i = Some x -> In a (g_args x) -> erase_arg i a G = Some (put i (with_args x (set_erase a (g_args x))) G).
Proof. intros E I. unfold erase_arg. rewrite E. cbn [mbind option_bind]. apply has_In in I. rewrite I. reflexivity. Qed.
Lemma add_new_eq i a G x : gs G !! i = Some x -> add_asserts x = true -> ~ In a (g_args x) -> ~ In (- a) (g_args x) -> add_new i a G = Some (put i (with_args x (set_insert a (g_args x))) G).
Proof. intros E AS I1 I2. unfold add_new. rewrite E. cbn [mbind option_bind]. apply has_false in I1, I2. rewrite AS, I1, I2. reflexivity. Qed.
Lemma clone_eq i G x : gs G !! i = Some x -> constant x = false -> g_type x <> kNull -> clone i G = Some (Graph (<[nxt G := x]> (gs G)) (nxt G + 1) (nulls G) (reg G), nxt G).
Proof. intros E C T. unfold clone. rewrite E, C. cbn [orb]. destruct (g_type x); try congruence; reflexivity. Qed.
Lemma open_asserts x : open x -> add_asserts x = true.
Proof.
  intros (C & M & _ & S). unfold add_asserts. rewrite C. cbn [negb andb]. destruct (Z.leb_spec 0 (g_min x)); [|lia]. rewrite andb_true_r. destruct (g_type x); cbn [conn_eqb orb andb negb]; auto; rewrite S; reflexivity.
Qed.
Lemma plain_asserts x : plain (g_type x) -> 0 <= g_min x -> constant x = false -> add_asserts x = true.
Proof. intros (T1 & T2 & T3) M C. unfold add_asserts. rewrite C. destruct (Z.leb_spec 0 (g_min x)); [|lia]. destruct (g_type x); try congruence; reflexivity. Qed.
Lemma size_erase a l : List.NoDup l -> In a l -> size (set_erase a l) = size l - 1.
Proof. intros N I. unfold size. pose proof (Permutation_length (set_erase_perm a l N I)) as P. cbn in P. lia. Qed.
Lemma size_insert a l : ~ In a l -> size (set_insert a l) = size l + 1.
Proof. intros I. unfold size. pose proof (Permutation_length (set_insert_perm a l I)) as P. cbn in P. lia. Qed.
Lemma insert_NoDup a l : List.NoDup l -> ~ In a l -> List.NoDup (set_insert a l).
Proof. intros N I. apply (Permutation_NoDup (Permutation_sym (set_insert_perm a l I))). constructor; auto. Qed.

(** ** The outcome of an added argument *)
Record added (G G' : graph) (i : Z) (x : gate) (a : Z) : Prop := {
  ad_nxt : nxt G <= nxt G';
  ad_old : forall j, j <> i -> j < nxt G -> gs G' !! j = gs G !! j;
  ad_self : exists x', gs G' !! i = Some x' /\ full x' /\
            (forall g, In g (nulls G') -> In g (nulls G) \/ g = i /\ g_type x' = kNull) /\
            (reg G = true -> g_type x' = kNull -> g_type x = kNull \/ In i (nulls G'));
  ad_fresh : forall j y, nxt G <= j -> gs G' !! j = Some y -> j < nxt G' /\ full y /\ g_type y <> kNull;
  ad_weight : forall w, weighs G' w -> (w i <= gate_weight (g_type x) (sum w (a :: g_args x)))%nat;
  ad_reg : reg G' = reg G;
  ad_nulls : forall g, In g (nulls G) -> In g (nulls G') }.
Lemma added_put G G' i x x' a : (forall j y, gs G !! j = Some y -> 1 < j < nxt G) -> 1 < i < nxt G -> gs G' = <[i := x']> (gs G) -> nxt G' = nxt G -> full x' ->
  (forall w, (forall j, 1 <= w j)%nat -> w 1 = 1%nat -> (gate_weight (g_type x') (sum w (g_args x')) <= gate_weight (g_type x) (sum w (a :: g_args x)))%nat) ->
  reg G' = reg G ->
  nulls G' = (if conn_eqb (g_type x') kNull && reg G && negb (conn_eqb (g_type x) kNull) then nulls G ++ [i] else nulls G) \/ (g_type x' = kNull /\ (nulls G' = nulls G ++ [i] \/ reg G = false /\ nulls G' = nulls G)) ->
  added G G' i x a.
Proof.
  intros KEY Li HG HN F WT HR HL. constructor; auto.
  - lia.
  - intros j N Lj. rewrite HG, lookup_insert_ne; auto.
  - exists x'. split; [rewrite HG; apply lookup_insert|]. split; [auto|]. split.
    + intros g Ig. destruct HL as [HL|[T [HL|[_ HL]]]]; rewrite HL in Ig.
      * destruct (g_type x') eqn:T; cbn [conn_eqb andb] in Ig; auto. destruct (_ && _); auto. apply in_app_iff in Ig as [Ig|[<-|[]]]; auto.
      * apply in_app_iff in Ig as [Ig|[<-|[]]]; auto.
      * auto.
    + intros R T. destruct HL as [HL|[_ [HL|[NR HL]]]]; rewrite HL.
      * rewrite R, T. cbn [conn_eqb andb]. destruct (g_type x); cbn [conn_eqb negb]; auto; right; apply in_app_iff; right; left; auto.
      * right. apply in_app_iff. right. left. auto.
      * congruence.
  - intros j y Lj E. exfalso. rewrite HG, lookup_insert_ne in E by lia. apply KEY in E. lia.
  - intros w HW. rewrite (weight_at G' w i x' HW) by (rewrite HG; apply lookup_insert). apply WT; [intros j; apply (weight_pos G' w j HW)|]. apply (weight_none G' w 1 HW). rewrite HG, lookup_insert_ne by lia. destruct (gs G !! 1) as [y|] eqn:E1; [|auto]. apply KEY in E1. lia.
  - intros g Ig. destruct HL as [HL|[_ [HL|[_ HL]]]]; rewrite HL; auto; [destruct (_ && _); auto|]; apply in_app_iff; auto.
Qed.
Lemma arg_const x : (forall b, In b (g_args x) -> Z.abs b <> 1) -> constant x = false.
Proof. intros H. apply not_true_iff_false. intros Q. apply constant_In in Q. destruct Q as [Q|Q]; apply H in Q; cbn in Q; lia. Qed.
Lemma sum_pos w l : (forall j, 1 <= w j)%nat -> 1 <= size l -> (1 <= sum w l)%nat.
Proof. intros H L. pose proof (sum_length w l H). unfold size in L. lia. Qed.
Lemma constant_null m (s : bool) : 0 <= m -> full (Gate kNull m [if s then 1 else -1]).
Proof. intros M. split; [intros Q; cbn in Q; congruence|]. split; [exact M|]. split; [constructor; [intros []|constructor]|reflexivity]. Qed.

Lemma expansion_weight (p u X Y : nat) : (1 <= p)%nat -> (1 <= u)%nat -> (X <= 4 ^ u)%nat -> (Y <= 4 ^ u)%nat -> (2 + p + X + Y <= 4 ^ (p + (p + u)))%nat.
Proof.
  intros P U HX HY. replace (p + (p + u))%nat with (u + 2 * p)%nat by lia. rewrite Nat.pow_add_r. pose proof (pow4 (2 * p)) as Q. assert (4 <= 4 ^ u)%nat by (change 4%nat with (4 ^ 1)%nat at 1; apply Nat.pow_le_mono_r; lia). assert (16 <= 4 ^ (2 * p))%nat by (change 16%nat with (4 ^ 2)%nat; apply Nat.pow_le_mono_r; lia). nia.
Qed.
Section Add.
Context (G : graph) (KEY : forall j y, gs G !! j = Some y -> 1 < j < nxt G) (i : Z) (x : gate) (E : gs G !! i = Some x) (O : open x).
Context (a : Z) (A0 : a <> 0).
Lemma Li : 1 < i < nxt G. Proof. apply (KEY i x E). Qed.
Lemma weight_bound w t : (1 <= w (Z.abs a))%nat -> (2 <= gate_weight t (sum w (a :: g_args x)))%nat.
Proof. intros P. pose proof (gate_weight_lt t (sum w (a :: g_args x))) as Q. cbn [sum] in *. lia. Qed.
Lemma constant_added (s : bool) : exists G', make_constant i s G = Some G' /\ added G G' i x a.
Proof.
  destruct O as (C & M & N & S). eexists. split; [apply (make_constant_eq i s G x E C)|]. eapply (added_put G _ i x _ a KEY Li); [reflexivity|reflexivity|apply (constant_null (g_min x) s M)| |reflexivity|right; cbn; split; [auto|destruct (reg G); auto]].
  intros w P W1. cbn [g_type g_args gate_weight]. pose proof (weight_bound w (g_type x) ltac:(auto)). cbn [sum] in *. destruct s; cbn [sum]; change (Z.abs (-1)) with 1; change (Z.abs 1) with 1; lia.
Qed.
(** A new type, the same arguments. *)
Lemma retyped t m : full (Gate t m (g_args x)) -> t <> kAtleast \/ g_type x = kAtleast ->
  (t = kNull -> g_type x <> kNull) ->
  exists G', set_type i t (put i (with_min x m) G) = Some G' /\ added G G' i x a.
Proof.
  intros F T NN. eexists. split; [apply set_type_eq; cbn; apply lookup_insert|]. eapply (added_put G _ i x (Gate t m (g_args x)) a KEY Li); [cbn; rewrite insert_insert; reflexivity|reflexivity|exact F| |reflexivity|left; cbn].
  - intros w P W1. cbn [g_type g_args]. destruct T as [T|T].
    + etransitivity; [apply (gate_weight_plain _ (g_type x) _ T)|]. apply gate_weight_mono. cbn [sum]. lia.
    + rewrite T. destruct t; cbn [gate_weight sum]; pose proof (pow4 (w (Z.abs a) + sum w (g_args x))); try lia. apply Nat.pow_le_mono_r; lia.
  - destruct t; cbn [conn_eqb andb]; auto. destruct (g_type x); cbn [conn_eqb negb andb]; rewrite ?andb_true_r; auto. exfalso. apply NN; auto.
Qed.
Lemma with_min_same : with_min x (g_min x) = x. Proof. destruct x; reflexivity. Qed.
Lemma put_same : put i x G = G. Proof. unfold put. rewrite insert_id by auto. destruct G; reflexivity. Qed.
Lemma retyped' t : full (Gate t (g_min x) (g_args x)) -> t <> kAtleast \/ g_type x = kAtleast -> (t = kNull -> g_type x <> kNull) ->
  exists G', set_type i t G = Some G' /\ added G G' i x a.
Proof. intros F T NN. pose proof (retyped t (g_min x) F T NN) as H. rewrite with_min_same, put_same in H. exact H. Qed.
(** The same type and fewer requirements. *)
Lemma unchanged : full x -> added G G i x a.
Proof.
  intros F. eapply (added_put G G i x x a KEY Li); [rewrite insert_id; auto|reflexivity|exact F| |reflexivity|left].
  - intros w P W1. apply gate_weight_mono. cbn [sum]. lia.
  - destruct (g_type x); cbn; rewrite ?andb_false_r; auto.
Qed.
Lemma full_of t m : (t = kNull -> False) -> 0 <= m ->
  match t with kAnd | kOr | kNand | kNor => 2 <= size (g_args x) | kAtleast => 2 <= m < size (g_args x) | kXor => size (g_args x) = 2 | kNot | kNull => size (g_args x) = 1 end -> full (Gate t m (g_args x)).
Proof. intros T M S. destruct O as (C & _ & N & _). split; [intros _; exact C|]. split; [exact M|]. split; [exact N|exact S]. Qed.
Lemma full_null m : 0 <= m -> size (g_args x) = 1 -> full (Gate kNull m (g_args x)).
Proof. intros M S. destruct O as (C & _ & N & _). split; [intros _; exact C|]. split; [exact M|]. split; [exact N|exact S]. Qed.

(** pdag.cc:94-156 *)
Lemma add_constant_added (s : bool) : exists G', add_constant_arg i s G = Some G' /\ added G G' i x a.
Proof.
  unfold add_constant_arg. rewrite E. cbn [mbind option_bind]. destruct O as (C & M & N & S).
  assert (RL : forall t m, t <> kAtleast \/ g_type x = kAtleast -> (t = kNull -> g_type x <> kNull) -> 1 <= size (g_args x) ->
    (size (g_args x) = m -> full (Gate t (g_min x) (g_args x))) -> (size (g_args x) <> m -> full x) -> exists G', reduce_logic i t m G = Some G' /\ added G G' i x a).
  { intros t m T NN SZ F1 F2. unfold reduce_logic. rewrite E. cbn [mbind option_bind]. destruct (g_args x) as [|b l] eqn:EA; [unfold size in SZ; cbn [length] in SZ; lia|]. rewrite <- EA in *. destruct (Z.eqb_spec (size (g_args x)) m) as [Q|Q].
    - apply retyped'; auto.
    - exists G. split; [auto|]. apply unchanged. auto. }
  assert (FX : g_type x <> kNull -> match g_type x with kAnd | kOr | kNand | kNor => 2 <= size (g_args x) | kAtleast => 2 <= g_min x < size (g_args x) | kXor => size (g_args x) = 2 | kNot | kNull => size (g_args x) = 1 end -> full x) by (intros T Q; split; [auto|split; [auto|split; [auto|exact Q]]]).
  destruct s; destruct (g_type x) eqn:T; try apply constant_added.
  - (* AND *) apply RL; [left; discriminate|intros _ Q; congruence|lia|intros Q; apply full_null; auto|intros Q; apply FX; [congruence|lia]].
  - (* ATLEAST *) destruct (Z.ltb_spec (size (g_args x)) 2); [lia|]. destruct (Z.leb_spec (g_min x) 0); [lia|]. cbn [orb]. unfold set_min. rewrite E. cbn [mbind option_bind]. destruct (Z.eqb_spec (g_min x - 1) 1) as [Q|Q].
    + apply retyped; [apply full_of; [discriminate|lia|lia]|auto|discriminate].
    + eexists. split; [reflexivity|]. eapply (added_put G _ i x (with_min x (g_min x - 1)) a KEY Li); [reflexivity|reflexivity| | |reflexivity|left; cbn; rewrite T; reflexivity].
      * split; [auto|]. split; [cbn; lia|]. split; [exact N|]. cbn. rewrite T. lia.
      * intros w P W1. cbn [with_min g_type g_args]. apply gate_weight_mono. cbn [sum]. lia.
  - (* XOR *) rewrite S. cbn. apply retyped'; [apply full_of; [discriminate|auto|auto]|left; discriminate|discriminate].
  - (* NAND *) apply RL; [left; discriminate|discriminate|lia|intros Q; apply full_of; [discriminate|auto|auto]|intros Q; apply FX; [congruence|lia]].
  - (* OR false *) apply RL; [left; discriminate|intros _ Q; congruence|lia|intros Q; apply full_null; auto|intros Q; apply FX; [congruence|lia]].
  - (* ATLEAST false *) destruct (Z.ltb_spec (size (g_args x)) 2); [lia|]. apply RL; [left; discriminate|discriminate|lia|intros Q; apply full_of; [discriminate|auto|lia]|intros Q; apply FX; [congruence|lia]].
  - (* XOR *) rewrite S. cbn. apply retyped'; [apply full_null; auto|left; discriminate|intros _ Q; congruence].
  - (* NOR *) apply RL; [left; discriminate|discriminate|lia|intros Q; apply full_of; [discriminate|auto|auto]|intros Q; apply FX; [congruence|lia]].
Qed.

(** Several gates change: the contents as a function. *)
Definition upd (f : Z -> option gate) (j : Z) (y : gate) : Z -> option gate := fun k => if k =? j then Some y else f k.
Record state (H : graph) (f : Z -> option gate) (n : Z) : Prop := { st_gs : forall j, gs H !! j = f j; st_nxt : nxt H = n; st_reg : reg H = reg G; st_nulls : nulls H = nulls G }.
Lemma state_put H f n j y : state H f n -> state (put j y H) (upd f j y) n.
Proof. intros [a1 a2 a3 a4]. constructor; auto. intros k. cbn. unfold upd. destruct (Z.eqb_spec k j) as [->|Nk]; [apply lookup_insert|rewrite lookup_insert_ne; auto]. Qed.
Lemma state_type H f n j y t : state H f n -> f j = Some y -> t <> kNull -> exists H', set_type j t H = Some H' /\ state H' (upd f j (Gate t (g_min y) (g_args y))) n.
Proof.
  intros ST F T. pose proof (st_gs _ _ _ ST j) as Q. rewrite F in Q. eexists. split; [apply (set_type_eq j t H y Q)|]. pose proof (state_put H f n j (Gate t (g_min y) (g_args y)) ST) as SP. destruct SP as [a1 a2 a3 a4]. constructor; auto. cbn. destruct t; cbn; try congruence; apply ST.
Qed.
Lemma state_min H f n j y k : state H f n -> f j = Some y -> exists H', set_min j k H = Some H' /\ state H' (upd f j (with_min y k)) n.
Proof. intros ST F. pose proof (st_gs _ _ _ ST j) as Q. rewrite F in Q. unfold set_min. rewrite Q. cbn [mbind option_bind]. eexists. split; [reflexivity|]. apply state_put; auto. Qed.
Lemma state_erases H f n j y : state H f n -> f j = Some y -> exists H', erase_args j H = Some H' /\ state H' (upd f j (with_args y [])) n.
Proof. intros ST F. pose proof (st_gs _ _ _ ST j) as Q. rewrite F in Q. unfold erase_args. rewrite Q. cbn [mbind option_bind]. eexists. split; [reflexivity|]. apply state_put; auto. Qed.
Lemma state_add H f n j y b : state H f n -> f j = Some y -> add_asserts y = true -> ~ In b (g_args y) -> ~ In (- b) (g_args y) -> exists H', add_new j b H = Some H' /\ state H' (upd f j (with_args y (set_insert b (g_args y)))) n.
Proof. intros ST F AS I1 I2. pose proof (st_gs _ _ _ ST j) as Q. rewrite F in Q. eexists. split; [apply (add_new_eq j b H y Q AS I1 I2)|]. apply state_put; auto. Qed.
Lemma state_transfer H f n j y k z b : state H f n -> j <> k -> f j = Some y -> constant y = false -> In b (g_args y) -> f k = Some z -> add_asserts z = true -> ~ In b (g_args z) -> ~ In (- b) (g_args z) ->
  exists H', transfer_new j b k H = Some H' /\ state H' (upd (upd f j (with_args y (set_erase b (g_args y)))) k (with_args z (set_insert b (g_args z)))) n.
Proof.
  intros ST N F C I F2 AS I1 I2. pose proof (st_gs _ _ _ ST j) as Q. rewrite F in Q. unfold transfer_new. rewrite Q. cbn [mbind option_bind]. rewrite C, (erase_arg_eq j b H y Q I). cbn [mbind option_bind].
  apply state_add; auto; [apply state_put; auto|]. unfold upd. destruct (Z.eqb_spec k j); [congruence|auto].
Qed.
Lemma state_clone H f n j y : state H f n -> f j = Some y -> constant y = false -> g_type y <> kNull -> exists H', clone j H = Some (H', n) /\ state H' (upd f n y) (n + 1).
Proof.
  intros ST F C T. pose proof (st_gs _ _ _ ST j) as Q. rewrite F in Q. eexists. rewrite (clone_eq j H y Q C T). rewrite (st_nxt _ _ _ ST). split; [reflexivity|]. destruct ST as [a1 a2 a3 a4]. constructor; auto. intros k. cbn. unfold upd. destruct (Z.eqb_spec k n) as [->|Nk]; [apply lookup_insert|rewrite lookup_insert_ne; auto].
Qed.
Lemma state_start : state G (fun j => gs G !! j) (nxt G). Proof. constructor; auto. Qed.
Lemma state_new H f n t : state H f n -> exists H', new_gate t H = (H', n) /\ state H' (upd f n (Gate t 0 [])) (n + 1).
Proof.
  intros ST. eexists. unfold new_gate. rewrite (st_nxt _ _ _ ST). split; [reflexivity|]. destruct ST as [a1 a2 a3 a4]. constructor; auto. intros k. cbn. unfold upd. destruct (Z.eqb_spec k n) as [->|Nk]; [apply lookup_insert|rewrite lookup_insert_ne; auto].
Qed.
(** The outcome from the final contents. *)
Lemma added_state H f n x' : state H f n -> nxt G <= n -> f i = Some x' -> full x' -> g_type x' <> kNull ->
  (forall j, j <> i -> j < nxt G -> f j = gs G !! j) ->
  (forall j y, nxt G <= j -> f j = Some y -> j < n /\ full y /\ g_type y <> kNull) ->
  (forall w, weighs H w -> (w i <= gate_weight (g_type x) (sum w (a :: g_args x)))%nat) -> added G H i x a.
Proof.
  intros [a1 a2 a3 a4] L F FU T OLD FR WT. constructor; auto.
  - lia.
  - intros j N Lj. rewrite a1. auto.
  - exists x'. split; [rewrite a1; auto|]. split; [auto|]. split; [intros g Ig; rewrite a4 in Ig; auto|congruence].
  - intros j y Lj Ey. rewrite a1 in Ey. rewrite a2. apply (FR j y Lj Ey).
  - intros g Ig. rewrite a4. auto.
Qed.

Context (OKA : Z.abs a < nxt G) (OKX : forall b, In b (g_args x) -> Z.abs b < nxt G).
Ltac upds := unfold upd in *; repeat (match goal with
  | |- context [?u =? ?v] => destruct (Z.eqb_spec u v); try lia
  | H : context [?u =? ?v] |- _ => destruct (Z.eqb_spec u v); try lia end).
Lemma atleast_duplicate_added : g_type x = kAtleast -> In a (g_args x) -> exists G', atleast_duplicate i a G = Some G' /\ added G G' i x a.
Proof.
  intros T I. pose proof O as OX. destruct O as (C & M & N & S). rewrite T in S. pose proof Li as LI. pose proof (KEY i x E) as KI.
  pose proof (size_erase a (g_args x) N I) as SE.
  assert (NN : g_type x <> kNull) by congruence.
  assert (CE : constant (with_args x (set_erase a (g_args x))) = false) by (apply constant_erase; auto).
  assert (NE : List.NoDup (set_erase a (g_args x))) by (apply set_erase_NoDup; auto).
  assert (FE : forall t m, t <> kNull -> 0 <= m -> match t with kAnd | kOr | kNand | kNor => 2 <= size (set_erase a (g_args x)) | kAtleast => 2 <= m < size (set_erase a (g_args x)) | kXor => size (set_erase a (g_args x)) = 2 | kNot | kNull => size (set_erase a (g_args x)) = 1 end -> full (Gate t m (set_erase a (g_args x)))).
  { intros t m Tt Mm Sm. split; [intros _; exact CE|]. split; [exact Mm|]. split; [exact NE|exact Sm]. }
  assert (WE : forall w, sum w (a :: g_args x) = (w (Z.abs a) + (w (Z.abs a) + sum w (set_erase a (g_args x))))%nat) by (intros w; cbn [sum]; rewrite (sum_erase w a (g_args x) N I); auto).
  unfold atleast_duplicate. rewrite E. cbn [mbind option_bind]. destruct (Z.leb_spec (g_min x) 1); [lia|]. destruct (Z.ltb_spec (size (g_args x)) (g_min x)); [lia|]. cbn [orb].
  destruct (Z.eqb_spec (size (g_args x)) 2) as [S2|S2].
  - destruct (Z.eqb_spec (g_min x) 2); [|lia]. rewrite (erase_arg_eq i a G x E I). cbn [mbind option_bind]. eexists. split; [apply set_type_eq; cbn; apply lookup_insert|].
    eapply (added_put G _ i x (Gate kNull (g_min x) (set_erase a (g_args x))) a KEY Li); [cbn; rewrite insert_insert; reflexivity|reflexivity| | |reflexivity|left; cbn; rewrite T; cbn; rewrite andb_true_r; reflexivity].
    + split; [intros _; exact CE|]. split; [auto|]. split; [exact NE|]. cbn. rewrite SE. lia.
    + intros w P W1. rewrite T, (WE w). cbn [g_type g_args gate_weight]. pose proof (pow4 (w (Z.abs a) + (w (Z.abs a) + sum w (set_erase a (g_args x))))). specialize (P (Z.abs a)). lia.
  - pose proof state_start as ST0. set (c := nxt G) in *.
    assert (AF : forall b, c <= b -> b <> a /\ - b <> a /\ b <> - a) by (intros b Lb; lia).
    assert (SW : forall w, (forall j, 1 <= w j)%nat -> (1 <= sum w (set_erase a (g_args x)))%nat) by (intros w P; apply sum_pos; [auto|lia]).
    destruct (Z.eqb_spec (g_min x) (size (g_args x))) as [KN|KN].
    + destruct (Z.leb_spec (g_min x) 2); [lia|].
      destruct (state_clone _ _ _ i x ST0 E C NN) as (G1 & E1 & ST1). rewrite E1. cbn [mbind option_bind]. fold c in ST1.
      edestruct (state_min _ _ _ c x (g_min x - 2) ST1) as (G2 & E2 & ST2); [upds; auto|]. rewrite E2. cbn [mbind option_bind].
      edestruct (state_erases _ _ _ i x ST2) as (G3 & E3 & ST3); [upds; auto|]. rewrite E3. cbn [mbind option_bind].
      edestruct (state_type _ _ _ i (with_args x []) kAnd ST3) as (G4 & E4 & ST4); [upds; auto|discriminate|]. rewrite E4. cbn [mbind option_bind]. cbn [with_args with_min g_min g_args g_type] in ST4.
      edestruct (state_transfer _ _ _ c (with_min x (g_min x - 2)) i (Gate kAnd (g_min x) []) a ST4) as (G5 & E5 & ST5); [lia|upds; auto|exact C|exact I|upds; auto|apply plain_asserts; [apply plain_and|auto|auto]|intros []|intros []|]. rewrite E5. cbn [mbind option_bind]. cbn [with_args with_min g_min g_args g_type set_insert] in ST5.
      set (t := if g_min x - 2 =? 1 then kOr else kAtleast).
      assert (X6 : exists G6, (if g_min x - 2 =? 1 then set_type c kOr G5 else Some G5) = Some G6 /\ exists f, state G6 f (c + 1) /\ f i = Some (Gate kAnd (g_min x) [a]) /\ f c = Some (Gate t (g_min x - 2) (set_erase a (g_args x))) /\ forall j, j <> i -> j <> c -> f j = gs G !! j).
      { unfold t. destruct (g_min x - 2 =? 1).
        - edestruct (state_type _ _ _ c (Gate (g_type x) (g_min x - 2) (set_erase a (g_args x))) kOr ST5) as (G6 & E6 & ST6); [upds; auto|discriminate|]. exists G6. split; [exact E6|]. eexists. split; [exact ST6|]. split; [upds; auto|]. split; [upds; auto|]. intros j J1 J2. upds; auto.
        - exists G5. split; [auto|]. eexists. split; [exact ST5|]. split; [upds; auto|]. split; [upds; rewrite <- ?T; auto|]. intros j J1 J2. upds; auto. }
      destruct X6 as (G6 & E6 & f & ST6 & F1 & F2 & F3). rewrite E6. cbn [mbind option_bind].
      assert (LA : - c <> a /\ c <> a) by (split; lia).
      edestruct (state_add _ _ _ i (Gate kAnd (g_min x) [a]) c ST6 F1) as (G7 & E7 & ST7); [apply plain_asserts; [apply plain_and|auto|]|cbn; lia|cbn; lia|].
      { apply arg_const. cbn. intros b [<-|[]]. apply (arg_far x a C I). }
      exists G7. split; [exact E7|]. cbn [with_args g_type g_min g_args] in ST7.
      assert (ND : ~ In c [a]) by (cbn; lia).
      eapply (added_state _ _ _ (Gate kAnd (g_min x) (set_insert c [a])) ST7); [lia|upds; auto| |cbn; discriminate| | |].
      * split; [intros _; apply arg_const; cbn [g_args]; intros b Ib; apply set_insert_In in Ib as [->|[<-|[]]]; [lia|apply (arg_far x a C I)]|]. split; [auto|]. split; [apply insert_NoDup; [constructor; [intros []|constructor]|auto]|]. cbn [g_type g_args]. rewrite size_insert by auto. unfold size. cbn [length]. lia.
      * intros j J1 J2. unfold upd. destruct (Z.eqb_spec j i); [lia|]. apply F3; lia.
      * intros j y Lj Ej. assert (J : j = c). { destruct (Z.eq_dec j c); auto. exfalso. unfold upd in Ej. destruct (Z.eqb_spec j i); [lia|]. rewrite F3 in Ej by auto. apply KEY in Ej. lia. }
        subst j. unfold upd in Ej. destruct (Z.eqb_spec c i); [lia|]. rewrite F2 in Ej. injection Ej as <-. split; [lia|]. unfold t. destruct (Z.eqb_spec (g_min x - 2) 1); (split; [apply FE; [discriminate|lia|lia]|cbn; discriminate]).
      * intros w HW. assert (P : forall j, (1 <= w j)%nat) by (intros j; apply (weight_pos G7 w j HW)). rewrite (weight_at G7 w i (Gate kAnd (g_min x) (set_insert c [a])) HW) by (rewrite (st_gs _ _ _ ST7); upds; auto). rewrite T, (WE w). cbn [g_type g_args gate_weight]. rewrite sum_insert by auto. cbn [sum].
        assert (WC : w c = gate_weight t (sum w (set_erase a (g_args x)))) by (apply (weight_at G7 w c (Gate t (g_min x - 2) (set_erase a (g_args x))) HW); rewrite (st_gs _ _ _ ST7); upds; auto).
        replace (Z.abs c) with c by lia. rewrite WC. assert (gate_weight t (sum w (set_erase a (g_args x))) <= 4 ^ (sum w (set_erase a (g_args x))))%nat by (apply (gate_weight_max t)).
        pose proof (expansion_weight (w (Z.abs a)) (sum w (set_erase a (g_args x))) _ 0%nat (P _) (SW w P) H2 ltac:(lia)). lia.
    + destruct (Z.leb_spec (size (g_args x)) 2); [lia|].
      destruct (state_clone _ _ _ i x ST0 E C NN) as (G1 & E1 & ST1). rewrite E1. cbn [mbind option_bind]. fold c in ST1.
      edestruct (state_erases _ _ _ i x ST1) as (G2 & E2 & ST2); [upds; auto|]. rewrite E2. cbn [mbind option_bind].
      edestruct (state_type _ _ _ i (with_args x []) kOr ST2) as (G3 & E3 & ST3); [upds; auto|discriminate|]. rewrite E3. cbn [mbind option_bind]. cbn [with_args with_min g_min g_args g_type] in ST3.
      edestruct (state_add _ _ _ i (Gate kOr (g_min x) []) c ST3) as (G4 & E4 & ST4); [upds; auto|apply plain_asserts; [apply plain_or|auto|auto]|intros []|intros []|]. rewrite E4. cbn [mbind option_bind]. cbn [with_args g_type g_min g_args set_insert] in ST4.
      set (xc := with_args x (set_erase a (g_args x))) in *. set (u := set_erase a (g_args x)) in *.
      pose proof (arg_far x a C I) as AF1.
      match goal with |- exists G', (?m ≫= _) = Some G' /\ _ => assert (X8 : exists G8, m = Some G8 /\ exists f n xi, state G8 f n /\ c + 1 <= n /\ f i = Some xi /\ g_type xi = kOr /\ full xi /\ f c = Some xc /\
        (forall j, j <> i -> j < c -> f j = gs G !! j) /\ (forall j y, c < j -> f j = Some y -> j < n /\ full y /\ g_type y <> kNull) /\
        forall H w, weighs H w -> (forall j, j <> c -> gs H !! j = f j) -> (w i <= 2 + w (Z.abs a) + w c + 4 ^ sum w u)%nat) end.
      { destruct (Z.eqb_spec (g_min x) 2) as [K2|K2].
        - edestruct (state_transfer _ _ _ c x i (Gate kOr (g_min x) [c]) a ST4) as (G5 & E5 & ST5); [lia|upds; auto|exact C|exact I|upds; auto|apply plain_asserts; [apply plain_or|auto|apply arg_const; cbn; intros b [<-|[]]; lia]|cbn; lia|cbn; lia|].
          assert (ND : ~ In a [c]) by (cbn; lia). exists G5. split; [exact E5|]. cbn [with_args g_type g_min g_args] in ST5. eexists _, _, (Gate kOr (g_min x) (set_insert a [c])). split; [exact ST5|]. split; [lia|]. split; [upds; auto|]. split; [auto|]. split; [|split; [|split; [|split]]].
          + split; [intros _; apply arg_const; cbn [g_args]; intros b Ib; apply set_insert_In in Ib as [->|[<-|[]]]; [auto|lia]|]. split; [auto|]. split; [apply insert_NoDup; [constructor; [intros []|constructor]|auto]|]. cbn [g_type g_args]. rewrite size_insert by auto. unfold size. cbn [length]. lia.
          + upds; auto.
          + intros j J1 J2. unfold upd. destruct (Z.eqb_spec j i); [lia|]. destruct (Z.eqb_spec j c); [lia|]. auto.
          + intros j y Lj Ej. unfold upd in Ej. destruct (Z.eqb_spec j i); [lia|]. destruct (Z.eqb_spec j c); [lia|]. apply KEY in Ej. lia.
          + intros H2 w HW LK. rewrite (weight_at H2 w i (Gate kOr (g_min x) (set_insert a [c])) HW) by (rewrite LK by lia; upds; auto). cbn [g_type g_args gate_weight]. rewrite sum_insert by auto. cbn [sum]. replace (Z.abs c) with c by lia. lia.
        - destruct (state_new _ _ _ kAnd ST4) as (G5 & E5 & ST5). rewrite E5.
          edestruct (state_add _ _ _ i (Gate kOr (g_min x) [c]) (c + 1) ST5) as (G6 & E6 & ST6); [upds; auto|apply plain_asserts; [apply plain_or|auto|apply arg_const; cbn; intros b [<-|[]]; lia]|cbn; lia|cbn; lia|]. rewrite E6. cbn [mbind option_bind]. cbn [with_args g_type g_min g_args] in ST6.
          edestruct (state_transfer _ _ _ c x (c + 1) (Gate kAnd 0 []) a ST6) as (G7 & E7 & ST7); [lia|upds; auto|exact C|exact I|upds; auto|reflexivity|intros []|intros []|]. rewrite E7. cbn [mbind option_bind]. cbn [with_args g_type g_min g_args set_insert] in ST7. fold u in ST7.
          edestruct (state_clone _ _ _ c xc ST7) as (G8 & E8 & ST8); [upds; auto|exact CE|exact NN|]. rewrite E8. cbn [mbind option_bind].
          edestruct (state_min _ _ _ (c + 1 + 1) xc (g_min x - 2) ST8) as (G9 & E9 & ST9); [upds; auto|]. rewrite E9. cbn [mbind option_bind].
          set (t := if g_min x - 2 =? 1 then kOr else kAtleast).
          assert (XA : exists GA, (if g_min x - 2 =? 1 then set_type (c + 1 + 1) kOr G9 else Some G9) = Some GA /\ exists f, state GA f (c + 1 + 1 + 1) /\ f i = Some (Gate kOr (g_min x) (set_insert (c + 1) [c])) /\ f c = Some xc /\ f (c + 1) = Some (Gate kAnd 0 [a]) /\ f (c + 1 + 1) = Some (Gate t (g_min x - 2) u) /\ forall j, j <> i -> j <> c -> j <> c + 1 -> j <> c + 1 + 1 -> f j = gs G !! j).
          { unfold t. destruct (g_min x - 2 =? 1).
            - edestruct (state_type _ _ _ (c + 1 + 1) (with_min xc (g_min x - 2)) kOr ST9) as (GA & EA & STA); [upds; auto|discriminate|]. exists GA. split; [exact EA|]. eexists. split; [exact STA|]. split; [upds; auto|]. split; [upds; auto|]. split; [upds; auto|]. split; [upds; auto|]. intros j J1 J2 J3 J4. unfold upd. repeat (match goal with |- context [?p =? ?q] => destruct (Z.eqb_spec p q); [congruence|] end). auto.
            - exists G9. split; [auto|]. eexists. split; [exact ST9|]. split; [upds; auto|]. split; [upds; auto|]. split; [upds; auto|]. split; [upds; unfold xc; cbn [with_args with_min g_type g_args]; rewrite <- ?T; auto|]. intros j J1 J2 J3 J4. unfold upd. repeat (match goal with |- context [?p =? ?q] => destruct (Z.eqb_spec p q); [congruence|] end). auto. }
          destruct XA as (GA & EA & f & STA & F1 & F2 & F3 & F4 & F5). rewrite EA. cbn [mbind option_bind].
          edestruct (state_add _ _ _ (c + 1) (Gate kAnd 0 [a]) (c + 1 + 1) STA F3) as (GB & EB & STB); [apply plain_asserts; [apply plain_and|cbn; lia|apply arg_const; cbn; intros b [<-|[]]; auto]|cbn; lia|cbn; lia|]. exists GB. split; [exact EB|]. cbn [with_args g_type g_min g_args] in STB.
          assert (ND1 : ~ In (c + 1) [c]) by (cbn; lia). assert (ND2 : ~ In (c + 1 + 1) [a]) by (cbn; lia).
          eexists _, _, (Gate kOr (g_min x) (set_insert (c + 1) [c])). split; [exact STB|]. split; [lia|]. split; [unfold upd; destruct (Z.eqb_spec i (c + 1)); [lia|auto]|]. split; [auto|]. split; [|split; [|split; [|split]]].
          + split; [intros _; apply arg_const; cbn [g_args]; intros b Ib; apply set_insert_In in Ib as [->|[<-|[]]]; lia|]. split; [auto|]. split; [apply insert_NoDup; [constructor; [intros []|constructor]|auto]|]. cbn [g_type g_args]. rewrite size_insert by auto. unfold size. cbn [length]. lia.
          + unfold upd. destruct (Z.eqb_spec c (c + 1)); [lia|auto].
          + intros j J1 J2. unfold upd. destruct (Z.eqb_spec j (c + 1)); [lia|]. apply F5; lia.
          + intros j y Lj Ej. unfold upd in Ej. destruct (Z.eqb_spec j (c + 1)) as [->|J1]; [|destruct (Z.eq_dec j (c + 1 + 1)) as [->|J2]; [|rewrite F5 in Ej by lia; apply KEY in Ej; lia]].
            * change (Some (Gate kAnd 0 (set_insert (c + 1 + 1) [a])) = Some y) in Ej. assert (y = Gate kAnd 0 (set_insert (c + 1 + 1) [a])) as -> by congruence. split; [lia|]. split; [|cbn; discriminate]. split; [intros _; apply arg_const; cbn [g_args]; intros b Ib; apply set_insert_In in Ib as [->|[<-|[]]]; [lia|auto]|]. split; [cbn; lia|]. split; [apply insert_NoDup; [constructor; [intros []|constructor]|auto]|]. cbn [g_type g_args]. rewrite size_insert by auto. unfold size. cbn [length]. lia.
            * rewrite F4 in Ej. injection Ej as <-. split; [lia|]. unfold t. destruct (Z.eqb_spec (g_min x - 2) 1); (split; [apply FE; [discriminate|lia|lia]|cbn; discriminate]).
          + intros H2 w HW LK.
            rewrite (weight_at H2 w i (Gate kOr (g_min x) (set_insert (c + 1) [c])) HW) by (rewrite LK by lia; unfold upd; destruct (Z.eqb_spec i (c + 1)); [lia|auto]). cbn [g_type g_args gate_weight]. rewrite sum_insert by auto. cbn [sum].
            assert (WA : w (c + 1) = gate_weight kAnd (sum w (set_insert (c + 1 + 1) [a]))) by (apply (weight_at H2 w (c + 1) (Gate kAnd 0 (set_insert (c + 1 + 1) [a])) HW); rewrite LK by lia; unfold upd; rewrite Z.eqb_refl; auto).
            assert (WB : w (c + 1 + 1) = gate_weight t (sum w u)) by (apply (weight_at H2 w (c + 1 + 1) (Gate t (g_min x - 2) u) HW); rewrite LK by lia; unfold upd; destruct (Z.eqb_spec (c + 1 + 1) (c + 1)); [lia|auto]).
            rewrite sum_insert in WA by auto. cbn [sum gate_weight] in WA. replace (Z.abs (c + 1 + 1)) with (c + 1 + 1) in WA by lia. replace (Z.abs (c + 1)) with (c + 1) by lia. replace (Z.abs c) with c by lia. pose proof (gate_weight_max t (sum w u)). lia. }
      destruct X8 as (G8 & E8 & f & n & xi & ST8 & Ln & F1 & Ti & Fi & F2 & F3 & F4 & F5). rewrite E8. cbn [mbind option_bind]. rewrite (st_gs _ _ _ ST8 c), F2. cbn [mbind option_bind]. change (g_args xc) with u. change (g_min xc) with (g_min x). rewrite SE. destruct (Z.ltb_spec (size (g_args x) - 1) (g_min x)); [lia|].
      set (t := if size (g_args x) - 1 =? g_min x then kAnd else kAtleast).
      assert (X9 : exists G9, (if size (g_args x) - 1 =? g_min x then set_type c kAnd G8 else Some G8) = Some G9 /\ exists g, state G9 g n /\ g c = Some (Gate t (g_min x) u) /\ forall j, j <> c -> g j = f j).
      { unfold t. destruct (size (g_args x) - 1 =? g_min x).
        - edestruct (state_type _ _ _ c xc kAnd ST8 F2) as (G9 & E9 & ST9); [discriminate|]. exists G9. split; [exact E9|]. eexists. split; [exact ST9|]. split; [unfold upd; rewrite Z.eqb_refl; auto|]. intros j J. unfold upd. destruct (Z.eqb_spec j c); [congruence|auto].
        - exists G8. split; [auto|]. exists f. split; [auto|]. split; [rewrite F2; unfold xc, with_args; rewrite <- T; auto|auto]. }
      destruct X9 as (G9 & E9 & g & ST9 & K1 & K2). exists G9. split; [exact E9|].
      apply (added_state G9 g n xi ST9); [fold c; lia|rewrite K2 by lia; auto|exact Fi|rewrite Ti; discriminate| | |].
      * intros j J1 J2. fold c in J2. rewrite K2 by lia. auto.
      * intros j y Lj Ej. destruct (Z.eq_dec j c) as [->|Nj]; [|rewrite K2 in Ej by auto; fold c in Lj; apply (F4 j y); [lia|auto]]. rewrite K1 in Ej. injection Ej as <-. split; [lia|]. unfold t. destruct (Z.eqb_spec (size (g_args x) - 1) (g_min x)); (split; [apply FE; [discriminate|lia|lia]|cbn; discriminate]).
      * intros w HW. assert (P : forall j, (1 <= w j)%nat) by (intros j; apply (weight_pos G9 w j HW)). rewrite T, (WE w). cbn [gate_weight]. pose proof (F5 G9 w HW ltac:(intros j J; rewrite (st_gs _ _ _ ST9); auto)).
        assert (WC : w c = gate_weight t (sum w u)) by (apply (weight_at G9 w c (Gate t (g_min x) u) HW); rewrite (st_gs _ _ _ ST9); auto). pose proof (gate_weight_max t (sum w u)) as GM. rewrite WC in *.
        pose proof (expansion_weight (w (Z.abs a)) (sum w u) _ (4 ^ sum w u) (P _) (SW w P) GM ltac:(lia)). lia.
Qed.

(** pdag.h:548-571 AddArg, pdag.cc:343-367, 423-457 *)
Lemma add_any_added : ~ (In a (g_args x) /\ In (- a) (g_args x)) -> exists G', add_any i a G = Some G' /\ added G G' i x a.
Proof.
  intros NB. unfold add_any. rewrite E. cbn [mbind option_bind]. destruct ((a =? 1) || (a =? -1)) eqn:A1.
  - destruct O as (C & _). rewrite C. apply add_constant_added.
  - apply orb_false_iff in A1 as [A1 A2]. apply Z.eqb_neq in A1, A2. pose proof (open_asserts x O) as AS. pose proof O as (C & M & N & S). unfold add_arg. rewrite E. cbn [mbind option_bind]. rewrite AS. cbn [negb orb]. destruct (Z.eqb_spec a 0); [contradiction|].
    destruct (has a (g_args x)) eqn:HA.
    + apply has_In in HA. assert (SZ : 1 <= size (g_args x)) by (destruct (g_args x); [destruct HA|unfold size; cbn [length]; lia]).
      assert (FX : 2 <= size (g_args x) -> match g_type x with kAnd | kOr | kNand | kNor => True | _ => False end -> full x) by (intros Q1 Q2; split; [auto|split; [auto|split; [auto|destruct (g_type x); tauto]]]).
      unfold process_duplicate. rewrite E. cbn [mbind option_bind]. destruct (g_type x) eqn:T; try (exfalso; lia).
      all: try (destruct (Z.eqb_spec (size (g_args x)) 1) as [Q|Q]; [|exists G; split; [auto|]; apply unchanged; apply FX; [lia|exact Logic.I]]).
      * apply retyped'; [apply full_null; auto|left; discriminate|intros _; congruence].
      * apply retyped'; [apply full_null; auto|left; discriminate|intros _; congruence].
      * apply atleast_duplicate_added; auto.
      * rewrite S. apply constant_added.
      * apply retyped'; [apply full_of; [discriminate|auto|auto]|left; discriminate|discriminate].
      * apply retyped'; [apply full_of; [discriminate|auto|auto]|left; discriminate|discriminate].
    + destruct (has (- a) (g_args x)) eqn:HB.
      * apply has_In in HB. assert (SZ : 1 <= size (g_args x)) by (destruct (g_args x); [destruct HB|unfold size; cbn [length]; lia]).
        unfold process_complement. rewrite E. cbn [mbind option_bind]. destruct (g_type x) eqn:T; try apply constant_added; try (exfalso; lia).
        destruct (Z.leb_spec (g_min x) 1); [lia|]. destruct (Z.leb_spec (size (g_args x) + 1) (g_min x)); [lia|]. cbn [orb]. rewrite (erase_arg_eq i (- a) G x E HB). cbn [mbind option_bind]. set (l := set_erase (- a) (g_args x)).
        assert (SE : size l = size (g_args x) - 1) by (apply size_erase; auto). assert (CE : forall t m, constant (Gate t m l) = false) by (intros t m; apply (constant_erase x (- a) C)). assert (NE : List.NoDup l) by (apply set_erase_NoDup; auto).
        unfold set_min. cbn [gs put]. rewrite lookup_insert. cbn [mbind option_bind]. unfold put, with_min, with_args. cbn [gs nxt nulls reg g_type g_min g_args]. rewrite lookup_insert. cbn [mbind option_bind g_args g_min].
        assert (WT : forall t w, t <> kAtleast \/ t = kAtleast -> (gate_weight t (sum w l) <= gate_weight kAtleast (sum w (a :: g_args x)))%nat).
        { intros t w _. etransitivity; [apply gate_weight_max|]. cbn [gate_weight]. apply Nat.pow_le_mono_r; [lia|]. cbn [sum]. rewrite (sum_erase w (- a) (g_args x) N HB). fold l. lia. }
        assert (FIN : forall t, match t with kAnd | kOr | kNand | kNor => 2 <= size l | kAtleast => 2 <= g_min x - 1 < size l | kXor => size l = 2 | kNot | kNull => size l = 1 end -> full (Gate t (g_min x - 1) l)) by (intros t Q; split; [auto|split; [cbn; lia|split; [auto|exact Q]]]).
        match goal with |- exists G', (if _ then set_type i kNull ?H else _) = _ /\ _ => assert (RT : forall t, full (Gate t (g_min x - 1) l) -> exists G', set_type i t H = Some G' /\ added G G' i x a) end.
        { intros t F. eexists. split; [apply set_type_eq; cbn; apply lookup_insert|]. eapply (added_put G _ i x (Gate t (g_min x - 1) l) a KEY Li); [cbn; rewrite !insert_insert; reflexivity|reflexivity|exact F| |reflexivity|left; cbn; rewrite T; cbn; rewrite andb_true_r; reflexivity]. intros w P W1. rewrite T. apply WT. destruct t; auto; left; discriminate. }
        destruct (Z.eqb_spec (size l) 1) as [Q1|Q1]; [apply RT; apply FIN; auto|]. destruct (Z.eqb_spec (g_min x - 1) 1) as [Q2|Q2]; [apply RT; apply FIN; lia|]. destruct (Z.eqb_spec (g_min x - 1) (size l)) as [Q3|Q3]; [apply RT; apply FIN; lia|].
        eexists. split; [reflexivity|]. eapply (added_put G _ i x (Gate kAtleast (g_min x - 1) l) a KEY Li); [cbn; rewrite T, !insert_insert; reflexivity|reflexivity|apply FIN; lia| |reflexivity|left; cbn; reflexivity]. intros w P W1. rewrite T. apply WT. auto.
      * apply has_false in HA, HB. eexists. split; [apply (add_new_eq i a G x E AS HA HB)|]. eapply (added_put G _ i x (with_args x (set_insert a (g_args x))) a KEY Li); [reflexivity|reflexivity| | |reflexivity|left; cbn; destruct (g_type x); cbn; rewrite ?andb_false_r; reflexivity].
        -- split; [intros _; apply constant_insert; [auto|lia]|]. split; [auto|]. split; [apply insert_NoDup; auto|]. cbn [with_args g_type g_args g_min]. rewrite size_insert by auto. destruct (g_type x); lia.
        -- intros w P W1. cbn [with_args g_type g_args]. rewrite sum_insert by auto. apply gate_weight_mono. cbn [sum]. lia.
Qed.
End Add.

(** ** Whole graphs *)
Lemma full_good x : full x -> good x.
Proof.
  intros (C & M & N & S). split; [split|split; [|exact N]].
  - intros [T|T]; rewrite T in S; unfold size in S; lia.
  - intros T. rewrite T in S. unfold size in S. lia.
  - intros Q. destruct (g_type x); auto; rewrite C in Q by discriminate; discriminate.
Qed.
Lemma full_roomy G : full_graph G -> roomy G.
Proof. intros [L F]. split; [|auto]. intros j x E. destruct (F j x E) as [K Fx]. split; [auto|apply full_good; auto]. Qed.
Lemma open_erase x a : full x -> In a (g_args x) -> (g_type x = kNull -> Z.abs a <> 1) -> open (with_args x (set_erase a (g_args x))).
Proof.
  intros (C & M & N & S) I NC. split; [|split; [exact M|split; [apply set_erase_NoDup; auto|]]].
  - destruct (g_type x) eqn:T; try (apply constant_erase, C; discriminate). unfold size in S. destruct (g_args x) as [|b [|]] eqn:EA; cbn in S; try lia. destruct I as [->|[]]. apply arg_const. cbn. rewrite Z.eqb_refl. intros b [].
  - unfold with_args. cbn [g_type g_args g_min]. rewrite size_erase by auto. destruct (g_type x); lia.
Qed.
Lemma open_full x : full x -> is_Some (coalesce_type (g_type x)) -> open x.
Proof. intros (C & M & N & S) [t T]. split; [apply C; intros Q; rewrite Q in T; discriminate|]. split; [auto|]. split; [auto|]. destruct (g_type x); try discriminate; lia. Qed.
Lemma added_full G G' i x a : full_graph G -> gs G !! i = Some x -> added G G' i x a -> full_graph G'.
Proof.
  intros [L F] E AD. pose proof (ad_nxt _ _ _ _ _ AD). split; [lia|]. intros j y Ej. destruct (Z.eq_dec j i) as [->|N].
  - destruct (ad_self _ _ _ _ _ AD) as (x' & Ex' & Fx & _). assert (y = x') as -> by congruence. split; [|auto]. destruct (F i x E). lia.
  - destruct (Z.lt_ge_cases j (nxt G)) as [Lj|Lj]; [rewrite (ad_old _ _ _ _ _ AD) in Ej by auto; destruct (F j y Ej); split; [lia|auto]|]. destruct (ad_fresh _ _ _ _ _ AD j y Lj Ej) as (? & ? & _). split; [lia|auto].
Qed.
Lemma put_full G i x : full_graph G -> 1 < i < nxt G -> full x -> full_graph (put i x G).
Proof. intros [L F] K Fx. split; [exact L|]. cbn. intros j y Ej. apply lookup_insert_Some in Ej as [[<- <-]|[_ Ej]]; [auto|apply F; auto]. Qed.

(** One bypassed NULL gate: no assertion fails, and the unfoldings of the parent and of all gates above it get smaller. *)
Definition lighter (G G' : graph) (p : Z) : Prop :=
  forall w w', weighs G w -> weighs G' w' -> forall j, j < nxt G -> (w' j <= w j)%nat /\ (reach G j p -> (w' j < w j)%nat).
Lemma lighter_intro G G' p x : wf G -> gs G !! p = Some x -> (forall j, j <> p -> j < nxt G -> gs G' !! j = gs G !! j) ->
  (forall w w', weighs G w -> weighs G' w' -> (forall b, Z.abs b < nxt G -> (w (Z.abs b) < w p)%nat -> (w' (Z.abs b) <= w (Z.abs b))%nat) -> (w' p < w p)%nat) -> lighter G G' p.
Proof.
  intros W E OLD IMP w w' HW HW'. assert (Lp : p < nxt G) by (apply W in E; lia). pose proof (IMP w w' HW HW') as IM.
  pose proof (weight_mono G G' w w' p W HW HW' OLD ltac:(intros Q; apply Nat.lt_le_incl, IM, Q)) as LE.
  intros j Lj. split; [auto|]. apply (weight_strict G G' w w' p W HW HW' OLD LE); auto.
Qed.
Lemma join_total G p a x y : wf G -> full_graph G -> gs G !! p = Some x -> In a (g_args x) -> gs G !! Z.abs a = Some y -> g_type y = kNull ->
  exists G', join_null_gate p a G = Some G' /\ full_graph G' /\ lighter G G' p /\ reg G' = reg G.
Proof.
  intros W FG E I Ey Ty. pose proof FG as [L F]. destruct (F p x E) as [Kp Fx]. destruct (F _ y Ey) as [Ky Fy]. pose proof Fy as (_ & _ & _ & Sy). rewrite Ty in Sy. unfold size in Sy. destruct (g_args y) as [|b [|]] eqn:Ay; cbn in Sy; try lia.
  destruct (proj2 W p x E) as (_ & Nx & Ax). destruct (proj2 W _ y Ey) as (_ & _ & Ab). rewrite Ay in Ab. destruct (Ab b ltac:(left; auto)) as (B0 & BL & _). destruct (Ax a I) as (A0 & AL & NA).
  assert (O1 : open (with_args x (set_erase a (g_args x)))) by (apply open_erase; auto; intros _ Q; lia).
  set (x1 := with_args x (set_erase a (g_args x))) in *. set (G1 := put p x1 G).
  assert (KEY1 : forall j z, gs G1 !! j = Some z -> 1 < j < nxt G1) by (intros j z Ej; cbn in *; apply lookup_insert_Some in Ej as [[<- <-]|[_ Ej]]; [auto|apply (F j z Ej)]).
  assert (E1 : gs G1 !! p = Some x1) by (cbn; apply lookup_insert).
  assert (SG : b * Z.sgn a = b \/ b * Z.sgn a = - b) by lia.
  destruct (add_any_added G1 KEY1 p x1 E1 O1 (b * Z.sgn a)) as (G' & EA & AD); [lia|cbn; lia|intros c Ic; cbn in *; apply set_erase_In in Ic as [Ic _]; apply Ax in Ic; lia| |].
  { intros [Q1 Q2]. cbn in Q1, Q2. apply set_erase_In in Q1 as [Q1 _], Q2 as [Q2 _]. destruct (Ax _ Q1) as (_ & _ & Q3). apply Q3. exact Q2. }
  exists G'. split; [|split; [|split]].
  - unfold join_null_gate. rewrite Ey. cbn [mbind option_bind]. rewrite Ty, Ay. rewrite (erase_arg_eq p a G x E I). cbn [mbind option_bind]. exact EA.
  - pose proof (ad_nxt _ _ _ _ _ AD) as NX. cbn in NX. split; [lia|]. intros j z Ej. destruct (Z.eq_dec j p) as [->|N].
    + destruct (ad_self _ _ _ _ _ AD) as (x' & Ex' & Fx' & _). assert (z = x') as -> by congruence. split; [lia|auto].
    + destruct (Z.lt_ge_cases j (nxt G)) as [Lj|Lj]; [rewrite (ad_old _ _ _ _ _ AD) in Ej by auto; cbn in Ej; rewrite lookup_insert_ne in Ej by auto; destruct (F j z Ej); split; [lia|auto]|]. destruct (ad_fresh _ _ _ _ _ AD j z Lj Ej) as (? & ? & _). split; [lia|auto].
  - apply (lighter_intro G G' p x); auto.
    + intros j N Lj. rewrite (ad_old _ _ _ _ _ AD) by auto. cbn. rewrite lookup_insert_ne; auto.
    + intros w w' HW HW' LE. pose proof (ad_weight _ _ _ _ _ AD w' HW') as WP. rewrite (weight_at G w p x HW E).
      eapply Nat.le_lt_trans; [exact WP|]. change (g_type x1) with (g_type x). apply gate_weight_strict. rewrite (sum_erase w a (g_args x) Nx I). rewrite (weight_at G w _ y HW Ey), Ty, Ay. cbn [gate_weight sum].
      change (g_args x1) with (set_erase a (g_args x)). cbn [sum]. replace (Z.abs (b * Z.sgn a)) with (Z.abs b) by lia.
      pose proof (weight_arg G w p x a HW E I) as LA. pose proof (weight_arg G w _ y b HW Ey ltac:(rewrite Ay; left; auto)) as LB.
      assert (w' (Z.abs b) <= w (Z.abs b))%nat by (apply LE; [auto|lia]).
      assert (sum w' (set_erase a (g_args x)) <= sum w (set_erase a (g_args x)))%nat; [|lia]. apply sum_mono. intros c Ic. apply set_erase_In in Ic as [Ic _]. apply LE; [apply Ax in Ic; lia|]. apply (weight_arg G w p x c HW E Ic).
  - rewrite (ad_reg _ _ _ _ _ AD). reflexivity.
Qed.
Lemma lighter_trans G1 G2 G3 p q : wf G1 -> nxt G1 <= nxt G2 -> acyclic G2 -> lighter G1 G2 p -> lighter G2 G3 q -> lighter G1 G3 p.
Proof.
  intros W L A L1 L2 w1 w3 H1 H3 j Lj. destruct (weighs_exists G2 A) as [w2 H2]. destruct (L1 w1 w2 H1 H2 j Lj) as [Q1 Q2]. destruct (L2 w2 w3 H2 H3 j ltac:(lia)) as [Q3 _]. split; [lia|]. intros R. specialize (Q2 R). lia.
Qed.
