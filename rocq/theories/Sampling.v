(** Monte-Carlo sampling of expressions: Expression::Sample and Expression::Reset
    (src/expression.cc:33-49), UncertaintyAnalysis::SampleExpressions
    (src/uncertainty_analysis.cc:71-86).
    Expressions are numbered nodes of an acyclic graph (C30).  DoSample of a node is any program
    that samples some of its registered arguments, possibly deciding on the values it gets
    (Ite and Switch do), and may draw from the random number generator.
    Simplifications: the generator is a stream of values of the sampled type and a position; a
    distribution consumes some draws.  [calls] and [runs] only record what happened. *)
From Coq Require Import List Arith Lia Bool.
Import ListNotations.

Section Sampling.
Context {V : Type}.

(** DoSample *)
Inductive prog := Ret (v : V) | Ask (n : nat) (k : V -> prog) | Draw (k : V -> prog).
Record graph := mkG { args : nat -> list nat; do_sample : nat -> prog }.
Record state := mkS {
  sampled : nat -> bool; value : nat -> V;     (* sampled_, sampled_value_ *)
  pos : nat;                                   (* position in the random stream *)
  calls : list nat; runs : list nat }.         (* log: Sample() and DoSample() calls *)
Definition upd {A} (f : nat -> A) (n : nat) (a : A) : nat -> A := fun x => if Nat.eqb x n then a else f x.

(** running DoSample with a way to sample arguments *)
Fixpoint exec_with (samp : nat -> state -> option (V * state)) (rng : nat -> V) (c : prog) (s : state) : option (V * state) :=
  match c with
  | Ret v => Some (v, s)
  | Ask m k => match samp m s with Some (v, s) => exec_with samp rng (k v) s | None => None end
  | Draw k => exec_with samp rng (k (rng (pos s))) (mkS (sampled s) (value s) (S (pos s)) (calls s) (runs s))
  end.
(** Sample, expression.cc:33-39 ([fuel] bounds the depth; C34_total: any bound on the depth of
    the graph is enough). *)
Fixpoint sample (rng : nat -> V) (G : graph) (fuel : nat) (n : nat) (s : state) : option (V * state) :=
  match fuel with
  | 0 => None
  | S fuel =>
      let s := mkS (sampled s) (value s) (pos s) (n :: calls s) (runs s) in
      if sampled s n then Some (value s n, s)
      else
        match exec_with (sample rng G fuel) rng (do_sample G n)
                (mkS (upd (sampled s) n true) (value s) (pos s) (calls s) (n :: runs s)) with
        | Some (v, s) => Some (v, mkS (sampled s) (upd (value s) n v) (pos s) (calls s) (runs s))
        | None => None
        end
  end.
Notation exec rng G fuel := (exec_with (sample rng G fuel) rng).
(** Reset, expression.cc:41-47, on the flags. *)
Fixpoint reset (G : graph) (fuel : nat) (n : nat) (f : nat -> bool) : option (nat -> bool) :=
  match fuel with
  | 0 => None
  | S fuel =>
      if f n then
        fold_left (fun f a => match f with Some f => reset G fuel a f | None => None end) (args G n) (Some (upd f n false))
      else Some f
  end.
Fixpoint reset_all (G : graph) (fuel : nat) (roots : list nat) (f : nat -> bool) : option (nat -> bool) :=
  match roots with
  | [] => Some f
  | r :: rs => match reset G fuel r f with Some f => reset_all G fuel rs f | None => None end
  end.
Fixpoint sample_all (rng : nat -> V) (G : graph) (fuel : nat) (roots : list nat) (s : state) : option (list V * state) :=
  match roots with
  | [] => Some ([], s)
  | r :: rs =>
      match sample rng G fuel r s with
      | None => None
      | Some (v, s) => match sample_all rng G fuel rs s with Some (l, s) => Some (v :: l, s) | None => None end
      end
  end.
(** SampleExpressions: one trial; the logs start empty. *)
Definition trial (rng : nat -> V) (G : graph) (fuel : nat) (roots : list nat) (s : state) : option (list V * state) :=
  match reset_all G fuel roots (sampled s) with
  | None => None
  | Some f => sample_all rng G fuel roots (mkS f (value s) (pos s) [] [])
  end.
Fixpoint trials (rng : nat -> V) (G : graph) (fuel : nat) (roots : list nat) (n : nat) (s : state) : option (list (list V) * state) :=
  match n with
  | 0 => Some ([], s)
  | S n =>
      match trial rng G fuel roots s with
      | None => None
      | Some (v, s) => match trials rng G fuel roots n s with Some (l, s) => Some (v :: l, s) | None => None end
      end
  end.

(** ** Specification *)
(** The program reads registered arguments only. *)
Inductive reads (ok : nat -> Prop) : prog -> Prop :=
  | r_ret v : reads ok (Ret v)
  | r_ask n k : ok n -> (forall v, reads ok (k v)) -> reads ok (Ask n k)
  | r_draw k : (forall v, reads ok (k v)) -> reads ok (Draw k).
Definition registered (G : graph) : Prop := forall n, reads (fun m => In m (args G n)) (do_sample G n).
(** no cycles: a depth [rank] that falls along arguments *)
Definition acyclic (G : graph) (rank : nat -> nat) : Prop := forall n m, In m (args G n) -> rank m < rank n.
(** What a program returns when every argument has the value given by one assignment. *)
Fixpoint outcome (val : nat -> V) (c : prog) (draws : list V) : option V :=
  match c, draws with
  | Ret v, [] => Some v
  | Ret _, _ :: _ => None
  | Ask n k, _ => outcome val (k (val n)) draws
  | Draw k, d :: ds => outcome val (k d) ds
  | Draw _, [] => None
  end.
(** reachable from the roots through nodes with a flag *)
Inductive via (G : graph) (f : nat -> bool) (roots : list nat) : nat -> Prop :=
  | v_root n : In n roots -> f n = true -> via G f roots n
  | v_arg n m : via G f roots n -> In m (args G n) -> f m = true -> via G f roots m.
Definition clean (f : nat -> bool) : Prop := forall n, f n = false.

(** ** Proofs *)
Section Proofs.
Variables (rng : nat -> V) (G : graph) (rank : nat -> nat).
Hypothesis REG : registered G.
Hypothesis ACY : acyclic G rank.

Lemma sample_eq fuel n s : sample rng G (S fuel) n s =
  let s := mkS (sampled s) (value s) (pos s) (n :: calls s) (runs s) in
  if sampled s n then Some (value s n, s)
  else match exec rng G fuel (do_sample G n) (mkS (upd (sampled s) n true) (value s) (pos s) (calls s) (n :: runs s)) with
       | Some (v, s) => Some (v, mkS (sampled s) (upd (value s) n v) (pos s) (calls s) (runs s))
       | None => None
       end.
Proof. reflexivity. Qed.
Lemma upd_same {A} (f : nat -> A) n a : upd f n a n = a.
Proof. unfold upd. now rewrite Nat.eqb_refl. Qed.
Lemma upd_other {A} (f : nat -> A) n a m : m <> n -> upd f n a m = f m.
Proof. unfold upd. intros. destruct (Nat.eqb_spec m n); congruence. Qed.

(** the state only grows *)
Record grows (s s' : state) : Prop := mkGrows {
  g_sampled : forall n, sampled s n = true -> sampled s' n = true;
  g_value : forall n, sampled s n = true -> value s' n = value s n;
  g_calls : exists l, calls s' = l ++ calls s;
  g_runs : exists l, runs s' = l ++ runs s /\ NoDup l /\ (forall n, In n l -> sampled s n = false) /\
    (forall n, sampled s' n = true <-> sampled s n = true \/ In n l) /\
    (forall n, ~ In n l -> value s' n = value s n);
  g_pos : pos s <= pos s' }.
Lemma grows_refl s : grows s s.
Proof. constructor; auto; try (exists []; reflexivity). exists []. split; [|split; [constructor|split; [intros n []|split]]]; simpl; auto; tauto. Qed.
Lemma NoDup_app_intro (a b : list nat) : NoDup a -> NoDup b -> (forall x, In x a -> In x b -> False) -> NoDup (a ++ b).
Proof.
  induction 1 as [|x l N D IH]; simpl; auto. intros Db X. constructor.
  - rewrite in_app_iff. intros [H|H]; [tauto|]. apply (X x); simpl; auto.
  - apply IH; auto. intros y A B. apply (X y); simpl; auto.
Qed.
Lemma grows_trans a b c : grows a b -> grows b c -> grows a c.
Proof.
  intros [A1 A2 [A3 A3'] (A4 & A4' & AD & AN & AI & AV) A5] [B1 B2 [B3 B3'] (B4 & B4' & BD & BN & BI & BV) B5]. constructor; auto; try lia.
  - intros n H. rewrite B2 by auto. auto.
  - exists (B3 ++ A3). rewrite B3', A3'. now rewrite app_assoc.
  - exists (B4 ++ A4). rewrite B4', A4'. rewrite app_assoc. split; auto. split.
    { apply NoDup_app_intro; auto. intros x I J. specialize (BN x I).
      assert (sampled b x = true) by (apply AI; auto). congruence. }
    split. { intros n I. apply in_app_iff in I. destruct I as [I|I]; [|auto]. specialize (BN n I).
      destruct (sampled a n) eqn:E; auto. apply A1 in E. congruence. }
    split. { intros n. rewrite BI, AI, in_app_iff. tauto. }
    intros n N. rewrite in_app_iff in N. rewrite BV, AV; tauto.
Qed.

(** consistency: every node run since [base] has the value of its program *)
Definition explained (s : state) (new : list nat) : Prop :=
  forall n, In n new -> exists ds, outcome (value s) (do_sample G n) ds = Some (value s n).
(** nodes asked by run nodes are flagged *)
Fixpoint asked (val : nat -> V) (c : prog) (draws : list V) : list nat :=
  match c, draws with
  | Ret _, _ => []
  | Ask n k, _ => n :: asked val (k (val n)) draws
  | Draw k, d :: ds => asked val (k d) ds
  | Draw _, [] => []
  end.

Lemma outcome_ext val val' c : forall ds, (forall n, In n (asked val c ds) -> val' n = val n) -> outcome val' c ds = outcome val c ds.
Proof.
  induction c as [v|n k IH|k IH]; intros ds H; simpl in *; auto.
  - rewrite (H n) by auto. apply IH. auto.
  - destruct ds; auto.
Qed.
Lemma asked_ext val val' c : forall ds, (forall n, In n (asked val c ds) -> val' n = val n) -> asked val' c ds = asked val c ds.
Proof.
  induction c as [v|n k IH|k IH]; intros ds H; simpl in *; auto.
  - rewrite (H n) by auto. f_equal. apply IH. auto.
  - destruct ds; auto.
Qed.
Lemma asked_args ok c : reads ok c -> forall val ds n, In n (asked val c ds) -> ok n.
Proof.
  induction 1 as [v|m k O R IH|k R IH]; intros val ds n I; simpl in *; try tauto.
  - destruct I as [<-|I]; eauto.
  - destruct ds; simpl in I; [tauto|eauto].
Qed.

(** what one call guarantees *)
Record post (s : state) (n : nat) (v : V) (s' : state) : Prop := mkPost {
  p_grows : grows s s';
  p_flag : sampled s' n = true;
  p_val : value s' n = v;
  p_rank : forall m, sampled s m = false -> sampled s' m = true -> rank m <= rank n;
  p_expl : forall new, runs s' = new ++ runs s -> forall m, In m new -> exists ds,
    outcome (value s') (do_sample G m) ds = Some (value s' m) /\
    (forall a, In a (asked (value s') (do_sample G m) ds) -> sampled s' a = true);
  p_calls : forall new, calls s' = new ++ calls s -> forall m, In m new -> m = n \/
    exists q, In m (args G q) /\ (exists l, runs s' = l ++ runs s /\ In q l) }.
(** the loop: the asked nodes so far have values; the rest of the outcome *)
Record epost (n : nat) (s : state) (c : prog) (v : V) (s' : state) : Prop := mkEpost {
  e_grows : grows s s';
  e_out : exists ds, outcome (value s') c ds = Some v /\ forall a, In a (asked (value s') c ds) -> sampled s' a = true;
  e_rank : forall m, sampled s m = false -> sampled s' m = true -> rank m < rank n;
  e_expl : forall new, runs s' = new ++ runs s -> forall m, In m new -> exists ds,
    outcome (value s') (do_sample G m) ds = Some (value s' m) /\
    (forall a, In a (asked (value s') (do_sample G m) ds) -> sampled s' a = true);
  e_calls : forall new, calls s' = new ++ calls s -> forall m, In m new -> In m (args G n) \/
    exists q, In m (args G q) /\ (exists l, runs s' = l ++ runs s /\ In q l) }.

Lemma app_cancel {A} (a b c : list A) : a ++ c = b ++ c -> a = b.
Proof. apply app_inv_tail. Qed.

Lemma explained_later s1 s2 m : grows s1 s2 -> sampled s1 m = true ->
  (exists ds, outcome (value s1) (do_sample G m) ds = Some (value s1 m) /\
    (forall a, In a (asked (value s1) (do_sample G m) ds) -> sampled s1 a = true)) ->
  exists ds, outcome (value s2) (do_sample G m) ds = Some (value s2 m) /\
    (forall a, In a (asked (value s2) (do_sample G m) ds) -> sampled s2 a = true).
Proof.
  intros GR F (ds & O & A). exists ds.
  assert (E : forall a, In a (asked (value s1) (do_sample G m) ds) -> value s2 a = value s1 a).
  { intros a I. apply (g_value _ _ GR). auto. }
  rewrite (outcome_ext _ _ _ _ E), (asked_ext _ _ _ _ E), (g_value _ _ GR) by auto. split; auto.
  intros a I. apply (g_sampled _ _ GR). auto.
Qed.

Lemma main fuel : (forall n s v s', sample rng G fuel n s = Some (v, s') -> post s n v s') /\
  forall n c s v s', reads (fun m => In m (args G n)) c -> exec rng G fuel c s = Some (v, s') -> epost n s c v s'.
Proof.
  induction fuel as [|fuel [IHs IHe]].
  { split; [intros; discriminate|]. intros n c. induction c as [v|m k IH|k IH]; intros s v' s' R H; simpl in H.
    - inversion H; subst. constructor; [apply grows_refl|exists []; simpl; split; [auto|tauto]|congruence| |];
        intros new E; symmetry in E; apply (app_cancel new []) in E; subst; intros m [].
    - discriminate.
    - inversion R; subst. destruct (IH _ _ _ _ (H1 _) H) as [E1 (ds & O & A) E3 E4 E5]. simpl in *.
      constructor; auto; simpl in *.
      + destruct E1 as [A1 A2 A3 A4 A5]. simpl in *. constructor; simpl; auto. lia.
      + exists (rng (pos s) :: ds). simpl. auto. }
  assert (S1 : forall n s v s', sample rng G (S fuel) n s = Some (v, s') -> post s n v s').
  { intros n s v s' H. rewrite sample_eq in H. cbn zeta in H. cbn [sampled value pos calls runs] in H.
    destruct (sampled s n) eqn:F.
    - inversion H; subst. simpl. constructor; simpl; auto.
      + constructor; simpl; auto; [exists [n]; auto|]. exists []. split; [|split; [constructor|split; [intros m []|split]]]; simpl; auto; tauto.
      + congruence.
      + intros new E. symmetry in E. apply (app_cancel new []) in E. subst. intros m [].
      + intros new E. change (n :: calls s) with ([n] ++ calls s) in E. symmetry in E. apply app_cancel in E. subst. intros m [->|[]]. auto.
    - destruct (exec rng G fuel (do_sample G n) _) as [[v1 s1]|] eqn:X; [|discriminate]. injection H as E1 E2.
      apply (IHe n) in X; [|apply REG]. destruct X as [EG (ds & O & A) ER EE EC]. subst v1. simpl in *.
      set (s2 := mkS (sampled s1) (upd (value s1) n v) (pos s1) (calls s1) (runs s1)) in *. subst s'.
      destruct EG as [G1 G2 [gc GC] (gr & GR & GD & GN & GI & GV) GP]. simpl in *.
      assert (NI : ~ In n gr). { intros I. specialize (GN n I). rewrite upd_same in GN. discriminate. }
      assert (ANe : forall q ds', In q (n :: gr) -> forall a, In a (asked (value s1) (do_sample G q) ds') -> a <> n).
      { intros q ds' I a Ia ->. apply (asked_args _ _ (REG q)) in Ia. apply ACY in Ia.
        destruct I as [->|I]; [lia|]. assert (rank q < rank n). { apply ER; [now apply GN|apply GI; auto]. } lia. }
      assert (GS : grows s s2).
      { constructor; simpl; auto.
        - intros m Hm. apply G1. unfold upd. destruct (Nat.eqb m n); auto.
        - intros m Hm. rewrite upd_other by congruence. apply G2. rewrite upd_other by congruence. auto.
        - exists (gc ++ [n]). rewrite GC, <- app_assoc. reflexivity.
        - exists (gr ++ [n]). rewrite GR, <- app_assoc. split; [reflexivity|]. split.
          { apply NoDup_app_intro; auto; [repeat constructor; simpl; tauto|]. intros x I [->|[]]. auto. }
          split. { intros m I. apply in_app_iff in I. destruct I as [I|[->|[]]]; auto. specialize (GN m I).
            unfold upd in GN. destruct (Nat.eqb m n); auto. discriminate. }
          split. { intros m. rewrite GI, in_app_iff. unfold upd. destruct (Nat.eqb_spec m n); subst; simpl; split; intros; intuition. }
          intros m N. rewrite in_app_iff in N. simpl in N. rewrite upd_other by (intros ->; tauto). apply GV. tauto. }
      assert (FN : sampled s2 n = true). { simpl. apply GI. rewrite upd_same. auto. }
      constructor; auto.
      + simpl. apply upd_same.
      + simpl. intros m F1 F2. destruct (Nat.eq_dec m n) as [->|NE]; [lia|].
        enough (rank m < rank n) by lia. apply ER; auto. rewrite upd_other; auto.
      + intros new E m I. simpl in E. rewrite GR in E. change (gr ++ n :: runs s) with (gr ++ [n] ++ runs s) in E. rewrite app_assoc in E.
        apply app_cancel in E. subst new. apply in_app_iff in I. destruct I as [I|[->|[]]].
        * destruct (EE gr GR m I) as (ds' & O' & A'). exists ds'.
          assert (X : forall a, In a (asked (value s1) (do_sample G m) ds') -> value s2 a = value s1 a).
          { intros a Ia. simpl. apply upd_other. eapply ANe; eauto. simpl; auto. }
          rewrite (outcome_ext _ _ _ _ X), (asked_ext _ _ _ _ X). split; auto.
          simpl. rewrite upd_other; [auto|]. intros ->. tauto.
        * exists ds. assert (X : forall a, In a (asked (value s1) (do_sample G m) ds) -> value s2 a = value s1 a).
          { intros a Ia. simpl. apply upd_other. eapply ANe; eauto. simpl; auto. }
          rewrite (outcome_ext _ _ _ _ X), (asked_ext _ _ _ _ X). split; [|auto].
          simpl. rewrite upd_same. auto.
      + intros new E m I. simpl in E. rewrite GC in E. change (gc ++ n :: calls s) with (gc ++ [n] ++ calls s) in E. rewrite app_assoc in E.
        apply app_cancel in E. subst new. apply in_app_iff in I. destruct I as [I|[->|[]]]; auto.
        right. destruct (EC gc GC m I) as [J|(q & J & l & L & K)].
        * exists n. split; auto. exists (gr ++ [n]). simpl. rewrite GR, <- app_assoc. split; auto. apply in_app_iff. simpl; auto.
        * exists q. split; auto. exists (l ++ [n]). simpl. rewrite L, <- app_assoc. split; auto. apply in_app_iff; auto. }
  split; [exact S1|].
  intros n c. induction c as [v|m k IH|k IH]; intros s v' s' R H; simpl in H.
  - inversion H; subst. constructor; [apply grows_refl|exists []; simpl; split; [auto|tauto]|congruence| |];
      intros new E; symmetry in E; apply (app_cancel new []) in E; subst; intros m [].
  - inversion R; subst. change (match sample rng G (S fuel) m s with Some (v, s) => exec rng G (S fuel) (k v) s | None => None end = Some (v', s')) in H.
    destruct (sample rng G (S fuel) m s) as [[v1 s1]|] eqn:SM; [|discriminate].
    apply S1 in SM. destruct SM as [PG PF PV PR PE PC]. destruct (IH _ _ _ _ (H3 _) H) as [EG (ds & O & A) ER EE EC].
    assert (Vm : value s' m = v1). { rewrite (g_value _ _ EG); auto. }
    assert (RM : rank m < rank n) by (apply ACY; auto).
    destruct (g_runs _ _ PG) as (gr & GR & GD & GN & GI & GV). destruct (g_runs _ _ EG) as (gr' & GR' & GD' & GN' & GI' & GV').
    destruct (g_calls _ _ PG) as (gc & GC). destruct (g_calls _ _ EG) as (gc' & GC').
    constructor.
    + eapply grows_trans; eauto.
    + exists ds. simpl. rewrite Vm. split; auto. intros a [<-|Ia]; auto. apply (g_sampled _ _ EG); auto.
    + intros q F1 F2. destruct (sampled s1 q) eqn:F; [|apply ER; auto]. specialize (PR q F1 F). lia.
    + intros new E q I. rewrite GR', GR, app_assoc in E. apply app_cancel in E. subst new. apply in_app_iff in I. destruct I as [I|I].
      * eapply EE; eauto.
      * eapply explained_later; eauto. apply GI. auto.
    + intros new E q I. rewrite GC', GC, app_assoc in E. apply app_cancel in E. subst new. apply in_app_iff in I. destruct I as [I|I].
      * destruct (EC _ GC' q I) as [J|(z & J & l & L & K)]; auto. right. exists z. split; auto. exists (l ++ gr). rewrite L, GR, app_assoc. split; auto.
        apply in_app_iff; auto.
      * destruct (PC _ GC q I) as [->|(z & J & l & L & K)]; auto. right. exists z. split; auto. exists (gr' ++ l). rewrite GR', L, app_assoc. split; auto.
        apply in_app_iff; auto.
  - inversion R; subst. destruct (IH _ _ _ _ (H1 _) H) as [E1 (ds & O & A) E3 E4 E5]. simpl in *.
    constructor; auto; simpl in *.
    + destruct E1 as [A1 A2 A3 A4 A5]. simpl in *. constructor; simpl; auto. lia.
    + exists (rng (pos s) :: ds). simpl. auto.
Qed.

(** totality *)
Lemma sample_total fuel : (forall n s, rank n < fuel -> sample rng G fuel n s <> None) /\
  (forall n c s, rank n <= fuel -> reads (fun m => In m (args G n)) c -> exec rng G fuel c s <> None).
Proof.
  induction fuel as [|fuel [IHs IHe]].
  - split; [intros; lia|]. intros n c. induction c as [v|m k IH|k IH]; intros s L R; simpl; [discriminate| |].
    + inversion R; subst. assert (rank m < rank n) by (apply ACY; auto). lia.
    + inversion R; subst. auto.
  - assert (S1 : forall n s, rank n < S fuel -> sample rng G (S fuel) n s <> None).
    { intros n s L. rewrite sample_eq. cbn zeta. cbn [sampled]. destruct (sampled s n); [discriminate|].
      specialize (IHe n (do_sample G n) (mkS (upd (sampled s) n true) (value s) (pos s) (n :: calls s) (n :: runs s))).
      cbn [value pos calls runs sampled].
      destruct (exec _ _ _ _ _) as [[v s1]|]; [discriminate|]. exfalso. apply IHe; auto. lia. }
    split; auto. intros n c. induction c as [v|m k IH|k IH]; intros s L R; [discriminate| |].
    + inversion R; subst. simpl. change (match sample rng G (S fuel) m s with Some (v, s) => exec rng G (S fuel) (k v) s | None => None end <> None).
      assert (rank m < rank n) by (apply ACY; auto).
      specialize (S1 m s). destruct (sample rng G (S fuel) m s) as [[v1 s1]|]; [auto|]. intros _. apply S1; [lia|auto].
    + inversion R; subst. simpl. auto.
Qed.

(** reset: clears everything reachable through flags, touches nothing else *)
Definition le_flags (f' f : nat -> bool) := forall n, f' n = true -> f n = true.
(** closed: a cleared node has all its formerly flagged arguments cleared *)
Definition cleared_closed (f f' : nat -> bool) := forall n, f n = true -> f' n = false -> forall m, In m (args G n) -> f' m = false.
Lemma reset_spec fuel : forall n f, rank n < fuel -> exists f', reset G fuel n f = Some f' /\
  le_flags f' f /\ f' n = false /\ cleared_closed f f'.
Proof.
  induction fuel as [|fuel IH]; intros n f L; [lia|]. cbn [reset]. destruct (f n) eqn:F.
  - assert (X : forall l g, (forall m, In m l -> rank m < fuel) -> exists f', 
      fold_left (fun f a => match f with Some f => reset G fuel a f | None => None end) l (Some g) = Some f' /\
      le_flags f' g /\ (forall m, In m l -> f' m = false) /\ cleared_closed g f').
    { induction l as [|a l IHl]; intros g R; simpl.
      - exists g. split; auto. split; [intros m H; auto|]. split; [intros m []|]. intros m A B. congruence.
      - destruct (IH a g) as (g1 & E1 & L1 & C1 & K1); [apply R; simpl; auto|]. rewrite E1.
        destruct (IHl g1) as (g2 & E2 & L2 & C2 & K2); [intros; apply R; simpl; auto|]. exists g2. split; auto.
        split; [intros m H; auto|]. split.
        + intros m [<-|I]; auto. destruct (g2 a) eqn:E; auto. apply L2 in E. congruence.
        + intros m A B q I. destruct (g1 m) eqn:E; [apply (K2 m); auto|].
          specialize (K1 m A E q I). destruct (g2 q) eqn:E'; auto. apply L2 in E'. congruence. }
    destruct (X (args G n) (upd f n false)) as (f' & E & LE & CL & CC).
    { intros m I. apply ACY in I. lia. }
    exists f'. split; auto. split.
    { intros m H. apply LE in H. unfold upd in H. destruct (Nat.eqb_spec m n); [subst; auto|auto]. }
    assert (C : f' n = false). { destruct (f' n) eqn:E'; auto. apply LE in E'. rewrite upd_same in E'. discriminate. }
    split; auto. intros m A B q I. destruct (Nat.eq_dec m n) as [->|NE]; auto.
    apply (CC m); auto. rewrite upd_other; auto.
  - exists f. split; auto. split; [intros m H; auto|]. split; auto. intros m A B. congruence.
Qed.
Lemma reset_all_spec fuel roots : (forall r, In r roots -> rank r < fuel) -> forall f, exists f', reset_all G fuel roots f = Some f' /\
  le_flags f' f /\ (forall n, In n roots -> f' n = false) /\ cleared_closed f f'.
Proof.
  induction roots as [|r rs IH]; intros R f; simpl.
  - exists f. split; auto. split; [intros m H; auto|]. split; [intros m []|]. intros m A B. congruence.
  - destruct (reset_spec fuel r f) as (g1 & E1 & L1 & C1 & K1); [apply R; simpl; auto|]. rewrite E1.
    destruct (IH) with (f := g1) as (g2 & E2 & L2 & C2 & K2); [intros; apply R; simpl; auto|]. exists g2. split; auto.
    split; [intros m H; auto|]. split.
    + intros m [<-|I]; auto. destruct (g2 r) eqn:E; auto. apply L2 in E. congruence.
    + intros m A B q I. destruct (g1 m) eqn:E; [apply (K2 m); auto|].
      specialize (K1 m A E q I). destruct (g2 q) eqn:E'; auto. apply L2 in E'. congruence.
Qed.
Lemma reset_clears fuel roots f f' : (forall r, In r roots -> rank r < fuel) -> reset_all G fuel roots f = Some f' ->
  forall n, via G f roots n -> f' n = false.
Proof.
  intros R E n Vn. destruct (reset_all_spec fuel roots R f) as (f2 & E2 & L & C & K). assert (f' = f2) by congruence. subst.
  assert (Fn : forall m, via G f roots m -> f m = true) by (intros m [|]; auto).
  induction Vn as [m I F|m q Vm IH I F]; auto. apply (K m); auto.
Qed.

(** sampling all roots: flags come from roots *)
Lemma sample_all_spec fuel roots : forall s vs s', sample_all rng G fuel roots s = Some (vs, s') ->
  grows s s' /\ Forall2 (fun r v => sampled s' r = true /\ value s' r = v) roots vs /\
  (forall new, runs s' = new ++ runs s -> forall m, In m new -> exists ds,
    outcome (value s') (do_sample G m) ds = Some (value s' m) /\
    (forall a, In a (asked (value s') (do_sample G m) ds) -> sampled s' a = true)) /\
  (forall new, calls s' = new ++ calls s -> forall m, In m new -> In m roots \/
    exists q, In m (args G q) /\ (exists l, runs s' = l ++ runs s /\ In q l)).
Proof.
  induction roots as [|r rs IH]; intros s vs s' H; simpl in H.
  - inversion H; subst. split; [apply grows_refl|]. split; [constructor|].
    split; intros new E; symmetry in E; apply (app_cancel new []) in E; subst; intros m [].
  - destruct (sample rng G fuel r s) as [[v s1]|] eqn:S1; [|discriminate].
    destruct (sample_all rng G fuel rs s1) as [[l s2]|] eqn:S2; [|discriminate]. inversion H; subst.
    apply (proj1 (main fuel)) in S1. destruct S1 as [PG PF PV PR PE PC]. destruct (IH _ _ _ S2) as (EG & EF & EE & EC).
    destruct (g_runs _ _ PG) as (gr & GR & GD & GN & GI & GV). destruct (g_runs _ _ EG) as (gr' & GR' & GD' & GN' & GI' & GV').
    destruct (g_calls _ _ PG) as (gc & GC). destruct (g_calls _ _ EG) as (gc' & GC').
    split; [eapply grows_trans; eauto|]. split.
    { constructor; auto. split; [apply (g_sampled _ _ EG); auto|]. rewrite (g_value _ _ EG); auto. }
    split.
    + intros new E q I. rewrite GR', GR, app_assoc in E. apply app_cancel in E. subst new. apply in_app_iff in I. destruct I as [I|I].
      * eapply EE; eauto.
      * eapply explained_later; eauto. apply GI. auto.
    + intros new E q I. rewrite GC', GC, app_assoc in E. apply app_cancel in E. subst new. apply in_app_iff in I. destruct I as [I|I].
      * destruct (EC _ GC' q I) as [J|(z & J & w & L & K)]; [simpl; auto|]. right. exists z. split; auto. exists (w ++ gr). rewrite L, GR, app_assoc. split; auto.
        apply in_app_iff; auto.
      * destruct (PC _ GC q I) as [->|(z & J & w & L & K)]; [simpl; auto|]. right. exists z. split; auto. exists (gr' ++ w). rewrite GR', L, app_assoc. split; auto.
        apply in_app_iff; auto.
Qed.
(** every run node was called, so all run and called nodes hang on the roots *)
Lemma runs_called fuel : (forall n s v s', sample rng G fuel n s = Some (v, s') -> forall new, runs s' = new ++ runs s ->
    forall m, In m new -> exists c, calls s' = c ++ calls s /\ In m c) /\
  forall c s v s', exec rng G fuel c s = Some (v, s') -> forall new, runs s' = new ++ runs s ->
    forall m, In m new -> exists c, calls s' = c ++ calls s /\ In m c.
Proof.
  induction fuel as [|fuel [IHs IHe]].
  { split; [intros; discriminate|]. induction c as [v|m k IH|k IH]; intros s v' s' H new E q I; simpl in H.
    - inversion H; subst. symmetry in E; apply (app_cancel new []) in E; subst. destruct I.
    - discriminate.
    - eapply IH in H; eauto. }
  assert (S1 : forall n s v s', sample rng G (S fuel) n s = Some (v, s') -> forall new, runs s' = new ++ runs s ->
    forall m, In m new -> exists c, calls s' = c ++ calls s /\ In m c).
  { intros n s v s' H new E m I. rewrite sample_eq in H. cbn zeta in H. cbn [sampled value pos calls runs] in H.
    destruct (sampled s n) eqn:F.
    - inversion H; subst. simpl in E. symmetry in E; apply (app_cancel new []) in E; subst. destruct I.
    - destruct (exec rng G fuel (do_sample G n) _) as [[v1 s1]|] eqn:X; [|discriminate]. injection H as E1 E2. subst s'. simpl in *.
      pose proof (proj2 (main fuel) n _ _ _ _ (REG n) X) as EP. destruct (g_runs _ _ (e_grows _ _ _ _ _ EP)) as (gr & GR & _). simpl in GR.
      destruct (g_calls _ _ (e_grows _ _ _ _ _ EP)) as (gc & GC). simpl in GC.
      rewrite GR in E. change (gr ++ n :: runs s) with (gr ++ [n] ++ runs s) in E. rewrite app_assoc in E. apply app_cancel in E. subst new.
      apply in_app_iff in I. destruct I as [I|[->|[]]].
      + destruct (IHe _ _ _ _ X gr GR m I) as (c & C1 & C2). simpl in C1. exists (c ++ [n]). rewrite C1, <- app_assoc. split; auto. apply in_app_iff; auto.
      + exists (gc ++ [m]). rewrite GC, <- app_assoc. split; auto. apply in_app_iff; simpl; auto. }
  split; auto. induction c as [v|m k IH|k IH]; intros s v' s' H new E q I.
  - inversion H; subst. symmetry in E; apply (app_cancel new []) in E; subst. destruct I.
  - simpl in H. change (match sample rng G (S fuel) m s with Some (v, s) => exec rng G (S fuel) (k v) s | None => None end = Some (v', s')) in H.
    destruct (sample rng G (S fuel) m s) as [[v1 s1]|] eqn:SM; [|discriminate].
    pose proof (proj1 (main _) _ _ _ _ SM) as P. destruct (g_runs _ _ (p_grows _ _ _ _ P)) as (gr & GR & _).
    destruct (g_calls _ _ (p_grows _ _ _ _ P)) as (gc & GC).
    assert (Y : exists gr' gc', runs s' = gr' ++ runs s1 /\ calls s' = gc' ++ calls s1).
    { assert (Z : forall c s v s', exec rng G (S fuel) c s = Some (v, s') -> exists gr' gc', runs s' = gr' ++ runs s /\ calls s' = gc' ++ calls s).
      { clear - REG ACY. induction c as [v|m k IH|k IH]; intros s v' s' H; simpl in H.
        - inversion H; subst. exists [], []. auto.
        - change (match sample rng G (S fuel) m s with Some (v, s) => exec rng G (S fuel) (k v) s | None => None end = Some (v', s')) in H.
          destruct (sample rng G (S fuel) m s) as [[v1 s1]|] eqn:SM; [|discriminate].
          pose proof (proj1 (main _) _ _ _ _ SM) as P. destruct (g_runs _ _ (p_grows _ _ _ _ P)) as (gr & GR & _).
          destruct (g_calls _ _ (p_grows _ _ _ _ P)) as (gc & GC). destruct (IH _ _ _ _ H) as (a & b & A & B).
          exists (a ++ gr), (b ++ gc). rewrite A, B, GR, GC, !app_assoc. auto.
        - destruct (IH _ _ _ _ H) as (a & b & A & B). exists a, b. auto. }
      eauto. }
    destruct Y as (gr' & gc' & R' & C'). rewrite R', GR, app_assoc in E. apply app_cancel in E. subst new. apply in_app_iff in I. destruct I as [I|I].
    + destruct (IH _ _ _ _ H _ R' q I) as (c & A & B). exists (c ++ gc). rewrite A, GC, app_assoc. split; auto. apply in_app_iff; auto.
    + destruct (S1 _ _ _ _ SM _ GR q I) as (c & A & B). exists (gc' ++ c). rewrite C', A, app_assoc. split; auto. apply in_app_iff; auto.
  - simpl in H. eapply IH in H; eauto.
Qed.
Lemma sample_all_runs_called fuel roots : forall s vs s', sample_all rng G fuel roots s = Some (vs, s') ->
  forall new, runs s' = new ++ runs s -> forall m, In m new -> exists c, calls s' = c ++ calls s /\ In m c.
Proof.
  induction roots as [|r rs IH]; intros s vs s' H new E m I; simpl in H.
  - inversion H; subst. symmetry in E; apply (app_cancel new []) in E; subst. destruct I.
  - destruct (sample rng G fuel r s) as [[v s1]|] eqn:S1; [|discriminate].
    destruct (sample_all rng G fuel rs s1) as [[l s2]|] eqn:S2; [|discriminate]. inversion H; subst.
    pose proof (proj1 (main _) _ _ _ _ S1) as P. destruct (g_runs _ _ (p_grows _ _ _ _ P)) as (gr & GR & _).
    destruct (g_calls _ _ (p_grows _ _ _ _ P)) as (gc & GC).
    destruct (sample_all_spec _ _ _ _ _ S2) as (EG & _). destruct (g_runs _ _ EG) as (gr' & GR' & _). destruct (g_calls _ _ EG) as (gc' & GC').
    rewrite GR', GR, app_assoc in E. apply app_cancel in E. subst new. apply in_app_iff in I. destruct I as [I|I].
    + destruct (IH _ _ _ S2 _ GR' m I) as (c & A & B). exists (c ++ gc). rewrite A, GC, app_assoc. split; auto. apply in_app_iff; auto.
    + destruct (proj1 (runs_called fuel) _ _ _ _ S1 _ GR m I) as (c & A & B). exists (gc' ++ c). rewrite GC', A, app_assoc. split; auto. apply in_app_iff; auto.
Qed.
Lemma exec_grows fuel : forall c s v s', exec rng G fuel c s = Some (v, s') -> grows s s'.
Proof.
  induction c as [v|m k IH|k IH]; intros s v' s' H; simpl in H.
  - inversion H; subst. apply grows_refl.
  - destruct (sample rng G fuel m s) as [[v1 s1]|] eqn:SM; [|discriminate].
    eapply grows_trans; [exact (p_grows _ _ _ _ (proj1 (main _) _ _ _ _ SM))|eapply IH; eauto].
  - apply IH in H. destruct H as [A1 A2 A3 A4 A5]. simpl in *. constructor; simpl; auto. lia.
Qed.
(** every called node is flagged *)
Lemma calls_flagged fuel : (forall n s v s', sample rng G fuel n s = Some (v, s') -> forall new, calls s' = new ++ calls s ->
    forall m, In m new -> sampled s' m = true) /\
  forall c s v s', exec rng G fuel c s = Some (v, s') -> forall new, calls s' = new ++ calls s ->
    forall m, In m new -> sampled s' m = true.
Proof.
  assert (EX : forall fuel, (forall n s v s', sample rng G fuel n s = Some (v, s') -> forall new, calls s' = new ++ calls s ->
    forall m, In m new -> sampled s' m = true) -> forall c s v s', exec rng G fuel c s = Some (v, s') -> forall new, calls s' = new ++ calls s ->
    forall m, In m new -> sampled s' m = true).
  { clear fuel. intros fuel IHs. induction c as [v|m k IH|k IH]; intros s v' s' H new E q I; simpl in H.
    - inversion H; subst. symmetry in E; apply (app_cancel new []) in E; subst. destruct I.
    - destruct (sample rng G fuel m s) as [[v1 s1]|] eqn:SM; [|discriminate].
      pose proof (proj1 (main _) _ _ _ _ SM) as P. destruct (g_calls _ _ (p_grows _ _ _ _ P)) as (gc & GC).
      pose proof (exec_grows _ _ _ _ _ H) as EG. destruct (g_calls _ _ EG) as (gc' & GC').
      rewrite GC', GC, app_assoc in E. apply app_cancel in E. subst new. apply in_app_iff in I. destruct I as [I|I].
      + eapply IH; eauto.
      + apply (g_sampled _ _ EG). eapply IHs; eauto.
    - eapply IH in H; eauto. }
  induction fuel as [|fuel [IHs IHe]].
  { split; [intros; discriminate|]. apply EX. intros; discriminate. }
  assert (S1 : forall n s v s', sample rng G (S fuel) n s = Some (v, s') -> forall new, calls s' = new ++ calls s ->
    forall m, In m new -> sampled s' m = true).
  { intros n s v s' H new E m I. pose proof (proj1 (main _) _ _ _ _ H) as P. rewrite sample_eq in H. cbn zeta in H. cbn [sampled value pos calls runs] in H.
    destruct (sampled s n) eqn:F.
    - inversion H; subst. simpl in E. change (n :: calls s) with ([n] ++ calls s) in E. apply app_cancel in E; subst. destruct I as [->|[]]. auto.
    - destruct (exec rng G fuel (do_sample G n) _) as [[v1 s1]|] eqn:X; [|discriminate]. injection H as E1 E2. subst s'. simpl in *.
      pose proof (exec_grows _ _ _ _ _ X) as EG. destruct (g_calls _ _ EG) as (gc & GC). simpl in GC.
      rewrite GC in E. change (gc ++ n :: calls s) with (gc ++ [n] ++ calls s) in E. rewrite app_assoc in E. apply app_cancel in E. subst new.
      apply in_app_iff in I. destruct I as [I|[->|[]]].
      + eapply IHe; eauto.
      + exact (p_flag _ _ _ _ P). }
  split; [exact S1|]. apply EX, S1.
Qed.
Lemma sample_all_flagged fuel roots : forall s vs s', sample_all rng G fuel roots s = Some (vs, s') ->
  forall new, calls s' = new ++ calls s -> forall m, In m new -> sampled s' m = true.
Proof.
  induction roots as [|r rs IH]; intros s vs s' H new E m I; simpl in H.
  - inversion H; subst. symmetry in E; apply (app_cancel new []) in E; subst. destruct I.
  - destruct (sample rng G fuel r s) as [[v s1]|] eqn:S1; [|discriminate].
    destruct (sample_all rng G fuel rs s1) as [[l s2]|] eqn:S2; [|discriminate]. inversion H; subst.
    pose proof (proj1 (main _) _ _ _ _ S1) as P. destruct (g_calls _ _ (p_grows _ _ _ _ P)) as (gc & GC).
    destruct (sample_all_spec _ _ _ _ _ S2) as (EG & _). destruct (g_calls _ _ EG) as (gc' & GC').
    rewrite GC', GC, app_assoc in E. apply app_cancel in E. subst new. apply in_app_iff in I. destruct I as [I|I].
    + eapply IH; eauto.
    + apply (g_sampled _ _ EG). eapply (proj1 (calls_flagged fuel)); eauto.
Qed.
Lemma max_in l n : In n l -> rank n <= list_max (map rank l).
Proof.
  intros I. pose proof (proj1 (list_max_le (map rank l) _) (le_n _)) as F. rewrite Forall_forall in F. apply F. now apply in_map.
Qed.
(** every node called in a trial hangs on the roots through flagged nodes *)
Lemma called_via fuel roots f v p vs s' : sample_all rng G fuel roots (mkS f v p [] []) = Some (vs, s') ->
  forall m, In m (calls s') -> via G (sampled s') roots m.
Proof.
  intros H. pose proof (sample_all_spec _ _ _ _ _ H) as (EG & _ & _ & EC). simpl in EC.
  pose proof (sample_all_flagged _ _ _ _ _ H) as FL. simpl in FL. pose proof (sample_all_runs_called _ _ _ _ _ H) as RC. simpl in RC.
  assert (X : forall k m, list_max (map rank (runs s')) - rank m < k -> In m (calls s') -> via G (sampled s') roots m).
  { induction k as [|k IH]; intros m L I; [lia|].
    assert (F : sampled s' m = true) by (eapply FL; [now rewrite app_nil_r|auto]).
    destruct (EC (calls s') ltac:(now rewrite app_nil_r) m I) as [R|(q & A & l & E & J)]; [apply v_root; auto|].
    rewrite app_nil_r in E. subst l.
    destruct (RC (runs s') ltac:(now rewrite app_nil_r) q J) as (c & C1 & C2). rewrite app_nil_r in C1. subst c.
    apply (v_arg _ _ _ q); auto. apply IH; auto. pose proof (ACY _ _ A). pose proof (max_in _ _ J). lia. }
  intros m I. eapply X; eauto.
Qed.
Lemma runs_in_calls fuel roots f v p vs s' : sample_all rng G fuel roots (mkS f v p [] []) = Some (vs, s') ->
  forall m, In m (runs s') -> In m (calls s').
Proof.
  intros H m I. destruct (sample_all_runs_called _ _ _ _ _ H (runs s') ltac:(simpl; now rewrite app_nil_r) m I) as (c & C1 & C2).
  simpl in C1. rewrite app_nil_r in C1. now subst.
Qed.
End Proofs.
End Sampling.
Arguments prog : clear implicits.
Arguments graph : clear implicits.
Arguments state : clear implicits.
