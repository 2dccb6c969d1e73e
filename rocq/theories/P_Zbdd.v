(** C12, C13, C16: families of products computed by the ZBDD operations, in every state a
    manager can be in.
    Vocabulary (Zbdd.v, ZbddHistory.v): [fam t], the products of a diagram, read off its paths;
    [reach], the states after any sequence of operations; [wf], ordered and reduced; [antichain],
    no product contains another one; [minimal_in L p], p is a minimal member of L; [same],
    equality of sets of literals; [size], the number of literals that count towards the limit. *)
From Coq Require Import List ZArith Lia Bool.
Import ListNotations.
From Verif Require Import Zbdd ZbddProofs ZbddHistory.
Open Scope Z_scope.

Section Zbdd.
Context (ord : Z -> Z) (top : Z) (counted : Z -> bool) (ORD : ordering ord).
Notation wf := (Zbdd.wf ord top).
Notation size := (Zbdd.size counted).
Notation reach := (ZbddHistory.reach ord top counted).

(** ** C12 *)
(** OR of positive diagrams: the minimal products of the two families, up to the limit. *)
Theorem C12_or s f g k : reach s -> wf f -> wf g -> antichain f -> antichain g -> positive f -> positive g ->
  exists r s', apply_or ord top counted f g k s = Some (r, s') /\ wf r /\ positive r /\
    forall p, In p (fam r) <-> minimal_in (fam f ++ fam g) p /\ size p <= k.
Proof.
  intros R Wf Wg Af Ag Pf Pg. apply (reach_inv ord top counted ORD) in R.
  destruct (apply_or_ok ord top counted ORD f g k s R Wf Wg Af Ag) as (r & s' & E & _ & S).
  destruct (or_exact ord top counted f g k r) as [Pr F]; auto. exists r, s'. split; auto. split; [apply (o_wf _ _ _ _ _ _ _ S)|]. auto.
Qed.
(** AND of positive diagrams: every product of the result is a union of a product of the one and
    a product of the other within the limit, no product contains another one, and every such
    union contains a product of the result. *)
Theorem C12_and s f g k : reach s -> wf f -> wf g -> antichain f -> antichain g -> positive f -> positive g ->
  exists r s', apply_and ord top counted f g k s = Some (r, s') /\ wf r /\ positive r /\ antichain r /\
    (forall p, In p (fam r) -> size p <= k /\ exists a b, In a (fam f) /\ In b (fam g) /\ same p (a ++ b)) /\
    (forall a b, In a (fam f) -> In b (fam g) -> size (nodup Z.eq_dec (a ++ b)) <= k ->
       exists p, In p (fam r) /\ incl p (a ++ b)).
Proof.
  intros R Wf Wg Af Ag Pf Pg. apply (reach_inv ord top counted ORD) in R.
  destruct (apply_and_ok ord top counted ORD f g k s R Wf Wg Af Ag) as (r & s' & E & _ & S).
  destruct (and_exact ord top counted f g k r) as (Pr & F & H); auto. exists r, s'. split; auto. split; [apply (a_wf _ _ _ _ _ _ _ S)|]. auto.
Qed.
(** With complements: a product of the result is an implicant of the conjunction (disjunction)
    of the two sums of products, and a consistent set of literals within the limit which is
    covered by the arguments is covered by the result. *)
Theorem C12_and_signed s f g k : reach s -> wf f -> wf g -> antichain f -> antichain g ->
  exists r s', apply_and ord top counted f g k s = Some (r, s') /\ wf r /\ antichain r /\
    (forall p, In p (fam r) -> size p <= k) /\
    (forall p v, In p (fam r) -> assignment v -> (forall i, In i p -> v i = true) ->
       (exists a, In a (fam f) /\ forall i, In i a -> v i = true) /\
       (exists b, In b (fam g) /\ forall i, In i b -> v i = true)) /\
    (forall x a b, NoDup x -> consistent x -> size x <= k -> In a (fam f) -> In b (fam g) -> incl a x -> incl b x ->
       exists p, In p (fam r) /\ incl p x).
Proof.
  intros R Wf Wg Af Ag. apply (reach_inv ord top counted ORD) in R.
  destruct (apply_and_ok ord top counted ORD f g k s R Wf Wg Af Ag) as (r & s' & E & _ & [? ? ? ? S C]).
  exists r, s'. do 4 (split; auto). split.
  - intros p v P A H. destruct (S v A) as [X Y]; [apply ev_fam; eauto|]. apply ev_fam in X, Y. auto.
  - intros x a b N K L A B IA IB. apply ev_mem. apply C; auto; apply ev_mem; eauto.
Qed.
Theorem C12_or_signed s f g k : reach s -> wf f -> wf g -> antichain f -> antichain g ->
  exists r s', apply_or ord top counted f g k s = Some (r, s') /\ wf r /\ antichain r /\
    (forall p, In p (fam r) -> size p <= k) /\
    (forall p v, In p (fam r) -> assignment v -> (forall i, In i p -> v i = true) ->
       exists a, In a (fam f ++ fam g) /\ forall i, In i a -> v i = true) /\
    (forall x a, NoDup x -> consistent x -> size x <= k -> In a (fam f ++ fam g) -> incl a x ->
       exists p, In p (fam r) /\ incl p x).
Proof.
  intros R Wf Wg Af Ag. apply (reach_inv ord top counted ORD) in R.
  destruct (apply_or_ok ord top counted ORD f g k s R Wf Wg Af Ag) as (r & s' & E & _ & [? ? ? ? S C]).
  exists r, s'. do 4 (split; auto). split.
  - intros p v P A H. destruct (S v A) as [X|X]; [apply ev_fam; eauto| |]; apply ev_fam in X as (a & X & Y);
      exists a; split; auto; apply in_app_iff; auto.
  - intros x a N K L A IA. apply ev_mem. apply C; auto. apply in_app_iff in A as [A|A]; [left|right]; apply ev_mem; eauto.
Qed.
(** A family has one diagram. *)
Theorem C12_canonical a b : wf a -> wf b -> (forall p, In p (fam a) <-> In p (fam b)) -> a = b.
Proof. apply canonical. exact counted. Qed.
(** Replacing constant modules: the products without the true ones, minimised; products with a
    false one are dropped. *)
Theorem C12_constant_modules s t limit const : reach s -> wf t ->
  (forall p i, In p (fam t) -> In i p -> const i = None -> 0 < i) ->
  (forall p, In p (fam t) -> size p <= limit) ->
  exists r s', eliminate_constants ord top counted limit const t s = Some (r, s') /\ wf r /\ positive r /\
    forall p, In p (fam r) <->
      minimal_in (map (filter (fun i => match const i with None => true | _ => false end))
                   (filter (forallb (fun i => match const i with Some false => false | _ => true end)) (fam t))) p.
Proof.
  intros R W P S. apply (reach_inv ord top counted ORD) in R.
  destruct (eliminate_ok ord top counted ORD limit const t s R W) as (r & s' & E & _ & Wr & Pr & _ & F).
  - intros j (p & Q & J). eauto.
  - intros p Q. eapply Z.le_trans; [|apply S; exact Q]. apply size_incl; [|intros i I; apply filter_In in I as [I _]; auto].
    apply NoDup_filter. apply (nodup_fam ord top counted t W); auto.
  - exists r, s'. split; auto.
Qed.

(** ** C13 *)
(** Minimisation keeps exactly the products which contain no other product. *)
Theorem C13_minimize s t : reach s -> wf t ->
  exists r s', minimize ord top t s = Some (r, s') /\ wf r /\ forall p, In p (fam r) <-> minimal_in (fam t) p.
Proof.
  intros R W. apply (reach_inv ord top counted ORD) in R. destruct (minimize_ok ord top counted ORD t s R W) as (r & s' & E & _ & Wr & F).
  exists r, s'. auto.
Qed.
(** Subsumption removes exactly the products which contain a product of the other family. *)
Theorem C13_subsume s h l : reach s -> wf h -> wf l -> antichain h ->
  exists r s', subsume ord top h l s = Some (r, s') /\ wf r /\
    forall p, In p (fam r) <-> In p (fam h) /\ ~ exists q, In q (fam l) /\ incl q p.
Proof.
  intros R Wh Wl A. apply (reach_inv ord top counted ORD) in R.
  destruct (subsume_ok ord top counted ORD h l s R Wh Wl A) as (r & s' & E & _ & Wr & F). exists r, s'. auto.
Qed.

(** ** C16 *)
(** Pruning keeps exactly the products within the limit. *)
Theorem C16_prune s t k : reach s -> wf t -> antichain t ->
  exists r s', prune ord top counted t k s = Some (r, s') /\ wf r /\ forall p, In p (fam r) <-> In p (fam t) /\ size p <= k.
Proof.
  intros R W A. apply (reach_inv ord top counted ORD) in R.
  destruct (prune_ok ord top counted ORD t k s R W A) as (r & s' & E & _ & Wr & F). exists r, s'. auto.
Qed.
(** AND and OR with a limit give the products within the limit of AND and OR with a larger one. *)
Theorem C16_and_or s s2 f g k k' : reach s -> reach s2 -> wf f -> wf g -> antichain f -> antichain g -> positive f -> positive g -> k <= k' ->
  (exists r1 r2 t1 t2, apply_and ord top counted f g k s = Some (r1, t1) /\ apply_and ord top counted f g k' s2 = Some (r2, t2) /\
     forall p, In p (fam r1) <-> In p (fam r2) /\ size p <= k) /\
  (exists r1 r2 t1 t2, apply_or ord top counted f g k s = Some (r1, t1) /\ apply_or ord top counted f g k' s2 = Some (r2, t2) /\
     forall p, In p (fam r1) <-> In p (fam r2) /\ size p <= k).
Proof.
  intros R R2 Wf Wg Af Ag Pf Pg K. apply (reach_inv ord top counted ORD) in R, R2. split.
  - destruct (apply_and_ok ord top counted ORD f g k s R Wf Wg Af Ag) as (r & t1 & E & _ & S).
    destruct (apply_and_ok ord top counted ORD f g k' s2 R2 Wf Wg Af Ag) as (r' & t2 & E' & _ & S').
    exists r, r', t1, t2. split; auto. split; auto. apply (and_limit ord top counted f g k k' r r'); auto.
  - destruct (apply_or_ok ord top counted ORD f g k s R Wf Wg Af Ag) as (r & t1 & E & _ & S).
    destruct (apply_or_ok ord top counted ORD f g k' s2 R2 Wf Wg Af Ag) as (r' & t2 & E' & _ & S').
    exists r, r', t1, t2. split; auto. split; auto. intros p.
    destruct (or_exact ord top counted f g k r) as [_ F]; auto. destruct (or_exact ord top counted f g k' r') as [_ F']; auto.
    rewrite F, F'. split; [intros [M L]; repeat split; try apply M; lia|tauto].
Qed.
End Zbdd.

(** A concrete case: {1 2, 3} and {1, 2 3} over the order of the indices, after some history. *)
Definition ord0 : Z -> Z := Z.abs.
Definition all (_ : Z) : bool := true.
Definition f0 : zt := ZN 1 (ZN 2 ZB ZE) (ZN 3 ZB ZE).
Definition g0 : zt := ZN 1 ZB (ZN 2 (ZN 3 ZB ZE) ZE).
Lemma ord0_ok : ordering ord0.
Proof. intros i j Hi Hj. unfold ord0. lia. Qed.
Example zbdd_args : fam f0 = [[1; 2]; [3]] /\ fam g0 = [[1]; [2; 3]] /\ Zbdd.wf ord0 9 f0 /\ Zbdd.wf ord0 9 g0 /\
  antichain f0 /\ antichain g0 /\ positive f0 /\ positive g0.
Proof.
  assert (D : forall a b : Z, {a = b} + {a <> b}) by apply Z.eq_dec.
  split; [reflexivity|]. split; [reflexivity|].
  split; [simpl; unfold before, ord0; repeat split; try discriminate; lia|].
  split; [simpl; unfold before, ord0; repeat split; try discriminate; lia|].
  split; [|split; [|split]].
  - intros p q [<-|[<-|[]]] [<-|[<-|[]]] I; auto; exfalso; pose proof (I 1); pose proof (I 3); simpl in *; intuition lia.
  - intros p q [<-|[<-|[]]] [<-|[<-|[]]] I; auto; exfalso; pose proof (I 1); pose proof (I 3); simpl in *; intuition lia.
  - intros p i [<-|[<-|[]]]; simpl; intuition lia.
  - intros p i [<-|[<-|[]]]; simpl; intuition lia.
Qed.
Definition s0 : state := match apply_or ord0 9 all f0 g0 2 start with Some (_, s) => s | None => start end.
Example zbdd_reach : reach ord0 9 all s0.
Proof.
  destruct zbdd_args as (_ & _ & Wf & Wg & Af & Ag & _). destruct (apply_or ord0 9 all f0 g0 2 start) as [[r s]|] eqn:E; [|vm_compute in E; discriminate].
  unfold s0. rewrite E. apply (reach_or ord0 9 all start f0 g0 2 r s); auto. constructor.
Qed.
Example zbdd_and : exists r s, apply_and ord0 9 all f0 g0 2 s0 = Some (r, s) /\ fam r = [[1; 2]; [1; 3]; [2; 3]].
Proof. eexists. eexists. split; vm_compute; reflexivity. Qed.
Example zbdd_or : exists r s, apply_or ord0 9 all f0 g0 1 s0 = Some (r, s) /\ fam r = [[1]; [3]].
Proof. eexists. eexists. split; vm_compute; reflexivity. Qed.
(** x + ¬x = 1; AND with a limit; constants. *)
Example zbdd_complement : exists s, apply_or ord0 9 all (ZN 1 ZB ZE) (ZN (-1) ZB ZE) 5 start = Some (ZB, s).
Proof. eexists. vm_compute. reflexivity. Qed.
Example zbdd_const : exists r s, eliminate_constants ord0 9 all 5 (fun i => if i =? 1 then Some true else if i =? 2 then Some false else None) g0 s0 = Some (r, s)
  /\ fam r = [[]].
Proof. eexists. eexists. split; vm_compute; reflexivity. Qed.
