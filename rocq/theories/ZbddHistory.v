(** Histories of a ZBDD manager and the exact families computed by its operations on positive
    diagrams (derived from ZbddProofs.v). *)
From Coq Require Import List ZArith Lia Bool Sorting.Sorted.
Import ListNotations.
From Verif Require Import Zbdd ZbddProofs.
Open Scope Z_scope.

(** States of a manager: any sequence of the operations of zbdd.cc on ordered, reduced diagrams.
    The arguments of AND, OR, Subsume (the first one) and Prune are minimised diagrams. *)
Inductive reach (ord : Z -> Z) (top : Z) (counted : Z -> bool) : state -> Prop :=
| reach_start : reach ord top counted start
| reach_clear s : reach ord top counted s -> reach ord top counted (clear s)
| reach_and s f g k r s' : reach ord top counted s -> wf ord top f -> wf ord top g -> antichain f -> antichain g ->
    apply_and ord top counted f g k s = Some (r, s') -> reach ord top counted s'
| reach_or s f g k r s' : reach ord top counted s -> wf ord top f -> wf ord top g -> antichain f -> antichain g ->
    apply_or ord top counted f g k s = Some (r, s') -> reach ord top counted s'
| reach_minimize s t r s' : reach ord top counted s -> wf ord top t ->
    minimize ord top t s = Some (r, s') -> reach ord top counted s'
| reach_subsume s h l r s' : reach ord top counted s -> wf ord top h -> wf ord top l -> antichain h ->
    subsume ord top h l s = Some (r, s') -> reach ord top counted s'
| reach_prune s t k r s' : reach ord top counted s -> wf ord top t -> antichain t ->
    prune ord top counted t k s = Some (r, s') -> reach ord top counted s'.

(** Two lists of the same elements *)
Definition same (p q : list Z) : Prop := incl p q /\ incl q p.
(** Only positive literals *)
Definition positive (t : zt) : Prop := forall p i, In p (fam t) -> In i p -> 0 < i.
(** The minimal members of a list of products *)
Definition minimal_in (L : list (list Z)) (p : list Z) : Prop := In p L /\ forall q, In q L -> incl q p -> q = p.

Section Hist.
Context (ord : Z -> Z) (top : Z) (counted : Z -> bool) (ORD : ordering ord).
Notation wf := (Zbdd.wf ord top).
Notation size := (Zbdd.size counted).
Notation before := (Zbdd.before ord).
Notation inv := (ZbddProofs.inv ord top counted).
Notation reach := (reach ord top counted).

Lemma runs_some {A} (m : M A) s Q a s' : runs m s Q -> m s = Some (a, s') -> Q a s'.
Proof. intros (b & t & E & H) E'. rewrite E in E'. injection E' as <- <-. auto. Qed.
Lemma reach_inv s : reach s -> inv s.
Proof.
  induction 1 as [|s R IH|s f g k r s' R IH Wf Wg Af Ag E|s f g k r s' R IH Wf Wg Af Ag E|s t r s' R IH W E
                 |s h l r s' R IH Wh Wl A E|s t k r s' R IH W A E].
  - apply inv_start.
  - apply inv_clear; auto.
  - apply (runs_some _ _ _ _ _ (apply_and_ok ord top counted ORD f g k s IH Wf Wg Af Ag) E).
  - apply (runs_some _ _ _ _ _ (apply_or_ok ord top counted ORD f g k s IH Wf Wg Af Ag) E).
  - apply (runs_some _ _ _ _ _ (minimize_ok ord top counted ORD t s IH W) E).
  - apply (runs_some _ _ _ _ _ (subsume_ok ord top counted ORD h l s IH Wh Wl A) E).
  - apply (runs_some _ _ _ _ _ (prune_ok ord top counted ORD t k s IH W A) E).
Qed.

(** ** Sorted products *)
Lemma before_asym i j : before i j -> before j i -> False.
Proof. unfold Zbdd.before. lia. Qed.
Lemma sorted_fam t : wf t -> forall p, In p (fam t) -> StronglySorted before p.
Proof.
  induction t as [| |i h IHh l IHl]; intros W p P; [destruct P|destruct P as [<-|[]]; constructor|].
  apply in_fam in P as [(p' & -> & P)|P].
  - constructor; [apply IHh; auto; apply (wf_high ord top counted _ _ _ W)|]. apply Forall_forall. intros j J. left.
    exact (wf_above ord top _ _ _ W p' j P J).
  - apply IHl; auto. apply (wf_low ord top counted _ _ _ W).
Qed.
Lemma sorted_same p q : StronglySorted before p -> StronglySorted before q -> same p q -> p = q.
Proof.
  revert q. induction p as [|a p IH]; intros [|b q] Sp Sq [H1 H2]; auto.
  - destruct (H2 b); simpl; auto.
  - destruct (H1 a); simpl; auto.
  - apply StronglySorted_inv in Sp as [Sp Fp]. apply StronglySorted_inv in Sq as [Sq Fq].
    rewrite Forall_forall in Fp, Fq.
    assert (E : a = b).
    { destruct (H1 a) as [E|E]; simpl; auto. destruct (H2 b) as [E'|E']; simpl; auto.
      exfalso. apply (before_asym a b); auto. }
    subst b. f_equal. apply IH; auto. split; intros x X.
    + destruct (H1 x) as [E|E]; simpl; auto. subst x. exfalso. apply (before_asym a a); auto.
    + destruct (H2 x) as [E|E]; simpl; auto. subst x. exfalso. apply (before_asym a a); auto.
Qed.
Lemma sorted_nodup p : StronglySorted before p -> NoDup p.
Proof.
  induction 1 as [|a p S IH F]; constructor; auto. intros I. rewrite Forall_forall in F. apply (before_asym a a); auto.
Qed.
Definition sorted (L : list (list Z)) : Prop := forall p, In p L -> StronglySorted before p.
Lemma minimal_exists L : sorted L -> forall p, In p L -> exists q, minimal_in L q /\ incl q p.
Proof.
  intros SL p. remember (length p) as n eqn:E. revert p E. induction n as [n IH] using lt_wf_ind. intros p -> P.
  assert (D : forall F, (exists x, In x F /\ incl x p /\ ~ incl p x) \/ ~ exists x, In x F /\ incl x p /\ ~ incl p x).
  { intros F. induction F as [|x F IHF]; [right; intros (x & [] & _)|].
    destruct IHF as [(y & Y & H)|N]; [left; exists y; simpl; auto|].
    destruct (incl_decz x p) as [H1|H1]; [destruct (incl_decz p x) as [H2|H2]|].
    - right. intros (y & [<-|Y] & H3 & H4); [contradiction|]. apply N. eauto.
    - left. exists x. simpl; auto.
    - right. intros (y & [<-|Y] & H3 & H4); [contradiction|]. apply N. eauto. }
  destruct (D L) as [(x & X & H1 & H2)|N].
  - destruct (IH (length x)) with (p := x) as (q & Q & Q1); auto.
    + assert (length x <= length p)%nat by (apply NoDup_incl_length; auto; apply sorted_nodup; auto).
      destruct (Nat.eq_dec (length x) (length p)); [|lia]. exfalso. apply H2.
      apply NoDup_length_incl; auto; [apply sorted_nodup; auto|lia].
    + exists q. split; auto. eapply incl_tran; eauto.
  - exists p. split; [|apply incl_refl]. split; auto. intros x X H. apply sorted_same; auto. split; auto.
    destruct (incl_decz p x); auto. exfalso. apply N. eauto.
Qed.

(** ** The assignment of a positive product *)
Definition point (p : list Z) (i : Z) : bool := if 0 <? i then mem p i else negb (mem p (- i)).
Lemma point_assignment p : assignment (point p).
Proof.
  intros i N. unfold point. destruct (Z.ltb_spec 0 i), (Z.ltb_spec 0 (- i)); try lia; rewrite ?Z.opp_involutive, ?negb_involutive; auto.
Qed.
Lemma point_ev p t : positive t -> ev (point p) t = ev (mem p) t.
Proof.
  intros T. apply eq_true_iff_eq. rewrite !ev_fam. split; intros (q & Q & H); exists q; split; auto; intros i I;
    specialize (H i I); specialize (T q i Q I); unfold point in *; (destruct (Z.ltb_spec 0 i); [auto|lia]).
Qed.
Lemma positive_lits t : (forall j, lits t j -> 0 < j) -> positive t.
Proof. intros H p i P I. apply H. exists p. auto. Qed.
Lemma lits_positive t j : positive t -> lits t j -> 0 < j.
Proof. intros H (p & P & I). eauto. Qed.
Lemma pos_consistent p : (forall i, In i p -> 0 < i) -> consistent p.
Proof. intros H i I J. apply H in I. apply H in J. lia. Qed.
Lemma size_nodup_incl p q : NoDup p -> incl p q -> size p <= size q.
Proof. apply size_incl. Qed.

(** ** Exact families *)
Lemma or_exact f g k r : wf f -> wf g -> positive f -> positive g -> or_spec ord top counted f g k r ->
  positive r /\ forall p, In p (fam r) <-> minimal_in (fam f ++ fam g) p /\ size p <= k.
Proof.
  intros Wf Wg Pf Pg S. pose proof (o_wf _ _ _ _ _ _ _ S) as Wr.
  assert (Pr : positive r).
  { apply positive_lits. intros j J. destruct (o_lits _ _ _ _ _ _ _ S j J); [apply (lits_positive f)|apply (lits_positive g)]; auto. }
  split; auto.
  assert (SL : sorted (fam f ++ fam g)) by (intros p P; apply in_app_iff in P as [P|P]; [apply (sorted_fam f)|apply (sorted_fam g)]; auto).
  assert (PL : forall p i, In p (fam f ++ fam g) -> In i p -> 0 < i) by (intros p i P; apply in_app_iff in P as [P|P]; eauto).
  assert (HS : forall p, In p (fam r) -> exists q, In q (fam f ++ fam g) /\ incl q p).
  { intros p P. assert (E : ev (point p) r = true) by (rewrite point_ev by auto; apply ev_mem; exists p; split; [auto|apply incl_refl]).
    destruct (o_sound _ _ _ _ _ _ _ S _ (point_assignment p) E) as [X|X]; rewrite point_ev in X by auto;
      apply ev_mem in X as (q & Q & I); exists q; split; auto; apply in_app_iff; auto. }
  assert (HC : forall p, In p (fam f ++ fam g) -> size p <= k -> exists q, In q (fam r) /\ incl q p).
  { intros p P K. apply ev_mem. apply (o_complete _ _ _ _ _ _ _ S); auto.
    - apply sorted_nodup; auto.
    - apply pos_consistent. eauto.
    - apply in_app_iff in P as [P|P]; [left|right]; apply ev_mem; exists p; split; auto using incl_refl. }
  assert (HM : forall p, In p (fam r) -> In p (fam f ++ fam g)).
  { intros p P. destruct (HS p P) as (q & Q & I).
    assert (K : size q <= k) by (pose proof (o_size _ _ _ _ _ _ _ S p P); pose proof (size_nodup_incl q p (sorted_nodup q (SL q Q)) I); lia).
    destruct (HC q Q K) as (p' & P' & I'). assert (p' = p) by (apply (o_anti _ _ _ _ _ _ _ S); auto; eapply incl_tran; eauto). subst p'.
    rewrite (sorted_same p q); auto; [apply (sorted_fam r); auto|split; auto]. }
  intros p. split.
  - intros P. split; [split; auto|apply (o_size _ _ _ _ _ _ _ S); auto]. intros q Q I.
    assert (K : size q <= k) by (pose proof (o_size _ _ _ _ _ _ _ S p P); pose proof (size_nodup_incl q p (sorted_nodup q (SL q Q)) I); lia).
    destruct (HC q Q K) as (p' & P' & I'). assert (p' = p) by (apply (o_anti _ _ _ _ _ _ _ S); auto; eapply incl_tran; eauto). subst p'.
    apply sorted_same; auto. split; auto.
  - intros [[P M] K]. destruct (HC p P K) as (q & Q & I). rewrite <- (M q); auto.
Qed.

(** The union of two products, as a product. *)
Lemma and_exact f g k r : wf f -> wf g -> positive f -> positive g -> and_spec ord top counted f g k r ->
  positive r /\ antichain r /\
  (forall p, In p (fam r) -> size p <= k /\ exists a b, In a (fam f) /\ In b (fam g) /\ same p (a ++ b)) /\
  (forall a b, In a (fam f) -> In b (fam g) -> size (nodup Z.eq_dec (a ++ b)) <= k -> exists p, In p (fam r) /\ incl p (a ++ b)).
Proof.
  intros Wf Wg Pf Pg S. pose proof (a_wf _ _ _ _ _ _ _ S) as Wr.
  assert (Pr : positive r).
  { apply positive_lits. intros j J. destruct (a_lits _ _ _ _ _ _ _ S j J); [apply (lits_positive f)|apply (lits_positive g)]; auto. }
  assert (HC : forall a b, In a (fam f) -> In b (fam g) -> size (nodup Z.eq_dec (a ++ b)) <= k -> exists p, In p (fam r) /\ incl p (a ++ b)).
  { intros a b A B K. destruct (proj1 (ev_mem (nodup Z.eq_dec (a ++ b)) r)) as (p & P & I).
    - apply (a_complete _ _ _ _ _ _ _ S); auto.
      + apply NoDup_nodup.
      + apply pos_consistent. intros i I. apply nodup_In, in_app_iff in I as [I|I]; eauto.
      + apply ev_mem. exists a. split; auto. intros i I. apply nodup_In, in_app_iff. auto.
      + apply ev_mem. exists b. split; auto. intros i I. apply nodup_In, in_app_iff. auto.
    - exists p. split; auto. intros i X. apply I, nodup_In in X. auto. }
  split; auto. split; [apply (a_anti _ _ _ _ _ _ _ S)|]. split; auto.
  intros p P. pose proof (a_size _ _ _ _ _ _ _ S p P) as K. split; auto.
  assert (E : ev (point p) r = true) by (rewrite point_ev by auto; apply ev_mem; exists p; split; [auto|apply incl_refl]).
  destruct (a_sound _ _ _ _ _ _ _ S _ (point_assignment p) E) as [X Y]. rewrite point_ev in X, Y by auto.
  apply ev_mem in X as (a & A & IA). apply ev_mem in Y as (b & B & IB).
  exists a, b. split; auto. split; auto.
  assert (IAB : incl (a ++ b) p) by (intros i I; apply in_app_iff in I as [I|I]; auto).
  destruct (HC a b A B) as (q & Q & I).
  - assert (size (nodup Z.eq_dec (a ++ b)) <= size p); [|lia]. apply size_nodup_incl; [apply NoDup_nodup|].
    intros i I. apply nodup_In in I. auto.
  - assert (q = p) by (apply (a_anti _ _ _ _ _ _ _ S); auto; eapply incl_tran; eauto). subst q. split; auto.
Qed.

(** Dropping products over the limit commutes with the operations. *)
Lemma and_limit f g k k' r r' : wf f -> wf g -> positive f -> positive g -> k <= k' ->
  and_spec ord top counted f g k r -> and_spec ord top counted f g k' r' ->
  forall p, In p (fam r) <-> In p (fam r') /\ size p <= k.
Proof.
  intros Wf Wg Pf Pg K S S'. pose proof (a_wf _ _ _ _ _ _ _ S) as Wr. pose proof (a_wf _ _ _ _ _ _ _ S') as Wr'.
  destruct (and_exact f g k r) as (P1 & A1 & B1 & C1); auto. destruct (and_exact f g k' r') as (P2 & A2 & B2 & C2); auto.
  assert (HU : forall p a b, (In p (fam r) \/ In p (fam r')) -> In a (fam f) -> In b (fam g) -> incl (a ++ b) p -> size (nodup Z.eq_dec (a ++ b)) <= size p).
  { intros p a b P A B I. apply size_nodup_incl; [apply NoDup_nodup|]. intros i J. apply nodup_In in J. auto. }
  intros p. split.
  - intros P. destruct (B1 p P) as (L & a & b & A & B & E). split; auto.
    destruct (C2 a b A B) as (q & Q & I); [specialize (HU p a b (or_introl P) A B (proj2 E)); lia|].
    destruct (B2 q Q) as (L' & a' & b' & A' & B' & E').
    assert (IQ : incl q p) by (eapply incl_tran; [exact I|apply E]).
    destruct (C1 a' b' A' B') as (q' & Q' & I').
    { specialize (HU q a' b' (or_intror Q) A' B' (proj2 E')).
      pose proof (size_nodup_incl q p (nodup_fam ord top counted r' Wr' q Q) IQ). lia. }
    assert (q' = p) by (apply A1; auto; eapply incl_tran; [exact I'|]; eapply incl_tran; [apply E'|auto]). subst q'.
    rewrite (sorted_same p q); auto; [apply (sorted_fam r); auto|apply (sorted_fam r'); auto|].
    split; auto. eapply incl_tran; [exact I'|apply E'].
  - intros [P L]. destruct (B2 p P) as (_ & a & b & A & B & E).
    destruct (C1 a b A B) as (q & Q & I); [specialize (HU p a b (or_intror P) A B (proj2 E)); lia|].
    destruct (B1 q Q) as (L' & a' & b' & A' & B' & E').
    assert (IQ : incl q p) by (eapply incl_tran; [exact I|apply E]).
    destruct (C2 a' b' A' B') as (q' & Q' & I').
    { specialize (HU q a' b' (or_introl Q) A' B' (proj2 E')). lia. }
    assert (q' = p) by (apply A2; auto; eapply incl_tran; [exact I'|]; eapply incl_tran; [apply E'|auto]). subst q'.
    rewrite (sorted_same p q); auto; [apply (sorted_fam r'); auto|apply (sorted_fam r); auto|].
    split; auto. eapply incl_tran; [exact I'|apply E'].
Qed.

(** ** Families with the same upward closure have the same minimal products *)
Definition covers (L : list (list Z)) (x : list Z) : Prop := exists p, In p L /\ incl p x.
Lemma minimal_up L1 L2 : sorted L1 -> sorted L2 -> (forall x, covers L1 x <-> covers L2 x) ->
  forall p, minimal_in L1 p <-> minimal_in L2 p.
Proof.
  assert (H : forall L1 L2, sorted L1 -> sorted L2 -> (forall x, covers L1 x <-> covers L2 x) ->
    forall p, minimal_in L1 p -> minimal_in L2 p).
  { clear L1 L2. intros L1 L2 S1 S2 C p [P M]. destruct (proj1 (C p)) as (q & Q & I); [exists p; auto using incl_refl|].
    destruct (proj2 (C q)) as (p' & P' & I'); [exists q; auto using incl_refl|].
    assert (p' = p) by (apply M; auto; eapply incl_tran; eauto). subst p'.
    assert (E : q = p) by (apply sorted_same; auto; split; auto). subst q.
    split; auto. intros q Q1 I1. destruct (proj2 (C q)) as (p' & P1 & I2); [exists q; auto using incl_refl|].
    assert (p' = p) by (apply M; auto; eapply incl_tran; eauto). subst p'. apply sorted_same; auto. split; auto. }
  intros S1 S2 C p. split; apply H; auto. intros x. symmetry. apply C.
Qed.
Lemma covers_min L L' : sorted L -> (forall p, In p L' <-> minimal_in L p) -> forall x, covers L' x <-> covers L x.
Proof.
  intros S H x. split; intros (p & P & I).
  - apply H in P as [P _]. exists p. auto.
  - destruct (minimal_exists L S p P) as (q & Q & J). exists q. split; [apply H; auto|eapply incl_tran; eauto].
Qed.
Lemma covers_ev t x : covers (fam t) x <-> ev (mem x) t = true.
Proof. unfold covers. rewrite ev_mem. tauto. Qed.

(** ** Substitution of constants *)
Section Eliminate.
Context (limit : Z) (const : Z -> option bool).
(** A product without the literals that are constant; None if one of them is false. *)
Definition alive (p : list Z) : bool := forallb (fun i => match const i with Some false => false | _ => true end) p.
Definition remaining (p : list Z) : list Z := filter (fun i => match const i with None => true | _ => false end) p.
Definition projected (L : list (list Z)) : list (list Z) := map remaining (filter alive L).

Lemma in_projected L x : In x (projected L) <-> exists p, In p L /\ alive p = true /\ x = remaining p.
Proof.
  unfold projected. rewrite in_map_iff. setoid_rewrite filter_In. split.
  - intros (p & <- & P & A). eauto.
  - intros (p & P & A & ->). eauto.
Qed.
Lemma projected_node i h l x : In x (projected (fam (ZN i h l))) <->
  match const i with None => exists x', x = i :: x' /\ In x' (projected (fam h)) | Some true => In x (projected (fam h)) | Some false => False end
  \/ In x (projected (fam l)).
Proof.
  rewrite in_projected. split.
  - intros (p & P & A & ->). apply in_fam in P as [(p' & -> & P)|P].
    + left. simpl in A. apply andb_true_iff in A as [A1 A2]. simpl. destruct (const i) as [[]|]; try discriminate.
      * apply in_projected. eauto.
      * eexists. split; [reflexivity|]. apply in_projected. eauto.
    + right. apply in_projected. eauto.
  - rewrite (in_projected (fam l)). intros [H|(p & P & A & ->)].
    + destruct (const i) as [[]|] eqn:E; [|contradiction|].
      * apply in_projected in H as (p & P & A & ->). exists (i :: p). split; [apply in_fam; eauto|]. simpl. rewrite E. auto.
      * destruct H as (x' & -> & H). apply in_projected in H as (p & P & A & ->). exists (i :: p).
        split; [apply in_fam; eauto|]. simpl. rewrite E. auto.
    + exists p. split; auto. apply in_fam. auto.
Qed.
Lemma sorted_filter (f : Z -> bool) p : StronglySorted before p -> StronglySorted before (filter f p).
Proof.
  induction 1 as [|a p S IH F]; simpl; [constructor|]. destruct (f a); auto. constructor; auto.
  rewrite Forall_forall in *. intros x X. apply filter_In in X as [X _]. auto.
Qed.
Lemma sorted_projected t : wf t -> sorted (projected (fam t)).
Proof. intros W x X. apply in_projected in X as (p & P & _ & ->). apply sorted_filter. apply (sorted_fam t); auto. Qed.
Lemma antichain_min r L : (forall p, In p (fam r) <-> minimal_in L p) -> antichain r.
Proof. intros H p q P Q I. apply H in Q as [_ Q]. apply H in P as [P _]. auto. Qed.

Lemma eliminate_ok t : forall s, inv s -> wf t -> (forall j, lits t j -> const j = None -> 0 < j) ->
  (forall p, In p (fam t) -> size (remaining p) <= limit) ->
  runs (eliminate_constants ord top counted limit const t) s (fun r s' => inv s' /\ wf r /\ positive r /\
    (forall j, lits r j -> lits t j) /\ forall p, In p (fam r) <-> minimal_in (projected (fam t)) p).
Proof.
  induction t as [| |i h IHh l IHl]; intros s I W P S; cbn [eliminate_constants].
  - apply runs_ret. split; auto. split; auto. split; [intros p i []|]. split; auto. intros p. unfold minimal_in. simpl. tauto.
  - apply runs_ret. split; auto. split; auto. split; [intros p i [<-|[]] []|]. split; auto. intros p. unfold minimal_in. simpl.
    split; [|tauto]. intros [<-|[]]. split; auto. intros q [<-|[]]; auto.
  - pose proof (wf_high ord top counted _ _ _ W) as Wh. pose proof (wf_low ord top counted _ _ _ W) as Wl.
    assert (Sh : forall p, In p (fam h) -> size (remaining p) <= limit).
    { intros p Q. assert (X : size (remaining (i :: p)) <= limit) by (apply S; apply in_fam; eauto). revert X. simpl.
      destruct (const i); auto. rewrite size_cons. pose proof (cost_range counted i). lia. }
    apply runs_seq with (1 := IHh s I Wh (fun j J => P j (lits_high i h l j J)) Sh).
    intros h' s1 (I1 & Wh' & Ph' & Lh' & Fh').
    apply runs_seq with (1 := IHl s1 I1 Wl (fun j J => P j (lits_low i h l j J)) (fun p Q => S p (proj2 (in_fam i h l p) (or_intror Q)))).
    intros l' s2 (I2 & Wl' & Pl' & Ll' & Fl').
    pose proof (sorted_projected h Wh) as SPh. pose proof (sorted_projected l Wl) as SPl. pose proof (sorted_projected _ W) as SP.
    pose proof (covers_min _ _ SPh Fh') as Ch. pose proof (covers_min _ _ SPl Fl') as Cl.
    destruct (const i) as [[]|] eqn:Ec.
    + eapply runs_mono; [apply (apply_or_ok ord top counted ORD h' l' limit s2 I2 Wh' Wl'); eapply antichain_min; eauto|].
      intros r s3 (I3 & O). destruct (or_exact h' l' limit r) as (Pr & Fr); auto.
      split; auto. split; [apply (o_wf _ _ _ _ _ _ _ O)|]. split; auto. split.
      { intros j J. destruct (o_lits _ _ _ _ _ _ _ O j J) as [J'|J']; [apply lits_high|apply lits_low]; auto. }
      assert (MU : forall p, minimal_in (fam h' ++ fam l') p <-> minimal_in (projected (fam (ZN i h l))) p).
      { apply minimal_up; auto.
        - intros p Q. apply in_app_iff in Q as [Q|Q]; [apply (sorted_fam h')|apply (sorted_fam l')]; auto.
        - intros x. split.
          + intros (p & Q & J). apply in_app_iff in Q as [Q|Q].
            * apply Fh' in Q as [Q _]. exists p. split; auto. apply projected_node. rewrite Ec. auto.
            * apply Fl' in Q as [Q _]. exists p. split; auto. apply projected_node. auto.
          + intros (p & Q & J). apply projected_node in Q. rewrite Ec in Q. destruct Q as [Q|Q].
            * destruct (proj2 (Ch x)) as (q & Q' & J'); [exists p; auto|]. exists q. split; auto. apply in_app_iff. auto.
            * destruct (proj2 (Cl x)) as (q & Q' & J'); [exists p; auto|]. exists q. split; auto. apply in_app_iff. auto. }
      intros p. rewrite Fr, MU. split; [tauto|]. intros M. split; auto. destruct M as [M _].
      apply in_projected in M as (q & Q & _ & ->). auto.
    + apply runs_ret. split; auto. split; auto. split; auto. split; [intros j J; apply lits_low; auto|].
      intros p. rewrite Fl'. apply minimal_up; auto. intros x. split; intros (q & Q & J); exists q; split; auto.
      * apply projected_node. auto.
      * apply projected_node in Q. rewrite Ec in Q. tauto.
    + destruct (wf_lit ord top counted _ _ _ W) as [Ni Oi].
      assert (Hi : 0 < i) by (apply P; auto; apply (root_lit ord top i h l W)).
      assert (WR : wf (reduced i h' l')).
      { apply reduced_wf; auto.
        - intros p j Q J. destruct (Lh' j) as (q & Q' & J'); [exists p; auto|]. exact (wf_above ord top i h l W q j Q' J').
        - intros p j Q J. destruct (Ll' j) as (q & Q' & J'); [exists p; auto|]. exact (wf_after_low ord top i h l W q j Q' J'). }
      eapply runs_mono; [apply (minimize_ok ord top counted ORD (reduced i h' l') s2 I2 WR)|].
      intros r s3 (I3 & Wr & Fr). split; auto. split; auto.
      assert (L : forall j, lits r j -> 0 < j /\ lits (ZN i h l) j).
      { intros j (p & Q & J). apply Fr in Q as [Q _]. apply reduced_fam in Q as [(p' & -> & Q)|Q].
        - destruct J as [<-|J]; [split; auto; apply (root_lit ord top i h l W)|]. split; [exact (Ph' p' j Q J)|].
          apply lits_high. apply Lh'. exists p'. auto.
        - split; [exact (Pl' p j Q J)|]. apply lits_low. apply Ll'. exists p. auto. }
      split; [apply positive_lits; intros j J; apply (L j J)|]. split; [intros j J; apply (L j J)|].
      assert (MU : forall p, minimal_in (fam (reduced i h' l')) p <-> minimal_in (projected (fam (ZN i h l))) p).
      { apply minimal_up; auto; [intros p Q; apply (sorted_fam _ WR); auto|].
        intros x. rewrite covers_ev, reduced_ev, orb_true_iff, andb_true_iff, mem_In, <- !covers_ev. rewrite Ch, Cl. split.
        - intros [[X (p & Q & J)]|(p & Q & J)].
          + exists (i :: p). split; [apply projected_node; rewrite Ec; eauto|]. intros j [<-|K]; auto.
          + exists p. split; auto. apply projected_node. auto.
        - intros (p & Q & J). apply projected_node in Q. rewrite Ec in Q. destruct Q as [(x' & -> & Q)|Q].
          + left. split; [apply J; simpl; auto|]. exists x'. split; auto. intros j K. apply J. simpl; auto.
          + right. exists p. auto. }
      intros p. rewrite <- MU. rewrite Fr. unfold minimal_in. tauto.
Qed.
End Eliminate.

Lemma eliminate_complements_as wide limit t : forall s,
  eliminate_complements ord top counted wide limit t s =
  eliminate_constants ord top counted limit (fun i => if (i <? 0) && negb (wide i) then Some true else None) t s.
Proof.
  induction t as [| |i h IHh l IHl]; intros s; auto. cbn [eliminate_complements eliminate_constants]. unfold bind.
  rewrite IHh. destruct (eliminate_constants _ _ _ _ _ h s) as [[h' s1]|]; auto.
  rewrite IHl. destruct (eliminate_constants _ _ _ _ _ l s1) as [[l' s2]|]; auto.
  destruct ((i <? 0) && negb (wide i)); auto.
Qed.
End Hist.
