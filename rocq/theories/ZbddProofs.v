(** Proofs about Zbdd.v *)
From Coq Require Import List ZArith Lia Bool.
From Verif Require Import Zbdd.
Import ListNotations.
Open Scope Z_scope.

(** ** Running the state monad *)
Definition runs {A} (m : M A) (s : state) (Q : A -> state -> Prop) : Prop := exists a s', m s = Some (a, s') /\ Q a s'.
Lemma runs_mono {A} (m : M A) s (P Q : A -> state -> Prop) : runs m s P -> (forall a s', P a s' -> Q a s') -> runs m s Q.
Proof. intros (a & s' & E & H) HQ. exists a, s'. auto. Qed.
Lemma runs_bind {A B} (m : M A) (f : A -> M B) s Q : runs m s (fun a s' => runs (f a) s' Q) -> runs (bind m f) s Q.
Proof. intros (a & s' & E & b & s'' & E' & H). exists b, s''. split; auto. unfold bind. rewrite E. auto. Qed.
Lemma runs_ret {A} (a : A) s (Q : A -> state -> Prop) : Q a s -> runs (ret a) s Q.
Proof. intros. exists a, s. auto. Qed.
Lemma runs_get s (Q : state -> state -> Prop) : Q s s -> runs get s Q.
Proof. intros. exists s, s. auto. Qed.
Lemma runs_modify f s (Q : unit -> state -> Prop) : Q tt (f s) -> runs (modify f) s Q.
Proof. intros. exists tt, (f s). auto. Qed.
Lemma runs_check b s (Q : unit -> state -> Prop) : b = true -> Q tt s -> runs (check b) s Q.
Proof. intros -> H. exists tt, s. auto. Qed.
Lemma runs_seq {A B} (m : M A) (f : A -> M B) s P Q : runs m s P -> (forall a s', P a s' -> runs (f a) s' Q) -> runs (bind m f) s Q.
Proof. intros H K. apply runs_bind. eapply runs_mono; [exact H|]. auto. Qed.

(** ** Trees *)
Lemma zeqb_eq a : forall b, zeqb a b = true <-> a = b.
Proof.
  induction a as [| |i h IHh l IHl]; destruct b as [| |j h' l']; simpl; split; intros H; try discriminate; auto.
  - apply andb_prop in H as [H H3]. apply andb_prop in H as [H1 H2].
    apply Z.eqb_eq in H1. apply IHh in H2. apply IHl in H3. congruence.
  - inversion H; subst. rewrite Z.eqb_refl. rewrite (proj2 (IHh h') eq_refl). rewrite (proj2 (IHl l') eq_refl). auto.
Qed.
Lemma zeqb_neq a b : zeqb a b = false <-> a <> b.
Proof.
  destruct (zeqb a b) eqn:E; split; intros H; try discriminate; auto.
  - apply zeqb_eq in E. contradiction.
  - intros ->. rewrite (proj2 (zeqb_eq b b) eq_refl) in E. discriminate.
Qed.
Lemma zeqb_refl a : zeqb a a = true.
Proof. apply zeqb_eq. auto. Qed.

Lemma in_fam i h l p : In p (fam (ZN i h l)) <-> (exists p', p = i :: p' /\ In p' (fam h)) \/ In p (fam l).
Proof.
  simpl. rewrite in_app_iff, in_map_iff. split; intros [H|H]; auto.
  - destruct H as (x & <- & H). eauto.
  - destruct H as (x & -> & H). eauto.
Qed.
Lemma ev_fam v t : ev v t = true <-> exists p, In p (fam t) /\ forall i, In i p -> v i = true.
Proof.
  induction t as [| |i h IHh l IHl]; simpl.
  - split; [discriminate|]. intros (p & [] & _).
  - split; auto. intros _. exists []. split; [simpl; auto|intros i []].
  - rewrite orb_true_iff, andb_true_iff, IHh, IHl. split.
    + intros [[E (p & I & H)]|(p & I & H)].
      * exists (i :: p). split; [apply in_app_iff; left; apply in_map; auto|]. intros j [<-|J]; auto.
      * exists p. split; auto. apply in_app_iff. auto.
    + intros (p & I & H). apply in_app_iff in I as [I|I]; [|right; eauto].
      apply in_map_iff in I as (q & <- & I). left. split; [apply H; simpl; auto|]. exists q. split; auto. intros j J. apply H; simpl; auto.
Qed.
Lemma mem_In s i : mem s i = true <-> In i s.
Proof.
  unfold mem. rewrite existsb_exists. split; [intros (x & H & E); apply Z.eqb_eq in E; subst; auto|].
  intros H. exists i. rewrite Z.eqb_refl. auto.
Qed.
Lemma ev_mem s t : ev (mem s) t = true <-> exists p, In p (fam t) /\ incl p s.
Proof. rewrite ev_fam. split; intros (p & I & H); exists p; split; auto; intros i J; apply mem_In; auto. Qed.

Lemma incl_decz (a b : list Z) : {incl a b} + {~ incl a b}.
Proof.
  destruct (Forall_dec (fun x => In x b) (fun x => in_dec Z.eq_dec x b) a) as [H|H]; [left|right].
  - intros x X. apply (proj1 (Forall_forall _ _) H); auto.
  - intros C. apply H. apply Forall_forall. auto.
Qed.

Section Proofs.
Context (ord : Z -> Z) (top : Z) (counted : Z -> bool) (ORD : ordering ord).
Notation wf := (wf ord top).
Notation before := (before ord).
Notation size := (size counted).
Notation cost := (cost counted).
Notation mso := (max_set_order counted).

Lemma ord_neg i : i <> 0 -> ord (- i) = ord i.
Proof. intros H. apply (ORD (- i) i); lia. Qed.
Lemma beforeb_spec i j : beforeb ord i j = true <-> before i j.
Proof. unfold beforeb, Zbdd.before. rewrite orb_true_iff, andb_true_iff, Z.ltb_lt, Z.eqb_eq, Z.ltb_lt. tauto. Qed.
Lemma beforeb_false i j : i <> 0 -> j <> 0 -> beforeb ord i j = false -> i = j \/ before j i.
Proof.
  intros Hi Hj H. assert (H' : ~ before i j) by (rewrite <- beforeb_spec; congruence). clear H. unfold Zbdd.before in *.
  destruct (Z.lt_trichotomy (ord i) (ord j)) as [L|[E|L]]; auto; try tauto.
  destruct (proj1 (ORD i j Hi Hj) E) as [->| ->]; auto. right. lia.
Qed.

(** Literals in a diagram come after a literal, strictly in order or not. *)
Definition after (i : Z) (t : zt) : Prop := forall p j, In p (fam t) -> In j p -> before i j.
Definition above (i : Z) (t : zt) : Prop := forall p j, In p (fam t) -> In j p -> ord i < ord j.
Definition lits (t : zt) (j : Z) : Prop := exists p, In p (fam t) /\ In j p.

Lemma before_trans i j k : before i j -> before j k -> before i k.
Proof. unfold Zbdd.before. lia. Qed.
Lemma before_irrefl i : ~ before i i.
Proof. unfold Zbdd.before. lia. Qed.
Lemma above_after i t : above i t -> after i t.
Proof. intros H p j I J. left. eauto. Qed.

Lemma nonempty t : wf t -> t <> ZE -> exists p, In p (fam t).
Proof.
  induction t as [| |i h IHh l IHl]; simpl; intros W N; [contradiction|exists []; auto|].
  destruct W as (_ & _ & Hh & _ & _ & _ & _ & Wh & _). destruct (IHh Wh Hh) as (p & I). exists (i :: p).
  apply in_app_iff. left. apply in_map. auto.
Qed.
Lemma root_lit i h l : wf (ZN i h l) -> lits (ZN i h l) i.
Proof.
  intros W. destruct (nonempty h) as (p & I); [apply W|apply W|]. exists (i :: p). split; [|simpl; auto].
  apply in_fam. left. eauto.
Qed.
(** All the literals are after the root. *)
Lemma wf_after t : wf t -> match t with
  | ZN i h l => above i h /\ after i l
  | _ => True
  end.
Proof.
  induction t as [| |i h IHh l IHl]; simpl; auto. intros (Hi & Ho & Hh & Hl & Hn & Ah & Al & Wh & Wl).
  specialize (IHh Wh). specialize (IHl Wl). split.
  - destruct h as [| |j hh hl]; [intros p k []|intros p k [<-|[]] []|].
    destruct IHh as [A1 A2]. intros p k I K. apply in_fam in I as [(p' & -> & I)|I].
    + destruct K as [<-|K]; auto. specialize (A1 p' k I K). lia.
    + specialize (A2 p k I K). unfold Zbdd.before in A2. lia.
  - destruct l as [| |j hh hl]; [intros p k []|intros p k [<-|[]] []|].
    destruct IHl as [A1 A2]. intros p k I K. apply in_fam in I as [(p' & -> & I)|I].
    + destruct K as [<-|K]; auto. specialize (A1 p' k I K). unfold Zbdd.before in *. lia.
    + specialize (A2 p k I K). unfold Zbdd.before in *. lia.
Qed.
Lemma wf_above i h l : wf (ZN i h l) -> above i h.
Proof. intros W. apply (wf_after _ W). Qed.
Lemma wf_after_low i h l : wf (ZN i h l) -> after i l.
Proof. intros W. apply (wf_after _ W). Qed.
Lemma wf_node i h l : i <> 0 -> ord i <= top -> h <> ZE -> l <> ZB -> h <> l -> above i h -> after i l -> wf h -> wf l -> wf (ZN i h l).
Proof.
  intros Hi Ho Hh Hl Hn A B Wh Wl. simpl.
  repeat match goal with |- _ /\ _ => split end; auto.
  - destruct h as [| |j hh hl]; auto. destruct (root_lit j hh hl Wh) as (p & I & J). apply (A p j); auto.
  - destruct l as [| |j hh hl]; auto. destruct (root_lit j hh hl Wl) as (p & I & J). apply (B p j); auto.
Qed.
Lemma wf_high i h l : wf (ZN i h l) -> wf h. Proof. simpl. tauto. Qed.
Lemma wf_low i h l : wf (ZN i h l) -> wf l. Proof. simpl. tauto. Qed.
Lemma wf_lit i h l : wf (ZN i h l) -> i <> 0 /\ ord i <= top. Proof. simpl. tauto. Qed.
Lemma lits_wf t : wf t -> forall j, lits t j -> j <> 0 /\ ord j <= top.
Proof.
  induction t as [| |i h IHh l IHl]; intros W j (p & I & J).
  - destruct I.
  - destruct I as [<-|[]]. destruct J.
  - apply in_fam in I as [(p' & -> & I)|I].
    + destruct J as [<-|J]; [apply (wf_lit _ _ _ W)|]. apply IHh; [apply (wf_high _ _ _ W)|]. exists p'. auto.
    + apply IHl; [apply (wf_low _ _ _ W)|]. exists p. auto.
Qed.
Lemma empty_set t : wf t -> In [] (fam t) -> t = ZB.
Proof.
  induction t as [| |i h IHh l IHl]; simpl; intros W I; [contradiction|auto|].
  apply in_app_iff in I as [I|I]; [apply in_map_iff in I as (x & E & _); discriminate|].
  destruct W as (_ & _ & _ & Hl & _ & _ & _ & _ & Wl). exfalso. apply Hl. auto.
Qed.
Lemma above_not_in i t p : above i t -> In p (fam t) -> ~ In i p.
Proof. intros A I J. specialize (A p i I J). lia. Qed.
Lemma after_not_in i t p : after i t -> In p (fam t) -> ~ In i p.
Proof. intros A I J. apply (before_irrefl i). eauto. Qed.
Lemma incl_skip i (p q : list Z) : incl p (i :: q) -> ~ In i p -> incl p q.
Proof. intros H N x X. destruct (H x X) as [<-|]; auto. contradiction. Qed.

(** Products are listed in order, so equal sets are equal lists. *)
Lemma fam_ext t : wf t -> forall p q, In p (fam t) -> In q (fam t) -> incl p q -> incl q p -> p = q.
Proof.
  induction t as [| |i h IHh l IHl]; intros W p q Ip Iq H1 H2.
  - destruct Ip.
  - destruct Ip as [<-|[]], Iq as [<-|[]]. auto.
  - pose proof (wf_above _ _ _ W) as A. pose proof (wf_after_low _ _ _ W) as B.
    apply in_fam in Ip as [(p' & -> & Ip)|Ip]; apply in_fam in Iq as [(q' & -> & Iq)|Iq].
    + f_equal. apply IHh; auto; [apply (wf_high _ _ _ W)| |].
      * apply (incl_skip i); [intros x X; apply H1; simpl; auto|]. eapply above_not_in; eauto.
      * apply (incl_skip i); [intros x X; apply H2; simpl; auto|]. eapply above_not_in; eauto.
    + exfalso. apply (after_not_in i l q B Iq). apply H1. simpl; auto.
    + exfalso. apply (after_not_in i l p B Ip). apply H2. simpl; auto.
    + apply IHl; auto. apply (wf_low _ _ _ W).
Qed.
Lemma nodup_fam t : wf t -> forall p, In p (fam t) -> NoDup p.
Proof.
  induction t as [| |i h IHh l IHl]; intros W p I.
  - destruct I.
  - destruct I as [<-|[]]. constructor.
  - apply in_fam in I as [(p' & -> & I)|I].
    + constructor; [eapply above_not_in; eauto; apply (wf_above _ _ _ W)|]. apply IHh; auto. apply (wf_high _ _ _ W).
    + apply IHl; auto. apply (wf_low _ _ _ W).
Qed.
Lemma consistent_fam t : wf t -> forall p, In p (fam t) -> consistent p.
Proof.
  induction t as [| |i h IHh l IHl]; intros W p I.
  - destruct I.
  - destruct I as [<-|[]]. intros x [].
  - apply in_fam in I as [(p' & -> & I)|I].
    + pose proof (wf_above _ _ _ W) as A. pose proof (proj1 (wf_lit _ _ _ W)) as Hi.
      assert (N : ~ In (- i) p') by (intros J; specialize (A p' (- i) I J); rewrite ord_neg in A; auto; lia).
      intros x [<-|X] [Y|Y].
      * lia.
      * contradiction.
      * apply N. replace (- i) with x by lia. auto.
      * apply (IHh (wf_high _ _ _ W) p' I x); auto.
    + apply (IHl (wf_low _ _ _ W) p I).
Qed.

(** Canonicity. *)
Lemma canonical a : forall b, wf a -> wf b -> (forall p, In p (fam a) <-> In p (fam b)) -> a = b.
Proof.
  assert (HE : forall b, wf b -> (forall p, ~ In p (fam b)) -> b = ZE).
  { intros b W H. destruct b as [| |i h l]; auto; [elim (H []); simpl; auto|].
    destruct (nonempty (ZN i h l) W) as (p & I); [discriminate|]. elim (H p I). }
  induction a as [| |i h IHh l IHl]; intros b Wa Wb E.
  - symmetry. apply HE; auto. intros p I. apply E in I. destruct I.
  - symmetry. apply empty_set; auto. apply E. simpl; auto.
  - destruct b as [| |j h' l'].
    + exfalso. destruct (root_lit i h l Wa) as (p & I & _). apply E in I. destruct I.
    + exfalso. assert (I : In [] (fam (ZN i h l))) by (apply E; simpl; auto). apply empty_set in I; auto. discriminate.
    + assert (Eij : i = j).
      { destruct (root_lit i h l Wa) as (p & I & J). apply E in I. destruct (root_lit j h' l' Wb) as (q & Iq & Jq). apply E in Iq.
        assert (A : forall i h l p j, wf (ZN i h l) -> In p (fam (ZN i h l)) -> In j p -> i = j \/ before i j).
        { clear. intros i h l p j W I J. apply in_fam in I as [(p' & -> & I)|I].
          - destruct J as [<-|J]; auto. right. left. eapply (wf_above _ _ _ W); eauto.
          - right. eapply (wf_after_low _ _ _ W); eauto. }
        destruct (A _ _ _ _ _ Wb I J) as [<-|B1]; auto. destruct (A _ _ _ _ _ Wa Iq Jq) as [<-|B2]; auto.
        exfalso. apply (before_irrefl i). eapply before_trans; eauto. }
      subst j. f_equal.
      * apply IHh; [apply (wf_high _ _ _ Wa)|apply (wf_high _ _ _ Wb)|]. intros p.
        assert (F : forall h l h' l', wf (ZN i h' l') -> (forall p, In p (fam (ZN i h l)) -> In p (fam (ZN i h' l'))) -> In p (fam h) -> In p (fam h')).
        { clear. intros h l h' l' W E I. assert (I' : In (i :: p) (fam (ZN i h' l'))) by (apply E; apply in_fam; left; eauto).
          apply in_fam in I' as [(p' & Ep & I')|I']; [congruence|]. exfalso. eapply (after_not_in i l'); eauto; [apply (wf_after_low _ _ _ W)|simpl; auto]. }
        split; intros I; [apply (F h l h' l' Wb)|apply (F h' l' h l Wa)]; auto; intros q Q; apply E; auto.
      * apply IHl; [apply (wf_low _ _ _ Wa)|apply (wf_low _ _ _ Wb)|]. intros p.
        assert (F : forall h l h' l', wf (ZN i h l) -> (forall p, In p (fam (ZN i h l)) -> In p (fam (ZN i h' l'))) -> In p (fam l) -> In p (fam l')).
        { clear. intros h l h' l' W E I. assert (I' : In p (fam (ZN i h' l'))) by (apply E; apply in_fam; right; auto).
          apply in_fam in I' as [(p' & Ep & I')|I']; auto. exfalso. subst. eapply (after_not_in i l); eauto; [apply (wf_after_low _ _ _ W)|simpl; auto]. }
        split; intros I; [apply (F h l h' l' Wa)|apply (F h' l' h l Wb)]; auto; intros q Q; apply E; auto.
Qed.

(** ** Levels *)
Lemma rk_before i j : i <> 0 -> j <> 0 -> ord i <= top -> ord j <= top -> before i j -> (rk ord top j < rk ord top i)%nat.
Proof.
  intros Hi Hj Oi Oj [L|[E L]]; unfold rk.
  - destruct (0 <? i), (0 <? j); lia.
  - destruct (proj1 (ORD i j Hi Hj) E) as [->| ->]; [lia|]. destruct (Z.ltb_spec 0 j), (Z.ltb_spec 0 (- j)); lia.
Qed.
Lemma rk_pos i : i <> 0 -> ord i <= top -> (0 < rk ord top i)%nat.
Proof. intros. unfold rk. destruct (0 <? i); lia. Qed.
Lemma level_after i t : wf t -> i <> 0 -> ord i <= top -> after i t -> (level ord top t < rk ord top i)%nat.
Proof.
  intros W Hi Ho A. destruct t as [| |j h l]; simpl; try (apply rk_pos; auto).
  destruct (wf_lit _ _ _ W). apply rk_before; auto. destruct (root_lit j h l W) as (p & I & J). eauto.
Qed.
Lemma level_lits t b n : wf t -> wf b -> (forall j, lits t j -> lits b j) -> (level ord top b <= n)%nat -> (level ord top t <= n)%nat.
Proof.
  intros W Wb H L. destruct t as [| |i h l]; simpl; [lia|lia|].
  pose proof (H i (root_lit i h l W)) as (p & I & J). destruct b as [| |j h' l']; [destruct I|destruct I as [<-|[]]; destruct J|].
  destruct (wf_lit _ _ _ W), (wf_lit _ _ _ Wb). simpl in L.
  apply in_fam in I as [(p' & -> & I)|I].
  - destruct J as [<-|J]; auto. assert (rk ord top i < rk ord top j)%nat; [|lia]. apply rk_before; auto. left. eapply (wf_above _ _ _ Wb); eauto.
  - assert (rk ord top i < rk ord top j)%nat; [|lia]. apply rk_before; auto. eapply (wf_after_low _ _ _ Wb); eauto.
Qed.

(** ** Sizes *)
Lemma size_nonneg s : 0 <= size s.
Proof. unfold Zbdd.size. lia. Qed.
Lemma size_cons i s : size (i :: s) = cost i + size s.
Proof. unfold Zbdd.size, Zbdd.cost. simpl. destruct (counted i); [cbn [length]|]; lia. Qed.
Lemma cost_range i : 0 <= cost i <= 1.
Proof. unfold Zbdd.cost. destruct (counted i); lia. Qed.
Lemma size_incl p s : NoDup p -> incl p s -> size p <= size s.
Proof.
  intros N H. unfold Zbdd.size. apply inj_le. apply NoDup_incl_length; [apply NoDup_filter; auto|].
  intros x X. apply filter_In in X as [X1 X2]. apply filter_In. auto.
Qed.
Lemma mso_nonneg t : 0 <= mso t.
Proof. induction t; simpl; lia. Qed.
Lemma mso_le t : forall p, In p (fam t) -> size p <= mso t.
Proof.
  induction t as [| |i h IHh l IHl]; intros p I.
  - destruct I.
  - destruct I as [<-|[]]. unfold Zbdd.size. simpl. lia.
  - apply in_fam in I as [(p' & -> & I)|I]; simpl.
    + rewrite size_cons. specialize (IHh p' I). lia.
    + specialize (IHl p I). lia.
Qed.
Lemma mso_bound t k : wf t -> 0 <= k -> (forall p, In p (fam t) -> size p <= k) -> mso t <= k.
Proof.
  revert k. induction t as [| |i h IHh l IHl]; intros k W K H; simpl; try lia.
  assert (Hl : mso l <= k) by (apply IHl; auto; [apply (wf_low _ _ _ W)|intros p I; apply H; apply in_fam; auto]).
  assert (Hh : mso h <= k - cost i).
  { assert (G : forall p, In p (fam h) -> size p <= k - cost i).
    { intros p I. assert (size (i :: p) <= k) by (apply H; apply in_fam; left; eauto). rewrite size_cons in *. lia. }
    apply IHh; auto; [apply (wf_high _ _ _ W)|]. destruct (nonempty h) as (p & I); [apply W|apply W|].
    specialize (G p I). pose proof (size_nonneg p). lia. }
  lia.
Qed.

(** ** Invariant of the manager *)
Definition subsume_spec (h l r : zt) : Prop :=
  wf r /\ forall p, In p (fam r) <-> In p (fam h) /\ ~ exists q, In q (fam l) /\ incl q p.
Definition min_spec (t r : zt) : Prop :=
  wf r /\ forall p, In p (fam r) <-> In p (fam t) /\ forall q, In q (fam t) -> incl q p -> q = p.
Definition pru_spec (t : zt) (k : Z) (r : zt) : Prop :=
  wf r /\ forall p, In p (fam r) <-> In p (fam t) /\ size p <= k.
Record or_spec (f g : zt) (k : Z) (r : zt) : Prop := {
  o_wf : wf r; o_anti : antichain r;
  o_lits : forall j, lits r j -> lits f j \/ lits g j;
  o_size : forall p, In p (fam r) -> size p <= k;
  o_sound : forall v, assignment v -> ev v r = true -> ev v f = true \/ ev v g = true;
  o_complete : forall s, NoDup s -> consistent s -> size s <= k ->
    ev (mem s) f = true \/ ev (mem s) g = true -> ev (mem s) r = true }.
Record and_spec (f g : zt) (k : Z) (r : zt) : Prop := {
  a_wf : wf r; a_anti : antichain r;
  a_lits : forall j, lits r j -> lits f j \/ lits g j;
  a_size : forall p, In p (fam r) -> size p <= k;
  a_sound : forall v, assignment v -> ev v r = true -> ev v f = true /\ ev v g = true;
  a_complete : forall s, NoDup s -> consistent s -> size s <= k ->
    ev (mem s) f = true -> ev (mem s) g = true -> ev (mem s) r = true }.
Record inv (s : state) : Prop := {
  i_flag : forall t, minimal t s = true -> antichain t;
  i_and : forall f g k r, In (f, g, k, r) (t_and s) -> and_spec f g k r;
  i_or : forall f g k r, In (f, g, k, r) (t_or s) -> or_spec f g k r;
  i_min : forall t r, In (t, r) (t_min s) -> min_spec t r;
  i_sub : forall h l r, In (h, l, r) (t_sub s) -> subsume_spec h l r;
  i_pru : forall t k r, In (t, k, r) (t_pru s) -> pru_spec t k r }.
Lemma inv_start : inv start.
Proof. constructor; simpl; try discriminate; intros; contradiction. Qed.
Lemma inv_clear s : inv s -> inv (clear s).
Proof. intros I. constructor; simpl; try (intros; contradiction). apply (i_flag _ I). Qed.
Lemma minimal_set x t b s : minimal x (set_minimal t b s) = true -> x = t /\ b = true \/ minimal x s = true.
Proof.
  unfold minimal, set_minimal. simpl. destruct b; simpl.
  - rewrite orb_true_iff. intros [H|H]; [left; split; auto; apply zeqb_eq; auto|]. right.
    apply existsb_exists in H as (y & I & E). apply filter_In in I as [I _]. apply existsb_exists. eauto.
  - intros H. right. apply existsb_exists in H as (y & I & E). apply filter_In in I as [I _]. apply existsb_exists. eauto.
Qed.
Lemma inv_set_minimal t b s : inv s -> (b = true -> antichain t) -> inv (set_minimal t b s).
Proof.
  intros I H. constructor; simpl; try apply I.
  intros x X. apply minimal_set in X as [[-> ->]|X]; auto. apply (i_flag _ I); auto.
Qed.
Lemma inv_put_sub h l r s : inv s -> subsume_spec h l r -> inv (put_sub h l r s).
Proof. intros I H. constructor; simpl; try apply I. intros h' l' r' [E|E]; [inversion E; subst; auto|apply (i_sub _ I); auto]. Qed.
Lemma inv_put_min t r s : inv s -> min_spec t r -> inv (put_min t r s).
Proof. intros I H. constructor; simpl; try apply I. intros t' r' [E|E]; [inversion E; subst; auto|apply (i_min _ I); auto]. Qed.
Lemma inv_put_pru t k r s : inv s -> pru_spec t k r -> inv (put_pru t k r s).
Proof. intros I H. constructor; simpl; try apply I. intros t' k' r' [E|E]; [inversion E; subst; auto|apply (i_pru _ I); auto]. Qed.
Lemma inv_put_or f g k r s : inv s -> or_spec f g k r -> inv (put_or f g k r s).
Proof. intros I H. constructor; simpl; try apply I. intros f' g' k' r' [E|E]; [inversion E; subst; auto|apply (i_or _ I); auto]. Qed.
Lemma inv_put_and f g k r s : inv s -> and_spec f g k r -> inv (put_and f g k r s).
Proof. intros I H. constructor; simpl; try apply I. intros f' g' k' r' [E|E]; [inversion E; subst; auto|apply (i_and _ I); auto]. Qed.

Lemma find_sub_ok h l r s : inv s -> find_sub h l (t_sub s) = Some r -> subsume_spec h l r.
Proof.
  intros I H. unfold find_sub in H. destruct (find _ _) as [[[h' l'] r']|] eqn:E; [|discriminate]. inversion H; subst.
  apply find_some in E as [E1 E2]. simpl in E2. apply andb_prop in E2 as [E2 E3]. apply zeqb_eq in E2, E3. subst. apply (i_sub _ I); auto.
Qed.
Lemma find_min_ok t r s : inv s -> find_min t (t_min s) = Some r -> min_spec t r.
Proof.
  intros I H. unfold find_min in H. destruct (find _ _) as [[t' r']|] eqn:E; [|discriminate]. inversion H; subst.
  apply find_some in E as [E1 E2]. simpl in E2. apply zeqb_eq in E2. subst. apply (i_min _ I); auto.
Qed.
Lemma find_pru_ok t k r s : inv s -> find_pru t k (t_pru s) = Some r -> pru_spec t k r.
Proof.
  intros I H. unfold find_pru in H. destruct (find _ _) as [[[t' k'] r']|] eqn:E; [|discriminate]. inversion H; subst.
  apply find_some in E as [E1 E2]. simpl in E2. apply andb_prop in E2 as [E2 E3]. apply zeqb_eq in E2. apply Z.eqb_eq in E3. subst. apply (i_pru _ I); auto.
Qed.
Lemma or_spec_comm f g k r : or_spec f g k r -> or_spec g f k r.
Proof. intros [H1 H2 H3 H4 H5 H6]. constructor; auto; intros; firstorder. Qed.
Lemma and_spec_comm f g k r : and_spec f g k r -> and_spec g f k r.
Proof. intros [H1 H2 H3 H4 H5 H6]. constructor; auto; intros; firstorder. Qed.
Lemma find_apply_in f g k r l : find_apply f g k l = Some r -> In (f, g, k, r) l \/ In (g, f, k, r) l.
Proof.
  unfold find_apply. destruct (find _ _) as [[[[f' g'] k'] r']|] eqn:E; [|discriminate]. intros H. inversion H; subst.
  apply find_some in E as [E1 E2]. simpl in E2. apply andb_prop in E2 as [E2 E3]. apply Z.eqb_eq in E2. subst k'.
  apply orb_prop in E3 as [E3|E3]; apply andb_prop in E3 as [E3 E4]; apply zeqb_eq in E3, E4; subst; auto.
Qed.
Lemma find_or_ok f g k r s : inv s -> find_apply f g k (t_or s) = Some r -> or_spec f g k r.
Proof. intros I H. apply find_apply_in in H as [H|H]; [|apply or_spec_comm]; apply (i_or _ I); auto. Qed.
Lemma find_and_ok f g k r s : inv s -> find_apply f g k (t_and s) = Some r -> and_spec f g k r.
Proof. intros I H. apply find_apply_in in H as [H|H]; [|apply and_spec_comm]; apply (i_and _ I); auto. Qed.

Lemma sub_lits r h : (forall p, In p (fam r) -> In p (fam h)) -> forall j, lits r j -> lits h j.
Proof. intros H j (p & I & J). exists p. auto. Qed.
Lemma anti_sub r h : (forall p, In p (fam r) -> In p (fam h)) -> antichain h -> antichain r.
Proof. intros H A p q Ip Iq. apply A; auto. Qed.
Lemma anti_high i h l : wf (ZN i h l) -> antichain (ZN i h l) -> antichain h.
Proof.
  intros W A p q Ip Iq H. assert (E : i :: p = i :: q); [|congruence].
  apply A; [apply in_fam; left; eauto..|]. intros x [<-|X]; simpl; auto.
Qed.
Lemma anti_low i h l : antichain (ZN i h l) -> antichain l.
Proof. intros A. apply (anti_sub _ _ (fun p H => proj2 (in_fam i h l p) (or_intror H)) A). Qed.
Lemma runs_node i h l s (Q : zt -> state -> Prop) : h <> l -> Q (ZN i h l) s -> runs (node i h l) s Q.
Proof.
  intros N H. unfold node. apply runs_bind. apply runs_check; [|apply runs_ret; auto].
  apply negb_true_iff. apply zeqb_neq. auto.
Qed.

(** *** Subsume *)
Lemma subsume_f_ok : forall fuel h l s, inv s -> wf h -> wf l -> antichain h -> (level ord top h + level ord top l < fuel)%nat ->
  runs (subsume_f ord fuel h l) s (fun r s' => inv s' /\ subsume_spec h l r).
Proof.
  induction fuel as [|fuel IH]; intros h l s I Wh Wl A F; [lia|]. simpl.
  assert (T : forall h, wf h -> (match l with ZE => True | ZB => False | _ => terminal h = true end) -> subsume_spec h l h).
  { intros h0 W0 H. split; auto. intros p. split; [|tauto]. intros P. split; auto. intros (q & Iq & Q).
    destruct l as [| |li lh ll]; [destruct Iq|contradiction|].
    destruct h0 as [| |]; [destruct P| |discriminate]. destruct P as [<-|[]]. destruct q; [|elim (Q z); simpl; auto].
    apply empty_set in Iq; auto. discriminate. }
  destruct l as [| |li lh ll]; [apply runs_ret; auto| |].
  { apply runs_ret. split; auto. split; simpl; auto. intros p. split; [contradiction|]. intros [_ H]. apply H. exists []. simpl. split; auto. intros x []. }
  destruct h as [| |hi hh hl]; [apply runs_ret; split; auto; apply T; auto..|].
  apply runs_bind, runs_get. destruct (find_sub _ _ _) as [r|] eqn:E.
  { apply runs_ret. split; auto. eapply find_sub_ok; eauto. }
  pose proof (wf_above _ _ _ Wh) as Ah. pose proof (wf_after_low _ _ _ Wh) as Bh.
  pose proof (wf_above _ _ _ Wl) as Al. pose proof (wf_after_low _ _ _ Wl) as Bl.
  pose proof (wf_high _ _ _ Wh) as Whh. pose proof (wf_low _ _ _ Wh) as Whl. pose proof (wf_high _ _ _ Wl) as Wlh. pose proof (wf_low _ _ _ Wl) as Wll.
  destruct (wf_lit _ _ _ Wh) as [Nh Oh]. destruct (wf_lit _ _ _ Wl) as [Nl Ol].
  pose proof (level_after hi hh Whh Nh Oh (above_after _ _ Ah)) as L1. pose proof (level_after hi hl Whl Nh Oh Bh) as L2.
  pose proof (level_after li lh Wlh Nl Ol (above_after _ _ Al)) as L3. pose proof (level_after li ll Wll Nl Ol Bl) as L4. simpl level in F.
  pose proof (anti_high _ _ _ Wh A) as AH. pose proof (anti_low _ _ _ A) as AL.
  destruct (beforeb ord li hi) eqn:Bf.
  { apply beforeb_spec in Bf. apply runs_seq with (1 := IH (ZN hi hh hl) ll s I Wh Wll A ltac:(simpl; lia)). intros r s1 [I1 [W1 S1]].
    assert (SP : subsume_spec (ZN hi hh hl) (ZN li lh ll) r).
    { split; auto. intros p. rewrite S1. split; intros [P N]; split; auto; intros (q & Iq & Q); apply N.
      - apply in_fam in Iq as [(q' & -> & Iq)|Iq]; eauto. exfalso.
        assert (J : In li p) by (apply Q; simpl; auto). apply in_fam in P as [(p' & -> & P)|P].
        + destruct J as [<-|J]; [apply (before_irrefl hi); auto|]. specialize (Ah _ _ P J). unfold Zbdd.before in Bf. lia.
        + apply (before_irrefl li). eapply before_trans; eauto.
      - exists q. split; auto. apply in_fam. auto. }
    apply runs_bind, runs_modify, runs_ret. split; auto. apply inv_put_sub; auto. }
  apply beforeb_false in Bf; auto.
  assert (SH : runs (if hi =? li then bind (subsume_f ord fuel hh lh) (fun x => subsume_f ord fuel x ll) else subsume_f ord fuel hh (ZN li lh ll)) s
    (fun r s' => inv s' /\ wf r /\ forall p, In p (fam r) <-> In p (fam hh) /\ ~ exists q, In q (fam (ZN li lh ll)) /\ incl q (hi :: p))).
  { destruct (Z.eqb_spec hi li) as [<-|Ne].
    - apply runs_seq with (1 := IH hh lh s I Whh Wlh AH ltac:(lia)). intros x s1 [I1 [W1 S1]].
      assert (Lx : (level ord top x <= level ord top hh)%nat).
      { apply (level_lits x hh); auto. apply sub_lits. intros p P. apply S1 in P. tauto. }
      eapply runs_mono; [apply (IH x ll s1); auto; [|lia]|].
      { apply (anti_sub x hh); auto. intros p P. apply S1 in P. tauto. }
      intros r s2 [I2 [W2 S2]]. split; auto. split; auto. intros p. rewrite S2, S1. split.
      + intros [[P N1] N2]. split; auto. intros (q & Iq & Q). apply in_fam in Iq as [(q' & -> & Iq)|Iq].
        * apply N1. exists q'. split; auto. apply (incl_skip hi); [intros y Y; apply Q; simpl; auto|]. eapply above_not_in; eauto.
        * apply N2. exists q. split; auto. apply (incl_skip hi); auto. eapply after_not_in; eauto.
      + intros [P N]. repeat split; auto.
        * intros (q & Iq & Q). apply N. exists (hi :: q). split; [apply in_fam; left; eauto|]. intros y [<-|Y]; simpl; auto.
        * intros (q & Iq & Q). apply N. exists q. split; [apply in_fam; auto|]. intros y Y; simpl; auto.
    - destruct Bf as [Bf|Bf]; [congruence|].
      eapply runs_mono; [apply (IH hh (ZN li lh ll) s); auto; simpl; lia|].
      intros r s2 [I2 [W2 S2]]. split; auto. split; auto. intros p. rewrite S2.
      split; intros [P N]; split; auto; intros (q & Iq & Q); apply N; exists q; split; auto.
      + apply (incl_skip hi); auto. intros J. apply (before_irrefl hi).
        apply in_fam in Iq as [(q' & -> & Iq)|Iq].
        * destruct J as [<-|J]; auto. eapply before_trans; [exact Bf|]. left. eapply Al; eauto.
        * eapply before_trans; [exact Bf|]. eapply Bl; eauto.
      + intros y Y; simpl; auto. }
  apply runs_seq with (1 := SH). clear SH. intros sh s1 (I1 & W1 & S1).
  assert (SL : runs (if hi =? li then subsume_f ord fuel hl ll else subsume_f ord fuel hl (ZN li lh ll)) s1
    (fun r s' => inv s' /\ wf r /\ forall p, In p (fam r) <-> In p (fam hl) /\ ~ exists q, In q (fam (ZN li lh ll)) /\ incl q p)).
  { destruct (Z.eqb_spec hi li) as [<-|Ne].
    - eapply runs_mono; [apply (IH hl ll s1); auto; lia|]. intros r s2 [I2 [W2 S2]]. split; auto. split; auto. intros p. rewrite S2.
      split; intros [P N]; split; auto; intros (q & Iq & Q); apply N.
      + apply in_fam in Iq as [(q' & -> & Iq)|Iq]; [|eauto]. exfalso. apply (after_not_in hi hl p Bh P). apply Q. simpl; auto.
      + exists q. split; auto. apply in_fam; auto.
    - eapply runs_mono; [apply (IH hl (ZN li lh ll) s1); auto; simpl; lia|]. intros r s2 [I2 [W2 S2]]. auto. }
  apply runs_seq with (1 := SL). clear SL. intros sl s2 (I2 & W2 & S2).
  assert (FH : forall p, In p (fam sh) -> In p (fam hh)) by (intros p P; apply S1 in P; tauto).
  assert (FL : forall p, In p (fam sl) -> In p (fam hl)) by (intros p P; apply S2 in P; tauto).
  destruct (is_empty sh) eqn:Es.
  { destruct sh; try discriminate. apply runs_bind, runs_modify, runs_ret.
    assert (SP : subsume_spec (ZN hi hh hl) (ZN li lh ll) sl).
    { split; auto. intros p. rewrite S2. split; [intros [P N]; split; auto; apply in_fam; auto|].
      intros [P N]. split; auto. apply in_fam in P as [(p' & -> & P)|P]; auto. exfalso. apply (proj2 (S1 p')). split; auto. }
    split; auto. apply inv_put_sub; auto. }
  assert (NE : sh <> ZE) by (intros ->; discriminate).
  assert (ND : sh <> sl).
  { intros ->. destruct (nonempty sl W2 NE) as (p & P).
    assert (X : p = hi :: p); [|apply (f_equal (@length Z)) in X; simpl in X; lia].
    apply A; [apply in_fam; right; auto|apply in_fam; left; eauto|]. intros y Y; simpl; auto. }
  apply runs_bind. apply runs_node; auto.
  assert (WN : wf (ZN hi sh sl)).
  { apply wf_node; auto.
    - intros ->. assert (Z0 : In [] (fam hl)) by (apply FL; simpl; auto). apply empty_set in Z0; auto. destruct Wh as (_ & _ & _ & X & _). contradiction.
    - intros p j P J. eapply Ah; eauto.
    - intros p j P J. eapply Bh; eauto. }
  assert (SP : subsume_spec (ZN hi hh hl) (ZN li lh ll) (ZN hi sh sl)).
  { split; auto. intros p. split.
    - intros P. apply in_fam in P as [(p' & -> & P)|P].
      + apply S1 in P as [P N]. split; auto. apply in_fam. left; eauto.
      + apply S2 in P as [P N]. split; auto. apply in_fam. auto.
    - intros [P N]. apply in_fam in P as [(p' & -> & P)|P].
      + apply in_fam. left. exists p'. split; auto. apply S1. auto.
      + apply in_fam. right. apply S2. auto. }
  apply runs_bind, runs_get. apply runs_bind, runs_modify. apply runs_bind, runs_modify, runs_ret. split; auto.
  apply inv_put_sub; auto. apply inv_set_minimal; auto. intros Hm. apply (anti_sub _ (ZN hi hh hl)); auto.
  intros p P. apply (proj2 SP) in P. tauto.
Qed.
Lemma subsume_ok h l s : inv s -> wf h -> wf l -> antichain h -> runs (subsume ord top h l) s (fun r s' => inv s' /\ subsume_spec h l r).
Proof. intros. apply subsume_f_ok; auto. Qed.

(** *** Minimize *)
Lemma min_sub t r : min_spec t r -> forall p, In p (fam r) -> In p (fam t).
Proof. intros [_ H] p P. apply H in P. tauto. Qed.
Lemma min_anti t r : min_spec t r -> antichain r.
Proof. intros [_ H] p q P Q X. apply H in P as [P _]. apply H in Q as [Q HQ]. auto. Qed.
Lemma min_refl t : wf t -> antichain t -> min_spec t t.
Proof. intros W A. split; auto. intros p. split; [|tauto]. intros P. split; auto. Qed.
(** Every product contains a minimal one. *)
Lemma min_exists t : wf t -> forall p, In p (fam t) -> exists q, In q (fam t) /\ incl q p /\ forall x, In x (fam t) -> incl x q -> x = q.
Proof.
  intros W p. remember (length p) as n eqn:E. revert p E. induction n as [n IH] using lt_wf_ind. intros p -> P.
  assert (D : (exists x, In x (fam t) /\ incl x p /\ ~ incl p x) \/ ~ exists x, In x (fam t) /\ incl x p /\ ~ incl p x).
  { assert (DI : forall a b : list Z, {incl a b} + {~ incl a b}) by apply incl_decz.
    generalize (fam t). intros F. induction F as [|x F IHF]; [right; intros (x & [] & _)|].
    destruct IHF as [(y & Y & H)|N]; [left; exists y; simpl; auto|].
    destruct (DI x p) as [H1|H1]; [destruct (DI p x) as [H2|H2]|].
    - right. intros (y & [<-|Y] & H3 & H4); [contradiction|]. apply N. eauto.
    - left. exists x. simpl; auto.
    - right. intros (y & [<-|Y] & H3 & H4); [contradiction|]. apply N. eauto. }
  destruct D as [(x & X & H1 & H2)|N].
  - destruct (IH (length x)) with (p := x) as (q & Q & Q1 & Q2); auto.
    + assert (length x <= length p)%nat by (apply NoDup_incl_length; auto; apply (nodup_fam t W); auto).
      destruct (Nat.eq_dec (length x) (length p)); [|lia]. exfalso. apply H2.
      apply NoDup_length_incl; auto; [apply (nodup_fam t W); auto|lia].
    + exists q. split; auto. split; auto. eapply incl_tran; eauto.
  - exists p. split; auto. split; [apply incl_refl|]. intros x X H. apply (fam_ext t W); auto.
    destruct (incl_decz p x); auto. exfalso. apply N. eauto.
Qed.
Lemma min_ev t r v : wf t -> min_spec t r -> ev v r = ev v t.
Proof.
  intros W S. apply eq_true_iff_eq. rewrite !ev_fam. split; intros (p & P & H).
  - exists p. split; auto. eapply min_sub; eauto.
  - destruct (min_exists t W p P) as (q & Q & Q1 & Q2). exists q. split; auto. apply S. auto.
Qed.
Lemma minimize_f_ok : forall fuel t s, inv s -> wf t -> (level ord top t < fuel)%nat ->
  runs (minimize_f ord top fuel t) s (fun r s' => inv s' /\ min_spec t r).
Proof.
  induction fuel as [|fuel IH]; intros t s I W F; [lia|]. simpl.
  destruct t as [| |i h l].
  { apply runs_ret. split; auto. apply min_refl; auto. intros p q []. }
  { apply runs_ret. split; auto. apply min_refl; auto. intros p q [<-|[]] [<-|[]]; auto. }
  apply runs_bind, runs_get. destruct (minimal _ s) eqn:Em.
  { apply runs_ret. split; auto. apply min_refl; auto. apply (i_flag _ I); auto. }
  destruct (find_min _ _) as [r|] eqn:E.
  { apply runs_ret. split; auto. eapply find_min_ok; eauto. }
  destruct (wf_lit _ _ _ W) as [Ni Oi].
  pose proof (wf_high _ _ _ W) as Wh. pose proof (wf_low _ _ _ W) as Wl. pose proof (wf_above _ _ _ W) as Ah. pose proof (wf_after_low _ _ _ W) as Bl.
  pose proof (level_after i h Wh Ni Oi (above_after _ _ Ah)) as L1. pose proof (level_after i l Wl Ni Oi Bl) as L2. simpl level in F.
  apply runs_seq with (1 := IH h s I Wh ltac:(lia)). intros h' s1 [I1 S1].
  apply runs_seq with (1 := IH l s1 I1 Wl ltac:(lia)). intros l' s2 [I2 S2].
  apply runs_seq with (1 := subsume_ok h' l' s2 I2 (proj1 S1) (proj1 S2) (min_anti _ _ S1)). intros sh s3 [I3 [W3 S3]].
  assert (SP : forall r, wf r -> (forall p, In p (fam r) <-> (exists p', p = i :: p' /\ In p' (fam sh)) \/ In p (fam l')) -> min_spec (ZN i h l) r).
  { intros r Wr H. split; auto. intros p. rewrite H. split.
    - intros [(p' & -> & P)|P].
      + apply S3 in P as [P N]. apply S1 in P as [P M]. split; [apply in_fam; left; eauto|].
        intros q Q X. apply in_fam in Q as [(q' & -> & Q)|Q].
        * f_equal. apply M; auto. apply (incl_skip i); [intros y Y; apply X; simpl; auto|]. eapply above_not_in; eauto.
        * exfalso. destruct (min_exists l Wl q Q) as (m & M1 & M2 & M3). apply N. exists m. split; [apply S2; auto|].
          apply (incl_skip i); [eapply incl_tran; eauto|]. eapply after_not_in; eauto.
      + apply S2 in P as [P M]. split; [apply in_fam; auto|]. intros q Q X. apply in_fam in Q as [(q' & -> & Q)|Q]; auto.
        exfalso. apply (after_not_in i l p Bl P). apply X. simpl; auto.
    - intros [P M]. apply in_fam in P as [(p' & -> & P)|P].
      + left. exists p'. split; auto. apply S3. split.
        * apply S1. split; auto. intros q Q X. assert (Y : i :: q = i :: p'); [|congruence].
          apply M; [apply in_fam; left; eauto|]. intros y [<-|Y]; simpl; auto.
        * intros (q & Q & X). apply S2 in Q as [Q _]. assert (Y : q = i :: p'); [apply M; [apply in_fam; auto|intros y Y; simpl; auto]|].
          subst q. apply (after_not_in i l _ Bl Q). simpl; auto.
      + right. apply S2. split; auto. intros q Q X. apply M; auto. apply in_fam; auto. }
  assert (FH : forall p, In p (fam sh) -> In p (fam h)).
  { intros p P. apply S3 in P as [P _]. apply S1 in P. tauto. }
  assert (FL : forall p, In p (fam l') -> In p (fam l)) by (intros p P; apply S2 in P; tauto).
  assert (ND : sh <> l').
  { intros ->. destruct (is_empty l') eqn:El.
    - destruct l'; try discriminate. destruct (nonempty h Wh) as (p & P); [apply W|]. destruct (min_exists h Wh p P) as (q & Q & _ & Q2).
      apply (proj2 (S3 q)). split; [apply S1; auto|]. intros (x & [] & _).
    - destruct (nonempty l' W3) as (p & P); [intros ->; discriminate|]. pose proof P as P'. apply S3 in P as [_ N]. apply N. exists p. split; auto. apply incl_refl. }
  apply runs_bind. apply runs_check; [apply negb_true_iff; apply zeqb_neq; auto|].
  destruct (is_empty sh) eqn:Es.
  { destruct sh; try discriminate. apply runs_bind, runs_modify, runs_ret.
    assert (X : min_spec (ZN i h l) l') by (apply SP; [apply S2|intros p; split; auto; intros [(p' & _ & [])|P]; auto]).
    split; auto. apply inv_put_min; auto. }
  assert (WN : wf (ZN i sh l')).
  { apply wf_node; auto.
    - intros ->. discriminate.
    - intros ->. assert (Z0 : In [] (fam l)) by (apply FL; simpl; auto). apply empty_set in Z0; auto. destruct W as (_ & _ & _ & X & _). contradiction.
    - intros p j P J. eapply Ah; eauto.
    - intros p j P J. eapply Bl; eauto.
    - apply S2. }
  assert (X : min_spec (ZN i h l) (ZN i sh l')) by (apply SP; auto; intros p; apply in_fam).
  apply runs_bind. apply runs_node; auto. apply runs_bind, runs_modify. apply runs_bind, runs_modify, runs_ret. split; auto.
  apply inv_put_min; auto. apply inv_set_minimal; auto. intros _. eapply min_anti; eauto.
Qed.
Lemma minimize_ok t s : inv s -> wf t -> runs (minimize ord top t) s (fun r s' => inv s' /\ min_spec t r).
Proof. intros. apply minimize_f_ok; auto. Qed.

(** *** GetReducedVertex *)
Lemma reduced_ev v i h l : ev v (reduced i h l) = v i && ev v h || ev v l.
Proof.
  unfold reduced. destruct (zeqb h l) eqn:E; [apply zeqb_eq in E; subst; destruct (v i), (ev v l); auto|].
  destruct h; simpl; try (rewrite andb_false_r; auto); destruct l; simpl; auto; rewrite ?orb_true_r; auto.
Qed.
Lemma reduced_fam i h l p : In p (fam (reduced i h l)) -> (exists p', p = i :: p' /\ In p' (fam h)) \/ In p (fam l).
Proof.
  unfold reduced. destruct (zeqb h l); auto. destruct (is_empty h); auto. destruct (is_base l); auto. apply in_fam.
Qed.
Lemma reduced_wf i h l : i <> 0 -> ord i <= top -> above i h -> after i l -> wf h -> wf l -> wf (reduced i h l).
Proof.
  intros Ni Oi A B Wh Wl. unfold reduced. destruct (zeqb h l) eqn:E; auto. apply zeqb_neq in E.
  destruct (is_empty h) eqn:Eh; auto. destruct (is_base l) eqn:El; auto.
  apply wf_node; auto; intros ->; discriminate.
Qed.

(** *** Prune *)
Lemma pru_sub t k r : pru_spec t k r -> forall p, In p (fam r) -> In p (fam t).
Proof. intros [_ H] p P. apply H in P. tauto. Qed.
Lemma prune_f_ok : forall fuel t k s, inv s -> wf t -> antichain t -> (level ord top t < fuel)%nat ->
  runs (prune_f counted fuel t k) s (fun r s' => inv s' /\ pru_spec t k r).
Proof.
  induction fuel as [|fuel IH]; intros t k s I W A F; [lia|]. simpl.
  destruct (Z.ltb_spec k 0) as [K|K].
  { apply runs_ret. split; auto. split; simpl; auto. intros p. split; [contradiction|]. intros [_ H]. pose proof (size_nonneg p). lia. }
  destruct t as [| |i h l].
  { apply runs_ret. split; auto. split; auto. intros p. simpl. tauto. }
  { apply runs_ret. split; auto. split; auto. intros p. simpl. split; [|tauto]. intros [<-|[]]. split; auto. }
  destruct (Z.leb_spec (mso (ZN i h l)) k) as [L|L].
  { apply runs_ret. split; auto. split; auto. intros p. split; [|tauto]. intros P. split; auto. pose proof (mso_le _ p P). lia. }
  apply runs_bind, runs_get. destruct (find_pru _ _ _) as [r|] eqn:E.
  { apply runs_ret. split; auto. eapply find_pru_ok; eauto. }
  destruct (wf_lit _ _ _ W) as [Ni Oi].
  pose proof (wf_high _ _ _ W) as Wh. pose proof (wf_low _ _ _ W) as Wl. pose proof (wf_above _ _ _ W) as Ah. pose proof (wf_after_low _ _ _ W) as Bl.
  pose proof (level_after i h Wh Ni Oi (above_after _ _ Ah)) as L1. pose proof (level_after i l Wl Ni Oi Bl) as L2. simpl level in F.
  pose proof (anti_high _ _ _ W A) as AH. pose proof (anti_low _ _ _ A) as AL.
  apply runs_seq with (1 := IH h (k - cost i) s I Wh AH ltac:(lia)). intros h' s1 [I1 S1].
  apply runs_seq with (1 := IH l k s1 I1 Wl AL ltac:(lia)). intros l' s2 [I2 S2].
  assert (SP : pru_spec (ZN i h l) k (reduced i h' l')).
  { split.
    - apply reduced_wf; auto; [| |apply S1|apply S2].
      + intros p j P J. apply (pru_sub _ _ _ S1) in P. eauto.
      + intros p j P J. apply (pru_sub _ _ _ S2) in P. eauto.
    - intros p. split.
      + intros P. apply reduced_fam in P as [(p' & -> & P)|P].
        * apply S1 in P as [P L']. split; [apply in_fam; left; eauto|]. rewrite size_cons. lia.
        * apply S2 in P as [P L']. split; auto. apply in_fam; auto.
      + intros [P L']. assert (Q : (exists p', p = i :: p' /\ In p' (fam h')) \/ In p (fam l')).
        { apply in_fam in P as [(p' & -> & P)|P].
          - left. exists p'. split; auto. apply S1. split; auto. rewrite size_cons in L'. lia.
          - right. apply S2. auto. }
        unfold reduced. destruct (zeqb h' l') eqn:Ez.
        { apply zeqb_eq in Ez. subst. destruct Q as [(p' & -> & Q)|Q]; auto. exfalso.
          assert (X : p' = i :: p'); [|apply (f_equal (@length Z)) in X; simpl in X; lia].
          apply A; [apply in_fam; right; apply (pru_sub _ _ _ S2); auto|apply in_fam; left; exists p'; split; auto; apply (pru_sub _ _ _ S1); auto|].
          intros y Y; simpl; auto. }
        destruct (is_empty h') eqn:Eh.
        { destruct h'; try discriminate. destruct Q as [(p' & _ & [])|Q]; auto. }
        destruct (is_base l') eqn:El; [|apply in_fam; auto].
        destruct l'; try discriminate. exfalso. assert (Z0 : In [] (fam l)) by (apply (pru_sub _ _ _ S2); simpl; auto).
        apply empty_set in Z0; auto. destruct W as (_ & _ & _ & X & _). contradiction. }
  cbv zeta. apply runs_bind, runs_get. apply runs_bind.
  assert (AR : antichain (reduced i h' l')) by (apply (anti_sub _ (ZN i h l)); auto; intros p P; apply (pru_sub _ _ _ SP); auto).
  destruct (terminal (reduced i h' l')).
  - apply runs_ret. apply runs_bind, runs_modify, runs_ret. split; auto. apply inv_put_pru; auto.
  - apply runs_modify. apply runs_bind, runs_modify, runs_ret. split; auto. apply inv_put_pru; auto. apply inv_set_minimal; auto.
Qed.
Lemma prune_ok t k s : inv s -> wf t -> antichain t -> runs (prune ord top counted t k) s (fun r s' => inv s' /\ pru_spec t k r).
Proof. intros. apply prune_f_ok; auto. Qed.

(** *** Apply *)
Lemma strip_ok i H s (Q : zt -> state -> Prop) : i <> 0 -> wf H -> after i H ->
  (forall r, wf r -> above i r -> (forall p, In p (fam r) -> In p (fam H)) ->
     (forall x, ~ In (- i) x -> ev (mem x) H = true -> ev (mem x) r = true) -> Q r s) ->
  runs (strip ord i H) s Q.
Proof.
  intros Ni W A K. unfold strip. destruct H as [| |j hh hl].
  - apply runs_ret. apply K; auto. intros p j [].
  - apply runs_ret. apply K; auto. intros p j [<-|[]] [].
  - destruct (root_lit j hh hl W) as (p0 & P0 & J0). pose proof (A p0 j P0 J0) as Bj. destruct (wf_lit _ _ _ W) as [Nj Oj].
    destruct (Z.eqb_spec (ord j) (ord i)) as [E|E].
    + assert (Ej : j = - i).
      { destruct (proj1 (ORD j i Nj Ni) E) as [->| ->]; auto. elim (before_irrefl i Bj). }
      apply runs_bind. apply runs_check; [apply Z.ltb_lt; unfold Zbdd.before in Bj; lia|]. apply runs_ret. apply K.
      * apply (wf_low _ _ _ W).
      * intros p k P J. pose proof (wf_after_low _ _ _ W p k P J) as B1.
        assert (B2 : before i k) by (apply (A p k); auto; apply in_fam; auto).
        destruct (Z.eq_dec (ord i) (ord k)) as [Ek|Ek]; [|unfold Zbdd.before in B2; lia]. exfalso.
        assert (Nk : k <> 0) by (apply (lits_wf hl (wf_low _ _ _ W)); exists p; auto).
        destruct (proj1 (ORD i k Ni Nk) Ek) as [->|X]; [apply (before_irrefl k B2)|]. unfold Zbdd.before in B1. subst. lia.
      * intros p P. apply in_fam. auto.
      * intros x N X. simpl in X. subst j. destruct (mem x (- i)) eqn:Em; [apply mem_In in Em; contradiction|]. auto.
    + apply runs_ret. apply K; auto. assert (Lj : ord i < ord j) by (unfold Zbdd.before in Bj; lia).
      intros p k P J. apply in_fam in P as [(p' & -> & P)|P].
      * destruct J as [<-|J]; auto. pose proof (wf_above _ _ _ W p' k P J). lia.
      * pose proof (wf_after_low _ _ _ W p k P J) as X. unfold Zbdd.before in X. lia.
Qed.
Lemma remove_size i x : NoDup x -> In i x -> size (remove Z.eq_dec i x) = size x - cost i.
Proof.
  intros N I. induction x as [|a x IH]; [destruct I|]. inversion N; subst. simpl. destruct (Z.eq_dec i a) as [->|E].
  - rewrite size_cons. rewrite notin_remove by auto. lia.
  - destruct I as [I|I]; [congruence|]. rewrite !size_cons, IH; auto. lia.
Qed.
Lemma remove_nodup i x : NoDup x -> NoDup (remove Z.eq_dec i x).
Proof.
  induction 1 as [|a x N H IH]; simpl; [constructor|]. destruct (Z.eq_dec i a); auto. constructor; auto.
  intros C. apply in_remove in C. tauto.
Qed.
Lemma remove_consistent i x : consistent x -> consistent (remove Z.eq_dec i x).
Proof. intros C y Y N. apply in_remove in Y as [Y _]. apply in_remove in N as [N _]. apply (C y); auto. Qed.
Lemma ev_remove i x t : (forall p, In p (fam t) -> ~ In i p) -> ev (mem (remove Z.eq_dec i x)) t = ev (mem x) t.
Proof.
  intros H. apply eq_true_iff_eq. rewrite !ev_mem. split; intros (p & P & X); exists p; split; auto; intros y Y.
  - specialize (X y Y). apply in_remove in X. tauto.
  - apply in_in_remove; auto. intros ->. apply (H p P); auto.
Qed.

Lemma pru_ev_sound t k r v : pru_spec t k r -> ev v r = true -> ev v t = true.
Proof. intros S. rewrite !ev_fam. intros (p & P & H). exists p. split; auto. eapply pru_sub; eauto. Qed.
Lemma pru_ev_complete t k r x : wf t -> pru_spec t k r -> size x <= k -> ev (mem x) t = true -> ev (mem x) r = true.
Proof.
  intros W S L. rewrite !ev_mem. intros (p & P & H). exists p. split; auto. apply S. split; auto.
  pose proof (size_incl p x (nodup_fam t W p P) H). lia.
Qed.
Lemma pru_anti t k r : pru_spec t k r -> antichain t -> antichain r.
Proof. intros S. apply anti_sub. eapply pru_sub; eauto. Qed.
Lemma pru_or f g k r : wf f -> antichain f -> (forall v, ev v g = true -> ev v f = true) -> pru_spec f k r -> or_spec f g k r.
Proof.
  intros W A G S. constructor.
  - apply S.
  - eapply pru_anti; eauto.
  - intros j J. left. apply (sub_lits r f); auto. eapply pru_sub; eauto.
  - intros p P. apply S in P. tauto.
  - intros v _ H. left. eapply pru_ev_sound; eauto.
  - intros x Nx Cx Lx [H|H]; eapply pru_ev_complete; eauto.
Qed.
Lemma pru_and f g k r : wf f -> antichain f -> (forall v, ev v f = true -> ev v g = true) -> pru_spec f k r -> and_spec f g k r.
Proof.
  intros W A G S. constructor.
  - apply S.
  - eapply pru_anti; eauto.
  - intros j J. left. apply (sub_lits r f); auto. eapply pru_sub; eauto.
  - intros p P. apply S in P. tauto.
  - intros v _ H. apply (pru_ev_sound f k r v S) in H. auto.
  - intros x Nx Cx Lx H _; eapply pru_ev_complete; eauto.
Qed.
Lemma within_ok r k : wf r -> 0 <= k -> (forall p, In p (fam r) -> size p <= k) -> within_limit counted r k = true.
Proof.
  intros W K H. unfold within_limit. apply orb_true_iff. destruct (terminal r); auto. right. apply Z.leb_le. apply mso_bound; auto.
Qed.
Lemma lits_high i h l j : lits h j -> lits (ZN i h l) j.
Proof. intros (p & P & J). exists (i :: p). split; [apply in_fam; left; eauto|simpl; auto]. Qed.
Lemma lits_low i h l j : lits l j -> lits (ZN i h l) j.
Proof. intros (p & P & J). exists p. split; [apply in_fam; auto|auto]. Qed.
Lemma after_lits i t : (forall j, lits t j -> before i j) -> after i t.
Proof. intros H p j P J. apply H. exists p. auto. Qed.
Lemma lits_after i t j : after i t -> lits t j -> before i j.
Proof. intros A (p & P & J). eauto. Qed.
Lemma after_in i t p : after i t -> In p (fam t) -> ~ In i p.
Proof. apply after_not_in. Qed.
Lemma size_nil : size [] = 0. Proof. reflexivity. Qed.
Lemma anti_ZE : antichain ZE. Proof. intros p q []. Qed.
Lemma anti_ZB : antichain ZB. Proof. intros p q [<-|[]] [<-|[]]; auto. Qed.

(** Closing a branching step. *)
Lemma close_ok i h l k s : inv s -> i <> 0 -> ord i <= top -> wf h -> wf l -> after i h -> after i l ->
  (forall p, In p (fam h) -> size p <= k - cost i) -> (forall p, In p (fam l) -> size p <= k) -> 0 <= k ->
  runs (bind (strip ord i h) (fun h' => minimize ord top (reduced i h' l))) s (fun r s' => inv s' /\ wf r /\ antichain r /\
    (forall p, In p (fam r) -> (exists p', p = i :: p' /\ In p' (fam h)) \/ In p (fam l)) /\
    (forall p, In p (fam r) -> size p <= k) /\
    (forall v, ev v r = true -> v i = true /\ ev v h = true \/ ev v l = true) /\
    (forall x, consistent x -> In i x -> ev (mem x) h = true -> ev (mem x) r = true) /\
    (forall x, ev (mem x) l = true -> ev (mem x) r = true)).
Proof.
  intros I Ni Oi Wh Wl Ah Al Sh Sl K. apply runs_bind. apply strip_ok; auto. intros h' Wh' Ah' Fh' Eh'.
  pose proof (reduced_wf i h' l Ni Oi Ah' Al Wh' Wl) as WR.
  eapply runs_mono; [apply minimize_ok; auto|]. intros r s' [I' S].
  assert (FR : forall p, In p (fam r) -> (exists p', p = i :: p' /\ In p' (fam h')) \/ In p (fam l)).
  { intros p P. apply (min_sub _ _ S) in P. apply reduced_fam in P. auto. }
  repeat match goal with |- _ /\ _ => split end; auto.
  - apply S.
  - eapply min_anti; eauto.
  - intros p P. apply FR in P as [(p' & -> & P)|P]; eauto.
  - intros p P. apply FR in P as [(p' & -> & P)|P]; auto. rewrite size_cons. apply Fh' in P. specialize (Sh _ P). lia.
  - intros v. rewrite (min_ev _ _ v WR S), reduced_ev, orb_true_iff, andb_true_iff. intros [[X Y]|X]; auto.
    left. split; auto. apply ev_fam in Y as (p & P & Y). apply ev_fam. exists p. auto.
  - intros x C X E. rewrite (min_ev _ _ _ WR S), reduced_ev. apply orb_true_iff. left. apply andb_true_iff. split; [apply mem_In; auto|].
    apply Eh'; auto.
  - intros x E. rewrite (min_ev _ _ _ WR S), reduced_ev, E. apply orb_true_r.
Qed.

Lemma or_neg f g k : k < 0 -> or_spec f g k ZE.
Proof.
  intros K. constructor; simpl; auto using anti_ZE; try (intros; contradiction); try discriminate.
  - intros j (p & [] & _).
  - intros x _ _ L. pose proof (size_nonneg x). lia.
Qed.
Lemma and_neg f g k : k < 0 -> and_spec f g k ZE.
Proof.
  intros K. constructor; simpl; auto using anti_ZE; try (intros; contradiction); try discriminate.
  - intros j (p & [] & _).
  - intros x _ _ L. pose proof (size_nonneg x). lia.
Qed.
Lemma or_base f g k : 0 <= k -> (forall v, assignment v -> ev v f = true \/ ev v g = true) -> or_spec f g k ZB.
Proof.
  intros K H. constructor; simpl; auto using anti_ZB.
  - intros j (p & [<-|[]] & []).
  - intros p [<-|[]]. rewrite size_nil. auto.
Qed.
Lemma or_level f g k r n : wf f -> wf g -> or_spec f g k r -> (level ord top f <= n)%nat -> (level ord top g <= n)%nat -> (level ord top r <= n)%nat.
Proof.
  intros Wf Wg S Lf Lg. destruct r as [| |i h l]; simpl; try lia. pose proof (o_wf _ _ _ _ S) as W.
  destruct (o_lits _ _ _ _ S i (root_lit _ _ _ W)) as [J|J].
  - pose proof (wf_lit _ _ _ W) as [N O]. destruct f as [| |a fh fl]; [destruct J as (p & [] & _)|destruct J as (p & [<-|[]] & [])|].
    simpl in Lf. pose proof (wf_lit _ _ _ Wf) as [N' O']. destruct J as (p & P & J). apply in_fam in P as [(p' & -> & P)|P].
    + destruct J as [<-|J]; auto. pose proof (rk_before a i N' N O' O (or_introl (wf_above _ _ _ Wf p' i P J))). lia.
    + pose proof (rk_before a i N' N O' O (wf_after_low _ _ _ Wf p i P J)). lia.
  - pose proof (wf_lit _ _ _ W) as [N O]. destruct g as [| |a fh fl]; [destruct J as (p & [] & _)|destruct J as (p & [<-|[]] & [])|].
    simpl in Lg. pose proof (wf_lit _ _ _ Wg) as [N' O']. destruct J as (p & P & J). apply in_fam in P as [(p' & -> & P)|P].
    + destruct J as [<-|J]; auto. pose proof (rk_before a i N' N O' O (or_introl (wf_above _ _ _ Wg p' i P J))). lia.
    + pose proof (rk_before a i N' N O' O (wf_after_low _ _ _ Wg p i P J)). lia.
Qed.
Lemma after_root i j h l : wf (ZN j h l) -> before i j -> after i (ZN j h l).
Proof.
  intros W B p k P K. apply in_fam in P as [(p' & -> & P)|P].
  - destruct K as [<-|K]; auto. eapply before_trans; [exact B|]. left. eapply (wf_above _ _ _ W); eauto.
  - eapply before_trans; [exact B|]. eapply (wf_after_low _ _ _ W); eauto.
Qed.

Notation lvl := (level ord top).
Lemma or_f_ok : forall fuel f g k s, inv s -> wf f -> wf g -> antichain f -> antichain g -> (Nat.max (lvl f) (lvl g) < fuel)%nat ->
  runs (or_f ord top counted fuel f g k) s (fun r s' => inv s' /\ or_spec f g k r).
Proof.
  induction fuel as [|fuel IH]; intros f g k s I Wf Wg Af Ag F; [lia|]. simpl.
  destruct (Z.ltb_spec k 0) as [K|K]; [apply runs_ret; split; auto; apply or_neg; auto|].
  assert (TB : forall a b, or_spec ZB b k ZB /\ or_spec a ZB k ZB).
  { intros a b. split; apply or_base; auto. }
  assert (TE : forall t, wf t -> antichain t -> runs (prune ord top counted t k) s (fun r s' => inv s' /\ or_spec t ZE k r)).
  { intros t Wt At. eapply runs_mono; [apply prune_ok; auto|]. intros r s' [I' S]. split; auto. apply (pru_or t ZE k r); auto. discriminate. }
  destruct f as [| |i0 fh0 fl0]; [eapply runs_mono; [apply (TE g); auto|]; intros r s' [I' S]; split; auto; apply or_spec_comm; auto
    |apply runs_ret; split; auto; apply TB; auto|].
  destruct g as [| |j0 gh0 gl0]; [apply TE; auto|apply runs_ret; split; auto; apply TB; auto|].
  destruct (zeqb _ _) eqn:Eq.
  { apply zeqb_eq in Eq. rewrite <- Eq. eapply runs_mono; [apply prune_ok; auto|]. intros r s' [I' S]. split; auto. apply pru_or; auto. }
  apply runs_bind, runs_get. destruct (find_apply _ _ _ _) as [r|] eqn:E.
  { apply runs_ret. split; auto. eapply find_or_ok; eauto. }
  clear TB TE.
  (* the ordered step *)
  assert (B : forall i fh fl j gh gl, wf (ZN i fh fl) -> wf (ZN j gh gl) -> antichain (ZN i fh fl) -> antichain (ZN j gh gl) ->
    (i = j \/ before i j) -> (rk ord top i < S fuel)%nat -> (rk ord top j < S fuel)%nat ->
    runs (if (ord i =? ord j) && negb (i =? j) && terminal fh && terminal gh then ret ZB
          else bind (if i =? j then or_f ord top counted fuel fh gh (k - cost i) else prune ord top counted fh (k - cost i)) (fun h =>
               bind (if i =? j then or_f ord top counted fuel fl gl k else or_f ord top counted fuel fl (ZN j gh gl) k) (fun l =>
               bind (strip ord i h) (fun h' => minimize ord top (reduced i h' l))))) s
      (fun r s' => inv s' /\ or_spec (ZN i fh fl) (ZN j gh gl) k r)).
  { clear Wf Wg Af Ag F Eq E. intros i fh fl j gh gl Wf Wg Af Ag O Fi Fj.
    destruct (wf_lit _ _ _ Wf) as [Ni Oi]. destruct (wf_lit _ _ _ Wg) as [Nj Oj].
    pose proof (wf_high _ _ _ Wf) as Wfh. pose proof (wf_low _ _ _ Wf) as Wfl. pose proof (wf_above _ _ _ Wf) as Afh. pose proof (wf_after_low _ _ _ Wf) as Afl.
    pose proof (wf_high _ _ _ Wg) as Wgh. pose proof (wf_low _ _ _ Wg) as Wgl. pose proof (wf_above _ _ _ Wg) as Agh. pose proof (wf_after_low _ _ _ Wg) as Agl.
    pose proof (level_after i fh Wfh Ni Oi (above_after _ _ Afh)) as L1. pose proof (level_after i fl Wfl Ni Oi Afl) as L2.
    pose proof (level_after j gh Wgh Nj Oj (above_after _ _ Agh)) as L3. pose proof (level_after j gl Wgl Nj Oj Agl) as L4.
    pose proof (anti_high _ _ _ Wf Af) as Nfh. pose proof (anti_low _ _ _ Af) as Nfl.
    pose proof (anti_high _ _ _ Wg Ag) as Ngh. pose proof (anti_low _ _ _ Ag) as Ngl.
    destruct ((ord i =? ord j) && negb (i =? j) && terminal fh && terminal gh) eqn:C.
    { apply andb_prop in C as [C C4]. apply andb_prop in C as [C C3]. apply andb_prop in C as [C1 C2].
      apply Z.eqb_eq in C1. apply negb_true_iff, Z.eqb_neq in C2.
      assert (Hj : j = - i) by (destruct (proj1 (ORD i j Ni Nj) C1); lia).
      assert (Hfh : fh = ZB) by (destruct fh; auto; try discriminate; destruct Wf as (_ & _ & X & _); contradiction).
      assert (Hgh : gh = ZB) by (destruct gh; auto; try discriminate; destruct Wg as (_ & _ & X & _); contradiction).
      apply runs_ret. split; auto. apply or_base; auto. intros v Hv. subst. simpl. rewrite Hv by auto. destruct (v i); auto. }
    clear C.
    (* high *)
    assert (SH : runs (if i =? j then or_f ord top counted fuel fh gh (k - cost i) else prune ord top counted fh (k - cost i)) s
      (fun h s' => inv s' /\ wf h /\ after i h /\ (forall p, In p (fam h) -> size p <= k - cost i) /\
         (forall x, lits h x -> lits (ZN i fh fl) x \/ lits (ZN j gh gl) x) /\
         (forall v, assignment v -> ev v h = true -> ev v fh = true \/ i = j /\ ev v gh = true) /\
         (forall x, NoDup x -> consistent x -> size x <= k - cost i -> ev (mem x) fh = true \/ (i = j /\ ev (mem x) gh = true) -> ev (mem x) h = true))).
    { destruct (Z.eqb_spec i j) as [<-|Ne].
      - eapply runs_mono; [apply (IH fh gh); auto; lia|]. intros h s' [I' S].
        repeat match goal with |- _ /\ _ => split end; auto.
        + apply S.
        + apply after_lits. intros y Y. apply (o_lits _ _ _ _ S) in Y as [Y|Y]; (eapply lits_after; [|exact Y]); apply above_after; auto.
        + apply S.
        + intros x X. apply (o_lits _ _ _ _ S) in X as [X|X]; [left|right]; apply lits_high; auto.
        + intros v Hv X. destruct (o_sound _ _ _ _ S v Hv X); auto.
        + intros x Nx Cx Lx [X|[_ X]]; apply (o_complete _ _ _ _ S x); auto.
      - eapply runs_mono; [apply (prune_ok fh); auto|]. intros h s' [I' S].
        repeat match goal with |- _ /\ _ => split end; auto.
        + apply S.
        + apply above_after. intros p y P Y. apply (pru_sub _ _ _ S) in P. eauto.
        + intros p P. apply S in P. tauto.
        + intros x X. left. apply lits_high. apply (sub_lits h fh); auto. apply (pru_sub _ _ _ S).
        + intros v Hv X. left. eapply pru_ev_sound; eauto.
        + intros x Nx Cx Lx [X|[X _]]; [|contradiction]. apply (pru_ev_complete fh (k - cost i)); auto. }
    apply runs_seq with (1 := SH). clear SH. intros h s1 (I1 & Wh & Ah & Zh & Lh & Sh & Ch).
    assert (SL : runs (if i =? j then or_f ord top counted fuel fl gl k else or_f ord top counted fuel fl (ZN j gh gl) k) s1
      (fun l s' => inv s' /\ wf l /\ after i l /\ (forall p, In p (fam l) -> size p <= k) /\
         (forall x, lits l x -> lits (ZN i fh fl) x \/ lits (ZN j gh gl) x) /\
         (forall v, assignment v -> ev v l = true -> ev v fl = true \/ ev v (ZN j gh gl) = true) /\
         (forall x, NoDup x -> consistent x -> size x <= k -> ev (mem x) fl = true \/ (i = j /\ ev (mem x) gl = true) \/ (i <> j /\ ev (mem x) (ZN j gh gl) = true) -> ev (mem x) l = true))).
    { destruct (Z.eqb_spec i j) as [<-|Ne].
      - eapply runs_mono; [apply (IH fl gl); auto; lia|]. intros l s' [I' S].
        repeat match goal with |- _ /\ _ => split end; auto.
        + apply S.
        + apply after_lits. intros y Y. apply (o_lits _ _ _ _ S) in Y as [Y|Y]; (eapply lits_after; [|exact Y]); auto.
        + apply S.
        + intros x X. apply (o_lits _ _ _ _ S) in X as [X|X]; [left|right]; apply lits_low; auto.
        + intros v Hv X. simpl. destruct (o_sound _ _ _ _ S v Hv X) as [Y|Y]; auto. rewrite Y, orb_true_r. auto.
        + intros x Nx Cx Lx [X|[[_ X]|[X _]]]; try contradiction; apply (o_complete _ _ _ _ S x); auto.
      - destruct O as [O|O]; [contradiction|]. pose proof (rk_before i j Ni Nj Oi Oj O) as L5.
        eapply runs_mono; [apply (IH fl (ZN j gh gl)); auto; simpl; lia|]. intros l s' [I' S].
        repeat match goal with |- _ /\ _ => split end; auto.
        + apply S.
        + apply after_lits. intros y Y. apply (o_lits _ _ _ _ S) in Y as [Y|Y]; (eapply lits_after; [|exact Y]); auto. apply after_root; auto.
        + apply S.
        + intros x X. apply (o_lits _ _ _ _ S) in X as [X|X]; [left; apply lits_low|right]; auto.
        + intros v Hv X. destruct (o_sound _ _ _ _ S v Hv X) as [Y|Y]; auto.
        + intros x Nx Cx Lx [X|[[X _]|[_ X]]]; try contradiction; apply (o_complete _ _ _ _ S x); auto. }
    apply runs_seq with (1 := SL). clear SL. intros l s2 (I2 & Wl & Al & Zl & Ll & Sl & Cl).
    eapply runs_mono; [apply (close_ok i h l k s2); auto|]. intros r s3 (I3 & Wr & Nr & Fr & Zr & Er & Hr & Lr). split; auto.
    constructor; auto.
    - intros y (p & P & Y). apply Fr in P as [(p' & -> & P)|P].
      + destruct Y as [<-|Y]; [left; apply root_lit; auto|]. apply Lh. exists p'. auto.
      + apply Ll. exists p. auto.
    - intros v Hv X. apply Er in X as [[X Y]|X].
      + apply Sh in Y as [Y|[<- Y]]; auto; [left|right]; simpl; rewrite X, Y; auto.
      + apply Sl in X as [X|X]; auto. left. simpl. rewrite X, orb_true_r. auto.
    - intros x Nx Cx Lx X.
      assert (HH : In i x -> ev (mem x) fh = true \/ (i = j /\ ev (mem x) gh = true) -> ev (mem x) r = true).
      { intros J Y. apply Hr; auto. rewrite <- (ev_remove i) by (intros p P; apply (after_not_in i h p Ah P)).
        apply Ch; [apply remove_nodup; auto|apply remove_consistent; auto|rewrite remove_size; auto; lia|].
        destruct Y as [Y|[<- Y]]; [left|right; split; auto]; (rewrite ev_remove; [auto|]); intros p P; eapply above_not_in; eauto. }
      destruct X as [X|X].
      + simpl in X. apply orb_prop in X as [X|X]; [apply andb_prop in X as [X Y]; apply mem_In in X; auto|apply Lr; apply Cl; auto].
      + destruct (Z.eq_dec i j) as [<-|Ne]; [|apply Lr; apply Cl; auto].
        simpl in X. apply orb_prop in X as [X|X]; [apply andb_prop in X as [X Y]; apply mem_In in X; auto|apply Lr; apply Cl; auto]. }
  destruct (wf_lit _ _ _ Wf) as [Ni Oi]. destruct (wf_lit _ _ _ Wg) as [Nj Oj]. simpl in F.
  assert (FIN : forall r s', inv s' -> or_spec (ZN i0 fh0 fl0) (ZN j0 gh0 gl0) k r ->
    runs (bind (check (within_limit counted r k)) (fun _ => bind (modify (put_or (ZN i0 fh0 fl0) (ZN j0 gh0 gl0) k r)) (fun _ => ret r))) s'
      (fun r s' => inv s' /\ or_spec (ZN i0 fh0 fl0) (ZN j0 gh0 gl0) k r)).
  { intros r s' I' S. apply runs_bind, runs_check; [apply within_ok; auto; apply S|]. apply runs_bind, runs_modify, runs_ret.
    split; auto. apply inv_put_or; auto. }
  destruct (beforeb ord j0 i0) eqn:Eb.
  - apply beforeb_spec in Eb. apply runs_seq with (1 := B j0 gh0 gl0 i0 fh0 fl0 Wg Wf Ag Af (or_intror Eb) ltac:(lia) ltac:(lia)).
    intros r s' [I' S]. apply FIN; auto. apply or_spec_comm; auto.
  - apply beforeb_false in Eb; auto.
    apply runs_seq with (1 := B i0 fh0 fl0 j0 gh0 gl0 Wf Wg Af Ag ltac:(destruct Eb; auto) ltac:(lia) ltac:(lia)).
    intros r s' [I' S]. apply FIN; auto.
Qed.
Lemma apply_or_ok f g k s : inv s -> wf f -> wf g -> antichain f -> antichain g ->
  runs (apply_or ord top counted f g k) s (fun r s' => inv s' /\ or_spec f g k r).
Proof. intros. apply or_f_ok; auto. Qed.

Lemma and_empty f g k : f = ZE \/ g = ZE -> and_spec f g k ZE.
Proof.
  intros H. constructor; simpl; auto using anti_ZE; try (intros; contradiction); try discriminate.
  - intros j (p & [] & _).
  - destruct H as [-> | ->]; simpl; auto.
Qed.
Lemma and_f_ok : forall fuel f g k s, inv s -> wf f -> wf g -> antichain f -> antichain g -> (Nat.max (lvl f) (lvl g) < fuel)%nat ->
  runs (and_f ord top counted fuel f g k) s (fun r s' => inv s' /\ and_spec f g k r).
Proof.
  induction fuel as [|fuel IH]; intros f g k s I Wf Wg Af Ag F; [lia|]. simpl.
  destruct (Z.ltb_spec k 0) as [K|K]; [apply runs_ret; split; auto; apply and_neg; auto|].
  assert (TE : forall t, wf t -> antichain t -> runs (prune ord top counted t k) s (fun r s' => inv s' /\ and_spec t ZB k r)).
  { intros t Wt At. eapply runs_mono; [apply prune_ok; auto|]. intros r s' [I' S]. split; auto. apply (pru_and t ZB k r); auto. }
  destruct f as [| |i0 fh0 fl0]; [apply runs_ret; split; auto; apply and_empty; auto
    |eapply runs_mono; [apply (TE g); auto|]; intros r s' [I' S]; split; auto; apply and_spec_comm; auto|].
  destruct g as [| |j0 gh0 gl0]; [apply runs_ret; split; auto; apply and_empty; auto|apply TE; auto|].
  destruct (zeqb _ _) eqn:Eq.
  { apply zeqb_eq in Eq. rewrite <- Eq. eapply runs_mono; [apply prune_ok; auto|]. intros r s' [I' S]. split; auto. apply pru_and; auto. }
  apply runs_bind, runs_get. destruct (find_apply _ _ _ _) as [r|] eqn:E.
  { apply runs_ret. split; auto. eapply find_and_ok; eauto. }
  clear TE.
  assert (B : forall i fh fl j gh gl (Q : zt -> state -> Prop), wf (ZN i fh fl) -> wf (ZN j gh gl) -> antichain (ZN i fh fl) -> antichain (ZN j gh gl) ->
    (i = j \/ before i j) -> (rk ord top i < S fuel)%nat -> (rk ord top j < S fuel)%nat ->
    (forall r s', inv s' -> and_spec (ZN i fh fl) (ZN j gh gl) k r ->
       runs (bind (check (within_limit counted r k)) (fun _ => bind (modify (put_and (ZN i0 fh0 fl0) (ZN j0 gh0 gl0) k r)) (fun _ => ret r))) s' Q) ->
    runs (bind (if i =? j then
                  bind (apply_or ord top counted gh gl (k - cost i)) (fun x =>
                  bind (and_f ord top counted fuel fh x (k - cost i)) (fun y =>
                  bind (and_f ord top counted fuel fl gh (k - cost i)) (fun z =>
                  apply_or ord top counted y z (k - cost i))))
                else if ord i =? ord j then and_f ord top counted fuel fh gl (k - cost i)
                else and_f ord top counted fuel fh (ZN j gh gl) (k - cost i)) (fun h =>
          bind (if i =? j then and_f ord top counted fuel fl gl k else and_f ord top counted fuel fl (ZN j gh gl) k) (fun l =>
          bind (strip ord i h) (fun h' => bind (minimize ord top (reduced i h' l)) (fun r =>
          bind (check (within_limit counted r k)) (fun _ => bind (modify (put_and (ZN i0 fh0 fl0) (ZN j0 gh0 gl0) k r)) (fun _ => ret r))))))) s Q).
  { clear Wf Wg Af Ag F Eq E. intros i fh fl j gh gl Q Wf Wg Af Ag O Fi Fj HQ.
    destruct (wf_lit _ _ _ Wf) as [Ni Oi]. destruct (wf_lit _ _ _ Wg) as [Nj Oj].
    pose proof (wf_high _ _ _ Wf) as Wfh. pose proof (wf_low _ _ _ Wf) as Wfl. pose proof (wf_above _ _ _ Wf) as Afh. pose proof (wf_after_low _ _ _ Wf) as Afl.
    pose proof (wf_high _ _ _ Wg) as Wgh. pose proof (wf_low _ _ _ Wg) as Wgl. pose proof (wf_above _ _ _ Wg) as Agh. pose proof (wf_after_low _ _ _ Wg) as Agl.
    pose proof (level_after i fh Wfh Ni Oi (above_after _ _ Afh)) as L1. pose proof (level_after i fl Wfl Ni Oi Afl) as L2.
    pose proof (level_after j gh Wgh Nj Oj (above_after _ _ Agh)) as L3. pose proof (level_after j gl Wgl Nj Oj Agl) as L4.
    pose proof (anti_high _ _ _ Wf Af) as Nfh. pose proof (anti_low _ _ _ Af) as Nfl.
    pose proof (anti_high _ _ _ Wg Ag) as Ngh. pose proof (anti_low _ _ _ Ag) as Ngl.
    set (g := ZN j gh gl) in *. set (f := ZN i fh fl) in *.
    assert (SH : runs (if i =? j then
                  bind (apply_or ord top counted gh gl (k - cost i)) (fun x =>
                  bind (and_f ord top counted fuel fh x (k - cost i)) (fun y =>
                  bind (and_f ord top counted fuel fl gh (k - cost i)) (fun z =>
                  apply_or ord top counted y z (k - cost i))))
                else if ord i =? ord j then and_f ord top counted fuel fh gl (k - cost i)
                else and_f ord top counted fuel fh g (k - cost i)) s
      (fun h s' => inv s' /\ wf h /\ after i h /\ (forall p, In p (fam h) -> size p <= k - cost i) /\
         (forall x, lits h x -> lits f x \/ lits g x) /\
         (forall v, assignment v -> v i = true -> ev v h = true -> ev v f = true /\ ev v g = true) /\
         (forall x, NoDup x -> consistent x -> In i x -> size x <= k -> ev (mem x) f = true -> ev (mem x) g = true ->
            ev (mem x) fl && ev (mem x) (if i =? j then gl else g) = true \/ ev (mem x) h = true))).
    { destruct (Z.eqb_spec i j) as [<-|Ne].
      - assert (NI : forall t, t = fh \/ t = fl \/ t = gh \/ t = gl -> forall p, In p (fam t) -> ~ In i p).
        { intros t [->|[->|[->| ->]]] p P; [apply (above_not_in i fh p Afh P)|apply (after_not_in i fl p Afl P)|apply (above_not_in i gh p Agh P)|apply (after_not_in i gl p Agl P)]. }
        assert (AF : forall t, t = fh \/ t = fl \/ t = gh \/ t = gl -> after i t).
        { intros t [->|[->|[->| ->]]]; auto using above_after. }
        apply runs_seq with (1 := apply_or_ok gh gl (k - cost i) s I Wgh Wgl Ngh Ngl). intros x1 s1 [I1 S1].
        pose proof (or_level _ _ _ _ (Nat.pred (rk ord top i)) Wgh Wgl S1 ltac:(lia) ltac:(lia)) as L5.
        apply runs_seq with (1 := IH fh x1 (k - cost i) s1 I1 Wfh (o_wf _ _ _ _ S1) Nfh (o_anti _ _ _ _ S1) ltac:(lia)). intros y s2 [I2 S2].
        apply runs_seq with (1 := IH fl gh (k - cost i) s2 I2 Wfl Wgh Nfl Ngh ltac:(lia)). intros z s3 [I3 S3].
        eapply runs_mono; [apply (apply_or_ok y z (k - cost i) s3); auto; first [apply S2|apply S3]|]. intros h s4 [I4 S4].
        assert (LY : forall x, lits h x -> lits fh x \/ lits fl x \/ lits gh x \/ lits gl x).
        { intros x X. apply (o_lits _ _ _ _ S4) in X as [X|X].
          - apply (a_lits _ _ _ _ S2) in X as [X|X]; auto. apply (o_lits _ _ _ _ S1) in X. tauto.
          - apply (a_lits _ _ _ _ S3) in X as [X|X]; auto. }
        repeat match goal with |- _ /\ _ => split end; auto.
        + apply S4.
        + apply after_lits. intros w X. apply LY in X as [X|[X|[X|X]]]; (eapply lits_after; [|exact X]); apply AF; auto.
        + apply S4.
        + intros x X. apply LY in X as [X|[X|[X|X]]]; [left; apply lits_high|left; apply lits_low|right; apply lits_high|right; apply lits_low]; auto.
        + intros v Hv Hi X. apply (o_sound _ _ _ _ S4 v Hv) in X as [X|X].
          * apply (a_sound _ _ _ _ S2 v Hv) in X as [X Y]. apply (o_sound _ _ _ _ S1 v Hv) in Y.
            simpl. rewrite Hi, X. split; auto. destruct Y as [-> | ->]; rewrite ?orb_true_r; auto.
          * apply (a_sound _ _ _ _ S3 v Hv) in X as [X Y]. simpl. rewrite Hi, X, Y, ?orb_true_r. auto.
        + intros x Nx Cx Jx Lx X Y. set (x' := remove Z.eq_dec i x).
          assert (Nx' : NoDup x') by (apply remove_nodup; auto). assert (Cx' : consistent x') by (apply remove_consistent; auto).
          assert (Lx' : size x' <= k - cost i) by (unfold x'; rewrite remove_size; auto; lia).
          assert (R : forall t, t = fh \/ t = fl \/ t = gh \/ t = gl -> ev (mem x') t = ev (mem x) t) by (intros t Ht; apply ev_remove; apply NI; auto).
          assert (RH : ev (mem x') h = true -> ev (mem x) h = true).
          { intros H. unfold x' in H. rewrite ev_remove in H; auto. intros p P J.
            assert (LJ : lits h i) by (exists p; auto). apply LY in LJ. destruct LJ as [(q & Q1 & Q2)|[(q & Q1 & Q2)|[(q & Q1 & Q2)|(q & Q1 & Q2)]]];
            (eapply NI; [|exact Q1|exact Q2]); auto. }
          simpl in X, Y. apply orb_prop in X. apply orb_prop in Y.
          destruct X as [X|X]; [apply andb_prop in X as [_ X]|].
          * right. apply RH. apply (o_complete _ _ _ _ S4); auto. left. apply (a_complete _ _ _ _ S2); auto; [rewrite R; auto|].
            apply (o_complete _ _ _ _ S1); auto. rewrite !R; auto. destruct Y as [Y|Y]; auto. apply andb_prop in Y. tauto.
          * destruct Y as [Y|Y]; [apply andb_prop in Y as [_ Y]|left; rewrite X, Y; auto].
            right. apply RH. apply (o_complete _ _ _ _ S4); auto. right. apply (a_complete _ _ _ _ S3); auto; rewrite R; auto.
      - destruct O as [O|O]; [contradiction|]. pose proof (rk_before i j Ni Nj Oi Oj O) as L5.
        pose proof (after_root i j gh gl Wg O) as AG. fold g in AG.
        assert (G : exists g', g' = (if ord i =? ord j then gl else g) /\ wf g' /\ antichain g' /\ (lvl g' < rk ord top i)%nat /\ after i g' /\
          (forall x, lits g' x -> lits g x) /\ (forall v, ev v g' = true -> ev v g = true) /\
          (forall x, consistent x -> In i x -> ev (mem x) g = true -> ev (mem x) g' = true)).
        { eexists. split; [reflexivity|]. destruct (Z.eqb_spec (ord i) (ord j)) as [Eo|Eo].
          - assert (Hj : j = - i) by (destruct (proj1 (ORD i j Ni Nj) Eo); lia).
            repeat match goal with |- _ /\ _ => split end; auto; try lia.
            + intros p y P Y. eapply before_trans; [exact O|]. eauto.
            + intros x X. apply lits_low; auto.
            + intros v X. simpl. rewrite X, orb_true_r. auto.
            + intros x Cx Jx X. simpl in X. apply orb_prop in X as [X|X]; auto. apply andb_prop in X as [X _]. apply mem_In in X.
              exfalso. apply (Cx i); auto. rewrite <- Hj. auto.
          - repeat match goal with |- _ /\ _ => split end; auto. }
        destruct G as (g' & Eg & Wg' & Ng' & Lg' & Ag' & LL & SG & CG).
        assert (RW : (if ord i =? ord j then and_f ord top counted fuel fh gl (k - cost i) else and_f ord top counted fuel fh g (k - cost i)) =
                     and_f ord top counted fuel fh g' (k - cost i)) by (subst g'; destruct (ord i =? ord j); auto).
        rewrite RW. clear RW Eg.
        eapply runs_mono; [apply (IH fh g' (k - cost i) s); auto; lia|]. intros h s1 [I1 S1].
        assert (AH : after i h).
        { apply after_lits. intros y Y. apply (a_lits _ _ _ _ S1) in Y as [Y|Y]; (eapply lits_after; [|exact Y]); auto. apply above_after; auto. }
        repeat match goal with |- _ /\ _ => split end; auto.
        + apply S1.
        + apply S1.
        + intros x X. apply (a_lits _ _ _ _ S1) in X as [X|X]; [left; apply lits_high; auto|right; auto].
        + intros v Hv Hi X. apply (a_sound _ _ _ _ S1 v Hv) in X as [X Y]. split; auto. unfold f. cbn [ev]. rewrite Hi, X. auto.
        + intros x Nx Cx Jx Lx X Y. unfold f in X. cbn [ev] in X. apply orb_prop in X as [X|X]; [|left; rewrite X, Y; auto].
          right. apply andb_prop in X as [_ X]. rewrite <- (ev_remove i) by (intros p P; apply (after_not_in i h p AH P)).
          apply (a_complete _ _ _ _ S1); [apply remove_nodup; auto|apply remove_consistent; auto|rewrite remove_size; auto; lia| |].
          * rewrite ev_remove; auto. intros p P. eapply above_not_in; eauto.
          * rewrite ev_remove; auto. intros p P. apply (after_not_in i g' p Ag' P). }
    apply runs_seq with (1 := SH). clear SH. intros h s1 (I1 & Wh & Ah & Zh & Lh & Sh & Ch).
    assert (SL : runs (if i =? j then and_f ord top counted fuel fl gl k else and_f ord top counted fuel fl g k) s1
      (fun l s' => inv s' /\ wf l /\ after i l /\ (forall p, In p (fam l) -> size p <= k) /\
         (forall x, lits l x -> lits f x \/ lits g x) /\
         (forall v, assignment v -> ev v l = true -> ev v f = true /\ ev v g = true) /\
         (forall x, NoDup x -> consistent x -> size x <= k -> ev (mem x) fl && ev (mem x) (if i =? j then gl else g) = true -> ev (mem x) l = true))).
    { assert (G : exists g', g' = (if i =? j then gl else g) /\ wf g' /\ antichain g' /\ (lvl g' < rk ord top i)%nat /\ after i g' /\
          (forall x, lits g' x -> lits g x) /\ (forall v, ev v g' = true -> ev v g = true)).
      { eexists. split; [reflexivity|]. destruct (Z.eqb_spec i j) as [<-|Ne].
        - repeat match goal with |- _ /\ _ => split end; auto.
          + intros x X. apply lits_low; auto.
          + intros v X. simpl. rewrite X, orb_true_r. auto.
        - destruct O as [O|O]; [contradiction|]. pose proof (rk_before i j Ni Nj Oi Oj O).
          repeat match goal with |- _ /\ _ => split end; auto. apply after_root; auto. }
      destruct G as (g' & Eg & Wg' & Ng' & Lg' & Ag' & LL & SG). rewrite <- Eg.
      assert (RW : (if i =? j then and_f ord top counted fuel fl gl k else and_f ord top counted fuel fl g k) =
                   and_f ord top counted fuel fl g' k) by (subst g'; destruct (i =? j); auto).
      rewrite RW. clear RW Eg.
      eapply runs_mono; [apply (IH fl g' k s1); auto; lia|]. intros l s2 [I2 S2].
      repeat match goal with |- _ /\ _ => split end; auto.
      + apply S2.
      + apply after_lits. intros y Y. apply (a_lits _ _ _ _ S2) in Y as [Y|Y]; (eapply lits_after; [|exact Y]); auto.
      + apply S2.
      + intros x X. apply (a_lits _ _ _ _ S2) in X as [X|X]; [left; apply lits_low; auto|right; auto].
      + intros v Hv X. apply (a_sound _ _ _ _ S2 v Hv) in X as [X Y]. split; auto. unfold f. cbn [ev]. rewrite X, orb_true_r. auto.
      + intros x Nx Cx Lx X. apply andb_prop in X as [X Y]. apply (a_complete _ _ _ _ S2); auto. }
    apply runs_seq with (1 := SL). clear SL. intros l s2 (I2 & Wl & Al & Zl & Ll & Sl & Cl).
    assert (ASSOC : forall T (m : M zt) (f1 : zt -> M zt) (f2 : zt -> M T) s0 Q0, runs (bind (bind m f1) f2) s0 Q0 -> runs (bind m (fun a => bind (f1 a) f2)) s0 Q0).
    { intros T m f1 f2 s0 Q0 (a & s' & H1 & H2). exists a, s'. split; auto. unfold bind in *. destruct (m s0) as [[b sb]|]; auto. }
    apply (ASSOC zt (strip ord i h) (fun h' => minimize ord top (reduced i h' l))).
    apply runs_seq with (1 := close_ok i h l k s2 I2 Ni Oi Wh Wl Ah Al Zh Zl K). intros r s3 (I3 & Wr & Nr & Fr & Zr & Er & Hr & Lr).
    apply HQ; auto. constructor; auto.
    - intros y (p & P & Y). apply Fr in P as [(p' & -> & P)|P].
      + destruct Y as [<-|Y]; [left; apply root_lit; auto|]. apply Lh. exists p'. auto.
      + apply Ll. exists p. auto.
    - intros v Hv X. apply Er in X as [[X Y]|X]; auto.
    - intros x Nx Cx Lx X Y.
      destruct (in_dec Z.eq_dec i x) as [J|J].
      + destruct (Ch x Nx Cx J Lx X Y) as [Z0|Z0]; auto.
      + apply Lr. apply Cl; auto. apply andb_true_iff.
        assert (Mi : mem x i = false) by (destruct (mem x i) eqn:Em; auto; apply mem_In in Em; contradiction).
        unfold f in X. simpl in X. rewrite Mi in X. simpl in X. split; auto.
        destruct (Z.eqb_spec i j) as [<-|Ne]; auto. unfold g in Y. simpl in Y. rewrite Mi in Y. auto. }
  destruct (wf_lit _ _ _ Wf) as [Ni Oi]. destruct (wf_lit _ _ _ Wg) as [Nj Oj]. simpl in F.
  assert (FIN : forall r s', inv s' -> and_spec (ZN i0 fh0 fl0) (ZN j0 gh0 gl0) k r ->
    runs (bind (check (within_limit counted r k)) (fun _ => bind (modify (put_and (ZN i0 fh0 fl0) (ZN j0 gh0 gl0) k r)) (fun _ => ret r))) s'
      (fun r s' => inv s' /\ and_spec (ZN i0 fh0 fl0) (ZN j0 gh0 gl0) k r)).
  { intros r s' I' S. apply runs_bind, runs_check; [apply within_ok; auto; apply S|]. apply runs_bind, runs_modify, runs_ret.
    split; auto. apply inv_put_and; auto. }
  destruct (beforeb ord j0 i0) eqn:Eb.
  - apply beforeb_spec in Eb. apply B; auto; try lia. intros r s' I' S. apply FIN; auto. apply and_spec_comm; auto.
  - apply beforeb_false in Eb; auto. apply B; auto; try lia. destruct Eb; auto.
Qed.
Lemma apply_and_ok f g k s : inv s -> wf f -> wf g -> antichain f -> antichain g ->
  runs (apply_and ord top counted f g k) s (fun r s' => inv s' /\ and_spec f g k r).
Proof. intros. apply and_f_ok; auto. Qed.
End Proofs.
