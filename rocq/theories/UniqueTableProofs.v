(** Invariants of the unique table and of the reference counts. *)
From stdpp Require Import gmap.
From Coq Require Import List ZArith Lia Bool Permutation.
Import ListNotations.
From Verif Require Import UniqueTable.
Open Scope Z_scope.

Notation cnt a l := (count_occ Nat.eq_dec l a).
Lemma cnt_perm a l l' : Permutation l l' -> cnt a l = cnt a l'.
Proof. intros P. revert a. apply (Permutation_count_occ Nat.eq_dec). auto. Qed.
Lemma cnt_app a l l' : cnt a (l ++ l') = (cnt a l + cnt a l')%nat. Proof. apply count_occ_app. Qed.

Global Instance in_nat_decision (a : nat) (l : list nat) : Decision (In a l) := in_dec Nat.eq_dec a l.

Lemma NoDup_app_remove_l {X} (l l' : list X) : NoDup (l ++ l') -> NoDup l'.
Proof. induction l as [|x l IH]; auto. intros H. inversion H; auto. Qed.
Lemma NoDup_app_remove_r {X} (l l' : list X) : NoDup (l ++ l') -> NoDup l.
Proof. intros H. apply (NoDup_app_remove_l l' l). apply (Permutation_NoDup (Permutation_app_comm l l')). auto. Qed.

(** ** References *)
Definition edges (H : memory) : list nat := concat (map (fun p => kids p.2) (map_to_list H)).
Lemma concat_perm {X} (l l' : list (list X)) : Permutation l l' -> Permutation (concat l) (concat l').
Proof.
  intros P. induction P as [|x l l' P IH|x y l|l1 l2 l3 P1 IH1 P2 IH2]; cbn [concat]; auto.
  - apply Permutation_app_head. auto.
  - rewrite !app_assoc. apply Permutation_app_tail. apply Permutation_app_comm.
  - etransitivity; eauto.
Qed.
Lemma edges_insert H a v : H !! a = None -> Permutation (edges (<[a := v]> H)) (kids v ++ edges H).
Proof. intros E. exact (concat_perm _ _ (Permutation_map (fun p : nat * vert => kids p.2) (map_to_list_insert H a v E))). Qed.
Lemma edges_split H a v : H !! a = Some v -> Permutation (edges H) (kids v ++ edges (delete a H)).
Proof. intros E. rewrite <- (insert_delete H a v E) at 1. apply edges_insert. apply lookup_delete. Qed.
Lemma edges_update H a v v' : H !! a = Some v -> kids v' = kids v -> Permutation (edges (<[a := v']> H)) (edges H).
Proof. intros E K. rewrite <- (insert_delete_insert H a v'). rewrite edges_insert by apply lookup_delete. rewrite K. symmetry. apply edges_split. auto. Qed.
Lemma edges_In H b : In b (edges H) <-> exists a v, H !! a = Some v /\ In b (kids v).
Proof.
  unfold edges. rewrite in_concat. split.
  - intros (l & J & K). apply in_map_iff in J as ([a v] & <- & J). apply elem_of_list_In, elem_of_map_to_list in J. eauto.
  - intros (a & v & E & K). exists (kids v). split; auto. apply in_map_iff. exists (a, v). split; auto. apply elem_of_list_In, elem_of_map_to_list. auto.
Qed.

(** Memory; vertices in [D] are being destroyed, [E] are the references held. *)
Definition live (D : list nat) (H : memory) : memory := foldr delete H D.
Lemma live_lookup D H a : live D H !! a = if decide (In a D) then None else H !! a.
Proof.
  induction D as [|d D IH]; [auto|]. change (live (d :: D) H) with (delete d (live D H)). destruct (decide (a = d)) as [->|N].
  - rewrite lookup_delete. rewrite decide_True by (simpl; auto). auto.
  - rewrite lookup_delete_ne by auto. rewrite IH. destruct (decide (In a D)); [rewrite decide_True by (simpl; auto); auto|]. rewrite decide_False; auto. simpl. intuition congruence.
Qed.
Record sane (D E : list nat) (nid : Z) (H : memory) : Prop := {
  n_id : 2 <= nid;
  n_ids : forall a v, H !! a = Some v -> 0 <= v_id v < nid /\ (v_node v = None <-> v_id v < 2);
  n_inj : forall a b v w, H !! a = Some v -> H !! b = Some w -> v_id v = v_id w -> a = b;
  n_kids : forall a v i c h l, H !! a = Some v -> ~ In a D -> v_node v = Some (i, c, h, l) ->
    exists vh vl, H !! h = Some vh /\ H !! l = Some vl /\ ~ In h D /\ ~ In l D /\ v_id vh < v_id v /\ v_id vl < v_id v /\ (c = true -> v_id vl <> 0);
  n_uses : forall a v, H !! a = Some v -> ~ In a D -> v_uses v = cnt a (E ++ edges (live D H)) /\ (0 < v_uses v)%nat;
  n_held : forall a, In a E -> ~ In a D /\ is_Some (H !! a);
  n_dying : forall a, In a D -> is_Some (H !! a) }.
(** Same vertices but for the reference counts. *)
Definition same (v w : vert) : Prop := v_id v = v_id w /\ v_node v = v_node w /\ v_entry v = v_entry w.
Definition within (H' H : memory) : Prop := forall a v, H' !! a = Some v -> exists w, H !! a = Some w /\ same v w.
Lemma within_refl H : within H H. Proof. intros a v E. exists v. repeat split; auto. Qed.
Lemma within_trans H1 H2 H3 : within H1 H2 -> within H2 H3 -> within H1 H3.
Proof. intros A B a v E. destruct (A a v E) as (w & Ew & S1 & S2 & S3). destruct (B a w Ew) as (x & Ex & T1 & T2 & T3). exists x. repeat split; auto; congruence. Qed.
Lemma within_set H a v n : H !! a = Some v -> within (<[a := set_uses n v]> H) H.
Proof. intros E b w Eb. destruct (decide (a = b)) as [<-|N]; [rewrite lookup_insert in Eb; injection Eb as <-; exists v; repeat split; auto|]. rewrite lookup_insert_ne in Eb by auto. exists w. repeat split; auto. Qed.
Lemma within_delete H a : within (delete a H) H.
Proof. intros b w Eb. destruct (decide (a = b)) as [<-|N]; [rewrite lookup_delete in Eb; discriminate|]. rewrite lookup_delete_ne in Eb by auto. exists w. repeat split; auto. Qed.
Lemma within_key H' H a k : within H' H -> key_of H' a = Some k -> key_of H a = Some k.
Proof.
  intros W. unfold key_of, id_of. destruct (H' !! a) as [v|] eqn:E; [|discriminate]. destruct (W a v E) as (w & Ew & S1 & S2 & S3). rewrite Ew. cbn [mbind option_bind]. rewrite <- S2. destruct (v_node v) as [[[[i c] h] l]|]; [|discriminate].
  destruct (H' !! h) as [vh|] eqn:Eh; [|discriminate]. destruct (W h vh Eh) as (wh & Ewh & T1 & _). rewrite Ewh. destruct (H' !! l) as [vl|] eqn:El; [|discriminate]. destruct (W l vl El) as (wl & Ewl & U1 & _). rewrite Ewl. cbn. rewrite T1, U1. auto.
Qed.
Lemma sane_key D E nid H a v i c h l : sane D E nid H -> H !! a = Some v -> ~ In a D -> v_node v = Some (i, c, h, l) -> exists hi lo, id_of H h = Some hi /\ id_of H l = Some lo /\ key_of H a = Some (i, hi, signed c lo).
Proof.
  intros S Ea N EN. destruct (n_kids _ _ _ _ S a v i c h l Ea N EN) as (vh & vl & Eh & El & _). exists (v_id vh), (v_id vl). unfold key_of, id_of. rewrite Ea. cbn [mbind option_bind]. rewrite EN, Eh, El. auto.
Qed.
(** Dropping one reference that is not the last. *)
Lemma sane_decr D E nid H a v n : sane D (a :: E) nid H -> H !! a = Some v -> v_uses v = S n -> (0 < n)%nat -> sane D E nid (<[a := set_uses n v]> H).
Proof.
  intros [s0 s1 s2 s3 s4 s5 s6] Ea U P. destruct (s5 a (or_introl eq_refl)) as [ND _].
  assert (LK : forall b w, <[a := set_uses n v]> H !! b = Some w -> exists w', H !! b = Some w' /\ v_id w = v_id w' /\ v_node w = v_node w' /\ (b <> a -> v_uses w = v_uses w') /\ (b = a -> v_uses w = n)).
  { intros b w Eb. destruct (decide (a = b)) as [<-|N]; [rewrite lookup_insert in Eb; injection Eb as <-; exists v; repeat split; auto; congruence|]. rewrite lookup_insert_ne in Eb by auto. exists w. repeat split; auto. congruence. }
  assert (SM : forall b, is_Some (H !! b) -> is_Some (<[a := set_uses n v]> H !! b)) by (intros b [w Eb]; destruct (decide (a = b)) as [<-|N]; [rewrite lookup_insert; eauto|rewrite lookup_insert_ne by auto; eauto]).
  constructor; auto.
  - intros b w Eb. destruct (LK b w Eb) as (w' & Ew & -> & -> & _). apply (s1 b w'); auto.
  - intros b b' w x Eb Eb' Q. destruct (LK b w Eb) as (w' & Ew & I1 & _). destruct (LK b' x Eb') as (x' & Ex & I2 & _). apply (s2 b b' w' x'); auto. congruence.
  - intros b w i c h l Eb NB EN. destruct (LK b w Eb) as (w' & Ew & I1 & I2 & _). rewrite I1. rewrite I2 in EN. destruct (s3 b w' i c h l Ew NB EN) as (vh & vl & Eh & El & Nh & Nl & Lh & Ll & Z0).
    assert (G : forall x vx, H !! x = Some vx -> exists vx', <[a := set_uses n v]> H !! x = Some vx' /\ v_id vx' = v_id vx).
    { intros x vx Ex. destruct (decide (a = x)) as [<-|N]; [rewrite lookup_insert|rewrite lookup_insert_ne by auto; eauto]. exists (set_uses n v). split; auto. rewrite Ex in Ea. injection Ea as ->. auto. }
    destruct (G h vh Eh) as (vh' & Eh' & Ih). destruct (G l vl El) as (vl' & El' & Il). exists vh', vl'. rewrite Ih, Il. repeat split; auto.
  - intros b w Eb NB. destruct (LK b w Eb) as (w' & Ew & I1 & I2 & I3 & I4). destruct (s4 b w' Ew NB) as [C P0].
    assert (PE : Permutation (edges (live D (<[a := set_uses n v]> H))) (edges (live D H))).
    { replace (live D (<[a := set_uses n v]> H)) with (<[a := set_uses n v]> (live D H)).
      - apply edges_update with (v := v); [rewrite live_lookup, decide_False by auto; auto|reflexivity].
      - apply map_eq. intros x. rewrite live_lookup. destruct (decide (a = x)) as [<-|N]; [rewrite !lookup_insert, decide_False by auto; auto|]. rewrite !lookup_insert_ne by auto. rewrite live_lookup. auto. }
    assert (C' : cnt b (E ++ edges (live D (<[a := set_uses n v]> H))) = cnt b (E ++ edges (live D H))) by (apply cnt_perm; rewrite PE; auto). rewrite C'. cbn [app] in C. destruct (Nat.eq_dec a b) as [<-|N].
    + rewrite Ew in Ea. injection Ea as ->. rewrite count_occ_cons_eq in C by auto. rewrite (I4 eq_refl). lia.
    + rewrite count_occ_cons_neq in C by auto. rewrite I3 by auto. auto.
  - intros b J. destruct (s5 b (or_intror J)). split; auto.
Qed.
(** The last reference: the vertex starts to be destroyed, its references are to be dropped. *)
Lemma sane_dying D E nid H a v : sane D (a :: E) nid H -> H !! a = Some v -> v_uses v = 1%nat -> sane (a :: D) (rev (kids v) ++ E) nid (<[a := set_uses 0 v]> H).
Proof.
  intros [s0 s1 s2 s3 s4 s5 s6] Ea U. destruct (s5 a (or_introl eq_refl)) as [ND _].
  assert (La : live D H !! a = Some v) by (rewrite live_lookup, decide_False by auto; auto).
  assert (PE : Permutation (edges (live D H)) (kids v ++ edges (delete a (live D H)))) by (apply edges_split; auto).
  assert (LL : live (a :: D) (<[a := set_uses 0 v]> H) = delete a (live D H)).
  { apply map_eq. intros x. rewrite live_lookup. destruct (decide (a = x)) as [<-|N]; [rewrite lookup_delete, decide_True by (simpl; auto); auto|]. rewrite lookup_delete_ne, lookup_insert_ne by auto. rewrite live_lookup.
    destruct (decide (In x D)); [rewrite decide_True by (simpl; auto)|rewrite decide_False by (simpl; intuition congruence)]; auto. }
  destruct (s4 a v Ea ND) as [Ua _]. cbn [app] in Ua. rewrite count_occ_cons_eq in Ua by auto. rewrite cnt_app in Ua.
  assert (NE : ~ In a E) by (rewrite (count_occ_In Nat.eq_dec); lia).
  assert (NK : ~ In a (edges (live D H))) by (rewrite (count_occ_In Nat.eq_dec); lia).
  assert (LK : forall b w, b <> a -> <[a := set_uses 0 v]> H !! b = Some w -> H !! b = Some w) by (intros b w N; rewrite lookup_insert_ne by auto; auto).
  assert (G : forall x vx, H !! x = Some vx -> exists vx', <[a := set_uses 0 v]> H !! x = Some vx' /\ v_id vx' = v_id vx /\ v_node vx' = v_node vx).
  { intros x vx Ex. destruct (decide (a = x)) as [<-|N]; [rewrite lookup_insert|rewrite lookup_insert_ne by auto; eauto]. exists (set_uses 0 v). split; auto. rewrite Ex in Ea. injection Ea as ->. auto. }
  assert (G' : forall x vx, <[a := set_uses 0 v]> H !! x = Some vx -> exists vx', H !! x = Some vx' /\ v_id vx' = v_id vx /\ v_node vx' = v_node vx).
  { intros x vx Ex. destruct (decide (a = x)) as [<-|N]; [rewrite lookup_insert in Ex; injection Ex as <-; eauto|]. rewrite lookup_insert_ne in Ex by auto. eauto. }
  constructor; auto.
  - intros b w Eb. destruct (G' b w Eb) as (w' & Ew & <- & <-). eauto.
  - intros b b' w x Eb Eb' Q. destruct (G' b w Eb) as (w' & Ew & I1 & _). destruct (G' b' x Eb') as (x' & Ex & I2 & _). apply (s2 b b' w' x'); auto. congruence.
  - intros b w i c h l Eb NB EN. assert (N : b <> a) by (intros ->; apply NB; simpl; auto). assert (NB' : ~ In b D) by (intros J; apply NB; simpl; auto). apply LK in Eb; auto. destruct (s3 b w i c h l Eb NB' EN) as (vh & vl & Eh & El & Nh & Nl & Lh & Ll & Z0).
    assert (Kb : forall x, In x (kids w) -> x <> a) by (intros x J ->; apply NK; apply edges_In; exists b, w; rewrite live_lookup, decide_False by auto; auto).
    unfold kids in Kb. rewrite EN in Kb. assert (h <> a /\ l <> a) as [Nh' Nl'] by (split; apply Kb; simpl; auto). exists vh, vl. rewrite !lookup_insert_ne by auto. repeat split; auto; simpl; intuition congruence.
  - intros b w Eb NB. assert (N : b <> a) by (intros ->; apply NB; simpl; auto). assert (NB' : ~ In b D) by (intros J; apply NB; simpl; auto). apply LK in Eb; auto. destruct (s4 b w Eb NB') as [C P0]. split; auto. rewrite C, LL. cbn [app]. rewrite count_occ_cons_neq by auto.
    rewrite !cnt_app. rewrite (cnt_perm b _ _ PE), cnt_app. rewrite (cnt_perm b (rev (kids v)) (kids v)) by (symmetry; apply Permutation_rev). lia.
  - intros b J. apply in_app_iff in J as [J|J].
    + apply in_rev in J. unfold kids in J. destruct (v_node v) as [[[[i c] h] l]|] eqn:EN; [|destruct J]. destruct (s3 a v i c h l Ea ND EN) as (vh & vl & Eh & El & Nh & Nl & Lh & Ll & Z0).
      assert (NA : h <> a /\ l <> a) by (split; intros ->; [rewrite Ea in Eh; injection Eh as <-|rewrite Ea in El; injection El as <-]; lia). destruct J as [<-|[<-|[]]]; (split; [simpl; intuition congruence|rewrite lookup_insert_ne by (intuition congruence)]); [exists vh; exact Eh|exists vl; exact El].
    + assert (b <> a) by congruence. destruct (s5 b (or_intror J)) as [NB [w Ew]]. split; [simpl; intuition congruence|]. rewrite lookup_insert_ne by auto. rewrite Ew. eauto.
  - intros b [<-|J]; [rewrite lookup_insert; eauto|]. destruct (decide (a = b)) as [<-|N]; [contradiction|]. rewrite lookup_insert_ne by auto. auto.
Qed.
(** The end of the destruction. *)
Lemma sane_delete D E nid H a : ~ In a D -> sane (a :: D) E nid H -> sane D E nid (delete a H).
Proof.
  intros ND [s0 s1 s2 s3 s4 s5 s6].
  assert (LL : live D (delete a H) = live (a :: D) H).
  { apply map_eq. intros x. rewrite !live_lookup. destruct (decide (a = x)) as [<-|N]; [rewrite lookup_delete, (decide_True (P := In a (a :: D))) by (simpl; auto); destruct (decide _); auto|]. rewrite lookup_delete_ne by auto.
    destruct (decide (In x D)); [rewrite decide_True by (simpl; auto)|rewrite decide_False by (simpl; intuition congruence)]; auto. }
  assert (LK : forall b w, delete a H !! b = Some w -> b <> a /\ H !! b = Some w) by (intros b w Eb; destruct (decide (a = b)) as [<-|N]; [rewrite lookup_delete in Eb; discriminate|rewrite lookup_delete_ne in Eb by auto; auto]).
  constructor; auto.
  - intros b w Eb. apply LK in Eb as [_ Eb]. eauto.
  - intros b b' w x Eb Eb'. apply LK in Eb as [_ Eb]. apply LK in Eb' as [_ Eb']. eauto.
  - intros b w i c h l Eb NB EN. apply LK in Eb as [N Eb]. destruct (s3 b w i c h l Eb) as (vh & vl & Eh & El & Nh & Nl & Lh & Ll & Z0); auto; [simpl; intuition congruence|]. assert (h <> a /\ l <> a) as [Nh' Nl'] by (split; intros ->; [apply Nh|apply Nl]; simpl; auto).
    exists vh, vl. rewrite !lookup_delete_ne by auto. repeat split; auto; intros J; [apply Nh|apply Nl]; simpl; auto.
  - intros b w Eb NB. apply LK in Eb as [N Eb]. rewrite LL. apply s4; auto. simpl. intuition congruence.
  - intros b J. destruct (s5 b J) as [NB S]. assert (b <> a) by (intros ->; apply NB; simpl; auto). split; [intros K; apply NB; simpl; auto|]. rewrite lookup_delete_ne by auto. auto.
  - intros b J. assert (b <> a) by congruence. rewrite lookup_delete_ne by auto. apply s6. simpl; auto.
Qed.
Lemma sane_add E nid H a v : sane [] E nid H -> H !! a = Some v -> sane [] (a :: E) nid (add_ref a H).
Proof.
  intros [s0 s1 s2 s3 s4 s5 s6] Ea.
  assert (G : forall x, add_ref a H !! x = (fun v => if Nat.eq_dec a x then set_uses (S (v_uses v)) v else v) <$> H !! x).
  { intros x. unfold add_ref. destruct (Nat.eq_dec a x) as [<-|N]; [rewrite lookup_alter; auto|]. rewrite lookup_alter_ne by auto. destruct (H !! x); auto. }
  assert (LK : forall b w, add_ref a H !! b = Some w -> exists w', H !! b = Some w' /\ v_id w = v_id w' /\ v_node w = v_node w' /\ v_uses w = ((if Nat.eq_dec a b then 1 else 0) + v_uses w')%nat).
  { intros b w Eb. rewrite G in Eb. destruct (H !! b) as [w'|] eqn:E'; [|discriminate]. cbn in Eb. injection Eb as <-. exists w'. destruct (Nat.eq_dec a b); repeat split; auto. }
  assert (KL : forall b w, H !! b = Some w -> exists w', add_ref a H !! b = Some w' /\ v_id w' = v_id w) by (intros b w Eb; rewrite G, Eb; cbn; eexists; split; [reflexivity|]; destruct (Nat.eq_dec a b); auto).
  constructor; auto.
  - intros b w Eb. destruct (LK b w Eb) as (w' & Ew & -> & -> & _). eauto.
  - intros b b' w x Eb Eb' Q. destruct (LK b w Eb) as (w' & Ew & I1 & _). destruct (LK b' x Eb') as (x' & Ex & I2 & _). apply (s2 b b' w' x'); auto. congruence.
  - intros b w i c h l Eb NB EN. destruct (LK b w Eb) as (w' & Ew & I1 & I2 & _). rewrite I1. rewrite I2 in EN. destruct (s3 b w' i c h l Ew NB EN) as (vh & vl & Eh & El & Nh & Nl & Lh & Ll & Z0).
    destruct (KL h vh Eh) as (vh' & Eh' & Ih). destruct (KL l vl El) as (vl' & El' & Il). exists vh', vl'. rewrite Ih, Il. repeat split; auto.
  - intros b w Eb NB. destruct (LK b w Eb) as (w' & Ew & I1 & I2 & I3). destruct (s4 b w' Ew NB) as [C P0]. rewrite I3. split; [|lia]. cbn [live foldr] in *.
    assert (PE : Permutation (edges (add_ref a H)) (edges H)).
    { unfold add_ref. replace (alter _ a H) with (<[a := set_uses (S (v_uses v)) v]> H); [apply edges_update with (v := v); auto|]. apply map_eq. intros x. destruct (decide (a = x)) as [<-|N]; [rewrite lookup_insert, lookup_alter, Ea; auto|rewrite lookup_insert_ne, lookup_alter_ne; auto]. }
    cbn [app]. rewrite C. destruct (Nat.eq_dec a b) as [<-|N]; [rewrite count_occ_cons_eq by auto|rewrite count_occ_cons_neq by auto]; rewrite !cnt_app, (cnt_perm _ _ _ PE); lia.
  - intros b [<-|J]; [split; [simpl; auto|]|destruct (s5 b J) as [NB [w Ew]]; split; auto]; rewrite G; [rewrite Ea|rewrite Ew]; cbn; eauto.
  - intros b [].
Qed.

(** ** The table *)
(** Entries and vertices point to each other. *)
Definition linked (H : memory) (C : entries) : Prop := forall e a, C !! e = Some (Some a) <-> exists v, H !! a = Some v /\ v_entry v = Some e.
Definition same_cells (C C' : entries) : Prop := forall e, is_Some (C' !! e) <-> is_Some (C !! e).
Lemma linked_uses H C a v n : H !! a = Some v -> linked H C -> linked (<[a := set_uses n v]> H) C.
Proof.
  intros Ea L e b. rewrite (L e b). destruct (decide (a = b)) as [<-|N]; [|rewrite lookup_insert_ne by auto; tauto]. rewrite lookup_insert. split; intros (w & Ew & X); [rewrite Ea in Ew; injection Ew as <-|injection Ew as <-]; eexists; split; eauto.
Qed.
Lemma release_ok : forall fuel a D E nid H C v, sane D (a :: E) nid H -> linked H C -> H !! a = Some v -> (Z.to_nat (v_id v) < fuel)%nat ->
  exists H' C', release fuel a H C = Some (H', C') /\ sane D E nid H' /\ linked H' C' /\ within H' H /\ same_cells C C' /\ (forall e b, C' !! e = Some (Some b) -> C !! e = Some (Some b)).
Proof.
  induction fuel as [|fuel IH]; intros a D E nid H C v S L Ea F; [lia|]. cbn [release]. rewrite Ea. cbn [mbind option_bind].
  destruct (n_held _ _ _ _ S a (or_introl eq_refl)) as [ND _]. destruct (n_uses _ _ _ _ S a v Ea ND) as [_ U0]. destruct (v_uses v) as [|n] eqn:U; [lia|].
  destruct (0 <? n)%nat eqn:Ln.
  { apply Nat.ltb_lt in Ln. eexists _, C. split; [reflexivity|]. split; [apply sane_decr; auto|]. split; [apply linked_uses; auto|]. split; [apply within_set; auto|]. split; [intros e; tauto|auto]. }
  apply Nat.ltb_ge in Ln. assert (n = 0%nat) by lia. subst n.
  pose proof (sane_dying D E nid H a v S Ea U) as S1. set (H1 := <[a := set_uses 0 v]> H) in *. assert (L1 : linked H1 C) by (apply linked_uses; auto). assert (W1 : within H1 H) by (apply within_set; auto).
  assert (K : exists H3 C3, (match v_node v with Some (_, _, h, l) => '(H, C) ← release fuel l H1 C; release fuel h H C | None => Some (H1, C) end) = Some (H3, C3) /\
    sane (a :: D) E nid H3 /\ linked H3 C3 /\ within H3 H /\ same_cells C C3 /\ (forall e b, C3 !! e = Some (Some b) -> C !! e = Some (Some b))).
  { unfold kids in S1. destruct (v_node v) as [[[[i c] h] l]|] eqn:EN; [|exists H1, C; split; [auto|]; split; [exact S1|]; split; [auto|]; split; [auto|]; split; [intros e; tauto|auto]].
    destruct (n_kids _ _ _ _ S a v i c h l Ea ND EN) as (vh & vl & Eh & El & Nh & Nl & Lh & Ll & Z0). cbn [rev app] in S1.
    pose proof (n_ids _ _ _ _ S _ _ Ea) as [Bv _]. pose proof (n_ids _ _ _ _ S _ _ Eh) as [Bh _]. pose proof (n_ids _ _ _ _ S _ _ El) as [Bl _].
    destruct (n_held _ _ _ _ S1 l (or_introl eq_refl)) as [_ [wl El1]]. destruct (W1 l wl El1) as (vl' & El' & Il & _). rewrite El in El'. injection El' as <-.
    destruct (IH l (a :: D) (h :: E) nid H1 C wl S1 L1 El1 ltac:(lia)) as (H2 & C2 & R2 & S2 & L2 & W2 & D2 & P2). rewrite R2. cbn [mbind option_bind].
    destruct (n_held _ _ _ _ S2 h (or_introl eq_refl)) as [_ [wh Eh2]]. destruct (within_trans _ _ _ W2 W1 h wh Eh2) as (vh' & Eh' & Ih & _). rewrite Eh in Eh'. injection Eh' as <-.
    destruct (IH h (a :: D) E nid H2 C2 wh S2 L2 Eh2 ltac:(lia)) as (H3 & C3 & R3 & S3 & L3 & W3 & D3 & P3). exists H3, C3. split; [auto|]. split; [auto|]. split; [auto|]. split; [eauto using within_trans|]. split; [|eauto]. intros e. rewrite (D3 e). apply D2. }
  destruct K as (H3 & C3 & R3 & S3 & L3 & W3 & D3 & P3). rewrite R3. cbn [mbind option_bind].
  destruct (n_dying _ _ _ _ S3 a (or_introl eq_refl)) as [w Ew]. rewrite Ew. cbn [mbind option_bind]. eexists _, _. split; [reflexivity|]. split; [apply sane_delete; auto|].
  assert (LE : forall e b, match v_entry w with Some e => <[e := None]> C3 | None => C3 end !! e = Some (Some b) <-> C3 !! e = Some (Some b) /\ b <> a).
  { intros e b. destruct (v_entry w) as [e0|] eqn:E0.
    - assert (X : C3 !! e0 = Some (Some a)) by (apply L3; eauto). destruct (decide (e0 = e)) as [->|N]; [rewrite lookup_insert|rewrite lookup_insert_ne by auto].
      + split; [discriminate|]. rewrite X. intros [Q NQ]. congruence.
      + split; [intros Q; split; auto; intros ->; apply L3 in Q as (w' & Ew' & Q)|tauto]. rewrite Ew in Ew'. injection Ew' as <-. congruence.
    - split; [intros Q; split; auto; intros ->; apply L3 in Q as (w' & Ew' & Q); rewrite Ew in Ew'; injection Ew' as <-; congruence|tauto]. }
  split; [|split; [|split]].
  - intros e b. rewrite LE, (L3 e b). split.
    + intros [(x & Ex & Xx) N]. exists x. rewrite lookup_delete_ne by auto. auto.
    + intros (x & Ex & Xx). destruct (decide (a = b)) as [<-|N]; [rewrite lookup_delete in Ex; discriminate|]. rewrite lookup_delete_ne in Ex by auto. eauto.
  - apply (within_trans _ H3); auto. apply within_delete.
  - intros e. rewrite <- (D3 e). destruct (v_entry w) as [e0|] eqn:E0; [|tauto]. assert (X : C3 !! e0 = Some (Some a)) by (apply L3; eauto). destruct (decide (e0 = e)) as [->|N]; [rewrite lookup_insert, X|rewrite lookup_insert_ne by auto; tauto]. split; eauto.
  - intros e b Q. apply LE in Q as [Q _]. auto.
Qed.

Section Table.
Context (hash : key -> nat) (grow : nat -> nat) (new_vertex : memory -> nat) (new_entry : entries -> nat)
  (GR : forall n, (0 < n)%nat -> (0 < grow n)%nat) (NV : forall H, H !! new_vertex H = None) (NE : forall C, C !! new_entry C = None).

Record hashed (H : memory) (C : entries) (T : list (list nat)) (n : Z) : Prop := {
  h_cap : (0 < length T)%nat;
  h_nodup : NoDup (concat T);
  h_cells : forall e, is_Some (C !! e) <-> In e (concat T);
  h_bucket : forall i ch e a k, T !! i = Some ch -> In e ch -> C !! e = Some (Some a) -> key_of H a = Some k -> i = (hash k mod length T)%nat;
  h_size : n = Z.of_nat (length (concat T)) }.
(** No two entries for one signature. *)
Definition unique_keys (H : memory) (C : entries) : Prop := forall e e' a b k, C !! e = Some (Some a) -> C !! e' = Some (Some b) -> key_of H a = Some k -> key_of H b = Some k -> a = b.

Lemma concat_at (T : list (list nat)) i ch : T !! i = Some ch -> exists rest, Permutation (concat T) (ch ++ rest) /\ forall ch', Permutation (concat (<[i := ch']> T)) (ch' ++ rest).
Proof.
  revert i. induction T as [|x T IH]; intros i E; [discriminate|]. destruct i as [|i]; cbn in E.
  - injection E as ->. exists (concat T). split; auto.
  - destruct (IH i E) as (rest & P & Q). exists (x ++ rest). cbn [concat]. split.
    + rewrite P. rewrite !app_assoc. apply Permutation_app_tail. apply Permutation_app_comm.
    + intros ch'. change (<[S i:=ch']> (x :: T)) with (x :: <[i := ch']> T). cbn [concat]. rewrite Q. rewrite !app_assoc. apply Permutation_app_tail. apply Permutation_app_comm.
Qed.
Lemma two_places (T : list (list nat)) i j x y e : NoDup (concat T) -> T !! i = Some x -> T !! j = Some y -> i <> j -> In e x -> In e y -> False.
Proof.
  intros ND Ei Ej N Jx Jy. destruct (concat_at T i x Ei) as (rest & P & Q). rewrite P in ND. assert (Jr : In e rest).
  { assert (J : In e (concat (<[i := []]> T))) by (apply in_concat; exists y; split; auto; apply elem_of_list_In, elem_of_list_lookup; exists j; rewrite list_lookup_insert_ne by auto; auto). rewrite (Q []) in J. auto. }
  revert ND Jx Jr. clear. induction x as [|z x IH]; [intros _ []|]. intros ND [<-|J] K; inversion ND as [|? ? NI ND']; subst; [apply NI; apply in_app_iff; auto|auto].
Qed.
Lemma alter_insert (T : list (list nat)) i ch f : T !! i = Some ch -> alter f i T = <[i := f ch]> T.
Proof. intros E. apply list_eq. intros j. destruct (decide (i = j)) as [<-|N]; [rewrite list_lookup_alter, E, list_lookup_insert by (eapply lookup_lt_Some; eauto); auto|rewrite list_lookup_alter_ne, list_lookup_insert_ne by auto; auto]. Qed.

Lemma rehash_entries_ok H cap : (0 < cap)%nat -> forall l C T n,
  NoDup (l ++ concat T) -> (forall e, is_Some (C !! e) <-> In e (l ++ concat T)) -> length T = cap -> n = Z.of_nat (length (concat T)) ->
  (forall i ch e a k, T !! i = Some ch -> In e ch -> C !! e = Some (Some a) -> key_of H a = Some k -> i = (hash k mod cap)%nat) ->
  (forall e a, C !! e = Some (Some a) -> is_Some (key_of H a)) ->
  exists C' T' n', rehash_entries hash H cap l C T n = Some (C', T', n') /\ hashed H C' T' n' /\ length T' = cap /\ (forall e a, C' !! e = Some (Some a) <-> C !! e = Some (Some a)).
Proof.
  intros CP. induction l as [|c l IH]; intros C T n ND DM LT SZ BK KY; cbn [rehash_entries].
  { exists C, T, n. split; auto. split; [|split; [auto|tauto]]. constructor; auto; [lia|rewrite LT; auto]. }
  assert (IC : is_Some (C !! c)) by (apply DM; simpl; auto). destruct IC as [[a|] Ec]; rewrite Ec.
  - destruct (KY c a Ec) as [k Ek]. rewrite Ek. cbn [mbind option_bind]. set (i := (hash k mod cap)%nat). assert (Li : (i < length T)%nat) by (rewrite LT; apply Nat.mod_upper_bound; lia).
    destruct (lookup_lt_is_Some_2 T i Li) as [ch Ech]. rewrite (alter_insert T i ch _ Ech). destruct (concat_at T i ch Ech) as (rest & P & Q). specialize (Q (c :: ch)).
    assert (PP : Permutation (l ++ concat (<[i := c :: ch]> T)) ((c :: l) ++ concat T)).
    { rewrite Q, P. cbn [app]. rewrite <- Permutation_middle. auto. }
    destruct (IH C (<[i := c :: ch]> T) (n + 1)) as (C' & T' & n' & R & HH & L' & SM); auto.
    + rewrite PP. auto.
    + intros e. rewrite DM. split; apply Permutation_in; [symmetry|]; auto.
    + rewrite insert_length. auto.
    + rewrite (Permutation_length Q). rewrite SZ, (Permutation_length P). cbn [length app]. rewrite !app_length. lia.
    + intros j ch' e b k' Ej Je Ee Ek'. destruct (decide (i = j)) as [<-|N].
      * rewrite list_lookup_insert in Ej by auto. injection Ej as <-. destruct Je as [<-|Je]; [|eapply BK; eauto]. rewrite Ec in Ee. injection Ee as <-. rewrite Ek in Ek'. injection Ek' as <-. auto.
      * rewrite list_lookup_insert_ne in Ej by auto. eapply BK; eauto.
    + exists C', T', n'. auto.
  - destruct (IH (delete c C) T n) as (C' & T' & n' & R & HH & L' & SM); auto.
    + inversion ND; auto.
    + intros e. inversion ND as [|? ? NI ND']; subst. destruct (decide (c = e)) as [<-|N]; [rewrite lookup_delete; split; [intros [? ?]; discriminate|contradiction]|]. rewrite lookup_delete_ne, DM by auto. cbn [app In]. intuition congruence.
    + intros i ch e a k Ei Je Ee Ek. destruct (decide (c = e)) as [<-|N]; [rewrite lookup_delete in Ee; discriminate|]. rewrite lookup_delete_ne in Ee by auto. eapply BK; eauto.
    + intros e a Ee. destruct (decide (c = e)) as [<-|N]; [rewrite lookup_delete in Ee; discriminate|]. rewrite lookup_delete_ne in Ee by auto. eauto.
    + exists C', T', n'. split; [auto|]. split; [auto|]. split; [auto|]. intros e a. rewrite SM. destruct (decide (c = e)) as [<-|N]; [rewrite lookup_delete, Ec; split; discriminate|rewrite lookup_delete_ne by auto; tauto].
Qed.
Lemma concat_repeat cap : concat (repeat (@nil nat) cap) = []. Proof. induction cap; auto. Qed.
Lemma rehash_ok cap s : (0 < cap)%nat -> hashed (heap s) (cells s) (table s) (size s) -> (forall e a, cells s !! e = Some (Some a) -> is_Some (key_of (heap s) a)) ->
  exists s', rehash hash cap s = Some s' /\ heap s' = heap s /\ next_id s' = next_id s /\ hashed (heap s) (cells s') (table s') (size s') /\ (forall e a, cells s' !! e = Some (Some a) <-> cells s !! e = Some (Some a)).
Proof.
  intros CP [h1 h2 h3 h4 h5] KY. unfold rehash. destruct (rehash_entries_ok (heap s) cap CP (concat (table s)) (cells s) (repeat [] cap) 0) as (C' & T' & n' & R & HH & L' & SM); auto.
  - rewrite concat_repeat, app_nil_r. auto.
  - rewrite concat_repeat, app_nil_r. auto.
  - apply repeat_length.
  - rewrite concat_repeat. auto.
  - intros i ch e a k Ei Je. apply elem_of_list_lookup_2 in Ei. apply elem_of_list_In in Ei. apply repeat_spec in Ei. subst ch. destruct Je.
  - rewrite R. cbn [mbind option_bind]. eexists. split; [reflexivity|]. cbn. auto.
Qed.

Lemma scan_ok H C k : (forall e a, C !! e = Some (Some a) -> is_Some (key_of H a)) -> forall l, NoDup l -> (forall e, In e l -> is_Some (C !! e)) ->
  exists ch er r, scan H C k l = Some (ch, er, r) /\ Permutation l (ch ++ er) /\ (forall e, In e er -> C !! e = Some None) /\
  match r with Some e => In e ch /\ exists a, C !! e = Some (Some a) /\ key_of H a = Some k | None => forall e a, In e l -> C !! e = Some (Some a) -> key_of H a <> Some k end.
Proof.
  intros KY. induction l as [|c l IH]; intros ND DM; cbn [scan]; [exists [], [], None; repeat split; auto; intros e []|].
  destruct IH as (ch & er & r & R & P & ER & RS); [inversion ND; auto|intros; apply DM; simpl; auto|].
  destruct (DM c (or_introl eq_refl)) as [[a|] Ec]; rewrite Ec.
  - destruct (KY c a Ec) as [k' Ek]. rewrite Ek. cbn [mbind option_bind]. destruct (decide (k' = k)) as [->|N].
    + exists (c :: l), [], (Some c). split; auto. rewrite app_nil_r. split; auto. split; [intros e []|]. split; [simpl; auto|eauto].
    + rewrite R. cbn [mbind option_bind]. exists (c :: ch), er, r. split; auto. split; [simpl; rewrite P; auto|]. split; auto. destruct r as [e|].
      * destruct RS as [J X]. split; simpl; auto.
      * intros e b [<-|J] Ee; [rewrite Ec in Ee; injection Ee as <-; congruence|eauto].
  - rewrite R. cbn [mbind option_bind]. exists ch, (c :: er), r. split; auto. split; [rewrite P; apply Permutation_middle|]. split; [intros e [<-|J]; auto|]. destruct r as [e|]; auto. intros e b [<-|J] Ee; [congruence|eauto].
Qed.
Lemma delete_all_lookup l C e : delete_all l C !! e = if decide (In e l) then None else C !! e.
Proof.
  induction l as [|d l IH]; [auto|]. change (delete_all (d :: l) C) with (delete d (delete_all l C)). destruct (decide (e = d)) as [->|N].
  - rewrite lookup_delete. rewrite decide_True by (simpl; auto). auto.
  - rewrite lookup_delete_ne by auto. rewrite IH. destruct (decide (In e l)); [rewrite decide_True by (simpl; auto); auto|]. rewrite decide_False; auto. simpl. intuition congruence.
Qed.
(** What FindOrAdd gives: the entry of the signature, or a new one at the place of the signature. *)
Lemma find_ok k s : hashed (heap s) (cells s) (table s) (size s) -> (forall e a, cells s !! e = Some (Some a) -> is_Some (key_of (heap s) a)) ->
  exists e s', find_or_add hash grow new_entry k s = Some (e, s') /\ heap s' = heap s /\ next_id s' = next_id s /\ hashed (heap s) (cells s') (table s') (size s') /\
   (forall e' a, cells s' !! e' = Some (Some a) <-> cells s !! e' = Some (Some a)) /\
   ((exists a, cells s' !! e = Some (Some a) /\ key_of (heap s) a = Some k) \/
    (cells s' !! e = Some None /\ (forall e' a, cells s !! e' = Some (Some a) -> key_of (heap s) a <> Some k) /\
     forall i ch, table s' !! i = Some ch -> In e ch -> i = (hash k mod length (table s'))%nat)).
Proof.
  intros HH KY. unfold find_or_add.
  assert (RH : exists s1, (if 3 * Z.of_nat (length (table s)) <=? 4 * size s then rehash hash (grow (length (table s))) s else Some s) = Some s1 /\ heap s1 = heap s /\ next_id s1 = next_id s /\ hashed (heap s) (cells s1) (table s1) (size s1) /\ (forall e a, cells s1 !! e = Some (Some a) <-> cells s !! e = Some (Some a))).
  { destruct (3 * Z.of_nat (length (table s)) <=? 4 * size s); [apply rehash_ok; auto; apply GR; apply (h_cap _ _ _ _ HH)|]. exists s. repeat split; auto; try apply HH; tauto. }
  destruct RH as (s1 & R1 & EH & EN & [h1 h2 h3 h4 h5] & SC). rewrite R1. cbn [mbind option_bind]. rewrite EH, EN. clear R1 HH.
  assert (KY1 : forall e a, cells s1 !! e = Some (Some a) -> is_Some (key_of (heap s) a)) by (intros e a Ee; apply SC in Ee; eauto).
  set (b := (hash k mod length (table s1))%nat). assert (Lb : (b < length (table s1))%nat) by (apply Nat.mod_upper_bound; lia). destruct (lookup_lt_is_Some_2 _ b Lb) as [chain Eb]. rewrite Eb. cbn [mbind option_bind].
  destruct (concat_at _ b chain Eb) as (rest & P & Q). assert (ND : NoDup (chain ++ rest)) by (rewrite <- P; auto).
  destruct (scan_ok (heap s) (cells s1) k KY1 chain) as (ch & er & r & R & PC & ER & RS); [eapply NoDup_app_remove_r; eauto|intros e J; apply h3; rewrite P; apply in_app_iff; auto|].
  rewrite R. cbn [mbind option_bind]. set (C := delete_all er (cells s1)).
  assert (NDE : NoDup (er ++ (ch ++ rest))) by (rewrite PC in ND; rewrite app_assoc; rewrite (Permutation_app_comm er ch); auto).
  assert (CE : forall e, is_Some (C !! e) <-> In e (ch ++ rest)).
  { intros e. unfold C. rewrite delete_all_lookup. destruct (decide (In e er)) as [J|J].
    - split; [intros [? ?]; discriminate|]. intros K. exfalso. revert J K. clear - NDE. induction er as [|x er IH]; [intros []|]. inversion NDE as [|? ? NI ND']; subst. intros [<-|J] K; [apply NI; apply in_app_iff; auto|auto].
    - rewrite h3, P, PC. rewrite !in_app_iff. tauto. }
  assert (CS : forall e a, C !! e = Some (Some a) <-> cells s1 !! e = Some (Some a)).
  { intros e a. unfold C. rewrite delete_all_lookup. destruct (decide (In e er)) as [J|J]; [|tauto]. split; [discriminate|]. rewrite (ER e J). discriminate. }
  assert (CHB : forall e, In e ch -> In e chain) by (intros e J; rewrite PC; apply in_app_iff; auto).
  assert (BK : forall ch', (forall e a k', In e ch' -> C !! e = Some (Some a) -> key_of (heap s) a = Some k' -> b = (hash k' mod length (table s1))%nat) ->
    forall i x e a k', <[b := ch']> (table s1) !! i = Some x -> In e x -> C !! e = Some (Some a) -> key_of (heap s) a = Some k' -> i = (hash k' mod length (table s1))%nat).
  { intros ch' X i x e a k' Ei Je Ee Ek. destruct (decide (b = i)) as [<-|N]; [rewrite list_lookup_insert in Ei by auto; injection Ei as <-; eauto|]. rewrite list_lookup_insert_ne in Ei by auto. apply CS in Ee. eauto. }
  assert (LC : length chain = (length ch + length er)%nat) by (rewrite (Permutation_length PC), app_length; auto).
  destruct r as [e|].
  - destruct RS as (Je & a & Ee & Ek). eexists e, _. split; [reflexivity|]. cbn. split; [auto|]. split; [auto|]. split; [|split].
    + constructor.
      * rewrite insert_length. auto.
      * rewrite (Q ch). eapply NoDup_app_remove_l; eauto.
      * intros e'. rewrite (Q ch). apply CE.
      * rewrite insert_length. apply BK. intros e' a' k' J E' K'. apply CS in E'. eapply h4; eauto.
      * rewrite (Permutation_length (Q ch)), h5, (Permutation_length P), !app_length. lia.
    + intros e' a'. rewrite CS. apply SC.
    + left. exists a. rewrite CS. auto.
  - set (c := new_entry C). assert (Nc : C !! c = None) by apply NE. assert (Ic : ~ In c (ch ++ rest)) by (rewrite <- CE, Nc; intros [? ?]; discriminate).
    assert (LK : forall e a, <[c := None]> C !! e = Some (Some a) <-> C !! e = Some (Some a)) by (intros e a; destruct (decide (c = e)) as [<-|N]; [rewrite lookup_insert, Nc; split; discriminate|rewrite lookup_insert_ne by auto; tauto]).
    assert (PQ : Permutation (concat (<[b := ch ++ [c]]> (table s1))) (c :: ch ++ rest)) by (rewrite (Q (ch ++ [c])), <- app_assoc; symmetry; apply Permutation_middle).
    eexists c, _. split; [reflexivity|]. cbn. split; [auto|]. split; [auto|]. split; [|split].
    + constructor.
      * rewrite insert_length. auto.
      * rewrite PQ. constructor; auto. eapply NoDup_app_remove_l; eauto.
      * intros e. rewrite PQ. cbn [In]. rewrite <- CE. destruct (decide (c = e)) as [<-|N]; [rewrite lookup_insert; split; eauto|rewrite lookup_insert_ne by auto; intuition congruence].
      * rewrite insert_length. intros i x e a k' Ei Je Ee. apply LK in Ee as Ee'. revert Ei Je Ee'. apply BK. intros e' a' k0 J E' K'. apply in_app_iff in J as [J|[<-|[]]]; [|rewrite Nc in E'; discriminate]. apply CS in E'. eapply h4; eauto.
      * rewrite (Permutation_length PQ). cbn [length]. rewrite h5, (Permutation_length P), !app_length. lia.
    + intros e a. rewrite LK, CS. apply SC.
    + right. split; [apply lookup_insert|]. split.
      * intros e a Ee Ek. apply SC in Ee. assert (Ie : In e (concat (table s1))) by (apply h3; eauto). apply in_concat in Ie as (x & Jx & Ix). apply elem_of_list_In, elem_of_list_lookup in Jx as [i Ei]. assert (i = b) by (eapply h4; eauto). subst i.
        rewrite Eb in Ei. injection Ei as <-. apply (RS e a); auto.
      * rewrite insert_length. intros i x Ei Jx. destruct (decide (b = i)) as [<-|N]; auto. exfalso. rewrite list_lookup_insert_ne in Ei by auto. assert (J : In c (concat (table s1))) by (apply in_concat; exists x; split; auto; apply elem_of_list_In, elem_of_list_lookup; eauto).
        rewrite P, PC in J. rewrite <- app_assoc in J. apply in_app_iff in J as [J|J]; [apply Ic; apply in_app_iff; auto|]. apply in_app_iff in J as [J|J]; [|apply Ic; apply in_app_iff; auto].
        (* an erased entry: its place is in the chain only *)
        assert (Jc : In c chain) by (rewrite PC; apply in_app_iff; auto).
        apply (two_places (table s1) b i chain x c); auto.
Qed.
End Table.
