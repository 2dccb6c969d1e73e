(** Factoring of distributive arguments: HandleDistributiveArgs. *)
From stdpp Require Import gmap.
From Coq Require Import Lia Permutation List.
From Verif Require Import Pdag PdagProofs PdagAdd PdagSem PdagKeeps Preproc PreprocNorm PreprocNeg Rooted BoolOptProofs BoolOptMain Distribute DistributeProofs DistributeLevel DistributeGroup.
Import ListNotations.
Open Scope Z_scope.

Lemma includes_incl l l' : includes l l' = true <-> incl l' l.
Proof. unfold includes. rewrite forallb_forall. split; intros H a Ia; [apply has_In, H, Ia|apply has_In, H, Ia]. Qed.
Lemma intersects_true l l' : intersects l l' = true <-> exists a, In a l /\ In a l'.
Proof. unfold intersects. rewrite existsb_exists. split; intros (a & A & B); exists a; (split; [auto|]); now apply has_In. Qed.

(** ** Options *)
Record good (cands : list Z) (args : Z -> list Z) (o : moption) : Prop := {
  g_nd : List.NoDup o.1 /\ List.NoDup o.2;
  g_ne : o.2 <> [];
  g_in : forall m, In m o.2 -> In m cands /\ forall a, In a o.1 -> In a (args m) }.
Lemma add_gate_In g q h : In h (add_gate g q) <-> h = g \/ In h q.
Proof. unfold add_gate. destruct (has g q) eqn:E; [apply has_In in E; split; [auto|intros [->|]; auto]|]. rewrite in_app_iff. cbn. split; [intros [|[|[]]]; auto|intros [|]; auto]. Qed.
Lemma add_gate_NoDup g q : List.NoDup q -> List.NoDup (add_gate g q).
Proof. intros N. unfold add_gate. destruct (has g q) eqn:E; [auto|]. apply has_false in E. apply (Permutation_NoDup (Permutation_cons_append q g)). constructor; auto. Qed.
Lemma insert_option_good cands args key g h : List.NoDup key -> In g cands -> In h cands -> (forall a, In a key -> In a (args g) /\ In a (args h)) ->
  forall t, (forall o, In o t -> good cands args o) -> forall o, In o (insert_option key g h t) -> good cands args o.
Proof.
  intros NK Ig Ih HA.
  assert (NEW : forall q, List.NoDup q -> (forall m, In m q -> In m cands /\ forall a, In a key -> In a (args m)) -> good cands args (key, add_gate h (add_gate g q))).
  { intros q Nq Hq. constructor; cbn [fst snd].
    - split; [auto|]. apply add_gate_NoDup, add_gate_NoDup, Nq.
    - intros E. assert (X : In h []) by (rewrite <- E; apply add_gate_In; auto). destruct X.
    - intros m Im. apply add_gate_In in Im as [->|Im]; [split; [auto|intros a Ia; apply (HA a Ia)]|]. apply add_gate_In in Im as [->|Im]; [split; [auto|intros a Ia; apply (HA a Ia)]|]. auto. }
  induction t as [|[k q] t IH]; intros T o Io; cbn [insert_option] in Io.
  - destruct Io as [<-|[]]. apply NEW; [constructor|intros m []].
  - destruct (decide (k = key)) as [->|N].
    + destruct Io as [<-|Io]; [|apply T; right; auto]. destruct (T (key, q) ltac:(left; auto)) as [[_ a1] _ a3]. cbn [fst snd] in *. apply NEW; auto.
    + destruct Io as [<-|Io]; [apply T; left; auto|]. apply IH; auto. intros p Ip. apply T. right; auto.
Qed.
Lemma pair_with_good cands args k g l : In g cands -> List.NoDup l -> incl l (args g) -> forall others, (forall h l', In (h, l') others -> In h cands /\ incl l' (args h)) ->
  forall t, (forall o, In o t -> good cands args o) -> forall o, In o (pair_with k g l others t) -> good cands args o.
Proof.
  intros Ig Nl Il. induction others as [|[h l'] others IH]; intros HO t T o Io; cbn [pair_with] in Io; [auto|].
  destruct (HO h l' ltac:(left; auto)) as [Ih Il']. revert Io. apply IH; [intros; apply HO; right; auto|]. destruct (_ <? k); [auto|]. apply insert_option_good; auto; [apply List.NoDup_filter; auto|]. intros a Ia. apply filter_In in Ia as [Ia1 Ia2]. apply has_In in Ia2. auto.
Qed.
Lemma group_common_good cands args k : forall group, (forall h l, In (h, l) group -> In h cands /\ incl l (args h) /\ List.NoDup l) ->
  forall t, (forall o, In o t -> good cands args o) -> forall o, In o (group_common_parents k group t) -> good cands args o.
Proof.
  induction group as [|[g l] group IH]; intros HG t T o Io; cbn [group_common_parents] in Io; [auto|]. destruct (HG g l ltac:(left; auto)) as (I1 & I2 & I3). revert Io. apply IH; [intros; apply HG; right; auto|]. apply pair_with_good; auto. intros h l' I. destruct (HG h l' ltac:(right; auto)) as (J1 & J2 & J3). auto.
Qed.

(** ** Groups *)
Definition base (g : list moption) : list Z := match g with [] => [] | o :: _ => o.2 end.
Fixpoint disjoint (groups : list (list moption)) : Prop :=
  match groups with [] => True | g :: groups => (forall m g', In m (base g) -> In g' groups -> ~ In m (base g')) /\ disjoint groups end.
Lemma chain_ok back l : (forall o, In o (chain back l) -> In o l) /\ nested back.2 (chain back l).
Proof.
  revert back. induction l as [|o l IH]; intros back; cbn [chain]; [split; [intros o []|exact I]|]. destruct (includes o.1 back.1 && includes back.2 o.2) eqn:C.
  - apply andb_true_iff in C as [_ C]. apply includes_incl in C. destruct (IH o) as [I1 I2]. split; [intros p [<-|Ip]; [left; auto|right; auto]|split; auto].
  - destruct (IH back) as [I1 I2]. split; [intros p Ip; right; auto|auto].
Qed.
Lemma group_distributive_ok best cands args : forall k opts groups, (forall o, In o opts -> good cands args o) -> group_distributive best k opts = Some groups ->
  (forall g, In g groups -> g <> [] /\ nested (base g) g /\ forall o, In o g -> good cands args o) /\ disjoint groups /\ (forall g m, In g groups -> In m (base g) -> exists o, In o opts /\ In m o.2).
Proof.
  induction k as [|k IH]; intros opts groups GD H; destruct opts as [|o0 opts0] eqn:EO; cbn [group_distributive] in H; try discriminate.
  1,2: injection H as <-; split; [intros g []|split; [exact I|intros g m []]].
  rewrite <- EO in *. destruct (drop (best opts) opts) as [|o rest] eqn:ED; [discriminate|]. apply bind_inv in H as (gs' & E & H). injection H as <-.
  assert (SUB : forall p, In p (o :: rest) -> In p opts) by (intros p Ip; rewrite <- ED in Ip; rewrite <- (firstn_skipn (best opts) opts); apply in_or_app; right; exact Ip).
  set (left := List.filter (fun p : moption => 2 <=? size p.2) (map (fun p : moption => (p.1, minus p.2 o.2)) opts)) in *.
  assert (GL : forall p, In p left -> good cands args p).
  { intros p Ip. apply filter_In in Ip as [Ip Sp]. apply in_map_iff in Ip as (q & <- & Iq). destruct (GD q Iq) as [[a1 a2] a3 a4]. constructor; cbn [fst snd] in *; [split; [auto|apply minus_NoDup; auto]|intros Z0; rewrite Z0 in Sp; cbn in Sp; discriminate|intros m Im; apply minus_In in Im as [Im _]; auto]. }
  destruct (IH left gs' GL E) as (b1 & b2 & b3).
  destruct (chain_ok o rest) as [c1 c2]. split; [|split].
  - intros g [<-|Ig]; [|auto]. split; [discriminate|]. split; [split; [intros m Im; exact Im|exact c2]|]. intros p [<-|Ip]; apply GD, SUB; [left; auto|right; auto].
  - split; [|auto]. intros m g' Im Ig' Im'. destruct (b3 g' m Ig' Im') as (p & Ip & Jp). apply filter_In in Ip as [Ip _]. apply in_map_iff in Ip as (q & <- & Iq). cbn [fst snd] in Jp. apply minus_In in Jp as [_ Jp]. contradiction.
  - intros g m [<-|Ig] Im; [exists o; split; [apply SUB; left; auto|auto]|]. destruct (b3 g m Ig Im) as (p & Ip & Jp). apply filter_In in Ip as [Ip _]. apply in_map_iff in Ip as (q & <- & Iq). cbn [fst snd] in Jp. apply minus_In in Jp as [Jp _]. exists q. auto.
Qed.

(** ** Filter *)
Section Filter.
Context (u : conn) (Hu : u = kAnd \/ u = kOr).
(** Arguments that another argument makes superfluous are erased. *)
Lemma erase_absorbed i E G G' xi : wf G -> acyclic G -> gs G !! i = Some xi -> coalesce_type (g_type xi) = Some (dual u) ->
  (forall ν, consistent G ν -> forall c, In c E -> lit ν c = absorb (dual u) -> exists a, In a (g_args xi) /\ ~ In a E /\ lit ν a = absorb (dual u)) ->
  erase_all i E G = Some G' ->
  keeps G G' /\ nxt G' = nxt G /\ (forall j, j <> i -> gs G' !! j = gs G !! j) /\ exists l, gs G' !! i = Some (with_args xi l) /\ forall b, In b l <-> In b (g_args xi) /\ ~ In b E.
Proof.
  intros W AC Ei Ty AB H. destruct (erase_list i E G G' xi W Ei H) as (l & HG & HN & W' & Q).
  split; [|split; [auto|split; [intros j J; rewrite HG; apply lookup_insert_ne; auto|exists l; split; [rewrite HG; apply lookup_insert|auto]]]].
  apply (keeps_put G G' i xi (with_args xi l) W Ei HG HN).
  - rewrite <- HN. apply (proj2 W' i). rewrite HG. apply lookup_insert.
  - intros ν C. rewrite (based_value (dual u) xi ν Ty), (based_value (dual u) (with_args xi l) ν Ty). cbn [g_type with_args]. f_equal. destruct (absorb_dual u Hu) as (_ & DU & _).
    apply (bool_iff _ _ (absorb (dual u))). rewrite (decided (based (dual u) (with_args xi l)) ν DU), (decided (based (dual u) xi) ν DU). cbn [based g_args g_type with_args]. split.
    + intros (a & Ia & La). apply Q in Ia as [Ia _]. eauto.
    + intros (a & Ia & La). destruct (in_dec Z.eq_dec a E) as [Ie|Ne]; [destruct (AB ν C a Ie La) as (b & Ib & Nb & Lb); exists b; split; [apply Q; auto|auto]|]. exists a. split; [apply Q; auto|auto].
  - intros [r R]. exists r. split; [auto|]. cbn [g_args with_args]. intros c Ic Sc. apply Q in Ic as [Ic _]. apply (R i xi c Ei Ic Sc).
Qed.
(** Candidates: positive arguments that are gates of the type [u]. *)
Definition candidate (G : graph) (xi : gate) (c : Z) : Prop := In c (g_args xi) /\ exists x, gs G !! c = Some x /\ g_type x = u.
Lemma candidate_value G (xi : gate) c x ν : wf G -> consistent G ν -> gs G !! c = Some x -> g_type x = u -> (lit ν c = absorb (dual u) <-> forall a, In a (g_args x) -> lit ν a = absorb (dual u)).
Proof.
  intros W [_ C] E T. assert (L : 1 < c) by (apply (proj2 W c x E)). unfold lit at 1. destruct (Z.ltb_spec c 0); [lia|]. rewrite (C c x E). destruct (absorb_dual u Hu) as (-> & _ & _). apply (member_value u x ν Hu). left. auto.
Qed.
Lemma exclusive_ok i : forall k cands G G' ex xi, wf G -> acyclic G -> gs G !! i = Some xi -> coalesce_type (g_type xi) = Some (dual u) -> List.NoDup cands -> (forall c, In c cands -> candidate G xi c) ->
  exclusive k i cands G = Some (G', ex) ->
  keeps G G' /\ nxt G' = nxt G /\ (forall j, j <> i -> gs G' !! j = gs G !! j) /\ List.NoDup ex /\ incl ex cands /\
  exists xi', gs G' !! i = Some xi' /\ g_type xi' = g_type xi /\ (forall a, In a (g_args xi') -> In a (g_args xi)) /\ (forall a, In a (g_args xi) -> ~ In a cands -> In a (g_args xi')) /\ forall c, In c ex -> In c (g_args xi').
Proof.
  induction k as [|k IH]; intros cands G G' ex xi W AC Ei Ty ND HC H; destruct cands as [|sub cands]; cbn [exclusive] in H; try discriminate.
  1,2: injection H as <- <-; split; [apply keeps_refl; auto|]; split; [auto|]; split; [auto|]; split; [constructor|]; split; [intros a []|]; exists xi; repeat split; auto; intros c [].
  apply bind_inv in H as (G1 & E1 & H). apply bind_inv in H as ([G2 ex2] & E2 & H). injection H as <- <-. inversion ND as [|? ? NI ND']; subst.
  set (super := fun c => includes (args_of G c) (args_of G sub)) in *. destruct (HC sub ltac:(left; auto)) as (Is & xs & Es & Ts).
  assert (AC' := AC). destruct AC' as [r R].
  assert (SELF : forall c, candidate G xi c -> c <> i).
  { intros c (Ic & x & Ex & _) ->. assert (L : 1 < i) by (apply (proj2 W i xi Ei)). pose proof (R i xi i Ei Ic) as Q. rewrite Z.abs_eq in Q by lia. specialize (Q ltac:(eauto)). lia. }
  destruct (erase_absorbed i (List.filter super cands) G G1 xi W AC Ei Ty) as (k1 & n1 & o1 & l & E1i & Q1); [|exact E1|].
  { intros ν C c Ic Lc. apply filter_In in Ic as [Ic Sc]. unfold super in Sc. apply includes_incl in Sc. destruct (HC c ltac:(right; auto)) as (_ & x & Ex & Tx). unfold args_of in Sc. rewrite Ex, Es in Sc.
    exists sub. split; [auto|]. split; [intros Q; apply filter_In in Q as [Q _]; contradiction|]. apply (candidate_value G xi sub xs ν W C Es Ts). intros a Ia. apply (proj1 (candidate_value G xi c x ν W C Ex Tx) Lc). auto. }
  assert (HC1 : forall c, In c (List.filter (fun c => negb (super c)) cands) -> candidate G1 (with_args xi l) c).
  { intros c Ic. apply filter_In in Ic as [Ic Sc]. destruct (HC c ltac:(right; auto)) as (I1 & x & Ex & Tx). split; [cbn; apply Q1; split; [auto|]; intros Q; apply filter_In in Q as [_ Q]; rewrite Q in Sc; discriminate|]. exists x. rewrite o1 by (apply SELF; split; eauto). auto. }
  destruct (IH _ G1 G2 ex2 (with_args xi l) (k_wf _ _ k1) (k_acyclic _ _ k1 AC) E1i Ty (List.NoDup_filter _ ND') HC1 E2) as (k2 & n2 & o2 & nd & inc & xi' & Ei' & Ti' & S1 & S2 & S3).
  cbn [g_args g_type with_args] in *. split; [apply (keeps_trans G G1 G2 k1 k2)|]. split; [lia|]. split; [intros j J; rewrite o2, o1; auto|].
  split; [constructor; [intros Q; apply inc in Q; apply filter_In in Q as [Q _]; contradiction|auto]|]. split; [intros c [<-|Ic]; [left; auto|apply inc in Ic; apply filter_In in Ic as [Ic _]; right; auto]|].
  exists xi'. split; [auto|]. split; [auto|]. split; [intros a Ia; apply S1, Q1 in Ia; tauto|]. split.
  - intros a Ia Na. apply S2; [apply Q1; split; [auto|]; intros Q; apply filter_In in Q as [Q _]; apply Na; right; auto|]. intros Q. apply filter_In in Q as [Q _]. apply Na. right. auto.
  - intros c [<-|Ic]; [|auto]. apply S2; [apply Q1; split; [auto|]; intros Q; apply filter_In in Q as [Q _]; contradiction|]. intros Q. apply filter_In in Q as [Q _]. contradiction.
Qed.
Lemma filter_distributive_ok sorted i cands G G' ex xi : (forall G l, Permutation (sorted G l) l) -> wf G -> acyclic G -> gs G !! i = Some xi -> coalesce_type (g_type xi) = Some (dual u) -> List.NoDup cands -> (forall c, In c cands -> candidate G xi c) ->
  filter_distributive sorted i cands G = Some (G', ex) ->
  keeps G G' /\ (2 <= size ex -> List.NoDup ex /\ exists xi', gs G' !! i = Some xi' /\ coalesce_type (g_type xi') = Some (dual u) /\ forall c, In c ex -> candidate G' xi' c).
Proof.
  intros SRT W AC Ei Ty ND HC H. unfold filter_distributive in H. set (gone := fun c => intersects (args_of G c) (args_of G i)) in *.
  apply bind_inv in H as (G1 & E1 & H). apply bind_inv in H as ([G2 ex2] & E2 & H). apply bind_inv in H as (G3 & E3 & H). injection H as <- <-. assert (AC' := AC). destruct AC' as [r R].
  assert (SELF : forall c, candidate G xi c -> c <> i).
  { intros c (Ic & x & Ex & _) ->. assert (L : 1 < i) by (apply (proj2 W i xi Ei)). pose proof (R i xi i Ei Ic) as Q. rewrite Z.abs_eq in Q by lia. specialize (Q ltac:(eauto)). lia. }
  destruct (erase_absorbed i (List.filter gone cands) G G1 xi W AC Ei Ty) as (k1 & n1 & o1 & l & E1i & Q1); [|exact E1|].
  { intros ν C. assert (X : forall n c, (r c < n)%nat -> In c (List.filter gone cands) -> lit ν c = absorb (dual u) -> exists a, In a (g_args xi) /\ ~ In a (List.filter gone cands) /\ lit ν a = absorb (dual u)); [|intros c Ic Lc; apply (X (S (r c)) c); auto].
    induction n as [|n IHn]; intros c Lr Ic Lc; [lia|]. pose proof Ic as Ic0. apply filter_In in Ic as [Ic Sc]. unfold gone in Sc. apply intersects_true in Sc as (d & D1 & D2). destruct (HC c Ic) as (I1 & x & Ex & Tx). unfold args_of in D1, D2. rewrite Ex in D1. rewrite Ei in D2.
    assert (Ld : lit ν d = absorb (dual u)) by (apply (proj1 (candidate_value G xi c x ν W C Ex Tx) Lc); auto).
    destruct (in_dec Z.eq_dec d (List.filter gone cands)) as [Id|Nd]; [|exists d; auto]. apply (IHn d); auto. pose proof Id as Id0. apply filter_In in Id as [Id _]. destruct (HC d Id) as (_ & y & Ey & _). assert (1 < d) by (apply (proj2 W d y Ey)).
    pose proof (R c x d Ex D1) as Q. rewrite Z.abs_eq in Q by lia. specialize (Q ltac:(eauto)). lia. }
  set (rest := List.filter (fun c => negb (gone c)) cands) in *.
  assert (HC1 : forall c, In c (sorted G1 rest) -> candidate G1 (with_args xi l) c).
  { intros c Ic. apply (Permutation_in _ (SRT G1 rest)) in Ic. unfold rest in Ic. apply filter_In in Ic as [Ic Sc]. destruct (HC c Ic) as (I1 & x & Ex & Tx). split; [cbn; apply Q1; split; [auto|]; intros Q; apply filter_In in Q as [_ Q]; rewrite Q in Sc; discriminate|]. exists x. rewrite o1 by (apply SELF; split; eauto). auto. }
  assert (ND1 : List.NoDup (sorted G1 rest)) by (apply (Permutation_NoDup (Permutation_sym (SRT G1 rest))); apply List.NoDup_filter; auto).
  destruct (exclusive_ok i _ _ G1 G2 ex2 (with_args xi l) (k_wf _ _ k1) (k_acyclic _ _ k1 AC) E1i Ty ND1 HC1 E2) as (k2 & n2 & o2 & nd & inc & xi' & Ei' & Ti' & S1 & S2 & S3).
  cbn [g_args g_type with_args] in *. pose proof (keeps_trans _ _ _ k1 k2) as k12.
  assert (k3 : keeps G2 G3) by (apply (fix_single_keeps i G2 G3 xi'); auto; apply k2).
  split; [apply (keeps_trans _ _ _ k12 k3)|]. intros S2x. split; [auto|]. exists xi'.
  assert (E23 : G3 = G2).
  { unfold fix_single in E3. rewrite Ei' in E3. cbn [mbind option_bind] in E3. destruct (Z.eqb_spec (size (g_args xi')) 1) as [E|E]; [|injection E3 as <-; auto]. exfalso. assert (INC : incl ex2 (g_args xi')) by (intros c Ic; auto). pose proof (NoDup_incl_length nd INC). unfold size in *. lia. }
  rewrite E23. split; [auto|]. split; [rewrite Ti'; auto|]. intros c Ic. split; [auto|]. destruct (HC1 c (inc c Ic)) as (I1 & x & Ex & Tx). exists x. rewrite o2; auto. cbn in I1. apply Q1 in I1 as [I1 _].
  apply SELF. split; [auto|]. apply inc, (Permutation_in _ (SRT G1 rest)) in Ic. unfold rest in Ic. apply filter_In in Ic as [Ic _]. apply (HC c Ic).
Qed.
End Filter.
