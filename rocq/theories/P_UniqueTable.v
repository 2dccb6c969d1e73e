(** C11: the unique table gives out one vertex per signature, and vertices live as long as they are
    referred to. *)
From stdpp Require Import gmap.
From Coq Require Import List ZArith Lia Bool Permutation.
Import ListNotations.
From Verif Require Import UniqueTable UniqueTableProofs.
Open Scope Z_scope.

Section History.
Context (hash : key -> nat) (grow : nat -> nat) (new_vertex : memory -> nat) (new_entry : entries -> nat)
  (GR : forall n, (0 < n)%nat -> (0 < grow n)%nat) (NV : forall H, H !! new_vertex H = None) (NE : forall C, C !! new_entry C = None).
Notation step := (step hash grow new_vertex new_entry).
Notation reach := (reach hash grow new_vertex new_entry).
Notation find_or_add_vertex := (find_or_add_vertex hash grow new_vertex new_entry).

Record good (s : state) (held : list nat) : Prop := {
  g_sane : sane [] held (next_id s) (heap s);
  g_linked : linked (heap s) (cells s);
  g_hashed : hashed hash (heap s) (cells s) (table s) (size s);
  g_unique : unique_keys (heap s) (cells s);
  g_inner : forall a v e, heap s !! a = Some v -> v_entry v = Some e -> is_Some (v_node v) }.
Lemma good_keys s held e a : good s held -> cells s !! e = Some (Some a) -> is_Some (key_of (heap s) a).
Proof.
  intros G Ee. apply (g_linked _ _ G) in Ee as (v & Ev & En). destruct (g_inner _ _ G a v e Ev En) as [[[[i c] h] l] N].
  destruct (sane_key _ _ _ _ _ _ _ _ _ _ (g_sane _ _ G) Ev (fun x => x) N) as (hi & lo & _ & _ & K). rewrite K. eauto.
Qed.

(** Counts and entries do not matter for signatures. *)
Definition cores (H H' : memory) : Prop := forall x, (fun v => (v_id v, v_node v)) <$> H' !! x = (fun v => (v_id v, v_node v)) <$> H !! x.
Lemma cores_key H H' a : cores H H' -> key_of H' a = key_of H a.
Proof.
  intros CO. assert (ID : forall x, id_of H' x = id_of H x) by (intros x; unfold id_of; pose proof (CO x); destruct (H' !! x), (H !! x); cbn in *; congruence).
  unfold key_of. pose proof (CO a). destruct (H' !! a), (H !! a); cbn in *; try discriminate; auto. injection H0 as _ ->. destruct (v_node v0) as [[[[i c] h] l]|]; auto. rewrite !ID. auto.
Qed.
Lemma add_ref_set H a v : H !! a = Some v -> add_ref a H = <[a := set_uses (S (v_uses v)) v]> H.
Proof. intros E. apply map_eq. intros x. unfold add_ref. destruct (decide (a = x)) as [<-|N]; [rewrite lookup_insert, lookup_alter, E; auto|rewrite lookup_insert_ne, lookup_alter_ne; auto]. Qed.
Lemma add_ref_cores H a : cores H (add_ref a H).
Proof. intros x. unfold add_ref. destruct (decide (a = x)) as [<-|N]; [rewrite lookup_alter; destruct (H !! a); auto|rewrite lookup_alter_ne by auto; auto]. Qed.
Lemma hashed_key H H' C T n : (forall a, key_of H' a = key_of H a) -> hashed hash H C T n -> hashed hash H' C T n.
Proof. intros K [A B D F I]. constructor; auto. intros i ch e a k. rewrite K. eauto. Qed.
Lemma unique_key H H' C : (forall a, key_of H' a = key_of H a) -> unique_keys H C -> unique_keys H' C.
Proof. intros K U e e' a b k. rewrite !K. apply U. Qed.
Lemma good_ref s held a : good s held -> is_Some (heap s !! a) -> good (with_heap s (add_ref a (heap s))) (a :: held).
Proof.
  intros [A B C D F] [v Ev]. assert (K : forall b, key_of (add_ref a (heap s)) b = key_of (heap s) b) by (intros b; apply cores_key, add_ref_cores). constructor; cbn.
  - eapply sane_add; eauto.
  - rewrite (add_ref_set _ _ v Ev). apply linked_uses; auto.
  - eapply hashed_key; eauto.
  - eapply unique_key; eauto.
  - rewrite (add_ref_set _ _ v Ev). intros b w e Eb. destruct (decide (a = b)) as [<-|N]; [rewrite lookup_insert in Eb; injection Eb as <-; cbn; eauto|rewrite lookup_insert_ne in Eb by auto; eauto].
Qed.
Lemma sane_perm D E E' nid H : Permutation E E' -> sane D E nid H -> sane D E' nid H.
Proof. intros P [a b c d e f g]. constructor; auto. - intros x v Ex N. rewrite <- (cnt_perm x (E ++ edges (live D H)) (E' ++ edges (live D H))); auto. apply Permutation_app_tail. auto. - intros x J. apply f. rewrite P. auto. Qed.
Lemma sane_new E nid H a i c h l e : sane [] (l :: h :: E) nid H -> H !! a = None -> (c = true -> id_of H l <> Some 0) ->
  sane [] (a :: E) (nid + 1) (<[a := Vert nid (Some (i, c, h, l)) 1 (Some e)]> H).
Proof.
  intros [s0 s1 s2 s3 s4 s5 s6] Ea Z0. set (v := Vert nid (Some (i, c, h, l)) 1 (Some e)).
  assert (LK : forall b w, <[a := v]> H !! b = Some w -> b = a /\ w = v \/ b <> a /\ H !! b = Some w) by (intros b w Eb; destruct (decide (a = b)) as [<-|N]; [rewrite lookup_insert in Eb; injection Eb as <-; auto|rewrite lookup_insert_ne in Eb by auto; auto]).
  assert (OLD : forall b w, H !! b = Some w -> <[a := v]> H !! b = Some w) by (intros b w Eb; rewrite lookup_insert_ne; auto; congruence).
  constructor.
  - lia.
  - intros b w Eb. destruct (LK b w Eb) as [[-> ->]|[N Eb']]; [cbn; split; [lia|split; [discriminate|lia]]|]. destruct (s1 b w Eb'). split; auto. lia.
  - intros b b' w x Eb Eb' Q. destruct (LK b w Eb) as [[-> ->]|[N Eb1]], (LK b' x Eb') as [[-> ->]|[N' Eb1']]; auto.
    + destruct (s1 b' x Eb1'). cbn in Q. lia.
    + destruct (s1 b w Eb1). cbn in Q. lia.
    + eauto.
  - intros b w i0 c0 h0 l0 Eb _ EN. destruct (LK b w Eb) as [[-> ->]|[N Eb1]].
    + cbn in EN. injection EN as <- <- <- <-. destruct (s5 h (or_intror (or_introl eq_refl))) as [_ [vh Eh]]. destruct (s5 l (or_introl eq_refl)) as [_ [vl El]]. exists vh, vl. destruct (s1 h vh Eh), (s1 l vl El).
      repeat split; auto; cbn; try lia. intros Ct Q. apply (Z0 Ct). unfold id_of. rewrite El. cbn. congruence.
    + destruct (s3 b w i0 c0 h0 l0 Eb1 (fun x => x) EN) as (vh & vl & Eh & El & _ & _ & X). exists vh, vl. split; [auto|]. split; [auto|]. split; [auto|]. split; auto.
  - intros b w Eb _. cbn [live foldr]. rewrite (cnt_perm b ((a :: E) ++ edges (<[a := v]> H)) (a :: (l :: h :: E) ++ edges H)).
    2: { rewrite (edges_insert H a v Ea). unfold v, kids. cbn [v_node app]. apply Permutation_cons; auto. change (h :: l :: edges H) with ([h; l] ++ edges H). rewrite app_assoc, (Permutation_app_comm E [h; l]). cbn [app]. apply perm_swap. }
    destruct (LK b w Eb) as [[-> ->]|[N Eb1]].
    + rewrite count_occ_cons_eq by auto. rewrite (proj1 (count_occ_not_In Nat.eq_dec ((l :: h :: E) ++ edges H) a)); [cbn; lia|]. intros J. apply in_app_iff in J as [J|J]; [destruct (s5 a J) as [_ [x Ex]]; congruence|].
      apply edges_In in J as (p & w & Ep & K). unfold kids in K. destruct (v_node w) as [[[[i0 c0] h0] l0]|] eqn:EN; [|destruct K]. destruct (s3 p w i0 c0 h0 l0 Ep (fun x => x) EN) as (vh & vl & Eh & El & _). destruct K as [->|[->|[]]]; congruence.
    + rewrite count_occ_cons_neq by auto. apply (s4 b w Eb1). auto.
  - intros b [<-|J]; (split; [auto|]); [rewrite lookup_insert; eauto|]. destruct (s5 b (or_intror (or_intror J))) as [_ [x Ex]]. rewrite (OLD b x Ex). eauto.
  - intros b [].
Qed.
Lemma id_core H H' x : cores H H' -> id_of H' x = id_of H x.
Proof. intros CO. unfold id_of. pose proof (CO x). destruct (H' !! x), (H !! x); cbn in *; congruence. Qed.
Lemma cores_trans H1 H2 H3 : cores H1 H2 -> cores H2 H3 -> cores H1 H3. Proof. intros A B x. rewrite B. apply A. Qed.

(** ** Finding or adding a vertex *)
Definition tabled (s : state) (a : nat) (i : Z) (c : bool) (h l : nat) : Prop := exists v e, heap s !! a = Some v /\ v_node v = Some (i, c, h, l) /\ v_entry v = Some e.
Lemma same_key_same_node s held a b v w : good s held -> heap s !! a = Some v -> heap s !! b = Some w -> is_Some (v_node v) -> is_Some (v_node w) -> key_of (heap s) a = key_of (heap s) b -> v_node v = v_node w.
Proof.
  intros G Ea Eb [[[[i c] h] l] Na] [[[[i' c'] h'] l'] Nb] K. pose proof (g_sane _ _ G) as S. destruct (n_kids _ _ _ _ S a v _ _ _ _ Ea (fun x => x) Na) as (vh & vl & Eh & El & _ & _ & _ & _ & Z0). destruct (n_kids _ _ _ _ S b w _ _ _ _ Eb (fun x => x) Nb) as (wh & wl & Fh & Fl & _ & _ & _ & _ & Z0').
  unfold key_of, id_of in K. rewrite Ea, Eb in K. cbn [mbind option_bind] in K. rewrite Na, Nb, Eh, El, Fh, Fl in K. cbn in K. injection K as -> K1 K2.
  assert (h = h') by (eapply (n_inj _ _ _ _ S); eauto). subst h'. destruct (n_ids _ _ _ _ S _ _ El) as [Bl _]. destruct (n_ids _ _ _ _ S _ _ Fl) as [Bl' _].
  assert (c = c' /\ v_id vl = v_id wl) as [-> Il] by (unfold signed in K2; destruct c, c'; auto; try (specialize (Z0 eq_refl)); try (specialize (Z0' eq_refl)); split; auto; lia).
  assert (l = l') by (eapply (n_inj _ _ _ _ S); eauto). subst l'. congruence.
Qed.
Lemma find_vertex s held i c h l : good s held -> In h held -> In l held -> (c = true -> id_of (heap s) l <> Some 0) ->
  exists a s', find_or_add_vertex i c h l s = Some (a, s') /\ good s' (a :: held) /\
  (exists v e, heap s' !! a = Some v /\ v_node v = Some (i, c, h, l) /\ v_entry v = Some e /\
    (tabled s a i c h l /\ (1 < v_uses v)%nat /\ next_id s' = next_id s /\ (forall b, is_Some (heap s' !! b) <-> is_Some (heap s !! b)) \/
     heap s !! a = None /\ (forall b, ~ tabled s b i c h l) /\ v_uses v = 1%nat /\ v_id v = next_id s /\ next_id s' = next_id s + 1 /\ (forall b, is_Some (heap s' !! b) <-> b = a \/ is_Some (heap s !! b)))) /\
  (forall b w, heap s !! b = Some w -> exists w', heap s' !! b = Some w' /\ same w w').
Proof.
  intros G Ih Il Z0. pose proof (g_sane _ _ G) as S. destruct (n_held _ _ _ _ S h Ih) as [_ [vh Eh]]. destruct (n_held _ _ _ _ S l Il) as [_ [vl El]].
  unfold UniqueTable.find_or_add_vertex. assert (Hh : id_of (heap s) h = Some (v_id vh)) by (unfold id_of; rewrite Eh; auto). assert (Hl : id_of (heap s) l = Some (v_id vl)) by (unfold id_of; rewrite El; auto). rewrite Hh, Hl. cbn [mbind option_bind].
  set (k := (i, v_id vh, signed c (v_id vl))).
  destruct (find_ok hash grow new_entry GR NE k s (g_hashed _ _ G) (fun e a => good_keys s held e a G)) as (e & s1 & F & EH & EN & HH & SC & R). rewrite F. cbn [mbind option_bind].
  assert (TK : forall b, tabled s b i c h l -> key_of (heap s) b = Some k).
  { intros b (v & e0 & Eb & Nb & _). unfold key_of, id_of. rewrite Eb. cbn [mbind option_bind]. rewrite Nb, Eh, El. auto. }
  assert (UN : unique_keys (heap s1) (cells s1)) by (rewrite EH; intros e1 e2 a b k' A B; apply SC in A, B; eapply (g_unique _ _ G); eauto).
  assert (LN : linked (heap s1) (cells s1)) by (rewrite EH; intros e' a; rewrite SC; apply (g_linked _ _ G)).
  assert (G1 : good s1 held) by (constructor; [rewrite EN, EH; auto|auto|rewrite EH; auto|auto|rewrite EH; apply (g_inner _ _ G)]).
  destruct R as [(a & Ea & Ka)|(Ee & NO & PL)].
  - rewrite Ea. cbn [mbind option_bind]. apply LN in Ea as (v & Ev & En). rewrite EH in Ev. exists a, (with_heap s1 (add_ref a (heap s1))). split; [reflexivity|].
    split; [apply good_ref; auto; rewrite EH; eauto|].
    assert (IV : is_Some (v_node v)) by (apply (g_inner _ _ G a v e); auto).
    assert (Nv : v_node v = Some (i, c, h, l)).
    { destruct IV as [[[[i' c'] h'] l'] IV]. destruct (n_kids _ _ _ _ S a v _ _ _ _ Ev (fun x => x) IV) as (wh & wl & Fh & Fl & _ & _ & _ & _ & Z0').
      unfold key_of, id_of in Ka. rewrite Ev in Ka. cbn [mbind option_bind] in Ka. rewrite IV, Fh, Fl in Ka. cbn in Ka. injection Ka as -> K1 K2. assert (h' = h) by (eapply (n_inj _ _ _ _ S); eauto). subst h'.
      destruct (n_ids _ _ _ _ S _ _ El) as [Bl _]. destruct (n_ids _ _ _ _ S _ _ Fl) as [Bl' _]. rewrite Hl in Z0.
      assert (c' = c /\ v_id wl = v_id vl) as [-> Iw].
      { unfold signed in K2. destruct c', c; try (specialize (Z0' eq_refl)); try (assert (v_id vl <> 0) by (intros Q; apply Z0; congruence)); split; auto; lia. }
      assert (l' = l) by (eapply (n_inj _ _ _ _ S); eauto). subst l'. auto. }
    cbn. rewrite EH. split.
    + exists (set_uses (Datatypes.S (v_uses v)) v), e. rewrite (add_ref_set _ _ v Ev), lookup_insert. split; [auto|]. split; [auto|]. split; [auto|]. left. split; [exists v, e; auto|]. destruct (n_uses _ _ _ _ S a v Ev (fun x => x)) as [_ P0]. split; [cbn; lia|]. split; [auto|].
      intros b. destruct (decide (a = b)) as [<-|N]; [rewrite lookup_insert, Ev; split; eauto|rewrite lookup_insert_ne by auto; tauto].
    + intros b w Eb. rewrite (add_ref_set _ _ v Ev). destruct (decide (a = b)) as [<-|N]; [rewrite lookup_insert; rewrite Ev in Eb; injection Eb as <-; eexists; split; [reflexivity|repeat split]|rewrite lookup_insert_ne by auto; exists w; repeat split; auto].
  - rewrite Ee. cbn [mbind option_bind]. rewrite EH, EN. set (H1 := add_ref l (add_ref h (heap s))). set (a := new_vertex H1). assert (Na : H1 !! a = None) by apply NV.
    assert (C1 : cores (heap s) H1) by (eapply cores_trans; apply add_ref_cores).
    assert (S1 : sane [] (l :: h :: held) (next_id s) H1).
    { assert (Sh : sane [] (h :: held) (next_id s) (add_ref h (heap s))) by (eapply sane_add; eauto). assert (exists vl', add_ref h (heap s) !! l = Some vl') as [vl' El'] by (pose proof (add_ref_cores (heap s) h l) as X; rewrite El in X; destruct (add_ref h (heap s) !! l); [eauto|discriminate]). eapply sane_add; eauto. }
    assert (SAME : forall b w, heap s !! b = Some w -> exists w', H1 !! b = Some w' /\ same w w').
    { assert (X : forall H x b w, H !! b = Some w -> exists w', add_ref x H !! b = Some w' /\ same w w') by (intros H x b w Eb; unfold add_ref; destruct (decide (x = b)) as [<-|N]; [rewrite lookup_alter, Eb; eexists; split; [reflexivity|repeat split]|rewrite lookup_alter_ne by auto; exists w; repeat split; auto]).
      intros b w Eb. destruct (X _ h b w Eb) as (w1 & E1 & A1 & A2 & A3). destruct (X _ l b w1 E1) as (w2 & E2 & B1 & B2 & B3). exists w2. split; auto. repeat split; congruence. }
    assert (BACK : forall b w', H1 !! b = Some w' -> exists w, heap s !! b = Some w /\ same w w').
    { intros b w' Eb. pose proof (C1 b) as X. rewrite Eb in X. destruct (heap s !! b) as [w|] eqn:E0; [|discriminate]. exists w. split; auto. destruct (SAME b w E0) as (w2 & E2 & Y). rewrite Eb in E2. injection E2 as <-. auto. }
    set (v := Vert (next_id s) (Some (i, c, h, l)) 1 (Some e)).
    assert (OLD : forall b, b <> a -> <[a := v]> H1 !! b = H1 !! b) by (intros b N; rewrite lookup_insert_ne; auto).
    assert (SN : sane [] (a :: held) (next_id s + 1) (<[a := v]> H1)) by (apply sane_new; auto; rewrite (id_core _ _ l C1); auto).
    assert (KO : forall b k', key_of (heap s) b = Some k' -> key_of (<[a := v]> H1) b = Some k').
    { intros b k' Kb. apply (within_key H1 (<[a := v]> H1) b k').
      - intros x w Ex. assert (x <> a) by congruence. exists w. rewrite OLD by auto. repeat split; auto.
      - rewrite (cores_key _ _ b C1). auto. }
    assert (Kv : key_of (<[a := v]> H1) a = Some k).
    { destruct (SAME h vh Eh) as (vh' & Eh' & Ih' & _). destruct (SAME l vl El) as (vl' & El' & Il' & _). unfold key_of, id_of. rewrite lookup_insert. cbn [mbind option_bind v v_node]. rewrite !OLD by congruence. rewrite Eh', El'. cbn. unfold k. congruence. }
    assert (TB : forall e' b, <[e := Some a]> (cells s1) !! e' = Some (Some b) -> e' = e /\ b = a \/ e' <> e /\ cells s !! e' = Some (Some b)).
    { intros e' b Q. destruct (decide (e = e')) as [<-|N]; [rewrite lookup_insert in Q; injection Q as <-; auto|rewrite lookup_insert_ne in Q by auto; right; split; auto; apply SC; auto]. }
    assert (KT : forall e' b, cells s !! e' = Some (Some b) -> key_of (<[a := v]> H1) b = key_of (heap s) b) by (intros e' b Q; destruct (good_keys s held e' b G Q) as [k' K']; rewrite K'; auto).
    eexists a, _. split; [reflexivity|]. split; [|split].
    + constructor; cbn [heap cells table size next_id].
      * auto.
      * intros e' b. split.
        -- intros Q. apply TB in Q as [[-> ->]|[N Q]]; [exists v; rewrite lookup_insert; auto|]. apply (g_linked _ _ G) in Q as (w & Eb & Xw). destruct (SAME b w Eb) as (w' & Eb' & _ & _ & X3). assert (b <> a) by congruence. exists w'. rewrite OLD by auto. split; auto. congruence.
        -- intros (w & Eb & Xw). destruct (decide (b = a)) as [->|N]; [rewrite lookup_insert in Eb; injection Eb as <-; cbn in Xw; injection Xw as <-; apply lookup_insert|]. rewrite OLD in Eb by auto. destruct (BACK b w Eb) as (w0 & E0 & _ & _ & X3).
           assert (Q : cells s1 !! e' = Some (Some b)) by (apply SC, (g_linked _ _ G); exists w0; split; auto; congruence). rewrite lookup_insert_ne; auto. intros ->. congruence.
      * destruct HH as [h1 h2 h3 h4 h5]. constructor; auto.
        -- intros e'. rewrite <- h3. destruct (decide (e = e')) as [<-|N]; [rewrite lookup_insert, Ee; split; eauto|rewrite lookup_insert_ne by auto; tauto].
        -- intros j ch e' b k' Ej Je Q K'. apply TB in Q as [[-> ->]|[N Q]]; [rewrite Kv in K'; injection K' as <-; eauto|]. rewrite (KT e' b Q) in K'. apply SC in Q. eauto.
      * intros e1 e2 b1 b2 k' Q1 Q2 K1 K2. apply TB in Q1 as [[-> ->]|[N1 Q1]], Q2 as [[-> ->]|[N2 Q2]]; auto.
        -- rewrite Kv in K1. injection K1 as <-. rewrite (KT e2 b2 Q2) in K2. elim (NO e2 b2 Q2 K2).
        -- rewrite Kv in K2. injection K2 as <-. rewrite (KT e1 b1 Q1) in K1. elim (NO e1 b1 Q1 K1).
        -- rewrite (KT e1 b1 Q1) in K1. rewrite (KT e2 b2 Q2) in K2. eapply (g_unique _ _ G); eauto.
      * intros b w e' Eb Xw. destruct (decide (b = a)) as [->|N]; [rewrite lookup_insert in Eb; injection Eb as <-; cbn; eauto|]. rewrite OLD in Eb by auto. destruct (BACK b w Eb) as (w0 & E0 & _ & X2 & X3). rewrite <- X2. apply (g_inner _ _ G b w0 e'); congruence.
    + cbn [heap next_id]. exists v, e. rewrite lookup_insert. split; [auto|]. split; [auto|]. split; [auto|]. right. split; [|split; [|split; [auto|split; [auto|split; [auto|]]]]].
      * destruct (heap s !! a) as [w|] eqn:E0; auto. destruct (SAME a w E0) as (w' & E' & _). congruence.
      * intros b T. pose proof (TK b T) as Kb. destruct T as (w & e' & Eb & _ & Xw). assert (Q : cells s !! e' = Some (Some b)) by (apply (g_linked _ _ G); eauto). apply (NO e' b Q Kb).
      * intros b. destruct (decide (b = a)) as [->|N]; [rewrite lookup_insert; split; eauto|]. rewrite OLD by auto. split; [intros [w Eb]; right; destruct (BACK b w Eb) as (w0 & -> & _); eauto|intros [->|[w Eb]]; [congruence|]]. destruct (SAME b w Eb) as (w' & -> & _). eauto.
    + cbn [heap]. intros b w Eb. destruct (SAME b w Eb) as (w' & E' & X). exists w'. assert (b <> a) by congruence. rewrite OLD by auto. auto.
Qed.

(** ** Histories *)
Lemma remove_perm a l : In a l -> Permutation l (a :: remove_one a l).
Proof. induction l as [|b l IH]; [intros []|]. intros J. cbn [remove_one]. destruct (Nat.eqb_spec a b) as [->|N]; auto. destruct J as [->|J]; [congruence|]. etransitivity; [apply perm_skip, IH, J|apply perm_swap]. Qed.
Lemma forget_lookup C H l : forall x, forget C H l !! x = (fun v => if existsb (fun e => match C !! e with Some (Some a) => Nat.eqb a x | _ => false end) l then set_entry None v else v) <$> H !! x.
Proof.
  induction l as [|e l IH]; intros x; cbn [forget fold_right existsb]; [destruct (H !! x); auto|]. fold (forget C H l). destruct (C !! e) as [[a|]|]; cbn [orb]; try apply IH.
  destruct (Nat.eqb_spec a x) as [->|N]; [rewrite lookup_alter|rewrite lookup_alter_ne by auto]; rewrite IH; auto. cbn [orb]. destruct (H !! x); cbn; auto. destruct (existsb _ l); auto.
Qed.
Lemma edges_alter H a : Permutation (edges (alter (set_entry None) a H)) (edges H).
Proof.
  destruct (H !! a) as [v|] eqn:E.
  - replace (alter (set_entry None) a H) with (<[a := set_entry None v]> H); [apply edges_update with (v := v); auto|]. apply map_eq. intros x. destruct (decide (a = x)) as [<-|N]; [rewrite lookup_insert, lookup_alter, E; auto|rewrite lookup_insert_ne, lookup_alter_ne; auto].
  - replace (alter (set_entry None) a H) with H; auto. apply map_eq. intros x. destruct (decide (a = x)) as [<-|N]; [rewrite lookup_alter, E; auto|rewrite lookup_alter_ne; auto].
Qed.
Lemma edges_forget C H l : Permutation (edges (forget C H l)) (edges H).
Proof. induction l as [|e l IH]; cbn [forget fold_right]; auto. fold (forget C H l). destruct (C !! e) as [[a|]|]; auto. rewrite edges_alter. auto. Qed.
Lemma good_clear s held : good s held -> good (clear s) held /\ (forall a v, heap (clear s) !! a = Some v -> exists w, heap s !! a = Some w /\ v_id v = v_id w /\ v_node v = v_node w /\ v_uses v = v_uses w /\ v_entry v = None).
Proof.
  intros [S L [h1 h2 h3 h4 h5] U N].
  assert (BK : forall a v, heap (clear s) !! a = Some v -> exists w, heap s !! a = Some w /\ v_id v = v_id w /\ v_node v = v_node w /\ v_uses v = v_uses w /\ v_entry v = None).
  { intros a v Ev. cbn in Ev. rewrite forget_lookup in Ev. destruct (heap s !! a) as [w|] eqn:Ew; [|discriminate]. cbn in Ev. injection Ev as <-. exists w. split; auto. destruct (existsb _ _) eqn:X; cbn; auto. repeat split; auto.
    destruct (v_entry w) as [e|] eqn:Xw; auto. exfalso. assert (Q : cells s !! e = Some (Some a)) by (apply L; eauto). rewrite <- not_true_iff_false in X. apply X. apply existsb_exists. exists e. split; [apply h3; eauto|]. rewrite Q. apply Nat.eqb_refl. }
  assert (FW : forall a w, heap s !! a = Some w -> exists v, heap (clear s) !! a = Some v /\ v_id v = v_id w).
  { intros a w Ew. cbn. rewrite forget_lookup, Ew. cbn. eexists. split; [reflexivity|]. destruct (existsb _ _); auto. }
  split; auto. constructor.
  - destruct S as [s0 s1 s2 s3 s4 s5 s6]. constructor; auto.
    + intros a v Ev. destruct (BK a v Ev) as (w & Ew & -> & -> & _). exact (s1 a w Ew).
    + intros a b v w Ev Ew Q. destruct (BK a v Ev) as (v' & Ev' & I1 & _). destruct (BK b w Ew) as (w' & Ew' & I2 & _). apply (s2 a b v' w'); auto. congruence.
    + intros a v i c h l Ev ND EN. destruct (BK a v Ev) as (v' & Ev' & I1 & I2 & _). rewrite I2 in EN. destruct (s3 a v' i c h l Ev' ND EN) as (vh & vl & Eh & El & X). destruct (FW h vh Eh) as (vh' & Eh' & Ih). destruct (FW l vl El) as (vl' & El' & Il). exists vh', vl'. rewrite Ih, Il, I1. auto.
    + intros a v Ev ND. destruct (BK a v Ev) as (v' & Ev' & _ & _ & I3 & _). rewrite I3. rewrite (cnt_perm a (held ++ edges (live [] (heap (clear s)))) (held ++ edges (live [] (heap s)))); [apply (s4 a v' Ev' ND)|]. apply Permutation_app_head. cbn [live foldr]. apply edges_forget.
    + intros a J. destruct (s5 a J) as [ND [w Ew]]. split; auto. destruct (FW a w Ew) as (v & Ev & _). exists v. exact Ev.
    + intros a [].
  - intros e a. split.
    + cbn. intros Q. rewrite lookup_empty in Q. discriminate.
    + intros (v & Ev & X). destruct (BK a v Ev) as (w & _ & _ & _ & _ & X'). congruence.
  - assert (E0 : concat (map (fun _ : list nat => @nil nat) (table s)) = []) by (generalize (table s); intros tb; induction tb; cbn; auto). constructor; cbn.
    + rewrite map_length. auto.
    + rewrite E0. constructor.
    + intros e. rewrite E0, lookup_empty. split; [intros [? ?]; discriminate|intros []].
    + intros i ch e a k Ei Je. apply elem_of_list_lookup_2, elem_of_list_In, in_map_iff in Ei as (x & <- & _). destruct Je.
    + rewrite E0. auto.
  - intros e e' a b k Q. cbn in Q. rewrite lookup_empty in Q. discriminate.
  - intros a v e Ev X. destruct (BK a v Ev) as (w & _ & _ & _ & _ & X'). congruence.
Qed.
Lemma good_start two cap : (0 < cap)%nat -> good (fst (start two cap)) (snd (start two cap)).
Proof.
  intros CP. assert (LK : forall a v, heap (fst (start two cap)) !! a = Some v -> v_node v = None /\ v_uses v = 1%nat /\ v_entry v = None /\ (a = 0%nat /\ v_id v = 1 \/ a = 1%nat /\ v_id v = 0 /\ two = true)).
  { intros a v E. cbn in E. destruct (decide (a = 0%nat)) as [->|N0]; [rewrite lookup_insert in E; injection E as <-; auto 6|]. rewrite lookup_insert_ne in E by auto. destruct two; [|rewrite lookup_empty in E; discriminate]. apply lookup_singleton_Some in E as [<- <-]. auto 7. }
  assert (NK : edges (heap (fst (start two cap))) = []).
  { destruct (edges (heap (fst (start two cap)))) as [|x l] eqn:Q; auto. assert (J : In x (edges (heap (fst (start two cap))))) by (rewrite Q; simpl; auto). apply edges_In in J as (a & v & Ev & K). destruct (LK a v Ev) as (N & _). unfold kids in K. rewrite N in K. destruct K. }
  constructor.
  - constructor.
    + cbn. lia.
    + intros a v E. destruct (LK a v E) as (N & _ & _ & [[_ I]|[_ [I _]]]); rewrite N, I; cbn; (split; [lia|split; [intros _; lia|intros _; reflexivity]]).
    + intros a b v w E F Q. destruct (LK a v E) as (_ & _ & _ & [[-> I]|[-> [I _]]]), (LK b w F) as (_ & _ & _ & [[-> I']|[-> [I' _]]]); auto; lia.
    + intros a v i c h l E _ EN. destruct (LK a v E) as (N & _). congruence.
    + intros a v E _. destruct (LK a v E) as (_ & U & _ & X). rewrite U. split; [|lia]. cbn [live foldr]. rewrite NK, app_nil_r. destruct X as [[-> _]|[-> [_ ->]]]; [destruct two; reflexivity|reflexivity].
    + intros a J. split; auto. cbn in *. destruct two; [destruct J as [<-|[<-|[]]]|destruct J as [<-|[]]]; [rewrite lookup_insert; eauto|rewrite lookup_insert_ne by auto; rewrite lookup_singleton; eauto|rewrite lookup_insert; eauto].
    + intros a [].
  - intros e a. cbn [cells start fst]. rewrite lookup_empty. split; [discriminate|]. intros (v & Ev & X). destruct (LK a v Ev) as (_ & _ & X' & _). congruence.
  - constructor; cbn.
    + rewrite repeat_length. auto.
    + rewrite concat_repeat. constructor.
    + intros e. rewrite concat_repeat, lookup_empty. split; [intros [? ?]; discriminate|intros []].
    + intros i ch e a k Ei Je. apply elem_of_list_lookup_2, elem_of_list_In, repeat_spec in Ei. subst ch. destruct Je.
    + rewrite concat_repeat. auto.
  - intros e e' a b k Q. cbn in Q. rewrite lookup_empty in Q. discriminate.
  - intros a v e Ev X. destruct (LK a v Ev) as (_ & _ & X' & _). congruence.
Qed.
Lemma good_step o s held : good s held -> allowed o s held -> exists s' held', step o s held = Some (s', held') /\ good s' held' /\ next_id s <= next_id s' /\
  (forall a v, heap s' !! a = Some v -> (exists w, heap s !! a = Some w /\ v_id v = v_id w /\ v_node v = v_node w /\ (is_clear o = false -> v_entry v = v_entry w)) \/ v_id v = next_id s /\ is_Some (v_entry v)).
Proof.
  intros G AL. assert (REF : forall a, is_Some (heap s !! a) -> good (with_heap s (add_ref a (heap s))) (a :: held) /\ next_id s <= next_id (with_heap s (add_ref a (heap s))) /\
     forall b v, heap (with_heap s (add_ref a (heap s))) !! b = Some v -> (exists w, heap s !! b = Some w /\ v_id v = v_id w /\ v_node v = v_node w /\ v_entry v = v_entry w)).
  { intros a [x Ex]. split; [apply good_ref; eauto|]. split; [cbn; lia|]. intros b v Eb. cbn in Eb. rewrite (add_ref_set _ _ x Ex) in Eb. pose proof (within_set (heap s) a x (S (v_uses x)) Ex b v Eb) as W. exact W. }
  destruct o as [i c h l|a|a|a|a|]; cbn [UniqueTable.step allowed] in *.
  - destruct AL as (Ih & Il & Z0). destruct (find_vertex s held i c h l G Ih Il Z0) as (a & s' & F & G' & (v & e & Ev & Nv & Xv & CS) & OLD). rewrite F. cbn [mbind option_bind]. exists s', (a :: held). split; [auto|]. split; [auto|]. split; [destruct CS as [(_ & _ & Q & _)|(_ & _ & _ & _ & Q & _)]; lia|].
    intros b w Eb. assert (X : (b = a /\ heap s !! a = None /\ v_id v = next_id s) \/ is_Some (heap s !! b)).
    { destruct CS as [(_ & _ & _ & DM)|(Na & _ & _ & Iv & _ & DM)]; [right; apply DM; eauto|]. destruct (proj1 (DM b) (mk_is_Some _ _ Eb)) as [->|]; auto. }
    destruct X as [(-> & Na & Iv)|[w0 E0]].
    + right. rewrite Ev in Eb. injection Eb as <-. split; [auto|]. exists e. exact Xv.
    + left. destruct (OLD b w0 E0) as (w' & Eb' & S1 & S2 & S3). rewrite Eb in Eb'. injection Eb' as <-. exists w0. auto.
  - destruct (n_held _ _ _ _ (g_sane _ _ G) a AL) as [_ Sa]. destruct (REF a Sa) as (R1 & R2 & R3). eexists _, _. split; [reflexivity|]. split; [auto|]. split; [auto|]. intros b v Eb. left. destruct (R3 b v Eb) as (w & ? & ? & ? & ?). eauto 6.
  - destruct AL as (Ia & v & [[[i c] h] l] & Ev & Nv). rewrite Ev. cbn [mbind option_bind]. rewrite Nv. cbn [mbind option_bind]. destruct (n_kids _ _ _ _ (g_sane _ _ G) a v i c h l Ev (fun x => x) Nv) as (vh & vl & Eh & El & _).
    destruct (REF h ltac:(eauto)) as (R1 & R2 & R3). eexists _, _. split; [reflexivity|]. split; [auto|]. split; [auto|]. intros b w Eb. left. destruct (R3 b w Eb) as (x & ? & ? & ? & ?). eauto 6.
  - destruct AL as (Ia & v & [[[i c] h] l] & Ev & Nv). rewrite Ev. cbn [mbind option_bind]. rewrite Nv. cbn [mbind option_bind]. destruct (n_kids _ _ _ _ (g_sane _ _ G) a v i c h l Ev (fun x => x) Nv) as (vh & vl & Eh & El & _).
    destruct (REF l ltac:(eauto)) as (R1 & R2 & R3). eexists _, _. split; [reflexivity|]. split; [auto|]. split; [auto|]. intros b w Eb. left. destruct (R3 b w Eb) as (x & ? & ? & ? & ?). eauto 6.
  - destruct (n_held _ _ _ _ (g_sane _ _ G) a AL) as [_ [v Ev]]. rewrite Ev. cbn [mbind option_bind]. unfold release_vertex.
    destruct (release_ok (S (Z.to_nat (v_id v))) a [] (remove_one a held) (next_id s) (heap s) (cells s) v) as (H' & C' & R & S' & L' & W & SC & BK); auto; try lia.
    { eapply sane_perm; [|apply (g_sane _ _ G)]. apply remove_perm. auto. } { apply (g_linked _ _ G). }
    rewrite R. cbn [mbind option_bind]. eexists _, _. split; [reflexivity|]. split; [|split; [cbn; lia|]].
    + destruct (g_hashed _ _ G) as [h1 h2 h3 h4 h5]. constructor; cbn; auto.
      * constructor; auto; [intros e; rewrite (SC e); auto|]. intros i ch e b k Ei Je Q K. apply (within_key _ _ b k W) in K. eauto.
      * intros e e' b b' k Q Q' K K'. apply (within_key _ _ _ _ W) in K, K'. eapply (g_unique _ _ G); eauto.
      * intros b w e Eb X. destruct (W b w Eb) as (w0 & E0 & _ & X2 & X3). rewrite X2. apply (g_inner _ _ G b w0 e); congruence.
    + intros b w Eb. left. destruct (W b w Eb) as (w0 & E0 & X1 & X2 & X3). eauto 6.
  - destruct (good_clear s held G) as [G' BK]. eexists _, _. split; [reflexivity|]. split; [auto|]. split; [cbn; lia|]. intros b w Eb. left. destruct (BK b w Eb) as (w0 & E0 & X1 & X2 & _). exists w0. repeat split; auto. discriminate.
Qed.

Context (two : bool) (cap : nat) (CP : (0 < cap)%nat).
Lemma reach_good f s held : reach two cap f s held -> good s held.
Proof. induction 1 as [|f s held o s' held' R IH A E]; [apply good_start; auto|]. destruct (good_step o s held IH A) as (s1 & held1 & E1 & G & _). rewrite E in E1. injection E1 as -> ->. auto. Qed.

(** No call fails: no assertion, no dangling pointer, no missing entry. *)
Theorem C11_safe f s held o : reach two cap f s held -> allowed o s held -> exists s' held', step o s held = Some (s', held').
Proof. intros R A. destruct (good_step o s held (reach_good f s held R) A) as (s' & held' & E & _). eauto. Qed.
(** The vertex of the signature: the one in the table if there is one, else a new one with a new id;
    only a new one has a single reference (which FindOrAddVertex relies on to set its flags,
    bdd.cc:111, 126). *)
Theorem C11_lookup f s held i c h l : reach two cap f s held -> In h held -> In l held -> (c = true -> id_of (heap s) l <> Some 0) ->
  exists a s' v e, find_or_add_vertex i c h l s = Some (a, s') /\ heap s' !! a = Some v /\ v_node v = Some (i, c, h, l) /\ v_entry v = Some e /\
    (tabled s a i c h l /\ (1 < v_uses v)%nat /\ next_id s' = next_id s /\ (forall b, is_Some (heap s' !! b) <-> is_Some (heap s !! b)) \/
     heap s !! a = None /\ (forall b, ~ tabled s b i c h l) /\ v_uses v = 1%nat /\ v_id v = next_id s /\ next_id s' = next_id s + 1 /\ (forall b, is_Some (heap s' !! b) <-> b = a \/ is_Some (heap s !! b))) /\
    (forall b w, heap s !! b = Some w -> exists w', heap s' !! b = Some w' /\ v_id w' = v_id w /\ v_node w' = v_node w /\ v_entry w' = v_entry w).
Proof.
  intros R Ih Il Z0. destruct (find_vertex s held i c h l (reach_good _ _ _ R) Ih Il Z0) as (a & s' & F & _ & (v & e & Ev & Nv & Xv & CS) & OLD). exists a, s', v, e. split; [auto|]. split; [auto|]. split; [auto|]. split; [auto|]. split; [auto|].
  intros b w Eb. destruct (OLD b w Eb) as (w' & Eb' & S1 & S2 & S3). exists w'. repeat split; auto.
Qed.
(** One vertex per signature. *)
Theorem C11_unique f s held a b i c h l : reach two cap f s held -> tabled s a i c h l -> tabled s b i c h l -> a = b.
Proof.
  intros R (v & e & Ev & Nv & Xv) (w & e' & Ew & Nw & Xw). pose proof (reach_good _ _ _ R) as G. pose proof (g_linked _ _ G) as L. destruct (sane_key _ _ _ _ _ _ _ _ _ _ (g_sane _ _ G) Ev (fun x => x) Nv) as (hi & lo & E1 & E2 & K). destruct (sane_key _ _ _ _ _ _ _ _ _ _ (g_sane _ _ G) Ew (fun x => x) Nw) as (hi' & lo' & E1' & E2' & K').
  rewrite E1' in E1. rewrite E2' in E2. injection E1 as ->. injection E2 as ->. apply (g_unique _ _ G e e' a b _) with (3 := K) (4 := K'); apply L; eauto.
Qed.
(** References: counts are exact, what is held or pointed to is live, ids are distinct and never
    used again, children are older. *)
Theorem C11_references f s held : reach two cap f s held ->
  (forall a v, heap s !! a = Some v -> v_uses v = cnt a (held ++ edges (heap s)) /\ (0 < v_uses v)%nat) /\
  (forall a, In a (held ++ edges (heap s)) -> is_Some (heap s !! a)) /\
  (forall a b v w, heap s !! a = Some v -> heap s !! b = Some w -> v_id v = v_id w -> a = b) /\
  (forall a v, heap s !! a = Some v -> 0 <= v_id v < next_id s) /\
  (forall a v b w, heap s !! a = Some v -> In b (kids v) -> heap s !! b = Some w -> v_id w < v_id v).
Proof.
  intros R. pose proof (g_sane _ _ (reach_good _ _ _ R)) as S. split; [intros a v E; apply (n_uses _ _ _ _ S a v E); auto|].
  assert (KD : forall a v b, heap s !! a = Some v -> In b (kids v) -> exists w, heap s !! b = Some w /\ v_id w < v_id v).
  { intros a v b E K. unfold kids in K. destruct (v_node v) as [[[[i c] h] l]|] eqn:N; [|destruct K]. destruct (n_kids _ _ _ _ S a v i c h l E (fun x => x) N) as (vh & vl & Eh & El & _ & _ & Lh & Ll & _). destruct K as [<-|[<-|[]]]; eauto. }
  split; [intros a J; apply in_app_iff in J as [J|J]; [apply (n_held _ _ _ _ S a J)|apply edges_In in J as (p & v & Ep & K); destruct (KD p v a Ep K) as (w & -> & _); eauto]|].
  split; [apply (n_inj _ _ _ _ S)|]. split; [intros a v E; apply (n_ids _ _ _ _ S a v E)|]. intros a v b w E K F. destruct (KD a v b E K) as (w' & F' & Q). rewrite F in F'. injection F' as <-. auto.
Qed.
(** No leaks: every live vertex is below one that is held. *)
Inductive below (H : memory) : nat -> nat -> Prop :=
| below_refl a : below H a a
| below_kid a v b d : H !! a = Some v -> In b (kids v) -> below H b d -> below H a d.
Theorem C11_no_leak f s held a : reach two cap f s held -> is_Some (heap s !! a) -> exists r, In r held /\ below (heap s) r a.
Proof.
  intros R. destruct (C11_references f s held R) as (R1 & R2 & R3 & R4 & R5).
  assert (X : forall n a v, heap s !! a = Some v -> (Z.to_nat (next_id s - v_id v) < n)%nat -> exists r, In r held /\ below (heap s) r a).
  { induction n as [|n IH]; intros b v Eb L; [lia|]. destruct (R1 b v Eb) as [C P]. rewrite C in P. apply (count_occ_In Nat.eq_dec) in P. apply in_app_iff in P as [P|P]; [exists b; split; auto; constructor|].
    apply edges_In in P as (p & w & Ep & K). pose proof (R5 p w b v Ep K Eb). pose proof (R4 b v Eb). pose proof (R4 p w Ep). destruct (IH p w Ep ltac:(lia)) as (r & Ir & B). exists r. split; auto.
    clear - B Ep K. induction B as [p|p x q d Ex Kx B IH]; [econstructor; eauto; constructor|econstructor; eauto]. }
  intros [v Ev]. eapply X; eauto.
Qed.
(** New ids only. *)
Theorem C11_new_ids f s held o s' held' : reach two cap f s held -> allowed o s held -> step o s held = Some (s', held') ->
  next_id s <= next_id s' /\ forall a v, heap s' !! a = Some v -> (exists w, heap s !! a = Some w /\ v_id v = v_id w /\ v_node v = v_node w) \/ v_id v = next_id s.
Proof. intros R A E. destruct (good_step o s held (reach_good _ _ _ R) A) as (s1 & held1 & E1 & _ & N & B). rewrite E in E1. injection E1 as <- <-. split; auto. intros a v Ev. destruct (B a v Ev) as [(w & ? & ? & ? & _)|[? _]]; eauto. Qed.

(** ** Diagrams as trees: equal trees are one vertex.  The models of the algorithms on BDD and ZBDD
    work with such trees, or with one vertex per signature. *)
Inductive tree := Leaf (b : Z) | Branch (i : Z) (c : bool) (h l : tree).
Inductive unfolds (H : memory) : nat -> tree -> Prop :=
| u_leaf a v : H !! a = Some v -> v_node v = None -> unfolds H a (Leaf (v_id v))
| u_branch a v e i c h l th tl : H !! a = Some v -> v_node v = Some (i, c, h, l) -> v_entry v = Some e -> unfolds H h th -> unfolds H l tl -> unfolds H a (Branch i c th tl).
Theorem C11_trees f s held a b t : reach two cap f s held -> unfolds (heap s) a t -> unfolds (heap s) b t -> a = b.
Proof.
  intros R U. destruct (C11_references f s held R) as (_ & _ & R3 & _). revert b. induction U as [a v Ev Nv|a v e i c h l th tl Ev Nv Xv U1 IH1 U2 IH2]; intros b UB; inversion UB as [b0 w Ew Nw Q|b0 w e' i' c' h' l' th' tl' Ew Nw Xw V1 V2]; subst.
  - apply (R3 a b v w); auto.
  - apply IH1 in V1. apply IH2 in V2. subst h' l'. apply (C11_unique f s held a b i c h l R); [exists v, e|exists w, e']; auto.
Qed.
(** Unless the table was cleared, every live vertex has its tree. *)
Theorem C11_all_trees s held a : reach two cap false s held -> is_Some (heap s !! a) -> exists t, unfolds (heap s) a t.
Proof.
  intros R. assert (IN : forall f s held, reach two cap f s held -> f = false -> forall a v, heap s !! a = Some v -> is_Some (v_node v) -> is_Some (v_entry v)).
  { clear s held a R. intros f s held R. induction R as [|f s held o s' held' R IH A E]; intros F a v Ev Nv.
    - cbn in Ev. exfalso. destruct (decide (a = 0%nat)) as [->|N0]; [rewrite lookup_insert in Ev; injection Ev as <-; destruct Nv; discriminate|]. rewrite lookup_insert_ne in Ev by auto. destruct two; [|rewrite lookup_empty in Ev; discriminate]. apply lookup_singleton_Some in Ev as [<- <-]. destruct Nv; discriminate.
    - apply orb_false_iff in F as [-> F]. destruct (good_step o s held (reach_good _ _ _ R) A) as (s1 & held1 & E1 & _ & _ & B). rewrite E in E1. injection E1 as <- <-. destruct (B a v Ev) as [(w & Ew & _ & N & X)|[_ X]]; auto. rewrite (X F). apply (IH eq_refl a w Ew). congruence. }
  destruct (C11_references false s held R) as (_ & R2 & _ & R4 & R5).
  assert (X : forall n a v, heap s !! a = Some v -> (Z.to_nat (v_id v) < n)%nat -> exists t, unfolds (heap s) a t).
  { induction n as [|n IH]; intros b v Eb L; [lia|]. destruct (v_node v) as [[[[i c] h] l]|] eqn:N; [|exists (Leaf (v_id v)); constructor; auto].
    destruct (IN false s held R eq_refl b v Eb ltac:(rewrite N; eauto)) as [e Xe].
    assert (K : forall x, In x (kids v) -> exists t, unfolds (heap s) x t).
    { intros x J. destruct (R2 x) as [w Ew]; [apply in_app_iff; right; apply edges_In; eauto|]. pose proof (R5 b v x w Eb J Ew). pose proof (R4 x w Ew). apply (IH x w Ew). lia. }
    unfold kids in K. rewrite N in K. destruct (K h (or_introl eq_refl)) as [th Uh]. destruct (K l (or_intror (or_introl eq_refl))) as [tl Ul]. exists (Branch i c th tl). econstructor; eauto. }
  intros [v Ev]. eapply X; eauto.
Qed.
End History.

(** ** A run.  A ZBDD with one bucket: two vertices, the first asked for twice; the second is
    dropped and asked for again, which gives a new id and erases the expired entry; the table
    grows from one bucket to three. *)
Section Example.
Definition hash0 (k : key) : nat := let '(i, h, l) := k in Z.to_nat (Z.abs (i + 3 * h + 7 * l)).
Definition grow0 (n : nat) : nat := (2 * n + 1)%nat.
Definition new0 (H : memory) : nat := fresh (dom H : gset nat).
Definition newe0 (C : entries) : nat := fresh (dom C : gset nat).
Lemma allocators_exist : (forall n, (0 < n)%nat -> (0 < grow0 n)%nat) /\ (forall H, H !! new0 H = None) /\ (forall C, C !! newe0 C = None).
Proof. split; [intros n; unfold grow0; lia|]. split; [intros H; apply (not_elem_of_dom (D := gset nat)); exact (is_fresh (dom H : gset nat))|intros C; apply (not_elem_of_dom (D := gset nat)); exact (is_fresh (dom C : gset nat))]. Qed.
Fixpoint run (l : list op) (s : state) (held : list nat) : option (state * list nat) :=
  match l with [] => Some (s, held) | o :: l => '(s, held) ← step hash0 grow0 new0 newe0 o s held; run l s held end.
Definition ids (r : state * list nat) : list (option Z) * Z * Z * nat * list (option nat) :=
  let '(s, held) := r in (map (id_of (heap s)) held, size s, next_id s, length (table s), map (fun a => v_uses <$> heap s !! a) held).
Definition go (l : list op) : option (list (option Z) * Z * Z * nat * list (option nat)) :=
  let '(s, held) := start true 1 in ids <$> run l s held.
(** Addresses: 0 and 1 the terminals, 2 and 3 the vertices over events 5 and 4. *)
Example two_calls : go [OFind 5 false 0 1; OFind 5 false 0 1] = Some ([Some 2; Some 2; Some 1; Some 0], 1, 3, 3%nat, [Some 2; Some 2; Some 2; Some 2]%nat).
Proof. vm_compute. reflexivity. Qed.
Example drop_and_grow : go [OFind 5 false 0 1; OFind 5 false 0 1; OFind 4 false 2 1; ODrop 3; OFind 4 false 2 1; OFind 3 false 3 2] =
  Some ([Some 5; Some 4; Some 2; Some 2; Some 1; Some 0], 3, 6, 3%nat, [Some 1; Some 2; Some 4; Some 4; Some 2; Some 3]%nat).
Proof. vm_compute. reflexivity. Qed.
(** Such runs are histories. *)
Lemma run_reach l : forall f s held s' held', reach hash0 grow0 new0 newe0 true 1 f s held -> run l s held = Some (s', held') ->
  (forall l1 o l2 s1 held1, l = l1 ++ o :: l2 -> run l1 s held = Some (s1, held1) -> allowed o s1 held1) -> exists f', reach hash0 grow0 new0 newe0 true 1 f' s' held'.
Proof.
  induction l as [|o l IH]; intros f s held s' held' R E A; cbn [run] in E; [injection E as <- <-; eauto|].
  unfold mbind, option_bind in E. destruct (step hash0 grow0 new0 newe0 o s held) as [[s1 held1]|] eqn:E1; [|discriminate]. eapply IH; [econstructor; [exact R|eapply A with (l1 := []) (l2 := l); reflexivity|exact E1]|exact E|].
  intros l1 o' l2 s2 held2 -> R2. apply (A (o :: l1) o' l2); auto. cbn [run]. unfold mbind, option_bind. rewrite E1. auto.
Qed.
End Example.
