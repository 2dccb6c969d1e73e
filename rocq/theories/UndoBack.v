(** Undo takes back what redo did. *)
From stdpp Require Import gmap strings list.
From Coq Require Import List String.
From Verif Require Import Undo UndoSpec UndoProofs UndoRuns UndoKeeps UndoKeeps2.
Import ListNotations.

Lemma change_lookup s a h e : events s !! a = Some e -> events (change a h s) !! a = Some (h e).
Proof. intros K. unfold change. cbn. rewrite lookup_alter, K. reflexivity. Qed.
Lemma change_change s a e h1 h2 : events s !! a = Some e -> h2 (h1 e) = e -> change a h2 (change a h1 s) = s.
Proof.
  intros K Q. unfold change. apply model_eq; cbn; try reflexivity. apply map_eq. intros j. destruct (decide (j = a)) as [->|D].
  - rewrite !lookup_alter, K. cbn. congruence.
  - rewrite !lookup_alter_ne by congruence. reflexivity.
Qed.
Definition takes_back (s : model) (c : command) : Prop := exists c2, runs (undo (next c s)) (edited c s) c2 s /\ runs (redo c2) s (next c s) (edited c s).

(** For the involutions: the command left by redo is allowed and leads back. *)
Lemma back_involution s c : consistent s -> plain_flavors s -> allowed c s -> undo (next c s) = redo (next c s) ->
  allowed (next c s) (edited c s) -> edited (next c s) (edited c s) = s -> next (next c s) (edited c s) = c -> takes_back s c.
Proof.
  intros C P A U A' E N. destruct (edited_keeps s c C P A) as [C' P']. exists c. split.
  - rewrite U. pose proof (redo_edited _ _ C' P' A') as R. rewrite E, N in R. exact R.
  - apply redo_edited; assumption.
Qed.
Lemma back_put s c : consistent s -> plain_flavors s -> allowed c s ->
  match c with SetLabel _ _ | SetExpression _ _ | SetFlavor _ _ | SetState _ _ | SetFormula _ _ => takes_back s c | _ => True end.
Proof.
  intros C P A. pose proof A as A0. destruct c as [a l|k a n ft|a x|a fl|a b|a f|n| | | ]; try exact I; cbn [allowed] in A.
  - destruct A as (k & e & K & Kk). apply back_involution; auto; cbn [next edited]; rewrite ?K; [reflexivity| | |].
    + exists k. exists (with_label l e). rewrite (change_lookup s a _ e K). auto.
    + cbn [edited]. rewrite (change_change s a e); [reflexivity|exact K|destruct e; reflexivity].
    + cbn [next]. rewrite (change_lookup s a _ e K). reflexivity.
  - destruct A as (e & K & Kk). destruct e as [n l at_ [f|y|b]]; try discriminate. apply back_involution; auto; cbn [next edited]; rewrite ?K; [reflexivity| | |].
    + eexists. rewrite (change_lookup s a _ _ K). split; reflexivity.
    + cbn [edited]. rewrite (change_change s a _ _ _ K); [reflexivity|reflexivity].
    + cbn [next]. rewrite (change_lookup s a _ _ K). reflexivity.
  - destruct A as (e & K & Kk). destruct (proj2 (c_proxy s C KBasic a) (ex_intro _ e (conj K Kk))) as (cur & Q). apply back_involution; auto; cbn [next edited]; rewrite ?Q; [reflexivity| | |].
    + eexists. cbn [events with_proxies]. rewrite (change_lookup s a _ _ K). split; [reflexivity|exact Kk].
    + cbn [edited]. apply model_eq; cbn; try reflexivity.
      * apply map_eq. intros j. destruct (decide (j = a)) as [->|D]; [|rewrite !lookup_alter_ne by congruence; reflexivity]. rewrite !lookup_alter, K. cbn. f_equal. pose proof (P a e cur K Q) as Pl.
        destruct e as [n l at_ d]. unfold with_attrs. cbn in *. f_equal. apply map_eq. intros j. destruct (decide (j = "flavor"%string)) as [->|Dj]; [rewrite lookup_partial_alter; congruence|rewrite !lookup_partial_alter_ne by congruence; reflexivity].
      * rewrite insert_insert. apply insert_id. exact Q.
    + cbn [next proxies with_proxies change]. rewrite lookup_insert. reflexivity.
  - destruct A as (e & K & Kk). destruct e as [n l at_ [f|y|y]]; try discriminate. apply back_involution; auto; cbn [next edited]; rewrite ?K; [reflexivity| | |].
    + eexists. rewrite (change_lookup s a _ _ K). split; reflexivity.
    + cbn [edited]. rewrite (change_change s a _ _ _ K); [reflexivity|reflexivity].
    + cbn [next]. rewrite (change_lookup s a _ _ K). reflexivity.
  - destruct A as ((e & K & Kk) & _). destruct e as [n l at_ [y|y|y]]; try discriminate. apply back_involution; auto; cbn [next edited]; rewrite ?K; [reflexivity| | |].
    + split; [eexists; rewrite (change_lookup s a _ _ K); split; reflexivity|]. destruct (event_ok_of s a _ C K) as ((O1 & O2) & O3). split; [exact O1|]. split; [|apply (O3 y eq_refl)].
      intros b Hb. unfold change. cbn. destruct (decide (b = a)) as [->|D]; [rewrite lookup_alter, K; cbn; eauto|rewrite lookup_alter_ne by congruence; apply O2, Hb].
    + cbn [edited]. rewrite (change_change s a _ _ _ K); [reflexivity|reflexivity].
    + cbn [next]. rewrite (change_lookup s a _ _ K). reflexivity.
Qed.
Lemma back_id s k a n ft : consistent s -> plain_flavors s -> allowed (SetId k a n ft) s -> takes_back s (SetId k a n ft).
Proof.
  intros C P A. pose proof A as A0. destruct A as ((e & K & Kk) & F & T). pose proof (tree_del_ok s k a e ft C K Kk T) as TD. destruct (edited_id s k a n ft C P A0) as [C' _].
  apply back_involution; auto; cbn [next]; rewrite K; [reflexivity| | |]; cbn [edited] in *; rewrite K in *.
  - cbn [allowed]. split; [exists (with_name n e); cbn; rewrite lookup_insert; split; [reflexivity|exact Kk]|]. split.
    + destruct (decide (n = e_name e)) as [->|D]; [right; exists (with_name (e_name e) e); cbn; rewrite lookup_insert; auto|left]. split; [eapply (c_valid s C); eauto|]. intros x y Kx. cbn in Kx.
      destruct (decide (x = a)) as [->|Dx]; [rewrite lookup_insert in Kx; injection Kx as <-; exact D|rewrite lookup_insert_ne in Kx by congruence]. intros Ny. apply Dx. eapply (c_unique s C); eauto.
    + intros Kg. destruct (T Kg) as (f & -> & In_). exists f. split; [reflexivity|]. subst k. rewrite Kg in *. cbn in TD. destruct TD as (t & L & G). exists (Tree (t_name t) (<[n := a]> (delete (e_name e) (t_gates t)))), n. cbn. rewrite lookup_alter, L. split; [reflexivity|]. cbn. apply lookup_insert.
  - cbn [events]. rewrite lookup_insert. cbn [with_name e_name]. apply model_eq; cbn; try reflexivity.
    + rewrite insert_insert. apply insert_id. rewrite K. destruct e; reflexivity.
    + destruct (decide (n = e_name e)) as [->|D].
      * rewrite insert_delete_insert, insert_insert, insert_delete_insert. apply insert_id. subst k. apply table_of; assumption.
      * rewrite delete_insert. { rewrite insert_delete_insert. apply insert_id. subst k. apply table_of; assumption. }
        rewrite lookup_delete_ne by congruence. destruct F as [F|(e' & K' & N')]; [|congruence]. apply (proj1 (new_name_all n s) (free_new s n C (proj2 F)) k).
    + rewrite retree_comp. apply retree_id. intros f t -> -> L. cbn in TD. destruct TD as (t' & L' & G). rewrite L in L'. injection L' as <-. destruct (decide (n = e_name e)) as [->|D].
      * rewrite insert_delete_insert, insert_insert, insert_delete_insert. apply insert_id, G.
      * rewrite delete_insert. { rewrite insert_delete_insert. apply insert_id, G. }
        rewrite lookup_delete_ne by congruence. destruct F as [F|(e' & K' & N')]; [|congruence]. destruct (t_gates t !! n) as [b|] eqn:G2; [|reflexivity]. destruct (c_gates s C _ _ _ _ L G2) as (e2 & K2 & N2 & _). exfalso. eapply (proj2 F); eauto.
  - cbn [next events]. rewrite lookup_insert. reflexivity.
Qed.
Lemma back_name s n : consistent s -> plain_flavors s -> allowed (SetName n) s -> takes_back s (SetName n).
Proof.
  intros C P A. destruct (edited_keeps s _ C P A) as [C' P']. set (t := edited (SetName n) s) in *. set (cur := next (SetName n) s) in *.
  assert (Ac : allowed cur t). { unfold cur. cbn. destruct (decide (m_name s = kDefaultName)); [now left|right; apply (c_mname s C)]. }
  assert (Ec : edited cur t = s).
  { unfold cur, t. cbn. apply model_eq; cbn; try reflexivity. destruct (decide (m_name s = kDefaultName)) as [Q|Q]; [rewrite decide_True by reflexivity; congruence|]. destruct (decide (m_name s = ""%string)) as [Q2|Q2]; [|reflexivity]. destruct (c_mname s C). tauto. }
  exists (next cur t). split.
  - replace (undo cur) with (redo cur) by reflexivity. pose proof (redo_edited t cur C' P' Ac) as R. rewrite Ec in R. exact R.
  - assert (A2 : allowed (next cur t) s). { unfold cur. cbn. destruct (decide _); [now left|right]. apply (c_mname t C'). }
    pose proof (redo_edited s _ C P A2) as R. assert (E2 : edited (next cur t) s = t).
    { unfold cur. cbn [next edited]. apply model_eq; cbn; try reflexivity. set (n' := if decide (n = ""%string) then kDefaultName else n).
      destruct (decide (n' = kDefaultName)) as [Q|Q]; [rewrite decide_True by reflexivity; congruence|]. destruct (decide (n' = ""%string)) as [Q2|Q2]; [|reflexivity].
      pose proof (proj1 (c_mname t C')) as V. unfold t in V. cbn in V. fold n' in V. tauto. }
    rewrite E2 in R. exact R.
Qed.
Lemma flip_tree t i f p p' s : runs (redo (AddFaultTree (negb i) f p)) t (AddFaultTree (negb i) f p') s -> runs (undo (AddFaultTree i f p)) t (AddFaultTree i f p') s.
Proof.
  cbn [redo undo]. intros R. apply runs_bind in R as (q & s1 & R & Q). apply runs_ret in Q as [Q ->]. injection Q as ->. apply runs_bind. exists q, s1. split; [|apply runs_ret; auto].
  destruct i; exact R.
Qed.
Lemma back_tree s i f p : consistent s -> plain_flavors s -> allowed (AddFaultTree i f p) s -> takes_back s (AddFaultTree i f p).
Proof.
  intros C P A. destruct (edited_keeps s _ C P A) as [C' P']. destruct i; cbn [allowed] in A.
  - destruct A as (t & L & G). exists (AddFaultTree true f None). split.
    + cbn [next]. rewrite L. apply (flip_tree _ true). cbn [negb]. set (u := edited _ s) in *.
      assert (Eu : u = with_tree_table (delete (t_name t) (tree_table s)) (with_trees (delete f (trees s)) s)) by (unfold u; cbn [edited]; rewrite L; reflexivity).
      assert (A2 : allowed (AddFaultTree false f (Some t)) u). { exists t. rewrite Eu. cbn. split; [reflexivity|]. split; [exact G|]. split; apply lookup_delete. }
      pose proof (redo_edited u _ C' P' A2) as R. replace (edited (AddFaultTree false f (Some t)) u) with s in R; [exact R|]. rewrite Eu. cbn. symmetry. apply model_eq; cbn; try reflexivity.
      * rewrite insert_delete_insert. apply insert_id, L.
      * rewrite insert_delete_insert. apply insert_id. apply (c_tree_table s C). eauto.
    + assert (A2 : allowed (AddFaultTree true f None) s) by (exists t; auto). exact (redo_edited s _ C P A2).
  - destruct A as (t & -> & G & L & N). exists (AddFaultTree false f (Some t)). assert (A2 : allowed (AddFaultTree false f (Some t)) s) by (exists t; auto). split; [|apply redo_edited; assumption].
    cbn [next]. apply (flip_tree _ false). cbn [negb]. set (u := edited _ s) in *.
    assert (Lu : trees u !! f = Some t) by (unfold u; cbn; apply lookup_insert).
    assert (A3 : allowed (AddFaultTree true f None) u) by (exists t; auto).
    pose proof (redo_edited u _ C' P' A3) as R. cbn [next] in R. rewrite Lu in R. replace (edited (AddFaultTree true f None) u) with s in R; [exact R|]. cbn [edited]. rewrite Lu. unfold u. cbn. symmetry. apply model_eq; cbn; try reflexivity.
    + apply delete_insert, L.
    + apply delete_insert, N.
Qed.
Lemma flip_event t i k a o o' ft s : runs (redo (AddEvent (negb i) k a o ft)) t (AddEvent (negb i) k a o' ft) s -> runs (undo (AddEvent i k a o ft)) t (AddEvent i k a o' ft) s.
Proof.
  cbn [redo undo]. intros R. apply runs_bind in R as (q & s1 & R & Q). apply runs_ret in Q as [Q ->]. injection Q as ->. apply runs_bind. exists q, s1. split; [|apply runs_ret; auto].
  destruct i; exact R.
Qed.
Lemma back_event s i k a o ft : consistent s -> plain_flavors s -> allowed (AddEvent i k a o ft) s -> takes_back s (AddEvent i k a o ft).
Proof.
  intros C P A. pose proof A as A0. destruct (edited_keeps s _ C P A) as [C' P']. destruct i; cbn [allowed] in A.
  - destruct A as ((e & K & Kk) & NP & T). destruct (proj2 (c_proxy s C k a) (ex_intro _ e (conj K Kk))) as (fl & Q). pose proof (tree_del_ok s k a e ft C K Kk T) as TD.
    exists (AddEvent true k a None ft). split; [|exact (redo_edited s (AddEvent true k a None ft) C P A0)].
    cbn [next]. rewrite K, Q. apply (flip_event _ true). cbn [negb]. set (u := edited _ s) in *.
    assert (Eu : u = Model (m_name s) (delete a (events s)) (delete (k, e_name e) (tables s)) (retree k ft (delete (e_name e)) (trees s)) (tree_table s) (delete (k, a) (proxies s))) by (unfold u; cbn [edited]; rewrite K; reflexivity).
    destruct (event_ok_of s a e C K) as ((O1 & O2) & O3).
    assert (A2 : allowed (AddEvent false k a (Some (e, fl)) ft) u).
    { exists e, fl. rewrite Eu. cbn. split; [reflexivity|]. split; [apply lookup_delete|]. split.
      - split; [eapply (c_valid s C); eauto|]. intros x y Kx Ny. cbn in Kx. apply lookup_delete_Some in Kx as [Dx Kx]. apply Dx. symmetry. eapply (c_unique s C); eauto.
      - split.
        + split; [exact Kk|]. split; [|intros ->; eapply P; eauto]. intros f Df. unfold args_of in O1, O2. rewrite Df in O1, O2. split; [exact O1|]. split; [|apply (O3 f Df)]. intros b Hb. cbn. rewrite lookup_delete_ne; [apply O2, Hb|]. intros <-. apply (NP a). exists e, f. auto.
        + intros Kg. destruct (T Kg) as (f & -> & (t & n & L & _)). exists f. eexists. split; [reflexivity|]. cbn [trees]. apply retree_of. exact L. }
    pose proof (redo_edited u _ C' P' A2) as R. replace (edited (AddEvent false k a (Some (e, fl)) ft) u) with s in R; [exact R|]. rewrite Eu. cbn. symmetry. apply model_eq; cbn; try reflexivity.
    + rewrite insert_delete_insert. apply insert_id, K.
    + rewrite insert_delete_insert. apply insert_id. subst k. apply table_of; assumption.
    + apply retree_add_del. exact TD.
    + rewrite insert_delete_insert. apply insert_id, Q.
  - destruct A as (e & fl & -> & L & F & G & T). pose proof (tree_add_ok s k (e_name e) ft C T (proj2 F)) as TA. pose proof (good_event_ok s k e fl G) as ((O1 & O2) & O3). destruct G as (Kk & Gf & Fl).
    exists (AddEvent false k a (Some (e, fl)) ft). split; [|apply redo_edited; assumption].
    cbn [next]. apply (flip_event _ false). cbn [negb]. set (u := edited _ s) in *.
    assert (Ku : events u !! a = Some e) by (unfold u; cbn; apply lookup_insert). assert (Qu : proxies u !! (k, a) = Some fl) by (unfold u; cbn; apply lookup_insert).
    assert (A2 : allowed (AddEvent true k a None ft) u).
    { split; [exists e; auto|]. split.
      - intros g (y & f & Ky & Dy & Hy). unfold u in Ky. cbn in Ky. destruct (decide (g = a)) as [->|D].
        + rewrite lookup_insert in Ky. injection Ky as <-. unfold args_of in O2. rewrite Dy in O2. destruct (O2 a Hy). congruence.
        + rewrite lookup_insert_ne in Ky by congruence. destruct (c_args s C g y Ky) as [_ O]. unfold args_of in O. rewrite Dy in O. destruct (O a Hy). congruence.
      - intros Kg. destruct (T Kg) as (f & t & -> & Lt). exists f. split; [reflexivity|]. eexists _, (e_name e). unfold u. cbn [trees edited]. split; [apply retree_of; exact Lt|]. cbn. rewrite decide_True by auto. apply lookup_insert. }
    pose proof (redo_edited u _ C' P' A2) as R. cbn [next] in R. rewrite Ku, Qu in R. replace (edited (AddEvent true k a None ft) u) with s in R; [exact R|]. cbn [edited]. rewrite Ku. unfold u. cbn. symmetry. apply model_eq; cbn; try reflexivity.
    + apply delete_insert, L.
    + apply delete_insert. apply (proj1 (new_name_all _ s) (free_new s _ C (proj2 F))).
    + apply retree_del_add. exact TA.
    + apply delete_insert. apply no_proxy; assumption.
Qed.
Lemma replace_back a b e : ~ In b (args_of e) -> replace_arg b a (replace_arg a b e) = e.
Proof.
  unfold replace_arg, args_of. destruct e as [n l at_ d]. cbn. destruct d as [f|x|y]; [|reflexivity..]. cbn. intros K. unfold with_data. cbn. f_equal. f_equal. destruct f as [cn mn ar]. cbn in *. f_equal.
  induction ar as [|[c x] ar IH]; cbn in *; [reflexivity|]. rewrite IH by tauto. f_equal. f_equal. destruct (decide (x = a)) as [->|D]; [rewrite decide_True by reflexivity; reflexivity|]. rewrite decide_False; [reflexivity|]. intros ->. tauto.
Qed.
Lemma back_switch s E T to from ft gates : consistent s -> plain_flavors s -> allowed (ChangeEventType E T to from ft gates) s -> takes_back s (ChangeEventType E T to from ft gates).
Proof.
  intros C P A. pose proof A as A0. destruct (edited_keeps s _ C P A) as [C' P'].
  destruct A as (b & e & fl & e0 & Hto & ET & K0 & KE & Nm & Lb & Ge & NI & NS & ND & Gs & TE & TT). destruct to as [a p]. cbn [fst snd] in *. subst p.
  assert (Dab : a <> b) by congruence. pose proof (good_event_ok s T e fl Ge) as ((OE1 & OE2) & OE3). destruct Ge as (KT & Gf & Fl).
  destruct (event_ok_of s a e0 C K0) as ((O1 & O2) & O3).
  destruct (proj2 (c_proxy s C E a) (ex_intro _ e0 (conj K0 KE))) as (fl0 & Q). pose proof (tree_del_ok s E a e0 ft C K0 KE TE) as TD. rewrite Nm in TD.
  exists (ChangeEventType E T (a, Some (b, e, fl)) (b, None) ft gates). split; [|].
  - cbn [next]. rewrite K0, Q. cbn [undo]. set (u := edited _ s) in *.
    assert (LK : forall x, events u !! x = if decide (x = b) then Some e else if decide (x = a) then None else replace_arg a b <$> events s !! x).
    { intros x. unfold u. cbn. destruct (decide (x = b)) as [->|D]; [apply lookup_insert|]. rewrite lookup_insert_ne by congruence. destruct (decide (x = a)) as [->|D2]; [apply lookup_delete|]. rewrite lookup_delete_ne by congruence. apply lookup_fmap. }
    assert (Kb : events u !! b = Some e) by (rewrite LK, decide_True by reflexivity; reflexivity).
    assert (Qb : proxies u !! (T, b) = Some fl) by (unfold u; cbn; apply lookup_insert).
    assert (NB : forall x z, events s !! x = Some z -> ~ In b (args_of z)) by (intros x z Kz Hz; destruct (c_args s C x z Kz) as [_ O]; destruct (O b Hz); congruence).
    assert (NaA : ~ In a (args_of e0)). { intros Ha. apply NS. unfold args_of in Ha. destruct (e_data e0) as [f|z|z] eqn:D0; [|destruct Ha..]. exists e0, f. auto. }
    assert (A2 : allowed (ChangeEventType T E (b, Some (a, e0, fl0)) (b, None) ft gates) u).
    { exists a, e0, fl0, e. cbn [fst snd]. split; [reflexivity|]. split; [congruence|]. split; [exact Kb|]. split; [exact KT|]. split; [congruence|]. split; [rewrite LK, decide_False, decide_True by congruence; reflexivity|]. split.
      { split; [exact KE|]. split; [|intros ->; eapply P; eauto]. intros f Df. unfold args_of in O1, O2, NaA. rewrite Df in O1, O2, NaA. split; [exact O1|]. split; [|apply (O3 f Df)].
        intros x Hx. rewrite LK. destruct (decide (x = b)); [eauto|]. rewrite decide_False by (intros ->; tauto). destruct (O2 x Hx) as (z & ->). cbn. eauto. }
      split; [apply (NB a e0 K0)|]. split.
      { intros (y & f & Ky & Dy & Hy). rewrite Kb in Ky. injection Ky as <-. unfold args_of in OE2. rewrite Dy in OE2. destruct (OE2 b Hy). congruence. }
      split; [exact ND|]. split.
      { intros g. rewrite Gs. unfold is_parent. split.
        - intros [Pg (y & f & Ky & Dy & Hy)]. assert (g <> a) by (intros ->; apply NS; exists y, f; auto). assert (g <> b) by congruence.
          assert (Kg : events u !! g = Some (replace_arg a b y)) by (rewrite LK, !decide_False by congruence; rewrite Ky; reflexivity).
          split; [apply (c_proxy u C'); exists (replace_arg a b y); split; [exact Kg|]; rewrite replace_arg_kind; unfold kind_of; rewrite Dy; reflexivity|].
          exists (replace_arg a b y). eexists. split; [exact Kg|]. split; [rewrite (replace_arg_data a b y f Dy); reflexivity|]. cbn. unfold replaced. rewrite map_map. cbn. apply in_map_iff in Hy as (x & Ex & Hx). apply in_map_iff. exists x. split; [|exact Hx]. rewrite decide_True by exact Ex. reflexivity.
        - intros [Pg (y & f & Ky & Dy & Hy)]. rewrite LK in Ky. destruct (decide (g = b)) as [->|Dgb].
          + injection Ky as <-. unfold args_of in OE2. rewrite Dy in OE2. destruct (OE2 b Hy). congruence.
          + destruct (decide (g = a)) as [->|Dga]; [discriminate|]. apply fmap_Some in Ky as (z & Kz & ->).
            destruct (in_dec Nat.eq_dec a (args_of z)) as [Ha|Ha].
            * unfold args_of in Ha. destruct (e_data z) as [f'|w|w] eqn:Dz; [|destruct Ha..]. split; [apply (c_proxy s C); exists z; split; [exact Kz|]; unfold kind_of; rewrite Dz; reflexivity|]. exists z, f'. auto.
            * exfalso. rewrite replace_arg_none in Dy by exact Ha. pose proof (NB g z Kz) as Nz. unfold args_of in Nz. rewrite Dy in Nz. tauto. }
      split.
      - intros Kg. destruct (TT Kg) as (f & t & -> & Lt). exists f. split; [reflexivity|].
        pose proof (retree_of E (Some f) (delete (e_name e)) (trees s) f t Lt) as L1. eexists _, (e_name e). unfold u. cbn [trees edited]. split; [apply retree_of; exact L1|]. cbn. rewrite decide_True by auto. apply lookup_insert.
      - intros Kg. destruct (TE Kg) as (f & -> & (t & n & L & _)). exists f. eexists. split; [reflexivity|]. unfold u. cbn [trees edited]. apply retree_of, retree_of, L. }
    pose proof (redo_switch u T E b a e0 fl0 e fl (b, None) ft gates C' A2 Kb Qb) as R.
    replace (edited (ChangeEventType T E (b, Some (a, e0, fl0)) (b, None) ft gates) u) with s in R.
    + apply runs_bind. exists (a, Some (b, e, fl)), s. split; [exact R|]. apply runs_ret. auto.
    + symmetry. cbn [edited]. apply model_eq; cbn; try reflexivity.
      * apply map_eq. intros x. destruct (decide (x = a)) as [->|Dxa]; [rewrite lookup_insert; congruence|]. rewrite lookup_insert_ne by congruence. destruct (decide (x = b)) as [->|Dxb]; [rewrite lookup_delete; congruence|].
        rewrite lookup_delete_ne, lookup_fmap by congruence. rewrite LK, !decide_False by congruence. destruct (events s !! x) as [z|] eqn:Kz; [|reflexivity]. cbn. f_equal. apply replace_back. apply (NB x z Kz).
      * rewrite Nm. pose proof (new_after_delete s a e0 C K0 T) as NA. rewrite KE, Nm in NA. rewrite delete_insert by exact NA. rewrite insert_delete_insert. apply insert_id. rewrite <- Nm, <- KE. apply table_of; assumption.
      * rewrite Nm. destruct (decide (T = KGate)) as [Tg|Tg].
        -- assert (Eg : E <> KGate) by congruence. assert (RE : forall h m, retree E ft h m = m) by (intros h m; unfold retree; destruct ft; [destruct E; congruence|reflexivity]). rewrite !RE.
           rewrite retree_comp. apply retree_id. intros f t -> _ Lt. apply delete_insert. destruct (t_gates t !! e_name e) as [g|] eqn:G2; [|reflexivity]. destruct (c_gates s C _ _ _ _ Lt G2) as (e2 & K2 & N2 & Kk2).
           assert (g = a) as -> by (apply (c_unique s C g a e2 e0 K2 K0); congruence). congruence.
        -- assert (RT : forall h m, retree T ft h m = m) by (intros h m; unfold retree; destruct ft; [destruct T; congruence|reflexivity]). rewrite !RT. apply retree_add_del. exact TD.
      * rewrite delete_insert by (rewrite lookup_delete_ne by congruence; apply no_proxy; assumption). rewrite insert_delete_insert. apply insert_id, Q.
  - pose proof (redo_edited s (ChangeEventType E T (a, Some (b, e, fl)) (b, None) ft gates) C P A0) as R. cbn [next] in *. rewrite K0, Q in *. exact R.
Qed.
Theorem undo_edited s c : consistent s -> plain_flavors s -> allowed c s -> takes_back s c.
Proof.
  intros C P A. pose proof (back_put s c C P A) as R. destruct c; try exact R.
  - apply back_id; assumption.
  - apply back_name; assumption.
  - apply back_tree; assumption.
  - apply back_event; assumption.
  - apply back_switch; assumption.
Qed.
