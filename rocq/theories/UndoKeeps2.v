(** Allowed edits keep the model consistent: all commands. *)
From stdpp Require Import gmap strings list.
From Coq Require Import List String.
From Verif Require Import Undo UndoSpec UndoProofs UndoRuns UndoKeeps.
Import ListNotations.

Definition event_ok (s : model) (e : event) : Prop :=
  (List.NoDup (args_of e) /\ forall b, In b (args_of e) -> is_Some (events s !! b)) /\
  forall f, e_data e = DGate f -> f_conn f = CNull \/ f_conn f = CNot -> forall c b, In (c, b) (f_args f) -> c = false.
Lemma event_ok_of s a e : consistent s -> events s !! a = Some e -> event_ok s e.
Proof. intros C K. apply consistent_iff in C as (_ & _ & A & _). apply (A a e K). Qed.
Lemma good_event_ok s k e fl : good_event s k e fl -> event_ok s e.
Proof.
  intros (_ & G & _). unfold event_ok, args_of. destruct (e_data e) as [f|x|b] eqn:D.
  - destruct (G f eq_refl) as (N & I' & V). split; [auto|]. intros f' [= <-]. exact V.
  - split; [split; [constructor|intros ? []]|discriminate].
  - split; [split; [constructor|intros ? []]|discriminate].
Qed.
Lemma consistent_put s a e e' px : consistent s -> events s !! a = Some e -> e_name e' = e_name e -> kind_of e' = kind_of e -> event_ok s e' ->
  (forall k b, is_Some (px !! (k, b)) <-> is_Some (proxies s !! (k, b))) -> consistent (with_proxies px (with_events (<[a := e']> (events s)) s)).
Proof.
  intros C K N Kk Ok Px. apply consistent_iff in C as (X & V & A & T). apply consistent_iff. split; [|split; [exact V|split; [|exact T]]].
  - cbn [tables proxies trees with_proxies with_events]. apply (indexed_ext (type_name s)).
    + intros x. unfold type_name. cbn. destruct (decide (x = a)) as [->|D]; [rewrite lookup_insert, K; cbn; congruence|rewrite lookup_insert_ne by congruence; reflexivity].
    + constructor; try apply X. intros k b. rewrite Px. apply X.
  - assert (S0 : forall b, is_Some (events s !! b) -> is_Some (<[a := e']> (events s) !! b)).
    { intros b Hb. destruct (decide (b = a)) as [->|D]; [rewrite lookup_insert; eauto|rewrite lookup_insert_ne by congruence; exact Hb]. }
    intros x y Kx. cbn in Kx |- *. destruct (decide (x = a)) as [->|D].
    + rewrite lookup_insert in Kx. injection Kx as <-. destruct Ok as ((O1 & O2) & O3). split; [split; [exact O1|]|exact O3]. intros b Hb. apply S0, O2, Hb.
    + rewrite lookup_insert_ne in Kx by congruence. destruct (A x y Kx) as ((O1 & O2) & O3). split; [split; [exact O1|]|exact O3]. intros b Hb. apply S0, O2, Hb.
Qed.
Lemma consistent_change s a e h : consistent s -> events s !! a = Some e -> e_name (h e) = e_name e -> kind_of (h e) = kind_of e -> event_ok s (h e) -> consistent (change a h s).
Proof.
  intros C K N Kk Ok. rewrite (change_put s a h e K). pose proof (consistent_put s a e (h e) (proxies s) C K N Kk Ok ltac:(tauto)) as Q.
  replace (with_events (<[a:=h e]> (events s)) s) with (with_proxies (proxies s) (with_events (<[a:=h e]> (events s)) s)); [exact Q|destruct s; reflexivity].
Qed.
Lemma plain_put s a e e' px : plain_flavors s -> (forall x, x <> a -> px !! (KBasic, x) = proxies s !! (KBasic, x)) -> (forall fl, px !! (KBasic, a) = Some fl -> e_attrs e' !! "flavor"%string = flavor_attribute fl) ->
  events s !! a = Some e -> plain_flavors (with_proxies px (with_events (<[a := e']> (events s)) s)).
Proof.
  intros P Px Pa K x y fl Kx Q. cbn in Kx, Q. destruct (decide (x = a)) as [->|D].
  - rewrite lookup_insert in Kx. injection Kx as <-. apply Pa, Q.
  - rewrite lookup_insert_ne in Kx by congruence. rewrite Px in Q by congruence. apply (P x y fl Kx Q).
Qed.
Lemma plain_change s a e h : plain_flavors s -> events s !! a = Some e -> (kind_of e = KBasic -> e_attrs (h e) = e_attrs e) -> consistent s -> plain_flavors (change a h s).
Proof.
  intros P K At C. rewrite (change_put s a h e K). replace (with_events (<[a:=h e]> (events s)) s) with (with_proxies (proxies s) (with_events (<[a:=h e]> (events s)) s)) by (destruct s; reflexivity).
  apply (plain_put s a e); [exact P|reflexivity| |exact K]. intros fl Q. rewrite At; [apply (P a e fl K Q)|].
  destruct (proj1 (c_proxy s C KBasic a) (ex_intro _ fl Q)) as (e1 & K1 & Kk). congruence.
Qed.
Lemma in_tree_named s f a e : consistent s -> events s !! a = Some e -> in_tree s f a -> exists t, trees s !! f = Some t /\ t_gates t !! e_name e = Some a.
Proof. intros C K (t & n & L & G). exists t. split; [exact L|]. destruct (c_gates s C _ _ _ _ L G) as (e' & K' & <- & _). congruence. Qed.
Lemma free_type_name s n : (forall a e, events s !! a = Some e -> e_name e <> n) -> forall b k, type_name s b <> Some (k, n).
Proof. intros F b k K. apply type_name_some in K as (e & K & N & _). eapply F; eauto. Qed.

Lemma edited_put s c : consistent s -> plain_flavors s -> allowed c s ->
  match c with SetLabel _ _ | SetExpression _ _ | SetFlavor _ _ | SetState _ _ | SetFormula _ _ | SetName _ => consistent (edited c s) /\ plain_flavors (edited c s) | _ => True end.
Proof.
  intros C P A. destruct c as [a l|k a n ft|a x|a fl|a b|a f|n| | | ]; try exact I; cbn [edited allowed] in *.
  - destruct A as (k & e & K & _). pose proof (event_ok_of s a e C K) as Ok. split; [apply (consistent_change s a e); auto|apply (plain_change s a e); auto].
  - destruct A as (e & K & Kk). assert (Ok : event_ok s (with_data (DBasic x) e)) by (split; [split; [constructor|intros ? []]|discriminate]).
    split; [apply (consistent_change s a e); auto|apply (plain_change s a e); auto].
  - destruct A as (e & K & Kk). pose proof (event_ok_of s a e C K) as Ok. destruct (proj2 (c_proxy s C KBasic a) (ex_intro _ e (conj K Kk))) as (cur & Q).
    rewrite (change_put s a _ e K). cbn [proxies with_events with_attrs]. split.
    + apply (consistent_put s a e); auto. intros k b. destruct (decide ((k, b) = (KBasic, a))) as [[= -> ->]|D]; [rewrite lookup_insert, Q; split; eauto|rewrite lookup_insert_ne by congruence; tauto].
    + apply (plain_put s a e); auto.
      * intros x D. apply lookup_insert_ne. congruence.
      * intros fl'. rewrite lookup_insert. intros [= <-]. cbn. apply lookup_partial_alter.
  - destruct A as (e & K & Kk). assert (Ok : event_ok s (with_data (DHouse b) e)) by (split; [split; [constructor|intros ? []]|discriminate]).
    split; [apply (consistent_change s a e); auto|apply (plain_change s a e); auto].
  - destruct A as ((e & K & Kk) & N & I' & V). assert (Ok : event_ok s (with_data (DGate f) e)) by (split; [split; assumption|intros f' [= <-]; exact V]).
    split; [apply (consistent_change s a e); auto|apply (plain_change s a e); auto].
  - split; [|exact P]. apply consistent_iff in C as (X & V & G & T). apply consistent_iff. split; [exact X|]. split; [|split; [exact G|exact T]]. cbn.
    destruct (decide (n = ""%string)) as [->|D]; [split; [discriminate|reflexivity]|]. destruct A as [->|A]; [congruence|exact A].
Qed.
Lemma edited_id s k a n ft : consistent s -> plain_flavors s -> allowed (SetId k a n ft) s -> consistent (edited (SetId k a n ft) s) /\ plain_flavors (edited (SetId k a n ft) s).
Proof.
  intros C P ((e & K & Kk) & F & T). cbn [edited]. rewrite K. destruct (proj2 (c_proxy s C k a) (ex_intro _ e (conj K Kk))) as (fl & Q).
  assert (TF : k = KGate -> exists f t, ft = Some f /\ trees s !! f = Some t /\ t_gates t !! e_name e = Some a).
  { intros Kg. destruct (T Kg) as (f & -> & In_). destruct (in_tree_named s f a e C K In_) as (t & L & G). exists f, t. auto. }
  pose proof (event_ok_of s a e C K) as Ok. split.
  - pose proof C as C0. apply consistent_iff in C as (X & V & A & TN). apply consistent_iff. split; [|split; [exact V|split]].
    + cbn [tables proxies trees]. assert (Ka : type_name s a = Some (k, e_name e)) by (apply type_name_some; eauto).
      pose proof (indexed_remove _ _ _ _ a k (e_name e) ft X Ka TF) as X1.
      assert (X2 := indexed_add _ _ _ _ a k n fl ft X1). cbn beta in X2. rewrite decide_True in X2 by reflexivity. specialize (X2 eq_refl).
      assert (NF : forall b k', (if decide (b = a) then None else type_name s b) <> Some (k', n)).
      { intros b k'. destruct (decide (b = a)) as [->|D]; [discriminate|]. destruct F as [F|(e' & K' & <-)]; [apply free_type_name, F|]. intros Kb. apply D. rewrite K in K'. injection K' as <-. apply (i_unique _ _ _ _ X b a k' k (e_name e)); assumption. }
      specialize (X2 NF). assert (Vn : valid_name n) by (destruct F as [F|(e' & K' & <-)]; [apply F|eapply (c_valid s C0); eauto]). specialize (X2 Vn).
      rewrite retree_comp in X2. rewrite insert_delete_insert, (insert_id (proxies s)) in X2 by exact Q.
      eapply indexed_ext; [|apply X2].
      * intros x. unfold type_name. cbn. destruct (decide (x = a)) as [->|D]; [rewrite lookup_insert; cbn; subst k; reflexivity|rewrite lookup_insert_ne by congruence; reflexivity].
      * intros Kg. destruct (TF Kg) as (f & t & -> & L & _). exists f. eexists. split; [reflexivity|]. apply retree_of. exact L.
    + assert (S0 : forall b, is_Some (events s !! b) -> is_Some (<[a := with_name n e]> (events s) !! b)).
      { intros b Hb. destruct (decide (b = a)) as [->|D]; [rewrite lookup_insert; eauto|rewrite lookup_insert_ne by congruence; exact Hb]. }
      intros x y Kx. cbn in Kx |- *. destruct (decide (x = a)) as [->|D].
      * rewrite lookup_insert in Kx. injection Kx as <-. destruct Ok as ((O1 & O2) & O3). split; [split; [exact O1|]|exact O3]. intros b Hb. apply S0, O2, Hb.
      * rewrite lookup_insert_ne in Kx by congruence. destruct (A x y Kx) as ((O1 & O2) & O3). split; [split; [exact O1|]|exact O3]. intros b Hb. apply S0, O2, Hb.
    + eapply tree_names_retree; [exact TN|reflexivity|reflexivity].
  - intros x y fl' Kx Q'. cbn in Kx, Q'. destruct (decide (x = a)) as [->|D].
    + rewrite lookup_insert in Kx. injection Kx as <-. cbn. apply (P a e fl' K Q').
    + rewrite lookup_insert_ne in Kx by congruence. apply (P x y fl' Kx Q').
Qed.
Lemma edited_tree s i f t : consistent s -> plain_flavors s -> allowed (AddFaultTree i f t) s -> consistent (edited (AddFaultTree i f t) s) /\ plain_flavors (edited (AddFaultTree i f t) s).
Proof.
  intros C P A. destruct i; cbn [edited allowed] in *.
  - destruct A as (t' & L & G). rewrite L. split; [|exact P]. apply consistent_iff in C as (X & V & A & TN). apply consistent_iff. split; [|split; [exact V|split; [exact A|]]].
    + constructor; try apply X; cbn [trees with_tree_table with_trees].
      * intros g u n a Lu. apply lookup_delete_Some in Lu as [_ Lu]. apply (i_gates _ _ _ _ X g u n a Lu).
      * intros a n K. destruct (i_tree _ _ _ _ X a n K) as (g & u & Lu & Gu). exists g, u. split; [|exact Gu]. rewrite lookup_delete_ne; [exact Lu|]. intros <-. rewrite L in Lu. injection Lu as <-. rewrite G, lookup_empty in Gu. discriminate.
      * intros g g' u u' n a Lu Gu Lu' Gu'. apply lookup_delete_Some in Lu as [_ Lu]. apply lookup_delete_Some in Lu' as [_ Lu']. eapply (i_one _ _ _ _ X); eauto.
    + intros n g. cbn. destruct (decide (n = t_name t')) as [->|D].
      * rewrite lookup_delete. split; [discriminate|]. intros (u & Lu & N). apply lookup_delete_Some in Lu as [Dg Lu]. exfalso. apply Dg.
        assert (Q : tree_table s !! t_name t' = Some f) by (apply TN; eauto). assert (Q' : tree_table s !! t_name t' = Some g) by (apply TN; eauto). congruence.
      * rewrite lookup_delete_ne by congruence. rewrite (TN n g). split; intros (u & Lu & N); exists u; (split; [|exact N]).
        -- rewrite lookup_delete_ne; [exact Lu|]. intros <-. rewrite L in Lu. injection Lu as <-. congruence.
        -- apply lookup_delete_Some in Lu. tauto.
  - destruct A as (t' & -> & G & L & Nn). split; [|exact P]. apply consistent_iff in C as (X & V & A & TN). apply consistent_iff. split; [|split; [exact V|split; [exact A|]]].
    + assert (GI : forall g u n a, <[f := t']> (trees s) !! g = Some u -> t_gates u !! n = Some a -> trees s !! g = Some u).
      { intros g u n a Lu Gu. apply lookup_insert_Some in Lu as [[<- <-]|[_ Lu]]; [|exact Lu]. rewrite G, lookup_empty in Gu. discriminate. }
      constructor; try apply X; cbn [trees with_tree_table with_trees].
      * intros g u n a Lu Gu. apply (i_gates _ _ _ _ X g u n a); eauto.
      * intros a n K. destruct (i_tree _ _ _ _ X a n K) as (g & u & Lu & Gu). exists g, u. split; [|exact Gu]. rewrite lookup_insert_ne by congruence. exact Lu.
      * intros g g' u u' n a Lu Gu Lu' Gu'. apply (i_one _ _ _ _ X g g' u u' n a); eauto.
    + intros n g. cbn. destruct (decide (n = t_name t')) as [->|D].
      * rewrite lookup_insert. split.
        -- intros [= <-]. exists t'. rewrite lookup_insert. auto.
        -- intros (u & Lu & N). apply lookup_insert_Some in Lu as [[<- <-]|[_ Lu]]; [reflexivity|]. assert (Q : tree_table s !! t_name t' = Some g) by (apply TN; eauto). congruence.
      * rewrite lookup_insert_ne by congruence. rewrite (TN n g). split; intros (u & Lu & N); exists u; (split; [|exact N]).
        -- rewrite lookup_insert_ne by congruence. exact Lu.
        -- apply lookup_insert_Some in Lu as [[_ <-]|[_ Lu]]; [congruence|exact Lu].
Qed.
Lemma edited_event s i k a o ft : consistent s -> plain_flavors s -> allowed (AddEvent i k a o ft) s -> consistent (edited (AddEvent i k a o ft) s) /\ plain_flavors (edited (AddEvent i k a o ft) s).
Proof.
  intros C P A. destruct i; cbn [edited allowed] in *.
  - destruct A as ((e & K & Kk) & NP & T). rewrite K.
    assert (TF : k = KGate -> exists f t, ft = Some f /\ trees s !! f = Some t /\ t_gates t !! e_name e = Some a).
    { intros Kg. destruct (T Kg) as (f & -> & In_). destruct (in_tree_named s f a e C K In_) as (t & L & G). exists f, t. auto. }
    split.
    + apply consistent_iff in C as (X & V & A & TN). apply consistent_iff. split; [|split; [exact V|split]].
      * cbn [tables proxies trees]. assert (Ka : type_name s a = Some (k, e_name e)) by (apply type_name_some; eauto).
        eapply indexed_ext; [|apply (indexed_remove _ _ _ _ a k (e_name e) ft X Ka TF)]. intros x. unfold type_name. cbn. destruct (decide (x = a)) as [->|D]; [rewrite lookup_delete; reflexivity|rewrite lookup_delete_ne by congruence; reflexivity].
      * intros x y Kx. cbn in Kx |- *. apply lookup_delete_Some in Kx as [Dx Kx]. destruct (A x y Kx) as ((O1 & O2) & O3). split; [split; [exact O1|]|exact O3]. intros b Hb. rewrite lookup_delete_ne; [apply O2, Hb|].
        intros <-. apply (NP x). unfold args_of in Hb. destruct (e_data y) as [f|z|z] eqn:Dy; [|destruct Hb..]. exists y, f. auto.
      * eapply tree_names_retree; [exact TN|reflexivity|reflexivity].
    + intros x y fl' Kx Q'. cbn in Kx, Q'. apply lookup_delete_Some in Kx as [Dx Kx]. apply lookup_delete_Some in Q' as [_ Q']. apply (P x y fl' Kx Q').
  - destruct A as (e & fl & -> & L & F & G & T). pose proof (good_event_ok s k e fl G) as Ok. destruct G as (Kk & _ & Fl). split.
    + apply consistent_iff in C as (X & V & A & TN). apply consistent_iff. split; [|split; [exact V|split]].
      * cbn [tables proxies trees]. assert (Ka : type_name s a = None) by (unfold type_name; rewrite L; reflexivity).
        eapply indexed_ext; [|apply (indexed_add _ _ _ _ a k (e_name e) fl ft X Ka (free_type_name s _ (proj2 F)) (proj1 F))].
        -- intros x. unfold type_name. cbn. destruct (decide (x = a)) as [->|D]; [rewrite lookup_insert; cbn; congruence|rewrite lookup_insert_ne by congruence; reflexivity].
        -- intros Kg. apply (T Kg).
      * assert (S0 : forall b, is_Some (events s !! b) -> is_Some (<[a := e]> (events s) !! b)).
        { intros b Hb. destruct (decide (b = a)) as [->|D]; [rewrite lookup_insert; eauto|rewrite lookup_insert_ne by congruence; exact Hb]. }
        intros x y Kx. cbn in Kx |- *. destruct (decide (x = a)) as [->|D].
        -- rewrite lookup_insert in Kx. injection Kx as <-. destruct Ok as ((O1 & O2) & O3). split; [split; [exact O1|]|exact O3]. intros b Hb. apply S0, O2, Hb.
        -- rewrite lookup_insert_ne in Kx by congruence. destruct (A x y Kx) as ((O1 & O2) & O3). split; [split; [exact O1|]|exact O3]. intros b Hb. apply S0, O2, Hb.
      * eapply tree_names_retree; [exact TN|reflexivity|reflexivity].
    + intros x y fl' Kx Q'. cbn in Kx, Q'. destruct (decide (x = a)) as [->|D].
      * rewrite lookup_insert in Kx. injection Kx as <-. destruct (decide (k = KBasic)) as [->|Dk].
        -- rewrite lookup_insert in Q'. injection Q' as <-. auto.
        -- rewrite lookup_insert_ne in Q' by congruence. pose proof (no_proxy s a KBasic C L). congruence.
      * rewrite lookup_insert_ne in Kx by congruence. rewrite lookup_insert_ne in Q' by congruence. apply (P x y fl' Kx Q').
Qed.
Lemma NoDup_replace (a b : addr) (l : list addr) : List.NoDup l -> ~ In b l -> List.NoDup (map (fun x => if decide (x = a) then b else x) l).
Proof.
  induction l as [|x l IH]; intros N Nb; cbn; [constructor|]. apply NoDup_cons_iff in N as [N1 N2]. cbn in Nb. constructor; [|apply IH; tauto].
  intros I'. apply in_map_iff in I' as (y & E & Hy). destruct (decide (x = a)) as [->|Dx], (decide (y = a)) as [->|Dy]; subst; tauto.
Qed.
Lemma edited_switch s E T to from ft gates : consistent s -> plain_flavors s -> allowed (ChangeEventType E T to from ft gates) s ->
  consistent (edited (ChangeEventType E T to from ft gates) s) /\ plain_flavors (edited (ChangeEventType E T to from ft gates) s).
Proof.
  intros C P (b & e & fl & e0 & Hto & ET & K0 & KE & Nm & Lb & Ge & NI & NS & ND & Gs & TE & TT). destruct to as [a p]. cbn [fst snd] in *. subst p. cbn [edited].
  assert (Dab : a <> b) by congruence. pose proof (good_event_ok s T e fl Ge) as Ok. destruct Ge as (KT & _ & Fl).
  assert (TF : E = KGate -> exists f t, ft = Some f /\ trees s !! f = Some t /\ t_gates t !! e_name e = Some a).
  { intros Kg. destruct (TE Kg) as (f & -> & In_). destruct (in_tree_named s f a e0 C K0 In_) as (t & L & G). rewrite Nm in G. exists f, t. auto. }
  assert (LK : forall x, <[b := e]> (delete a (replace_arg a b <$> events s)) !! x = if decide (x = b) then Some e else if decide (x = a) then None else replace_arg a b <$> events s !! x).
  { intros x. destruct (decide (x = b)) as [->|D]; [apply lookup_insert|]. rewrite lookup_insert_ne by congruence. destruct (decide (x = a)) as [->|D2]; [apply lookup_delete|]. rewrite lookup_delete_ne by congruence. apply lookup_fmap. }
  split.
  - pose proof C as C0. apply consistent_iff in C as (X & V & A & TN). apply consistent_iff. split; [|split; [exact V|split]].
    + cbn [tables proxies trees]. assert (Ka : type_name s a = Some (E, e_name e)) by (apply type_name_some; eauto).
      pose proof (indexed_remove _ _ _ _ a E (e_name e) ft X Ka TF) as X1.
      assert (X2 := indexed_add _ _ _ _ b T (e_name e) fl ft X1). cbn beta in X2. rewrite decide_False in X2 by congruence.
      assert (Kb : type_name s b = None) by (unfold type_name; rewrite Lb; reflexivity). specialize (X2 Kb).
      assert (NF : forall c k', (if decide (c = a) then None else type_name s c) <> Some (k', e_name e)).
      { intros c k'. destruct (decide (c = a)) as [->|D]; [discriminate|]. intros Kc. apply D. apply (i_unique _ _ _ _ X c a k' E (e_name e)); assumption. }
      specialize (X2 NF). assert (Vn : valid_name (e_name e)) by (rewrite <- Nm; eapply (c_valid s C0); eauto). specialize (X2 Vn).
      eapply indexed_ext; [|apply X2].
      * intros x. unfold type_name at 1. cbn [events]. rewrite LK. destruct (decide (x = b)) as [->|D]; [cbn; congruence|]. destruct (decide (x = a)) as [->|D2]; [reflexivity|].
        unfold type_name. destruct (events s !! x) as [y|]; [|reflexivity]. cbn. rewrite replace_arg_name, replace_arg_kind. reflexivity.
      * intros Kg. destruct (TT Kg) as (f & t & -> & L). exists f. eexists. split; [reflexivity|]. apply retree_of. exact L.
    + assert (S0 : forall x, x <> a -> is_Some (events s !! x) -> is_Some (<[b := e]> (delete a (replace_arg a b <$> events s)) !! x)).
      { intros x Dx (y & Hy). rewrite LK. destruct (decide (x = b)); [eauto|]. rewrite decide_False by exact Dx. rewrite Hy. cbn. eauto. }
      intros x y Kx. cbn [events] in Kx |- *. rewrite LK in Kx. destruct (decide (x = b)) as [->|Dxb].
      * injection Kx as <-. destruct Ok as ((O1 & O2) & O3). split; [split; [exact O1|]|exact O3]. intros c Hc. apply S0; [intros ->; tauto|apply O2, Hc].
      * destruct (decide (x = a)) as [->|Dxa]; [discriminate|]. apply fmap_Some in Kx as (z & Kx & ->). destruct (A x z Kx) as ((O1 & O2) & O3).
        assert (Nb : ~ In b (args_of z)) by (intros Hb; destruct (O2 b Hb); congruence). split; [split|].
        -- rewrite args_replace. apply NoDup_replace; assumption.
        -- intros c Hc. rewrite args_replace in Hc. apply in_map_iff in Hc as (d & <- & Hd). destruct (decide (d = a)) as [->|Dd]; [rewrite LK, decide_True by reflexivity; eauto|apply S0; [exact Dd|apply O2, Hd]].
        -- intros f Df Vf c d Hcd. unfold replace_arg in Df. destruct (e_data z) as [g|w|w] eqn:Dz; [|congruence..]. cbn in Df. injection Df as <-. cbn in Vf, Hcd. apply in_map_iff in Hcd as ([c' d'] & [= <- _] & Hcd). eapply O3; eauto.
    + apply (tree_names_retree T ft (<[e_name e := b]>) (Model (m_name s) (events s) (tables s) (retree E ft (delete (e_name e)) (trees s)) (tree_table s) (proxies s))); [|reflexivity|reflexivity]. eapply (tree_names_retree E ft); [exact TN|reflexivity|reflexivity].
  - intros x y fl' Kx Q'. cbn in Kx, Q'. rewrite LK in Kx. destruct (decide (x = b)) as [->|Dxb].
    + injection Kx as <-. destruct (decide (T = KBasic)) as [->|Dk].
      * rewrite lookup_insert in Q'. injection Q' as <-. auto.
      * rewrite lookup_insert_ne in Q' by congruence. apply lookup_delete_Some in Q' as [_ Q']. pose proof (no_proxy s b KBasic C Lb). congruence.
    + destruct (decide (x = a)) as [->|Dxa]; [discriminate|]. apply fmap_Some in Kx as (z & Kx & ->). rewrite lookup_insert_ne in Q' by congruence. apply lookup_delete_Some in Q' as [_ Q']. rewrite replace_arg_attrs. apply (P x z fl' Kx Q').
Qed.
Theorem edited_keeps s c : consistent s -> plain_flavors s -> allowed c s -> consistent (edited c s) /\ plain_flavors (edited c s).
Proof.
  intros C P A. pose proof (edited_put s c C P A) as R. destruct c; try exact R.
  - apply edited_id; assumption.
  - apply edited_tree; assumption.
  - apply edited_event; assumption.
  - apply edited_switch; assumption.
Qed.
