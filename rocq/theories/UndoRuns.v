(** Every allowed edit is carried out by redo and makes the model that UndoSpec.v asks for. *)
From stdpp Require Import gmap strings list.
From Coq Require Import List String.
From Verif Require Import Undo UndoSpec UndoProofs.
Import ListNotations.

(** Replacing an argument. *)
Definition replaced (a b : addr) (l : list (bool * addr)) : list (bool * addr) := map (fun x => (fst x, if decide (snd x = a) then b else snd x)) l.
Lemma replaced_none a b l : ~ In a (map snd l) -> replaced a b l = l.
Proof. induction l as [|[c x] l IH]; cbn; [reflexivity|]. intros K. destruct (decide (x = a)); [tauto|]. f_equal. apply IH. tauto. Qed.
Lemma swap_first_some a b l : List.NoDup (map snd l) -> In a (map snd l) -> exists c, swap_first a b l = Some (c, replaced a b l) /\ In (c, a) l.
Proof.
  induction l as [|[c x] l IH]; cbn; [tauto|]. intros N K. apply NoDup_cons_iff in N as [N1 N2]. destruct (decide (x = a)) as [->|D].
  - exists c. split; [|now left]. f_equal. f_equal. f_equal. symmetry. apply replaced_none. exact N1.
  - destruct K as [K|K]; [congruence|]. destruct (IH N2 K) as (c' & E & I'). rewrite E. eauto.
Qed.
Lemma replace_arg_data a b e f : e_data e = DGate f -> replace_arg a b e = with_data (DGate (Formula (f_conn f) (f_min f) (replaced a b (f_args f)))) e.
Proof. intros K. unfold replace_arg. rewrite K. reflexivity. Qed.
Lemma replace_arg_name a b e : e_name (replace_arg a b e) = e_name e.
Proof. unfold replace_arg. destruct (e_data e); reflexivity. Qed.
Lemma replace_arg_kind a b e : kind_of (replace_arg a b e) = kind_of e.
Proof. unfold replace_arg, kind_of. destruct (e_data e) eqn:E; cbn; rewrite ?E; reflexivity. Qed.
Lemma replace_arg_attrs a b e : e_attrs (replace_arg a b e) = e_attrs e.
Proof. unfold replace_arg. destruct (e_data e); reflexivity. Qed.
Lemma replace_arg_none a b e : ~ In a (args_of e) -> replace_arg a b e = e.
Proof.
  unfold replace_arg, args_of. destruct e as [n l at_ d]. cbn. destruct d as [f|x|y]; [|reflexivity..]. cbn. intros K. unfold with_data. cbn. f_equal. f_equal.
  fold (replaced a b (f_args f)). rewrite replaced_none by exact K. destruct f; reflexivity.
Qed.
Lemma args_replace a b e : args_of (replace_arg a b e) = map (fun x => if decide (x = a) then b else x) (args_of e).
Proof.
  unfold replace_arg, args_of. destruct (e_data e) as [f|x|y] eqn:E; cbn; rewrite ?E; cbn; [|reflexivity..]. rewrite !map_map. reflexivity.
Qed.

Definition swappable (s : model) (a : addr) (nb : string) (g : addr) : Prop :=
  exists x f, events s !! g = Some x /\ e_data x = DGate f /\ List.NoDup (map snd (f_args f)) /\ In a (map snd (f_args f)) /\
  (forall y, In y (map snd (f_args f)) -> y = a \/ exists e, events s !! y = Some e /\ e_name e <> nb) /\
  (f_conn f = CNull \/ f_conn f = CNot -> forall c y, In (c, y) (f_args f) -> c = false).
Lemma runs_swap_event s a b eb g : events s !! b = Some eb -> swappable s a (e_name eb) g ->
  exists x, events s !! g = Some x /\ runs (swap_event a b g) s tt (with_events (<[g := replace_arg a b x]> (events s)) s).
Proof.
  intros Hb (x & f & G & D & N & I' & O & V). exists x. split; [exact G|]. unfold swap_event, event_of.
  apply runs_bind. exists x, s. split; [apply runs_read; auto|]. rewrite D. destruct (swap_first_some a b _ N I') as (c & E & IC). rewrite E.
  apply runs_bind. exists eb, s. split; [apply runs_read; auto|].
  apply runs_bind. exists tt, s. split; [apply runs_check; split; [|reflexivity]; unfold named_otherwise; apply List.Forall_forall; intros y Hy; apply O; exact Hy|].
  apply runs_bind. exists tt, s. split; [apply runs_check; split; [|reflexivity]; intros [-> K]; specialize (V K _ _ IC); discriminate|].
  apply runs_bind. exists tt, s. split; [apply runs_note; reflexivity|].
  unfold put_event. apply runs_modify. rewrite (replace_arg_data _ _ _ _ D). reflexivity.
Qed.
Lemma runs_swap_events a b : forall gs s eb, List.NoDup gs -> ~ In b gs -> events s !! b = Some eb -> (forall g, In g gs -> swappable s a (e_name eb) g) ->
  exists m, runs (swap_events a b gs) s tt (with_events m s) /\ forall j, m !! j = if in_dec Nat.eq_dec j gs then replace_arg a b <$> events s !! j else events s !! j.
Proof.
  induction gs as [|g gs IH]; intros s eb N Nb Hb K.
  - exists (events s). split; [apply runs_ret; split; [reflexivity|destruct s; reflexivity]|]. intros j. reflexivity.
  - apply NoDup_cons_iff in N as [N1 N2]. cbn in Nb. destruct (runs_swap_event s a b eb g Hb (K g ltac:(now left))) as (x & G & R).
    set (s1 := with_events (<[g := replace_arg a b x]> (events s)) s) in *.
    destruct (IH s1 eb N2 ltac:(tauto)) as (m & R2 & L).
    + unfold s1. cbn. rewrite lookup_insert_ne by tauto. exact Hb.
    + intros g' Hg'. destruct (K g' ltac:(now right)) as (x' & f' & G' & D' & ND & I' & O & V). exists x', f'. split; [unfold s1; cbn; rewrite lookup_insert_ne by (intros ->; tauto); exact G'|].
      split; [exact D'|]. split; [exact ND|]. split; [exact I'|]. split; [|exact V]. intros y Hy. destruct (O y Hy) as [->|(e & He & Hn)]; [now left|right]. unfold s1; cbn.
      destruct (decide (y = g)) as [->|Dy].
      * rewrite lookup_insert. exists (replace_arg a b x). split; [reflexivity|]. rewrite replace_arg_name. congruence.
      * rewrite lookup_insert_ne by congruence. eauto.
    + exists m. split.
      * cbn [swap_events]. apply runs_bind. exists tt, s1. split; [exact R|]. exact R2.
      * intros j. rewrite L. unfold s1. cbn [events with_events]. destruct (decide (j = g)) as [->|Dj].
        -- rewrite lookup_insert. destruct (in_dec Nat.eq_dec g gs) as [C|C]; [tauto|]. destruct (in_dec Nat.eq_dec g (g :: gs)) as [C2|C2]; [|exfalso; apply C2; now left]. rewrite G. reflexivity.
        -- rewrite lookup_insert_ne by congruence. destruct (in_dec Nat.eq_dec j gs) as [C|C], (in_dec Nat.eq_dec j (g :: gs)) as [C2|C2]; try reflexivity; cbn in C2; [tauto|]. destruct C2; [congruence|tauto].
Qed.

(** What redo leaves in the command. *)
Definition next (c : command) (s : model) : command :=
  match c with
  | SetLabel a l => match events s !! a with Some e => SetLabel a (e_label e) | None => c end
  | SetId k a n ft => match events s !! a with Some e => SetId k a (e_name e) ft | None => c end
  | SetExpression a x => match events s !! a with Some (Event _ _ _ (DBasic y)) => SetExpression a y | _ => c end
  | SetFlavor a fl => match proxies s !! (KBasic, a) with Some fl => SetFlavor a fl | None => c end
  | SetState a b => match events s !! a with Some (Event _ _ _ (DHouse y)) => SetState a y | _ => c end
  | SetFormula a f => match events s !! a with Some (Event _ _ _ (DGate y)) => SetFormula a y | _ => c end
  | SetName n => SetName (if decide (m_name s = kDefaultName) then ""%string else m_name s)
  | AddFaultTree i f t => AddFaultTree i f (if i then trees s !! f else None)
  | AddEvent i k a o ft => AddEvent i k a (if i then match events s !! a, proxies s !! (k, a) with Some e, Some fl => Some (e, fl) | _, _ => None end else None) ft
  | ChangeEventType E T (a, Some (b, e, fl)) from ft gates =>
      match events s !! a, proxies s !! (E, a) with
      | Some e0, Some fl0 => ChangeEventType E T (a, None) (b, Some (a, e0, fl0)) ft gates
      | _, _ => c
      end
  | c => c
  end.
Lemma change_id s a h e : events s !! a = Some e -> h e = e -> change a h s = s.
Proof.
  intros K L. unfold change. apply model_eq; cbn; try reflexivity. apply map_eq. intros j. destruct (decide (j = a)) as [->|D].
  - rewrite lookup_alter, K. cbn. congruence.
  - rewrite lookup_alter_ne by congruence. reflexivity.
Qed.
Lemma change_put s a h e : events s !! a = Some e -> change a h s = with_events (<[a := h e]> (events s)) s.
Proof. intros K. unfold change. rewrite (alter_insert_eq _ _ _ _ K). reflexivity. Qed.
Ltac rstep := apply runs_bind; first [exists tt; eexists _; split | eexists _, _; split].

Lemma runs_put s a e h e0 : events s !! a = Some e0 -> h e0 = e -> runs (put_event a e) s tt (change a h s).
Proof. intros K <-. unfold put_event. apply runs_modify. symmetry. rewrite (change_put s a h e0 K). reflexivity. Qed.
Lemma redo_involution s c : consistent s -> plain_flavors s -> allowed c s ->
  match c with AddFaultTree _ _ _ | AddEvent _ _ _ _ _ | ChangeEventType _ _ _ _ _ _ => True | _ => runs (redo c) s (next c s) (edited c s) end.
Proof.
  intros C P A. destruct c as [a l|k a n ft|a x|a fl|a b|a f|n| | | ]; try exact I; cbn [redo involution next edited allowed] in *.
  - destruct A as (k & e & K & _). rewrite K. unfold event_of. rstep; [apply runs_read; eauto|]. destruct (decide (l = e_label e)) as [->|D].
    + apply runs_ret. split; [reflexivity|]. apply (change_id s a _ e K). destruct e; reflexivity.
    + rstep; [apply (runs_put s a _ (with_label l) e K eq_refl)|]. apply runs_ret. auto.
  - destruct A as ((e & K & Kk) & F & T). rewrite K. unfold event_of. rstep; [apply runs_read; eauto|]. destruct (decide (n = e_name e)) as [->|D].
    + apply runs_ret. split; [reflexivity|]. apply model_eq; cbn; try reflexivity.
      * apply insert_id. rewrite K. destruct e; reflexivity.
      * rewrite insert_delete_insert. apply insert_id. subst k. apply table_of; assumption.
      * apply retree_id. intros f t -> -> L. pose proof (tree_del_ok s KGate a e (Some f) C K Kk T) as (t' & L' & G). rewrite L in L'. injection L' as <-.
        rewrite insert_delete_insert. apply insert_id. exact G.
    + destruct F as [F|(e' & K' & <-)]; [|congruence]. pose proof (tree_del_ok s k a e ft C K Kk T) as TD.
      rstep; [apply runs_tree_remove; split; [exact TD|reflexivity]|].
      rstep; [apply runs_model_remove; cbn; split; [exact K|]; split; [subst k; apply table_of; assumption|reflexivity]|].
      rstep; [apply runs_check; split; [apply F|reflexivity]|].
      rstep; [apply runs_tree_add; cbn; split; [|reflexivity]|].
      { unfold del_ok, add_ok, retree in *. destruct ft as [f|]; [|exact I]. destruct k; [|exact I..]. destruct TD as (t & L & G). rewrite lookup_alter, L. cbn. eexists. split; [reflexivity|]. cbn.
        rewrite lookup_delete_ne by congruence. destruct (t_gates t !! n) as [b|] eqn:G2; [|reflexivity]. destruct (c_gates s C _ _ _ _ L G2) as (e2 & K2 & N2 & _). destruct F as [_ F]. exfalso. eapply F; eauto. }
      rstep; [apply runs_model_add; cbn; split; [|split; [apply lookup_delete|reflexivity]]|].
      { apply new_name_all. cbn. intros k'. pose proof (proj1 (new_name_all n s) (free_new s n C (proj2 F)) k') as Nk. destruct (decide ((k, e_name e) = (k', n))) as [Q|Q]; [congruence|]. rewrite lookup_delete_ne by congruence. exact Nk. }
      apply runs_ret. split; [reflexivity|]. apply model_eq; cbn; try reflexivity.
      * rewrite insert_delete_insert. reflexivity.
      * subst k. reflexivity.
      * rewrite retree_comp. reflexivity.
  - destruct A as (e & K & Kk). rewrite K. destruct e as [n l at_ [f|y|b]]; try discriminate. unfold event_of. rstep; [apply runs_read; eauto|]. cbn [e_data]. destruct (decide (x = y)) as [->|D].
    + apply runs_ret. split; [reflexivity|]. apply (change_id s a _ _ K). reflexivity.
    + rstep; [apply (runs_put s a _ (with_data (DBasic x)) _ K eq_refl)|]. apply runs_ret. auto.
  - destruct A as (e & K & Kk). destruct (proj2 (c_proxy s C KBasic a) (ex_intro _ e (conj K Kk))) as (cur & Q). rewrite Q. rstep; [apply runs_read; eauto|]. destruct (decide (fl = cur)) as [->|D].
    + apply runs_ret. split; [reflexivity|]. rewrite (change_id s a _ e K).
      * apply model_eq; cbn; try reflexivity. apply insert_id. exact Q.
      * destruct e as [n l at_ d]. unfold with_attrs. cbn. f_equal. rewrite <- (P a _ _ K Q). cbn. apply map_eq. intros j. destruct (decide (j = "flavor"%string)) as [->|Dj]; [rewrite lookup_partial_alter|rewrite lookup_partial_alter_ne by congruence]; reflexivity.
    + unfold event_of. rstep; [apply runs_read; eauto|].
      rstep; [apply (runs_put s a _ (fun e => with_attrs (partial_alter (fun _ => flavor_attribute fl) "flavor"%string (e_attrs e)) e) e K); destruct fl; reflexivity|].
      rstep; [apply runs_modify; reflexivity|]. apply runs_ret. split; reflexivity.
  - destruct A as (e & K & Kk). rewrite K. destruct e as [n l at_ [f|y|y]]; try discriminate. unfold event_of. rstep; [apply runs_read; eauto|]. cbn [e_data]. destruct (decide (b = y)) as [->|D].
    + apply runs_ret. split; [reflexivity|]. apply (change_id s a _ _ K). reflexivity.
    + rstep; [apply (runs_put s a _ (with_data (DHouse b)) _ K eq_refl)|]. apply runs_ret. auto.
  - destruct A as ((e & K & Kk) & _). rewrite K. destruct e as [n l at_ [y|y|y]]; try discriminate. unfold event_of. rstep; [apply runs_read; eauto|]. cbn [e_data].
    rstep; [apply (runs_put s a _ (with_data (DGate f)) _ K eq_refl)|]. apply runs_ret. auto.
  - rstep; [apply runs_read; split; reflexivity|]. set (cur := if decide (m_name s = kDefaultName) then ""%string else m_name s). destruct (decide (cur = n)) as [E|D].
    + apply runs_ret. split; [congruence|]. apply model_eq; cbn; try reflexivity. rewrite <- E. unfold cur. destruct (decide (m_name s = kDefaultName)) as [Q|Q].
      * rewrite decide_True by reflexivity. congruence.
      * destruct (decide (m_name s = ""%string)) as [Q2|Q2]; [|reflexivity]. destruct (c_mname s C). tauto.
    + rstep; [apply runs_check; split; [|reflexivity]|].
      { destruct A as [->|A]; [rewrite decide_True by reflexivity; split; [discriminate|reflexivity]|]. destruct (decide (n = ""%string)); [split; [discriminate|reflexivity]|exact A]. }
      rstep; [apply runs_modify; reflexivity|]. apply runs_ret. auto.
Qed.
Lemma redo_trees s i f t : consistent s -> allowed (AddFaultTree i f t) s -> runs (redo (AddFaultTree i f t)) s (next (AddFaultTree i f t) s) (edited (AddFaultTree i f t) s).
Proof.
  intros C A. destruct i; cbn [redo next edited allowed] in *.
  - destruct A as (t' & L & G). rewrite L. rstep; [|apply runs_ret; split; reflexivity]. unfold remove_tree, tree_of. rstep; [apply runs_read; eauto|].
    rstep; [apply runs_check; split; [apply (c_tree_table s C); eauto|reflexivity]|]. rstep; [apply runs_note; reflexivity|]. rstep; [apply runs_modify; reflexivity|]. apply runs_ret. auto.
  - destruct A as (t' & -> & G & L & N). rstep; [|apply runs_ret; split; reflexivity]. unfold add_tree. rstep; [apply runs_take; eauto|].
    rstep; [apply runs_check; split; [exact N|reflexivity]|]. rstep; [apply runs_check; split; [exact L|reflexivity]|]. rstep; [apply runs_modify; reflexivity|]. rstep; [apply runs_note; reflexivity|]. apply runs_ret. auto.
Qed.
Lemma no_proxy s a k : consistent s -> events s !! a = None -> proxies s !! (k, a) = None.
Proof. intros C K. destruct (proxies s !! (k, a)) as [fl|] eqn:E; [|reflexivity]. destruct (proj1 (c_proxy s C k a)) as (e & K' & _); [rewrite E; eauto|congruence]. Qed.
Lemma redo_event s i k a o ft : consistent s -> allowed (AddEvent i k a o ft) s -> runs (redo (AddEvent i k a o ft)) s (next (AddEvent i k a o ft) s) (edited (AddEvent i k a o ft) s).
Proof.
  intros C A. destruct i; cbn [redo next edited allowed] in *.
  - destruct A as ((e & K & Kk) & NP & T). destruct (proj2 (c_proxy s C k a) (ex_intro _ e (conj K Kk))) as (fl & Q). rewrite K, Q.
    rstep; [|apply runs_ret; split; reflexivity]. unfold remove_event. rstep; [apply runs_model_remove; split; [exact K|]; split; [subst k; apply table_of; assumption|reflexivity]|].
    rstep; [apply runs_proxy_extract; cbn; split; [exact Q|reflexivity]|]. rstep; [apply runs_tree_remove; cbn; split; [apply tree_del_ok; assumption|reflexivity]|]. apply runs_ret. split; [reflexivity|]. cbn. reflexivity.
  - destruct A as (e & fl & -> & L & F & G & T). rstep; [|apply runs_ret; split; reflexivity]. unfold add_event. rstep; [apply runs_take; eauto|]. cbn [fst snd].
    rstep; [apply runs_model_add; split; [apply free_new; [exact C|apply F]|]; split; [exact L|reflexivity]|].
    rstep; [apply runs_proxy_add; cbn; split; [apply no_proxy; assumption|reflexivity]|]. rstep; [apply runs_tree_add; cbn; split; [apply tree_add_ok; [exact C|exact T|apply F]|reflexivity]|].
    apply runs_ret. split; [reflexivity|]. destruct G as (<- & _). reflexivity.
Qed.
Lemma redo_switch s E T a b e fl e0 fl0 from ft gates : consistent s -> allowed (ChangeEventType E T (a, Some (b, e, fl)) from ft gates) s -> events s !! a = Some e0 -> proxies s !! (E, a) = Some fl0 ->
  runs (switch E T (a, Some (b, e, fl)) ft gates) s (b, Some (a, e0, fl0)) (edited (ChangeEventType E T (a, Some (b, e, fl)) from ft gates) s).
Proof.
  intros C (b' & e' & fl' & e0' & [= <- <- <-] & ET & K0 & KE & Nm & Lb & Ge & NI & NS & ND & Gs & TE & TT) K Q. cbn [fst] in *. rewrite K0 in K. injection K as ->.
  cbn [edited]. unfold switch. cbn [fst snd].
  assert (Dab : a <> b) by congruence.
  rstep; [apply runs_model_remove; split; [exact K0|]; split; [subst E; apply table_of; assumption|reflexivity]|].
  rstep; [apply runs_proxy_extract; cbn; split; [exact Q|reflexivity]|].
  rstep; [apply runs_take; split; reflexivity|]. cbn [fst snd].
  rstep; [apply runs_model_add; cbn; split; [|split; [rewrite lookup_delete_ne by congruence; exact Lb|reflexivity]]|].
  { apply new_name_all. cbn. intros k. rewrite <- Nm, <- KE. apply (new_after_delete s a e0 C K0). }
  rstep; [apply runs_proxy_add; cbn; split; [|reflexivity]|].
  { rewrite lookup_delete_ne by congruence. apply (no_proxy s b T C Lb). }
  rstep; [apply runs_tree_remove; cbn; split; [apply tree_del_ok; assumption|reflexivity]|].
  rstep; [apply runs_tree_add; cbn; split; [|reflexivity]|].
  { destruct (decide (E = KGate)) as [Eg|Eg].
    - unfold add_ok. destruct ft as [f|]; [|exact I]. destruct T; [congruence|exact I..].
    - replace (retree E ft (delete (e_name e0)) (trees s)) with (trees s) by (unfold retree; destruct ft; [destruct E; congruence|reflexivity]).
      unfold add_ok. destruct ft as [f|]; [|exact I]. destruct T; [|exact I..]. destruct (TT eq_refl) as (f' & t & [= <-] & Lt). exists t. split; [exact Lt|].
      destruct (t_gates t !! e_name e) as [g|] eqn:G2; [|reflexivity]. destruct (c_gates s C _ _ _ _ Lt G2) as (e2 & K2 & N2 & Kk2).
      assert (g = a) as -> by (apply (c_unique s C g a e2 e0 K2 K0); congruence). congruence. }
  set (s6 := with_trees _ _).
  assert (Es6 : events s6 = <[b := e]> (delete a (events s))) by reflexivity.
  destruct (runs_swap_events a b gates s6 e) as (m & R & Lm).
  - exact ND.
  - intros Hb. apply Gs in Hb. destruct Hb as [_ (eb & fb & Kb & _)]. congruence.
  - rewrite Es6. apply lookup_insert.
  - intros g Hg. apply Gs in Hg. destruct Hg as [_ (x & f & Kg & Dg & Ig)]. exists x, f.
    assert (g <> a) by (intros ->; apply NS; exists x, f; auto). assert (g <> b) by congruence.
    destruct (c_args s C _ _ Kg) as [N1 N2]. unfold args_of in N1, N2. rewrite Dg in N1, N2.
    split; [rewrite Es6, lookup_insert_ne, lookup_delete_ne by congruence; exact Kg|]. split; [exact Dg|]. split; [exact N1|]. split; [exact Ig|]. split; [|intros V; eapply (c_nesting s C); eauto].
    intros y Hy. destruct (decide (y = a)) as [->|Dy]; [now left|right]. destruct (N2 y Hy) as (ey & Ky). exists ey. assert (y <> b) by congruence. split; [rewrite Es6, lookup_insert_ne, lookup_delete_ne by congruence; exact Ky|].
    intros EN. apply Dy. apply (c_unique s C y a ey e0 Ky K0). congruence.
  - rstep; [exact R|]. apply runs_ret. split; [reflexivity|]. destruct Ge as (KT & Gf & _). apply model_eq; unfold s6; cbn; try reflexivity.
    + apply map_eq. intros j. rewrite Lm, Es6. destruct (decide (j = b)) as [->|Djb].
      * rewrite !lookup_insert. destruct (in_dec Nat.eq_dec b gates) as [Hb|Hb]; [|reflexivity]. apply Gs in Hb. destruct Hb as [_ (eb & fb & Kb & _)]. congruence.
      * rewrite !lookup_insert_ne by congruence. destruct (decide (j = a)) as [->|Dja].
        -- rewrite !lookup_delete. destruct (in_dec Nat.eq_dec a gates); reflexivity.
        -- rewrite !lookup_delete_ne, lookup_fmap by congruence. destruct (in_dec Nat.eq_dec j gates) as [Hj|Hj]; [reflexivity|]. destruct (events s !! j) as [x|] eqn:Kj; [|reflexivity]. cbn. f_equal. apply replace_arg_none.
           intros Ia. apply Hj, Gs. unfold args_of in Ia. destruct (e_data x) as [f|y|y] eqn:Dx; [|destruct Ia..]. split; [apply (c_proxy s C); exists x; split; [exact Kj|unfold kind_of; rewrite Dx; reflexivity]|exists x, f; auto].
    + rewrite KT, Nm. reflexivity.
    + rewrite Nm. reflexivity.
Qed.
Theorem redo_edited s c : consistent s -> plain_flavors s -> allowed c s -> runs (redo c) s (next c s) (edited c s).
Proof.
  intros C P A. pose proof (redo_involution s c C P A) as R. destruct c as [ | | | | | | |i f t|i k a o ft|E T to from ft gates]; try exact R.
  - apply redo_trees; assumption.
  - apply redo_event; assumption.
  - pose proof A as A0. destruct A as (b & e & fl & e0 & Hto & ET & K0 & KE & _). destruct to as [a p]. cbn [fst snd] in *. subst p.
    destruct (proj2 (c_proxy s C E a) (ex_intro _ e0 (conj K0 KE))) as (fl0 & Q). cbn [redo next]. rewrite K0, Q. rstep; [apply redo_switch; eassumption|]. apply runs_ret. auto.
Qed.
