(** The tables follow the commands and the command stack (Tables.v, TablesProofs.v). *)
From stdpp Require Import gmap strings list.
From Coq Require Import List String Lia.
From Verif Require Import Undo UndoSpec UndoProofs Tables TablesProofs.
Import ListNotations.

(** ** Changes of the model between signals *)
Definition alike (s s' : model) : Prop :=
  proxies s' = proxies s /\ forall a, match events s !! a, events s' !! a with
    | Some e, Some e' => kind_of e' = kind_of e /\ forall k, cells k s' a = cells k s a
    | None, None => True | _, _ => False end.
Lemma alike_refl s : alike s s.
Proof. split; [reflexivity|]. intros a. destruct (events s !! a); auto. Qed.
Lemma alike_cells s s' : alike s s' -> forall k a, cells k s' a = cells k s a.
Proof. intros [_ K] k a. specialize (K a). destruct (events s !! a) as [e|] eqn:E, (events s' !! a) as [e'|] eqn:E'; try contradiction; [apply K|]. unfold cells. rewrite E, E'. reflexivity. Qed.
Lemma alike_trans s s1 s2 : alike s s1 -> alike s1 s2 -> alike s s2.
Proof.
  intros [P1 K1] [P2 K2]. split; [congruence|]. intros a. specialize (K1 a). specialize (K2 a). destruct (events s !! a), (events s1 !! a), (events s2 !! a); try contradiction; auto.
  destruct K1 as [K1 C1], K2 as [K2 C2]. split; [congruence|]. intros k. rewrite C2. apply C1.
Qed.
Lemma alike_same s s' : events s' = events s -> proxies s' = proxies s -> alike s s'.
Proof. intros E P. split; [exact P|]. intros a. rewrite E. destruct (events s !! a) eqn:Q; [|exact I]. split; [reflexivity|]. intros k. unfold cells. rewrite E, P. reflexivity. Qed.
Lemma alike_sound s s' : sound s -> alike s s' -> sound s'.
Proof. intros H [P K] k a L. unfold listed in L. rewrite P in L. destruct (H k a L) as (e & E & Q). specialize (K a). rewrite E in K. destruct (events s' !! a) as [e'|]; [|contradiction]. exists e'. split; [reflexivity|]. destruct K as [K _]. congruence. Qed.
Lemma alike_keeps_up s s' : alike s s' -> keeps_up s [] s'.
Proof. intros K k t v H. exists t, v. split; [reflexivity|]. eapply shows_eq; [exact H| |]; intros a; [unfold listed; rewrite (proj1 K); reflexivity|intros _; apply alike_cells, K]. Qed.
Lemma tree_add_alike k a n ft s y s' : runs (tree_add k a n ft) s y s' -> alike s s'.
Proof.
  unfold tree_add. destruct ft as [f|]; [|intros K; apply runs_ret in K as [_ ->]; apply alike_refl]. destruct k; try (intros K; apply runs_ret in K as [_ ->]; apply alike_refl).
  unfold tree_of, put_tree. intros K. apply runs_bind in K as (t & s1 & K1 & K). apply runs_read in K1 as [_ ->]. apply runs_bind in K as (u & s2 & K2 & K). apply runs_check in K2 as [_ ->].
  apply runs_bind in K as (u' & s3 & K3 & K). apply runs_modify in K3 as ->. apply runs_note in K as ->. apply alike_same; reflexivity.
Qed.
Lemma tree_remove_alike k a n ft s y s' : runs (tree_remove k a n ft) s y s' -> alike s s'.
Proof.
  unfold tree_remove. destruct ft as [f|]; [|intros K; apply runs_ret in K as [_ ->]; apply alike_refl]. destruct k; try (intros K; apply runs_ret in K as [_ ->]; apply alike_refl).
  unfold tree_of, put_tree. intros K. apply runs_bind in K as (t & s1 & K1 & K). apply runs_read in K1 as [_ ->]. apply runs_bind in K as (u & s2 & K2 & K). apply runs_check in K2 as [_ ->].
  apply runs_bind in K as (u' & s3 & K3 & K). apply runs_note in K3 as ->. apply runs_modify in K as ->. apply alike_same; reflexivity.
Qed.
Lemma swap_first_length a b l c l' : swap_first a b l = Some (c, l') -> List.length l' = List.length l.
Proof.
  revert c l'. induction l as [|[c0 x] l IH]; intros c l' E; cbn in E; [discriminate|]. destruct (decide (x = a)); [injection E as <- <-; reflexivity|].
  destruct (swap_first a b l) as [[c1 l1]|] eqn:Q; [|discriminate]. injection E as <- <-. cbn. erewrite IH; reflexivity.
Qed.
Lemma swap_event_alike a b g s y s' : runs (swap_event a b g) s y s' -> alike s s'.
Proof.
  unfold swap_event, event_of, put_event. intros K. apply runs_bind in K as (x & s1 & K1 & K). apply runs_read in K1 as [Ex ->]. destruct (e_data x) as [f| |] eqn:D; try (destruct (proj1 (runs_fail _ _ _) K)).
  destruct (swap_first a b (f_args f)) as [[c l]|] eqn:W; [|destruct (proj1 (runs_fail _ _ _) K)]. apply runs_bind in K as (base & s2 & K2 & K). apply runs_read in K2 as [_ ->].
  apply runs_bind in K as (u & s3 & K3 & K). apply runs_check in K3 as [_ ->]. apply runs_bind in K as (u1 & s4 & K4 & K). apply runs_check in K4 as [_ ->].
  apply runs_bind in K as (u2 & s5 & K5 & K). apply runs_note in K5 as ->. apply runs_modify in K as ->. split; [reflexivity|]. intros z. cbn [events with_events]. destruct (decide (z = g)) as [->|NE].
  - rewrite Ex, lookup_insert. split; [unfold kind_of; cbn; rewrite D; reflexivity|]. intros k. unfold cells. cbn [events with_events proxies]. rewrite Ex, lookup_insert. cbn [e_data with_data e_name e_label f_conn f_args]. rewrite D, (swap_first_length _ _ _ _ _ W). reflexivity.
  - rewrite lookup_insert_ne by auto. destruct (events s !! z) eqn:Ez; [|exact I]. split; [reflexivity|]. intros k. unfold cells. cbn [events with_events proxies]. rewrite lookup_insert_ne by auto. reflexivity.
Qed.
Lemma swap_events_alike a b gs : forall s y s', runs (swap_events a b gs) s y s' -> alike s s'.
Proof.
  induction gs as [|g gs IH]; intros s y s' K; cbn in K; [apply runs_ret in K as [_ ->]; apply alike_refl|]. apply runs_bind in K as (u & s1 & K1 & K). eapply alike_trans; [eapply swap_event_alike; exact K1|eapply IH; exact K].
Qed.

(** ** The signals *)
Lemma react_other k k' a t : t_kind t = k -> k <> k' -> react (Added k' a) t = Some (t, []) /\ react (Removed k' a) t = Some (t, []).
Proof. intros <- N. cbn. rewrite !decide_False by auto. auto. Qed.
Lemma added_keeps s s1 k a e fl : sound s -> events s !! a = None -> kind_of e = k -> events s1 = <[a := e]> (events s) -> proxies s1 = <[(k, a) := fl]> (proxies s) ->
  keeps_up s [(Added k a, s1)] s1 /\ sound s1.
Proof.
  intros H N Ke Ev Px.
  assert (LN : forall k', ~ listed s k' a). { intros k' L. destruct (H k' a L) as (e' & E & _). congruence. }
  assert (L1 : forall k' x, listed s1 k' x <-> (k' = k /\ x = a) \/ listed s k' x).
  { intros k' x. unfold listed. rewrite Px. destruct (decide ((k, a) = (k', x))) as [[= -> ->]|NE]; [rewrite lookup_insert; split; [auto|intros _; eauto]|rewrite lookup_insert_ne by exact NE]. split; [auto|intros [[-> ->]|L]; [contradiction|exact L]]. }
  assert (C1 : forall k' x, listed s k' x -> cells k' s1 x = cells k' s x).
  { intros k' x L. assert (x <> a) by (intros ->; exact (LN k' L)). unfold cells. rewrite Ev, Px. rewrite lookup_insert_ne by auto. destruct (events s !! x) as [e'|]; [|reflexivity]. destruct k', (e_data e'); try reflexivity. rewrite lookup_insert_ne by congruence. reflexivity. }
  assert (S1 : sound s1).
  { intros k' x L. apply L1 in L as [[-> ->]|L]; [exists e; rewrite Ev, lookup_insert; auto|]. destruct (H k' x L) as (e' & E & Q). exists e'. rewrite Ev, lookup_insert_ne; [auto|]. intros ->. congruence. }
  split; [|exact S1]. intros k' t v Sh. destruct (decide (k' = k)) as [->|NK].
  - apply (added_table k s s1 t v a Sh (LN k)); [intros x; rewrite L1; intuition|apply C1|]. apply sound_cells; [exact S1|]. apply L1. auto.
  - exists t, v. destruct (react_other k' k a t (sh_kind _ _ _ _ Sh) NK) as [R _]. split; [eapply follow_one; [exact R|reflexivity]|]. eapply shows_eq; [exact Sh| |apply C1]. intros x. rewrite L1. intuition congruence.
Qed.
Lemma removed_keeps s s1 k a e fl : sound s -> events s !! a = Some e -> proxies s !! (k, a) = Some fl -> events s1 = delete a (events s) -> proxies s1 = delete (k, a) (proxies s) ->
  keeps_up s [(Removed k a, s1)] s1 /\ sound s1 /\ kind_of e = k.
Proof.
  intros H Ea Pa Ev Px. assert (La : listed s k a) by (unfold listed; eauto). assert (Ke : kind_of e = k) by (destruct (H k a La) as (e' & E & Q); congruence).
  assert (L1 : forall k' x, listed s1 k' x <-> x <> a /\ listed s k' x).
  { intros k' x. unfold listed. rewrite Px. destruct (decide ((k, a) = (k', x))) as [[= -> ->]|NE]; [rewrite lookup_delete; split; [intros [? Q]; discriminate Q|intros [Q _]; congruence]|rewrite lookup_delete_ne by exact NE].
    split; [|tauto]. intros L. split; [|exact L]. intros ->. destruct (H k' a L) as (e' & E & Q). apply NE. congruence. }
  assert (C1 : forall k' x, x <> a -> cells k' s1 x = cells k' s x).
  { intros k' x NE. unfold cells. rewrite Ev, Px. rewrite lookup_delete_ne by auto. destruct (events s !! x) as [e'|]; [|reflexivity]. destruct k', (e_data e'); try reflexivity. rewrite lookup_delete_ne by congruence. reflexivity. }
  split; [|split; [|exact Ke]].
  - intros k' t v Sh. destruct (decide (k' = k)) as [->|NK].
    + apply (removed_table k s s1 t v a Sh La); [intros x; apply L1|]. intros x _. apply C1.
    + exists t, v. destruct (react_other k' k a t (sh_kind _ _ _ _ Sh) NK) as [_ R]. split; [eapply follow_one; [exact R|reflexivity]|].
      assert (NL : forall x, listed s k' x -> x <> a). { intros x L ->. destruct (H k' a L) as (e' & E & Q). congruence. }
      eapply shows_eq; [exact Sh| |]; intros x; [rewrite L1; split; [tauto|intros L; split; [apply NL, L|exact L]]|]. intros L. apply C1, NL, L.
  - intros k' x L. apply L1 in L as [NE L]. destruct (H k' x L) as (e' & E & Q). exists e'. rewrite Ev, lookup_delete_ne by auto. auto.
Qed.
(** A change of the event [a], which only some tables are told. *)
Definition told (k : kind) (x : signal) (a : addr) (s s1 : model) : Prop :=
  (exists c d more, (more = [] \/ more = [Reset]) /\ (forall t, t_kind t = k -> react x t = cell_change a c d more t) /\
    forall old new, cells k s a = Some old -> cells k s1 a = Some new -> patch c d old new = new) \/
  ((forall t, t_kind t = k -> react x t = Some (t, [])) /\ (listed s k a -> cells k s1 a = cells k s a)).
Lemma told_keeps s s1 x a e e' : sound s -> events s !! a = Some e -> kind_of e' = kind_of e -> events s1 = <[a := e']> (events s) ->
  (forall k z, listed s1 k z <-> listed s k z) -> (forall z, z <> a -> proxies s1 !! (KBasic, z) = proxies s !! (KBasic, z)) -> (forall k, told k x a s s1) ->
  keeps_up s [(x, s1)] s1 /\ sound s1.
Proof.
  intros H Ea Ke Ev L1 Px T.
  assert (C1 : forall k z, z <> a -> cells k s1 z = cells k s z).
  { intros k z NE. unfold cells. rewrite Ev, lookup_insert_ne by auto. destruct (events s !! z) as [e1|]; [|reflexivity]. destruct k, (e_data e1); try reflexivity. rewrite Px by auto. reflexivity. }
  assert (S1 : sound s1).
  { intros k z L. apply L1 in L. destruct (H k z L) as (e1 & E & Q). rewrite Ev. destruct (decide (z = a)) as [->|NE]; [rewrite lookup_insert; exists e'; split; [reflexivity|congruence]|rewrite lookup_insert_ne by auto; eauto]. }
  split; [|exact S1]. intros k t v Sh. destruct (T k) as [(c & d & more & M & R & P)|[R P]].
  - eapply (changed_table k s s1 t v a c d more x Sh); [apply L1|intros z _; apply C1| |exact P|exact M|apply R, (sh_kind _ _ _ _ Sh)]. intros z L. apply sound_cells; [exact S1|apply L1, L].
  - exists t, v. split; [eapply follow_one; [apply R, (sh_kind _ _ _ _ Sh)|reflexivity]|]. eapply shows_eq; [exact Sh|apply L1|]. intros z L. destruct (decide (z = a)) as [->|NE]; [apply P, L|apply C1, NE].
Qed.
Lemma formula_keeps s g : sound s -> keeps_up s [(FormulaChanged g, s)] s.
Proof.
  intros H k t v Sh. destruct k.
  - eapply (changed_table KGate s s t v g 1 2 [Reset] (FormulaChanged g) Sh); [reflexivity|reflexivity|intros z L; apply sound_cells; auto| |auto|].
    + intros old new E E'. assert (old = new) by congruence. subst. apply cells_length in E. destruct new as [|? [|? [|? [|? [|]]]]]; try discriminate E. reflexivity.
    + unfold react. rewrite (sh_kind _ _ _ _ Sh). reflexivity.
  - exists t, v. split; [eapply follow_one; [unfold react; rewrite (sh_kind _ _ _ _ Sh); reflexivity|reflexivity]|exact Sh].
  - exists t, v. split; [eapply follow_one; [unfold react; rewrite (sh_kind _ _ _ _ Sh); reflexivity|reflexivity]|exact Sh].
Qed.
Lemma formulas_keep s gs : sound s -> keeps_up s (map (fun n => (n, s)) (map FormulaChanged gs)) s.
Proof. intros H. induction gs as [|g gs IH]; cbn; [apply alike_keeps_up, alike_refl|]. apply (keeps_up_app s [(FormulaChanged g, s)] s); [apply formula_keeps, H|exact IH]. Qed.
Lemma events_listed s s1 : proxies s1 = proxies s -> forall k z, listed s1 k z <-> listed s k z.
Proof. intros P k z. unfold listed. rewrite P. reflexivity. Qed.

(** ** The commands *)
Definition handles {A} (m : SM A) (Q : A -> Prop) : Prop := forall s x s' l, sound s -> sends m s x s' l -> keeps_up s l s' /\ sound s' /\ Q x.
Lemma handles_ret {A} (x : A) (Q : A -> Prop) : Q x -> handles (sret x) Q.
Proof. intros q s y s' l H K. apply sends_ret in K as (-> & -> & ->). split; [apply alike_keeps_up, alike_refl|auto]. Qed.
Lemma handles_bind {A B} (m : SM A) (f : A -> SM B) P Q : handles m P -> (forall x, P x -> handles (f x) Q) -> handles (sbind m f) Q.
Proof.
  intros Hm Hf s y s' l H K. apply sends_bind in K as (x & s1 & l1 & l2 & K1 & K2 & ->). destruct (Hm _ _ _ _ H K1) as (U1 & S1 & p). destruct (Hf x p _ _ _ _ S1 K2) as (U2 & S2 & q).
  split; [eapply keeps_up_app; eauto|auto].
Qed.
Lemma handles_quiet {A} (m : M A) (Q : A -> Prop) : (forall s x s', runs m s x s' -> alike s s' /\ Q x) -> handles (quiet m) Q.
Proof. intros K s x s' l H R. apply sends_quiet in R as [R ->]. destruct (K _ _ _ R) as [A1 q]. split; [apply alike_keeps_up, A1|]. split; [eapply alike_sound; eauto|exact q]. Qed.
Definition owned_kind (k : kind) (x : addr * option owned) : Prop := match snd x with Some (b, e, fl) => kind_of e = k /\ b <> fst x | None => True end.
Definition event_kind (k : kind) (o : option (event * flavor)) : Prop := match o with Some (e, fl) => kind_of e = k | None => True end.
(** C++ types: an event inside a command is of the command's type, and two events are at two addresses. *)
Definition typed (c : command) : Prop :=
  match c with
  | AddEvent _ k _ o _ => event_kind k o
  | ChangeEventType E T to from _ _ => owned_kind T to /\ owned_kind E from
  | _ => True
  end.
Tactic Notation "sb" ident(k) ident(x) ident(s1) ident(l1) ident(l2) := let k2 := fresh "kk" in (apply sends_bind in k as (x & s1 & l1 & l2 & H0 & k2 & ->); rename k2 into k).
Lemma cell_told s s1 x a c d : forall k, (forall t, t_kind t = k -> react x t = cell_change a c d [] t) ->
  (forall old new, cells k s a = Some old -> cells k s1 a = Some new -> patch c d old new = new) -> told k x a s s1.
Proof. intros k R P. left. exists c, d, []. auto. Qed.
Lemma involution_handles c : handles (involution_s c) typed.
Proof.
  intros s y s' l H K. destruct c as [a lb|k a n ft|a x|a fl|a b|a f|n|i f t|i k a o ft|E T to from ft gs]; cbn [involution_s] in K.
  - (* label *) sb K e s1 l1 l2. apply sends_quiet in H0 as [Ev ->]. apply runs_read in Ev as [Ev ->]. destruct (decide (lb = e_label e)); [apply sends_ret in K as (-> & -> & ->); split; [apply alike_keeps_up, alike_refl|split; [exact H|exact I]]|].
    sb K u s2 l3 l4. apply sends_quiet in H0 as [R ->]. apply runs_modify in R as ->. sb K u' s3 l5 l6. apply sends_emit in H0 as [-> ->]. apply sends_ret in K as (-> & -> & ->). cbn [app].
    destruct (told_keeps s (with_events (<[a:=with_label lb e]> (events s)) s) (LabelChanged a) a e (with_label lb e) H Ev eq_refl eq_refl) as [U1 U2]; [apply events_listed; reflexivity|reflexivity| |split; [exact U1|split; [exact U2|exact I]]].
    intros k. apply (cell_told _ _ _ _ (columns k - 1) (columns k - 1)); [intros t <-; reflexivity|]. unfold cells. cbn [events with_events proxies]. rewrite Ev, lookup_insert. cbn [e_data e_name e_label with_label].
    intros old new E1 E2. destruct k, (e_data e); try discriminate; try (injection E1 as <-; injection E2 as <-; reflexivity). destruct (proxies s !! (KBasic, a)); [|discriminate]. injection E1 as <-; injection E2 as <-; reflexivity.
  - (* id *) sb K e s1 l1 l2. apply sends_quiet in H0 as [Ev ->]. apply runs_read in Ev as [Ev ->]. destruct (decide (n = e_name e)); [apply sends_ret in K as (-> & -> & ->); split; [apply alike_keeps_up, alike_refl|split; [exact H|exact I]]|].
    sb K u s2 l3 l4. apply sends_quiet in H0 as [R ->]. apply runs_tree_remove in R as [_ ->]. sb K p s3 l5 l6. apply sends_quiet in H0 as [R ->]. apply runs_model_remove in R as (Ev2 & _ & ->). cbn [events with_trees] in Ev2. assert (p = e) by congruence. subst p.
    sb K u1 s4 l7 l8. apply sends_quiet in H0 as [R ->]. apply runs_check in R as [_ ->]. sb K u2 s5 l9 l10. apply sends_quiet in H0 as [R ->]. apply runs_tree_add in R as [_ ->]. sb K u3 s6 l11 l12. apply sends_quiet in H0 as [R ->]. apply runs_model_add in R as (_ & _ & ->).
    sb K u4 s7 l13 l14. apply sends_emit in H0 as [-> ->]. apply sends_ret in K as (-> & -> & ->). cbn [app].
    match goal with |- keeps_up s [(_, ?s1)] _ /\ _ => set (t1 := s1) end. assert (E1 : events t1 = <[a:=with_name n e]> (events s)) by (unfold t1; cbn; apply insert_delete_insert). assert (P1 : proxies t1 = proxies s) by reflexivity. clearbody t1.
    destruct (told_keeps s t1 (IdChanged a) a e (with_name n e) H Ev eq_refl E1) as [U1 U2]; [apply events_listed, P1|rewrite P1; reflexivity| |split; [exact U1|split; [exact U2|exact I]]].
    intros k'. apply (cell_told _ _ _ _ 0 0); [intros t <-; reflexivity|]. unfold cells. rewrite E1, P1, Ev, lookup_insert. cbn [e_data e_name e_label with_name].
    intros old new Q1 Q2. destruct k', (e_data e); try discriminate; try (injection Q1 as <-; injection Q2 as <-; reflexivity). destruct (proxies s !! (KBasic, a)); [|discriminate]. injection Q1 as <-; injection Q2 as <-; reflexivity.
  - (* expression *) sb K e s1 l1 l2. apply sends_quiet in H0 as [Ev ->]. apply runs_read in Ev as [Ev ->]. destruct (e_data e) as [|z|] eqn:D; try (apply sends_quiet in K as [K _]; destruct (proj1 (runs_fail _ _ _) K)).
    destruct (decide (x = z)); [apply sends_ret in K as (-> & -> & ->); split; [apply alike_keeps_up, alike_refl|split; [exact H|exact I]]|].
    sb K u s2 l3 l4. apply sends_quiet in H0 as [R ->]. apply runs_modify in R as ->. sb K u' s3 l5 l6. apply sends_emit in H0 as [-> ->]. apply sends_ret in K as (-> & -> & ->). cbn [app].
    destruct (told_keeps s (with_events (<[a:=with_data (DBasic x) e]> (events s)) s) (ExpressionChanged a) a e (with_data (DBasic x) e) H Ev ltac:(unfold kind_of; rewrite D; reflexivity) eq_refl) as [U1 U2]; [apply events_listed; reflexivity|reflexivity| |split; [exact U1|split; [exact U2|exact I]]].
    intros k. destruct k.
    + right. split; [intros t T; unfold react; rewrite T; reflexivity|]. intros L. destruct (H _ _ L) as (e1 & E1 & Q). assert (e1 = e) by congruence. subst. unfold kind_of in Q. rewrite D in Q. discriminate Q.
    + apply (cell_told _ _ _ _ 2 2); [intros t T; unfold react; rewrite T; reflexivity|]. unfold cells. cbn [events with_events proxies]. rewrite Ev, lookup_insert. cbn [e_data e_name e_label with_data]. rewrite D. intros old new E1 E2. destruct (proxies s !! (KBasic, a)); [|discriminate]. injection E1 as <-; injection E2 as <-; reflexivity.
    + right. split; [intros t T; unfold react; rewrite T; reflexivity|]. intros L. destruct (H _ _ L) as (e1 & E1 & Q). assert (e1 = e) by congruence. subst. unfold kind_of in Q. rewrite D in Q. discriminate Q.
  - (* flavor *) sb K cur s1 l1 l2. apply sends_quiet in H0 as [Pv ->]. apply runs_read in Pv as [Pv ->]. destruct (decide (fl = cur)); [apply sends_ret in K as (-> & -> & ->); split; [apply alike_keeps_up, alike_refl|split; [exact H|exact I]]|].
    sb K e s2 l3 l4. apply sends_quiet in H0 as [Ev ->]. apply runs_read in Ev as [Ev ->]. sb K u s3 l5 l6. apply sends_quiet in H0 as [R ->]. apply runs_modify in R as ->. sb K u1 s4 l7 l8. apply sends_quiet in H0 as [R ->]. apply runs_modify in R as ->.
    sb K u2 s5 l9 l10. apply sends_emit in H0 as [-> ->]. apply sends_ret in K as (-> & -> & ->). cbn [app].
    match goal with |- keeps_up s [(_, ?s1)] _ /\ _ => set (t1 := s1) end. set (e' := with_attrs _ e) in *. assert (E1 : events t1 = <[a:=e']> (events s)) by reflexivity. assert (P1 : proxies t1 = <[(KBasic, a):=fl]> (proxies s)) by reflexivity. clearbody t1.
    assert (Da : e_data e' = e_data e /\ e_name e' = e_name e /\ e_label e' = e_label e) by (unfold e'; auto). destruct Da as (Da & Dn & Dl).
    destruct (told_keeps s t1 (FlavorChanged a) a e e' H Ev ltac:(unfold kind_of; rewrite Da; reflexivity) E1) as [U1 U2]; [| | |split; [exact U1|split; [exact U2|exact I]]].
    + intros k z. unfold listed. rewrite P1. destruct (decide ((KBasic, a) = (k, z))) as [[= <- <-]|NE]; [rewrite lookup_insert, Pv; split; eauto|rewrite lookup_insert_ne by exact NE; reflexivity].
    + intros z NE. rewrite P1, lookup_insert_ne by congruence. reflexivity.
    + intros k. destruct k.
      * right. split; [intros t T; unfold react; rewrite T; reflexivity|]. intros _. unfold cells. rewrite E1, Ev, lookup_insert, Da, Dn, Dl. reflexivity.
      * apply (cell_told _ _ _ _ 1 1); [intros t T; unfold react; rewrite T; reflexivity|]. unfold cells. rewrite E1, P1, Ev, !lookup_insert, Da, Dn, Dl, Pv. destruct (e_data e); try discriminate. intros old new Q1 Q2. injection Q1 as <-; injection Q2 as <-; reflexivity.
      * right. split; [intros t T; unfold react; rewrite T; reflexivity|]. intros _. unfold cells. rewrite E1, Ev, lookup_insert, Da, Dn, Dl. reflexivity.
  - (* state *) sb K e s1 l1 l2. apply sends_quiet in H0 as [Ev ->]. apply runs_read in Ev as [Ev ->]. destruct (e_data e) as [| |z] eqn:D; try (apply sends_quiet in K as [K _]; destruct (proj1 (runs_fail _ _ _) K)).
    destruct (decide (b = z)); [apply sends_ret in K as (-> & -> & ->); split; [apply alike_keeps_up, alike_refl|split; [exact H|exact I]]|].
    sb K u s2 l3 l4. apply sends_quiet in H0 as [R ->]. apply runs_modify in R as ->. sb K u' s3 l5 l6. apply sends_emit in H0 as [-> ->]. apply sends_ret in K as (-> & -> & ->). cbn [app].
    destruct (told_keeps s (with_events (<[a:=with_data (DHouse b) e]> (events s)) s) (StateChanged a) a e (with_data (DHouse b) e) H Ev ltac:(unfold kind_of; rewrite D; reflexivity) eq_refl) as [U1 U2]; [apply events_listed; reflexivity|reflexivity| |split; [exact U1|split; [exact U2|exact I]]].
    intros k. destruct k.
    + right. split; [intros t T; unfold react; rewrite T; reflexivity|]. intros L. destruct (H _ _ L) as (e1 & E1 & Q). assert (e1 = e) by congruence. subst. unfold kind_of in Q. rewrite D in Q. discriminate Q.
    + right. split; [intros t T; unfold react; rewrite T; reflexivity|]. intros L. destruct (H _ _ L) as (e1 & E1 & Q). assert (e1 = e) by congruence. subst. unfold kind_of in Q. rewrite D in Q. discriminate Q.
    + apply (cell_told _ _ _ _ 1 1); [intros t T; unfold react; rewrite T; reflexivity|]. unfold cells. cbn [events with_events proxies]. rewrite Ev, lookup_insert. cbn [e_data e_name e_label with_data]. rewrite D. intros old new E1 E2. injection E1 as <-; injection E2 as <-; reflexivity.
  - (* formula *) sb K e s1 l1 l2. apply sends_quiet in H0 as [Ev ->]. apply runs_read in Ev as [Ev ->]. destruct (e_data e) as [z| |] eqn:D; try (apply sends_quiet in K as [K _]; destruct (proj1 (runs_fail _ _ _) K)).
    sb K u s2 l3 l4. apply sends_quiet in H0 as [R ->]. apply runs_modify in R as ->. sb K u' s3 l5 l6. apply sends_emit in H0 as [-> ->]. apply sends_ret in K as (-> & -> & ->). cbn [app].
    destruct (told_keeps s (with_events (<[a:=with_data (DGate f) e]> (events s)) s) (FormulaChanged a) a e (with_data (DGate f) e) H Ev ltac:(unfold kind_of; rewrite D; reflexivity) eq_refl) as [U1 U2]; [apply events_listed; reflexivity|reflexivity| |split; [exact U1|split; [exact U2|exact I]]].
    intros k. destruct k.
    + left. exists 1, 2, [Reset]. split; [auto|]. split; [intros t T; unfold react; rewrite T; reflexivity|]. unfold cells. cbn [events with_events proxies]. rewrite Ev, lookup_insert. cbn [e_data e_name e_label with_data]. rewrite D. intros old new E1 E2. injection E1 as <-; injection E2 as <-; reflexivity.
    + right. split; [intros t T; unfold react; rewrite T; reflexivity|]. intros L. destruct (H _ _ L) as (e1 & E1 & Q). assert (e1 = e) by congruence. subst. unfold kind_of in Q. rewrite D in Q. discriminate Q.
    + right. split; [intros t T; unfold react; rewrite T; reflexivity|]. intros L. destruct (H _ _ L) as (e1 & E1 & Q). assert (e1 = e) by congruence. subst. unfold kind_of in Q. rewrite D in Q. discriminate Q.
  - (* name *) apply sends_quiet in K as [K ->]. cbn [involution] in K. apply runs_bind in K as (cur & s1 & K1 & K). apply runs_read in K1 as [_ ->].
    match type of K with runs (if ?b then _ else _) _ _ _ => destruct b end; [apply runs_ret in K as [-> ->]; split; [apply alike_keeps_up, alike_refl|split; [exact H|exact I]]|]. cbv zeta in K.
    apply runs_bind in K as (u & s2 & K2 & K). apply runs_check in K2 as [_ ->]. apply runs_bind in K as (u1 & s3 & K3 & K). apply runs_modify in K3 as ->. apply runs_ret in K as [-> ->].
    match goal with |- keeps_up s [] ?s1 /\ _ => assert (A1 : alike s s1) by (apply alike_same; reflexivity) end. split; [apply alike_keeps_up, A1|]. split; [eapply alike_sound; eauto|exact I].
  - apply sends_quiet in K as [K _]. destruct (proj1 (runs_fail _ _ _) K).
  - apply sends_quiet in K as [K _]. destruct (proj1 (runs_fail _ _ _) K).
  - apply sends_quiet in K as [K _]. destruct (proj1 (runs_fail _ _ _) K).
Qed.
Lemma add_handles k a o ft : event_kind k o -> handles (add_event_s k a o ft) (event_kind k).
Proof.
  intros T s y s' l H K. unfold add_event_s in K. sb K p s1 l1 l2. apply sends_quiet in H0 as [R ->]. apply runs_take in R as [-> ->]. destruct p as [e fl]. cbn [fst snd event_kind] in *.
  sb K u s2 l3 l4. apply sends_quiet in H0 as [R ->]. apply runs_model_add in R as (_ & N & ->). sb K u1 s3 l5 l6. apply sends_quiet in H0 as [R ->]. apply runs_proxy_add in R as [_ ->].
  sb K u2 s4 l7 l8. apply sends_emit in H0 as [-> ->]. sb K u3 s5 l9 l10. apply sends_quiet in H0 as [R ->]. apply sends_ret in K as (-> & -> & ->).
  match type of R with runs _ ?s1 _ _ => set (t1 := s1) in * end. destruct (added_keeps s t1 k a e fl H N T) as [U1 U2]; [reflexivity|reflexivity|]. apply tree_add_alike in R.
  split; [|split; [eapply alike_sound; eauto|exact I]]. cbn [app]. apply (keeps_up_app s [(Added k a, t1)] t1 []); [exact U1|apply alike_keeps_up, R].
Qed.
Lemma remove_handles k a ft : handles (remove_event_s k a ft) (event_kind k).
Proof.
  intros s y s' l H K. unfold remove_event_s in K. sb K e s1 l1 l2. apply sends_quiet in H0 as [R ->]. apply runs_model_remove in R as (Ev & _ & ->). sb K fl s2 l3 l4. apply sends_quiet in H0 as [R ->]. apply runs_proxy_extract in R as [Px ->].
  sb K u s3 l5 l6. apply sends_emit in H0 as [-> ->]. sb K u1 s4 l7 l8. apply sends_quiet in H0 as [R ->]. apply sends_ret in K as (-> & -> & ->).
  match type of R with runs _ ?s1 _ _ => set (t1 := s1) in * end. destruct (removed_keeps s t1 k a e fl H Ev Px) as (U1 & U2 & Ke); [reflexivity|reflexivity|]. apply tree_remove_alike in R.
  split; [|split; [eapply alike_sound; eauto|exact Ke]]. cbn [app]. apply (keeps_up_app s [(Removed k a, t1)] t1 []); [exact U1|apply alike_keeps_up, R].
Qed.
Lemma switch_handles C N sw ft gs : owned_kind N sw -> handles (switch_s C N sw ft gs) (owned_kind C).
Proof.
  intros T s y s' l H K. unfold switch_s in K. cbv zeta in K. set (a := fst sw) in *. sb K e s1 l1 l2. apply sends_quiet in H0 as [R ->]. apply runs_model_remove in R as (Ev & _ & ->). sb K fl s2 l3 l4. apply sends_quiet in H0 as [R ->]. apply runs_proxy_extract in R as [Px ->].
  sb K u s3 l5 l6. apply sends_emit in H0 as [-> ->].
  match goal with |- context [(Removed C a, ?s1)] => set (t1 := s1) in * end. destruct (removed_keeps s t1 C a e fl H Ev Px) as (U1 & U2 & Ke); [reflexivity|reflexivity|]. clearbody t1.
  sb K p s4 l7 l8. apply sends_quiet in H0 as [R ->]. apply runs_take in R as [Q ->]. unfold owned_kind in T. rewrite Q in T. destruct p as [[b e2] fl2]. cbn [fst snd] in *. destruct T as [T Ap].
  sb K u1 s5 l9 l10. apply sends_quiet in H0 as [R ->]. apply runs_model_add in R as (_ & Nb & ->). sb K u2 s6 l11 l12. apply sends_quiet in H0 as [R ->]. apply runs_proxy_add in R as [_ ->].
  sb K u3 s7 l13 l14. apply sends_emit in H0 as [-> ->].
  match goal with |- context [(Added N b, ?s1)] => set (t2 := s1) in * end. destruct (added_keeps t1 t2 N b e2 fl2 U2 Nb T) as (V1 & V2); [reflexivity|reflexivity|]. clearbody t2.
  sb K u4 s8 l15 l16. apply sends_quiet in H0 as [R1 ->]. apply tree_remove_alike in R1. sb K u5 s9 l17 l18. apply sends_quiet in H0 as [R2 ->]. apply tree_add_alike in R2. sb K u6 s10 l19 l20. apply sends_quiet in H0 as [R3 ->]. apply swap_events_alike in R3.
  assert (A3 : alike t2 s10) by (eapply alike_trans; [exact R1|eapply alike_trans; [exact R2|exact R3]]). assert (S3 : sound s10) by (eapply alike_sound; eauto).
  sb K u7 s11 l21 l22. apply sends_emit_all in H0 as [-> ->]. apply sends_ret in K as (-> & -> & ->). cbn [app]. rewrite app_nil_r.
  split; [|split; [exact S3|split; [exact Ke|cbn [fst snd]; intros K; apply Ap; symmetry; exact K]]].
  apply (keeps_up_app s [(Removed C a, t1)] t1); [exact U1|]. apply (keeps_up_app t1 [(Added N b, t2)] t2); [exact V1|]. apply (keeps_up_app t2 [] s10); [apply alike_keeps_up, A3|apply formulas_keep, S3].
Qed.
Lemma add_tree_alike f t s y s' : runs (add_tree f t) s y s' -> alike s s'.
Proof.
  unfold add_tree. intros K. apply runs_bind in K as (t' & s1 & K1 & K). apply runs_take in K1 as [_ ->]. apply runs_bind in K as (u & s2 & K1 & K). apply runs_check in K1 as [_ ->].
  apply runs_bind in K as (u1 & s3 & K1 & K). apply runs_check in K1 as [_ ->]. apply runs_bind in K as (u2 & s4 & K1 & K). apply runs_modify in K1 as ->. apply runs_bind in K as (u3 & s5 & K1 & K). apply runs_note in K1 as ->. apply runs_ret in K as [_ ->]. apply alike_same; reflexivity.
Qed.
Lemma remove_tree_alike f s y s' : runs (remove_tree f) s y s' -> alike s s'.
Proof.
  unfold remove_tree, tree_of. intros K. apply runs_bind in K as (t' & s1 & K1 & K). apply runs_read in K1 as [_ ->]. apply runs_bind in K as (u & s2 & K1 & K). apply runs_check in K1 as [_ ->].
  apply runs_bind in K as (u1 & s3 & K1 & K). apply runs_note in K1 as ->. apply runs_bind in K as (u2 & s4 & K1 & K). apply runs_modify in K1 as ->. apply runs_ret in K as [_ ->]. apply alike_same; reflexivity.
Qed.
Definition of_tree (x : signal) : Prop := match x with TreeAdded _ | TreeRemoved _ _ => True | _ => False end.
Lemma tree_signal_of_tree r f t : Forall of_tree (tree_signal r f t).
Proof. unfold tree_signal. destruct r; [destruct t|]; repeat constructor. Qed.
Lemma tree_signals_keep s l : Forall of_tree l -> keeps_up s (map (fun n => (n, s)) l) s.
Proof.
  intros F k t v H. exists t, v. split; [|exact H]. clear H. induction F as [|x l T _ IH]; [reflexivity|]. destruct x; try destruct T; exact IH.
Qed.
Lemma tree_command_handles (r b : bool) i f t m : (if b then m = add_tree f t else m = remove_tree f) ->
  handles (t' <~ quiet m;;; emit_all (tree_signal r f t') ~;; sret (AddFaultTree i f t')) typed.
Proof.
  intros E. eapply (handles_bind _ _ (fun _ => True)); [apply handles_quiet; intros s c s' K; split; [destruct b; subst m; [eapply add_tree_alike|eapply remove_tree_alike]; exact K|exact I]|].
  intros t' _. eapply (handles_bind _ _ (fun _ => True)); [|intros ? _; apply handles_ret; exact I].
  intros s x s' l So K. apply sends_emit_all in K as [-> ->]. split; [apply tree_signals_keep, tree_signal_of_tree|auto].
Qed.
Lemma redo_handles c : typed c -> handles (redo_s c) typed.
Proof.
  intros T. destruct c as [| | | | | | |i f t|i k a o ft|E N to from ft gs]; try exact (involution_handles _).
  - cbn [redo_s]. destruct i; [apply (tree_command_handles _ false _ f t)|apply (tree_command_handles _ true _ f t)]; reflexivity.
  - cbn [redo_s]. eapply handles_bind; [|intros o' To; apply handles_ret; exact To]. destruct i; [apply remove_handles|apply add_handles; exact T].
  - cbn [redo_s]. destruct T as [T1 T2]. eapply handles_bind; [apply switch_handles; exact T1|]. intros r Tr. apply handles_ret. split; [exact I|exact Tr].
Qed.
Lemma undo_handles c : typed c -> handles (undo_s c) typed.
Proof.
  intros T. destruct c as [| | | | | | |i f t|i k a o ft|E N to from ft gs]; try exact (involution_handles _).
  - cbn [undo_s]. destruct i; [apply (tree_command_handles _ true _ f t)|apply (tree_command_handles _ false _ f t)]; reflexivity.
  - cbn [undo_s]. eapply handles_bind; [|intros o' To; apply handles_ret; exact To]. destruct i; [apply add_handles; exact T|apply remove_handles].
  - cbn [undo_s]. destruct T as [T1 T2]. eapply handles_bind; [apply switch_handles; exact T2|]. intros r Tr. apply handles_ret. split; [exact Tr|exact I].
Qed.
Lemma redo_all_handles l : Forall typed l -> handles (redo_all_s l) (Forall typed).
Proof. induction 1 as [|c l T F IH]; cbn; [apply handles_ret; constructor|]. eapply handles_bind; [apply redo_handles, T|]. intros c' T'. eapply handles_bind; [exact IH|]. intros l' F'. apply handles_ret. constructor; assumption. Qed.
Lemma undo_all_handles l : Forall typed l -> handles (undo_all_s l) (Forall typed).
Proof. induction 1 as [|c l T F IH]; cbn; [apply handles_ret; constructor|]. eapply handles_bind; [exact IH|]. intros l' F'. eapply handles_bind; [apply undo_handles, T|]. intros c' T'. apply handles_ret. constructor; assumption. Qed.

(** ** The command stack *)
Record typed_stack (q : stack) : Prop := {
  ts_done : Forall (Forall typed) (done q); ts_undone : Forall (Forall typed) (undone q); ts_open : match open q with Some l => Forall typed l | None => True end }.
Definition typed_action (x : action) : Prop := match x with Push c => typed c | _ => True end.
Lemma typed_cut q : typed_stack q -> typed_stack (cut q).
Proof. intros [K1 K2 K3]. unfold cut. destruct (_ || _); [split; assumption|]. split; cbn; [apply Forall_take, K1|exact K2|exact K3]. Qed.
Lemma act_handles x q : typed_stack q -> typed_action x -> handles (act_s x q) typed_stack.
Proof.
  intros [K1 K2 K3] T. destruct x as [c| | | | |]; cbn [act_s].
  - eapply handles_bind; [apply redo_handles, T|]. intros c' T'. destruct (open q) as [l|]; cbv zeta; apply handles_ret; [split; cbn; auto|apply typed_cut; split; cbn; auto].
  - apply handles_quiet. intros s r s' R. cbn [act] in R. destruct (open q); [destruct (proj1 (runs_fail _ _ _) R)|]. cbv zeta in R. apply runs_ret in R as [-> ->]. split; [apply alike_refl|split; cbn; auto].
  - apply handles_quiet. intros s r s' R. cbn [act] in R. destruct (open q) as [l|] eqn:Op; apply runs_ret in R as [-> ->]; (split; [apply alike_refl|]); [|split; rewrite ?Op; auto].
    apply typed_cut. split; cbn; auto. constructor; [|exact K1]. apply Forall_rev, K3.
  - destruct (open q) as [l|] eqn:Op; [apply handles_ret; split; rewrite ?Op; auto|]. destruct (done q) as [|l d] eqn:Dn; [apply handles_ret; split; rewrite ?Op, ?Dn; auto|]. inversion_clear K1.
    eapply handles_bind; [apply undo_all_handles; eassumption|]. intros l' F'. apply handles_ret. split; cbn; auto.
  - destruct (open q) as [l|] eqn:Op; [apply handles_ret; split; rewrite ?Op; auto|]. destruct (undone q) as [|l d] eqn:Dn; [apply handles_ret; split; rewrite ?Op, ?Dn; auto|]. inversion_clear K2.
    eapply handles_bind; [apply redo_all_handles; eassumption|]. intros l' F'. apply handles_ret. split; cbn; auto.
  - apply handles_quiet. intros s r s' R. cbn [act] in R. destruct (open q) as [l|] eqn:Op; apply runs_ret in R as [-> ->]; (split; [apply alike_refl|]); split; cbn; rewrite ?Op; auto.
Qed.
Lemma session_handles l : forall q, typed_stack q -> Forall typed_action l -> handles (session_s l q) typed_stack.
Proof.
  induction l as [|x l IH]; intros q Tq F; cbn; [apply handles_ret, Tq|]. inversion_clear F. eapply handles_bind; [apply act_handles; assumption|]. intros q' Tq'. apply IH; assumption.
Qed.
