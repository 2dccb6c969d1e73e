(** Proofs about the tables of the GUI (Tables.v). *)
From stdpp Require Import gmap strings list.
From Coq Require Import List String Lia.
From Verif Require Import Undo UndoSpec UndoProofs Tables.
Import ListNotations.

(** ** The commands with signals are those of Undo.v. *)
Definition sends {A} (m : SM A) (s : model) (x : A) (s' : model) (l : list (signal * model)) : Prop := m s = Some (x, s', l).
Definition mirrors {A} (ms : SM A) (m : M A) : Prop := forall s x s', (exists l, sends ms s x s' l) <-> runs m s x s'.
Lemma sends_bind {A B} (m : SM A) (f : A -> SM B) s y s2 l : sends (sbind m f) s y s2 l <-> exists x s1 l1 l2, sends m s x s1 l1 /\ sends (f x) s1 y s2 l2 /\ l = l1 ++ l2.
Proof.
  unfold sends, sbind. split.
  - destruct (m s) as [[[x s1] l1]|]; [|discriminate]. destruct (f x s1) as [[[y' s2'] l2]|] eqn:E; [|discriminate]. intros [= <- <- <-]. exists x, s1, l1, l2. auto.
  - intros (x & s1 & l1 & l2 & -> & -> & ->). reflexivity.
Qed.
Lemma sends_quiet {A} (m : M A) s x s' l : sends (quiet m) s x s' l <-> runs m s x s' /\ l = [].
Proof. unfold sends, quiet, runs. destruct (m s) as [[[y t] l']|]; (split; [intros [= <- <- <-]; eauto|intros [(l2 & [= <- <- <-]) ->]; reflexivity]) || (split; [discriminate|intros [(l2 & K) _]; discriminate]). Qed.
Lemma sends_ret {A} (x : A) s y s' l : sends (sret x) s y s' l <-> y = x /\ s' = s /\ l = [].
Proof. unfold sends, sret. split; [intros [= <- <- <-]; auto|intros (-> & -> & ->); reflexivity]. Qed.
Lemma sends_emit x s y s' l : sends (emit x) s y s' l <-> s' = s /\ l = [(x, s)].
Proof. unfold sends, emit. split; [intros [= <- <- <-]; auto|intros (-> & ->); destruct y; reflexivity]. Qed.
Lemma sends_emit_all x s y s' l : sends (emit_all x) s y s' l <-> s' = s /\ l = map (fun n => (n, s)) x.
Proof. unfold sends, emit_all. split; [intros [= <- <- <-]; auto|intros (-> & ->); destruct y; reflexivity]. Qed.
Lemma mirrors_quiet {A} (m : M A) : mirrors (quiet m) m.
Proof. intros s x s'. setoid_rewrite sends_quiet. split; [intros (l & K & _); auto|eauto]. Qed.
Lemma mirrors_ret {A} (x : A) : mirrors (sret x) (ret x).
Proof. intros s y s'. setoid_rewrite sends_ret. rewrite runs_ret. split; [intros (l & K & K2 & _); auto|intros [K K2]; eauto]. Qed.
Lemma mirrors_bind {A B} (ms : SM A) m (fs : A -> SM B) f : mirrors ms m -> (forall x, mirrors (fs x) (f x)) -> mirrors (sbind ms fs) (bind m f).
Proof.
  intros K F s y s'. setoid_rewrite sends_bind. rewrite runs_bind. split.
  - intros (l & x & s1 & l1 & l2 & K1 & K2 & _). exists x, s1. split; [apply K; eauto|apply F; eauto].
  - intros (x & s1 & K1 & K2). apply K in K1 as [l1 K1]. apply F in K2 as [l2 K2]. exists (l1 ++ l2), x, s1, l1, l2. auto.
Qed.
Lemma mirrors_emit {A} x (ms : SM A) m : mirrors ms m -> mirrors (emit x ~;; ms) m.
Proof.
  intros K s y s'. setoid_rewrite sends_bind. split.
  - intros (l & u & s1 & l1 & l2 & K1 & K2 & _). apply sends_emit in K1 as [-> _]. apply K. eauto.
  - intros K1. apply K in K1 as [l K1]. exists ([(x, s)] ++ l), tt, s, [(x, s)], l. split; [apply sends_emit; auto|auto].
Qed.
Lemma mirrors_emit_all {A} x (ms : SM A) m : mirrors ms m -> mirrors (emit_all x ~;; ms) m.
Proof.
  intros K s y s'. setoid_rewrite sends_bind. split.
  - intros (l & u & s1 & l1 & l2 & K1 & K2 & _). apply sends_emit_all in K1 as [-> _]. apply K. eauto.
  - intros K1. apply K in K1 as [l K1]. exists (map (fun n => (n, s)) x ++ l), tt, s, (map (fun n => (n, s)) x), l. split; [apply sends_emit_all; auto|auto].
Qed.
Ltac mirror := repeat first [apply mirrors_quiet|apply mirrors_ret|apply mirrors_emit|apply mirrors_emit_all|apply mirrors_bind; [|intros ?]|progress case_decide|match goal with |- context [match e_data ?e with _ => _ end] => destruct (e_data e) end].
Lemma mirrors_involution c : mirrors (involution_s c) (involution c).
Proof. destruct c; cbn [involution_s involution]; mirror. Qed.
Lemma mirrors_add k a o ft : mirrors (add_event_s k a o ft) (add_event k a o ft). Proof. unfold add_event_s, add_event. mirror. Qed.
Lemma mirrors_remove k a ft : mirrors (remove_event_s k a ft) (remove_event k a ft). Proof. unfold remove_event_s, remove_event. mirror. Qed.
Lemma mirrors_switch C N sw ft gs : mirrors (switch_s C N sw ft gs) (switch C N sw ft gs). Proof. unfold switch_s, switch. cbv zeta. mirror. Qed.
Lemma mirrors_redo c : mirrors (redo_s c) (redo c).
Proof.
  destruct c as [| | | | | | |i f t|i k a o ft|E T to from ft gs]; try exact (mirrors_involution _); cbn [redo_s redo]; [mirror| |]; (apply mirrors_bind; [|intros ?; apply mirrors_ret]).
  - destruct i; [apply mirrors_remove|apply mirrors_add].
  - apply mirrors_switch.
Qed.
Lemma mirrors_undo c : mirrors (undo_s c) (undo c).
Proof.
  destruct c as [| | | | | | |i f t|i k a o ft|E T to from ft gs]; try exact (mirrors_involution _); cbn [undo_s undo]; [mirror| |]; (apply mirrors_bind; [|intros ?; apply mirrors_ret]).
  - destruct i; [apply mirrors_add|apply mirrors_remove].
  - apply mirrors_switch.
Qed.
Lemma mirrors_redo_all l : mirrors (redo_all_s l) (redo_all l).
Proof. induction l as [|c l IH]; cbn; [apply mirrors_ret|]. apply mirrors_bind; [apply mirrors_redo|intros ?]. apply mirrors_bind; [exact IH|intros ?; apply mirrors_ret]. Qed.
Lemma mirrors_undo_all l : mirrors (undo_all_s l) (undo_all l).
Proof. induction l as [|c l IH]; cbn; [apply mirrors_ret|]. apply mirrors_bind; [exact IH|intros ?]. apply mirrors_bind; [apply mirrors_undo|intros ?; apply mirrors_ret]. Qed.
Lemma mirrors_act x q : mirrors (act_s x q) (act x q).
Proof.
  destruct x; cbn [act_s]; try apply mirrors_quiet; cbn [act].
  - apply mirrors_bind; [apply mirrors_redo|intros c']. destruct (open q); apply mirrors_ret.
  - destruct (open q), (done q); try apply mirrors_ret. apply mirrors_bind; [apply mirrors_undo_all|intros ?; apply mirrors_ret].
  - destruct (open q), (undone q); try apply mirrors_ret. apply mirrors_bind; [apply mirrors_redo_all|intros ?; apply mirrors_ret].
Qed.
Lemma mirrors_session l : forall q, mirrors (session_s l q) (session l q).
Proof. induction l as [|x l IH]; intros q; cbn; [apply mirrors_ret|]. apply mirrors_bind; [apply mirrors_act|exact IH]. Qed.

(** ** What a table and its view show *)
Definition listed (s : model) (k : kind) (a : addr) : Prop := is_Some (proxies s !! (k, a)).
(** Each event of the kind has one row; the map from elements to rows is the inverse; the view has the cells of the events. *)
Record shows (k : kind) (s : model) (t : table) (v : list row) : Prop := {
  sh_kind : t_kind t = k;
  sh_rows a : In a (rows t) <-> listed s k a;
  sh_position i a : rows t !! i = Some a <-> position t !! a = Some i;
  sh_wired a : a ∈ wired t <-> In a (rows t);
  sh_view : Forall2 (fun a r => cells k s a = Some (fst r)) (rows t) v }.
Lemma shows_once k s t v : shows k s t v -> List.NoDup (rows t).
Proof. intros K. apply NoDup_ListNoDup, NoDup_alt. intros i j a Hi Hj. apply (sh_position _ _ _ _ K) in Hi. apply (sh_position _ _ _ _ K) in Hj. congruence. Qed.
Lemma in_lookup {A} (l : list A) a : In a l <-> exists i, l !! i = Some a.
Proof. rewrite <- elem_of_list_In. apply elem_of_list_lookup. Qed.
Lemma cells_length k s a c : cells k s a = Some c -> List.length c = columns k.
Proof. unfold cells. destruct (events s !! a) as [e|]; [|discriminate]. destruct k, (e_data e); try discriminate; try (intros [= <-]; reflexivity). destruct (proxies s !! (KBasic, a)); [|discriminate]. intros [= <-]. reflexivity. Qed.
Lemma patch_all k old new : List.length old = columns k -> List.length new = columns k -> patch 0 (columns k - 1) old new = new.
Proof. intros L1 L2. unfold patch. rewrite skipn_O, firstn_O. cbn [app]. rewrite firstn_all2 by (destruct k; cbn in *; lia). rewrite skipn_all2 by (destruct k; cbn in *; lia). apply app_nil_r. Qed.
(** Every proxy has its event. *)
Definition sound (s : model) : Prop := forall k a, listed s k a -> exists e, events s !! a = Some e /\ kind_of e = k.
Lemma sound_cells s k a : sound s -> listed s k a -> is_Some (cells k s a).
Proof.
  intros H L. destruct (H k a L) as (e & E & K). unfold cells. rewrite E. unfold kind_of in K. destruct (e_data e); subst k; eauto. destruct L as [fl ->]. eauto.
Qed.
Lemma shows_eq k s s' t v : shows k s t v -> (forall a, listed s' k a <-> listed s k a) -> (forall a, listed s k a -> cells k s' a = cells k s a) -> shows k s' t v.
Proof.
  intros K D C. destruct K as [K1 K2 K3 K4 K5]. split; auto; [intros a; rewrite K2, D; tauto|].
  eapply Forall2_impl; [|intros a r Q; exact Q]. apply Forall2_same_length_lookup_2; [eapply Forall2_length; exact K5|]. intros i a r Ha Hr. rewrite C; [eapply Forall2_lookup_lr in K5; eauto|]. apply K2, in_lookup. eauto.
Qed.
Lemma read_rows_seq k s t n : t_kind t = k -> (forall a, In a (rows t) -> is_Some (cells k s a)) -> forall m, m + n <= List.length (rows t) ->
  exists v, read_rows s t (seq m n) = Some v /\ Forall2 (fun a r => cells k s a = Some (fst r)) (firstn n (skipn m (rows t))) v.
Proof.
  intros T C. induction n as [|n IH]; intros m L; [exists []; split; [reflexivity|constructor]|]. cbn [seq read_rows]. destruct (IH (1 + m)) as (v & E & F); [lia|].
  destruct (lookup_lt_is_Some_2 (rows t) m) as [a Ha]; [lia|]. destruct (C a) as [c Hc]; [apply in_lookup; eauto|]. unfold read_row at 1. rewrite Ha. cbn [mbind option_bind]. rewrite T, Hc. cbn [mbind option_bind].
  cbn in E. rewrite E. cbn [mbind option_bind]. eexists. split; [reflexivity|]. erewrite drop_S by exact Ha. cbn [firstn]. constructor; [exact Hc|exact F].
Qed.
Lemma read_all_shows k s t : t_kind t = k -> (forall a, In a (rows t) -> is_Some (cells k s a)) -> exists v, read_all s t = Some v /\ Forall2 (fun a r => cells k s a = Some (fst r)) (rows t) v.
Proof. intros T C. destruct (read_rows_seq k s t (List.length (rows t)) T C 0) as (v & E & F); [lia|]. exists v. split; [exact E|]. cbn [skipn] in F. rewrite firstn_all in F. exact F. Qed.

(** ** One signal *)
Lemma follow_app l1 l2 t v t1 v1 : follow l1 t v = Some (t1, v1) -> follow (l1 ++ l2) t v = follow l2 t1 v1.
Proof.
  revert t v. induction l1 as [|[x s] l1 IH]; intros t v E; cbn in *; [injection E as <- <-; reflexivity|].
  destruct (react x t) as [r|]; [|discriminate]. cbn in *. destruct (watch_all s (snd r) v) as [v'|]; [|discriminate]. cbn in *. apply IH. exact E.
Qed.
Definition keeps_up (s : model) (l : list (signal * model)) (s' : model) : Prop :=
  forall k t v, shows k s t v -> exists t' v', follow l t v = Some (t', v') /\ shows k s' t' v'.
Lemma keeps_up_app s l1 s1 l2 s2 : keeps_up s l1 s1 -> keeps_up s1 l2 s2 -> keeps_up s (l1 ++ l2) s2.
Proof. intros K1 K2 k t v H. destruct (K1 k t v H) as (t1 & v1 & E1 & H1). destruct (K2 k t1 v1 H1) as (t2 & v2 & E2 & H2). exists t2, v2. split; [rewrite (follow_app _ _ _ _ _ _ E1); exact E2|exact H2]. Qed.
Lemma follow_one x s t v t1 ns v1 : react x t = Some (t1, ns) -> watch_all s ns v = Some v1 -> follow [(x, s)] t v = Some (t1, v1).
Proof. intros R W. cbn. rewrite R. cbn. rewrite W. reflexivity. Qed.

Lemma lookup_snoc_iff {A} (l : list A) b j x : (l ++ [b]) !! j = Some x <-> l !! j = Some x \/ (j = List.length l /\ x = b).
Proof.
  split.
  - intros E. apply lookup_app_Some in E as [E|[L E]]; [auto|right]. destruct (j - List.length l) as [|m] eqn:EM; [|destruct m; discriminate E]. cbn in E. split; [lia|congruence].
  - intros [E|[-> ->]]; [apply lookup_app_l_Some; exact E|]. rewrite lookup_app_r by lia. rewrite Nat.sub_diag. reflexivity.
Qed.
Lemma view_same k s s' (l : list addr) (v : list row) : Forall2 (fun a r => cells k s a = Some (fst r)) l v -> (forall a, In a l -> cells k s' a = cells k s a) -> Forall2 (fun a r => cells k s' a = Some (fst r)) l v.
Proof.
  intros F C. induction F as [|a r l v H F IH]; constructor; [rewrite C; [exact H|left; reflexivity]|]. apply IH. intros x I. apply C. right. exact I.
Qed.
Lemma added_table k s s' t v a : shows k s t v -> ~ listed s k a -> (forall x, listed s' k x <-> x = a \/ listed s k x) ->
  (forall x, listed s k x -> cells k s' x = cells k s x) -> is_Some (cells k s' a) ->
  exists t' v', follow [(Added k a, s')] t v = Some (t', v') /\ shows k s' t' v'.
Proof.
  intros [K1 K2 K3 K4 K5] N D C [c Hc]. set (n := List.length (rows t)). assert (NI : ~ In a (rows t)) by (rewrite K2; exact N).
  assert (PN : position t !! a = None). { destruct (position t !! a) as [i|] eqn:E; [|reflexivity]. exfalso. apply NI, in_lookup. exists i. apply K3, E. }
  assert (LV : List.length v = n) by (symmetry; eapply Forall2_length; exact K5).
  eexists _, _. split.
  - eapply follow_one; [unfold react; rewrite K1, decide_True by reflexivity; reflexivity|]. unfold add_element. cbn [snd watch_all]. unfold watch.
    replace (seq (List.length (rows t)) (1 + List.length (rows t) - List.length (rows t))) with [n] by (fold n; replace (1 + n - n) with 1 by lia; reflexivity).
    cbn [read_rows]. unfold read_row. cbn [rows t_kind]. rewrite (proj2 (lookup_snoc_iff (rows t) a n a)) by (right; auto). cbn [mbind option_bind]. rewrite K1, Hc. cbn [mbind option_bind].
    fold n. rewrite (firstn_all2 v) by lia. rewrite (skipn_all2 v) by lia. reflexivity.
  - cbn [app]. split; cbn [t_kind rows position wired]; [exact K1| | | |].
    + intros x. rewrite in_app_iff. cbn. rewrite K2, D. intuition congruence.
    + intros i x. unfold emplace. rewrite PN. fold n. rewrite lookup_snoc_iff. fold n. destruct (decide (x = a)) as [->|NE].
      * rewrite lookup_insert. split; [intros [E|[-> _]]; [exfalso; apply NI, in_lookup; eauto|reflexivity]|intros [= <-]; auto].
      * rewrite lookup_insert_ne by auto. rewrite <- K3. split; [intros [E|[_ E]]; [exact E|contradiction]|auto].
    + intros x. rewrite elem_of_union, elem_of_singleton, K4, in_app_iff. cbn. intuition congruence.
    + apply Forall2_app; [|constructor; [exact Hc|constructor]]. eapply view_same; [exact K5|]. intros x I. apply C, K2, I.
Qed.
Lemma removed_table k s s' t v a : shows k s t v -> listed s k a -> (forall x, listed s' k x <-> x <> a /\ listed s k x) ->
  (forall x, listed s k x -> x <> a -> cells k s' x = cells k s x) ->
  exists t' v', follow [(Removed k a, s')] t v = Some (t', v') /\ shows k s' t' v'.
Proof.
  intros K L D C. pose proof (shows_once _ _ _ _ K) as ND. destruct K as [K1 K2 K3 K4 K5].
  assert (Ia : In a (rows t)) by (apply K2; exact L). apply in_lookup in Ia as [i Hi]. pose proof Hi as Pi. apply K3 in Pi.
  assert (SP : exists rr b, rows t = rr ++ [b]). { destruct (exists_last (l := rows t)) as (rr & b & E); [intros E; rewrite E in Hi; discriminate Hi|eauto]. }
  destruct SP as (rr & b & ER). rewrite ER in Hi, ND, K5. set (n := List.length rr).
  assert (K2' : forall x, listed s k x <-> In x rr \/ x = b) by (intros x; rewrite <- K2, ER, in_app_iff; cbn; intuition congruence).
  assert (K3' : forall j x, position t !! x = Some j <-> rr !! j = Some x \/ (j = n /\ x = b)) by (intros j x; rewrite <- K3, ER, lookup_snoc_iff; reflexivity).
  assert (F2 : exists v0 w, v = v0 ++ [w] /\ Forall2 (fun a r => cells k s a = Some (fst r)) rr v0 /\ cells k s b = Some (fst w)).
  { apply Forall2_app_inv_l in K5 as (v0 & v1 & F0 & F1 & ->). inversion_clear F1 as [|? w ? ? Fw F1']. inversion F1'. subst. eauto. }
  destruct F2 as (v0 & w & -> & F0 & Fw). assert (LV : List.length v0 = n) by (symmetry; eapply Forall2_length; exact F0).
  assert (RL : removelast (rr ++ [b]) = rr) by apply removelast_last.
  assert (LA : list.last (rr ++ [b]) = Some b) by apply last_snoc.
  assert (Nb : ~ In b rr). { intros I. apply in_lookup in I as [j Hj]. assert (Q : position t !! b = Some j) by (apply K3'; auto). assert (Q2 : position t !! b = Some n) by (apply K3'; auto). apply lookup_lt_Some in Hj. fold n in Hj. assert (j = n) by congruence. lia. }
  assert (Len : List.length (rr ++ [b]) - 1 = n) by (rewrite app_length; cbn; fold n; lia).
  assert (V0 : firstn n (v0 ++ [w]) ++ skipn (1 + n) (v0 ++ [w]) = v0).
  { rewrite (skipn_all2 (v0 ++ [w])) by (rewrite app_length; cbn; lia). rewrite app_nil_r, <- LV, firstn_app, Nat.sub_diag, firstn_all. apply app_nil_r. }
  destruct (decide (i = n)) as [->|NE].
  - assert (a = b). { apply lookup_snoc_iff in Hi as [Hi|[_ Hi]]; [apply lookup_lt_Some in Hi; fold n in Hi; lia|exact Hi]. } subst b.
    eexists _, _. split.
    + eapply follow_one.
      * unfold react. rewrite K1, decide_True by reflexivity. unfold remove_element. rewrite Pi. cbn [mbind option_bind]. rewrite ER, LA. cbn [mbind option_bind]. rewrite Len, decide_True by reflexivity. reflexivity.
      * cbn [watch_all watch]. rewrite V0. reflexivity.
    + rewrite RL. split; cbn [t_kind rows position wired]; [exact K1| | | |].
      * intros x. rewrite D, K2'. split; [intros I; split; [intros ->; tauto|auto]|intros [X [I|I]]; [exact I|contradiction]].
      * intros j x. destruct (decide (x = a)) as [->|NX]; [rewrite lookup_delete; split; [intros E; exfalso; apply Nb, in_lookup; eauto|discriminate]|]. rewrite lookup_delete_ne by auto. rewrite K3'. split; [auto|intros [E|[_ E]]; [exact E|contradiction]].
      * intros x. rewrite elem_of_difference, elem_of_singleton, K4, K2, K2'. split; [intros [[I|I] X]; [exact I|contradiction]|intros I; split; [auto|intros ->; tauto]].
      * eapply view_same; [exact F0|]. intros x I. apply C; [apply K2'; auto|intros ->; tauto].
  - assert (Hr : rr !! i = Some a). { apply lookup_snoc_iff in Hi as [Hi|[Hi _]]; [exact Hi|fold n in Hi; contradiction]. }
    assert (Li : i < n) by (apply lookup_lt_Some in Hr; exact Hr).
    assert (Nab : b <> a). { intros ->. apply Nb, in_lookup. eauto. }
    assert (Uniq : forall j, rr !! j = Some a -> j = i). { intros j Hj. assert (Q : position t !! a = Some j) by (apply K3'; auto). congruence. }
    destruct (lookup_lt_is_Some_2 v0 i) as [o Ho]; [lia|].
    assert (Cb : cells k s' b = Some (fst w)). { rewrite C; [exact Fw|apply K2'; auto|exact Nab]. }
    assert (Co : cells k s a = Some (fst o)) by (eapply Forall2_lookup_lr in F0; eauto).
    assert (Rows : forall j x, <[i:=b]> rr !! j = Some x <-> (j = i /\ x = b) \/ (j <> i /\ rr !! j = Some x)).
    { intros j x. destruct (decide (j = i)) as [->|NJ]; [rewrite list_lookup_insert by exact Li; intuition congruence|rewrite list_lookup_insert_ne by auto; intuition congruence]. }
    assert (InRows : forall x, In x (<[i:=b]> rr) <-> x <> a /\ (In x rr \/ x = b)).
    { intros x. rewrite in_lookup. split.
      - intros [j Hj]. apply Rows in Hj as [[_ ->]|[NJ Hj]]; [auto|]. split; [|left; apply in_lookup; eauto]. intros ->. apply NJ, Uniq, Hj.
      - intros [X [I| ->]]; [|exists i; apply Rows; auto]. apply in_lookup in I as [j Hj]. exists j. apply Rows. right. split; [|exact Hj]. intros ->. congruence. }
    eexists _, _. split.
    + eapply follow_one.
      * unfold react. rewrite K1, decide_True by reflexivity. unfold remove_element. rewrite Pi. cbn [mbind option_bind]. rewrite ER, LA. cbn [mbind option_bind]. rewrite Len, decide_False by exact NE. reflexivity.
      * cbn [watch_all watch]. rewrite V0. cbn [mbind option_bind]. unfold read_row. cbn [rows t_kind]. rewrite RL. rewrite list_lookup_insert by exact Li. cbn [mbind option_bind]. rewrite ?K1, Cb. cbn [mbind option_bind]. rewrite Ho. cbn [mbind option_bind fst snd].
        rewrite patch_all; [reflexivity|eapply cells_length; exact Co|eapply cells_length; exact Fw].
    + rewrite RL. split; cbn [t_kind rows position wired]; [exact K1| | | |].
      * intros x. rewrite InRows, D, K2'. tauto.
      * intros j x. rewrite Rows. destruct (decide (x = b)) as [->|NX].
        -- rewrite lookup_insert. split; [intros [[-> _]|[_ Hj]]; [reflexivity|exfalso; apply Nb, in_lookup; eauto]|intros [= <-]; auto].
        -- rewrite lookup_insert_ne by auto. destruct (decide (x = a)) as [->|NA].
           ++ rewrite lookup_delete. split; [|discriminate]. intros [[_ Q]|[NJ Hj]]; [congruence|exfalso; apply NJ, Uniq, Hj].
           ++ rewrite lookup_delete_ne by auto. rewrite K3'. split; [intros [[_ Q]|[_ Q]]; [contradiction|auto]|intros [Q|[_ Q]]; [|contradiction]]. right. split; [|exact Q]. intros ->. congruence.
      * intros x. rewrite elem_of_difference, elem_of_singleton, K4, K2, K2', InRows. tauto.
      * apply Forall2_same_length_lookup_2; [rewrite !insert_length; fold n; lia|]. intros j x r Hx Hv. apply Rows in Hx as [[-> ->]|[NJ Hx]].
        -- rewrite list_lookup_insert in Hv by lia. injection Hv as <-. cbn [fst]. exact Cb.
        -- rewrite list_lookup_insert_ne in Hv by auto. rewrite C; [eapply Forall2_lookup_lr in F0; eauto|apply K2'; left; apply in_lookup; eauto|]. intros ->. apply NJ, Uniq, Hx.
Qed.
Lemma changed_table k s s' t v a c d more x : shows k s t v -> (forall x, listed s' k x <-> listed s k x) -> (forall x, listed s k x -> x <> a -> cells k s' x = cells k s x) ->
  (forall x, listed s k x -> is_Some (cells k s' x)) ->
  (forall old new, cells k s a = Some old -> cells k s' a = Some new -> patch c d old new = new) -> more = [] \/ more = [Reset] ->
  react x t = cell_change a c d more t ->
  exists t' v', follow [(x, s')] t v = Some (t', v') /\ shows k s' t' v'.
Proof.
  intros K D C SC PC M R. unfold cell_change in R. destruct (decide (a ∈ wired t)) as [W|W].
  - destruct K as [K1 K2 K3 K4 K5]. apply K4 in W. pose proof W as LA. apply K2 in LA. pose proof W as Wi. apply in_lookup in Wi as [i Hi]. pose proof Hi as Pi. apply K3 in Pi. rewrite Pi in R. cbn [mbind option_bind] in R.
    destruct (SC a LA) as [new Hn]. assert (Lv : i < List.length v) by (rewrite <- (Forall2_length _ _ _ K5); apply lookup_lt_Some in Hi; exact Hi).
    destruct (lookup_lt_is_Some_2 v i Lv) as [o Ho]. assert (Co : cells k s a = Some (fst o)) by (eapply Forall2_lookup_lr in K5; eauto).
    set (v1 := <[i := (new, snd o)]> v).
    assert (W1 : watch s' (Changed i c d) t v = Some v1). { unfold watch, read_row. rewrite Hi. cbn [mbind option_bind]. rewrite K1, Hn. cbn [mbind option_bind]. rewrite Ho. cbn [mbind option_bind fst]. rewrite (PC _ _ Co Hn). reflexivity. }
    assert (H1 : shows k s' t v1).
    { split; auto; [intros z; rewrite K2, D; reflexivity|]. apply Forall2_same_length_lookup_2; [unfold v1; rewrite insert_length; eapply Forall2_length; exact K5|]. intros j z r Hz Hr.
      destruct (decide (j = i)) as [->|NJ]; unfold v1 in Hr.
      - rewrite list_lookup_insert in Hr by exact Lv. injection Hr as <-. assert (z = a) by congruence. subst z. exact Hn.
      - rewrite list_lookup_insert_ne in Hr by auto. rewrite C; [eapply Forall2_lookup_lr in K5; eauto|apply K2, in_lookup; eauto|]. intros ->. apply K3 in Hz. congruence. }
    destruct M as [-> | ->].
    + exists t, v1. split; [|exact H1]. eapply follow_one; [exact R|]. cbn [map watch_all]. rewrite W1. reflexivity.
    + destruct (read_all_shows k s' t K1) as (v2 & E2 & F2). { intros z I. apply SC, K2, I. }
      exists t, v2. split; [|destruct H1; split; auto]. eapply follow_one; [exact R|]. cbn [map watch_all]. rewrite W1. cbn [mbind option_bind watch]. rewrite E2. reflexivity.
  - exists t, v. split; [eapply follow_one; [exact R|reflexivity]|]. eapply shows_eq; [exact K|exact D|]. intros z L. apply C; [exact L|]. intros ->. apply W. apply (sh_wired _ _ _ _ K), (sh_rows _ _ _ _ K), L.
Qed.
