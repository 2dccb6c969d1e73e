(** Proofs about the tree of the GUI (ModelTree.v). *)
From stdpp Require Import gmap strings list.
From Coq Require Import List String Ascii Sorted Lia.
From Verif Require Import Undo UndoSpec UndoProofs Tables TablesProofs ModelTree.
Import ListNotations.

(** ** The order of the names *)
Lemma ascii_compare_trans (a b c : ascii) : Ascii.compare a b = Lt -> Ascii.compare b c = Lt -> Ascii.compare a c = Lt.
Proof. unfold Ascii.compare. rewrite !N.compare_lt_iff. lia. Qed.
Lemma ascii_compare_refl (a : ascii) : Ascii.compare a a = Eq.
Proof. unfold Ascii.compare. apply N.compare_refl. Qed.
Lemma ltb_trans a : forall b c, String.ltb a b = true -> String.ltb b c = true -> String.ltb a c = true.
Proof.
  unfold String.ltb. induction a as [|x a IH]; intros [|y b] [|z c]; cbn; try discriminate; auto.
  destruct (Ascii.compare x y) eqn:E1; try discriminate.
  - apply Ascii.compare_eq_iff in E1 as ->. destruct (Ascii.compare y z); auto. intros K1 K2. exact (IH b c K1 K2).
  - intros _. destruct (Ascii.compare y z) eqn:E2; try discriminate.
    + apply Ascii.compare_eq_iff in E2 as ->. rewrite E1. auto.
    + intros _. rewrite (ascii_compare_trans _ _ _ E1 E2). reflexivity.
Qed.
Lemma ltb_irrefl a : String.ltb a a = false.
Proof. unfold String.ltb. induction a as [|x a IH]; cbn; [reflexivity|]. rewrite ascii_compare_refl. exact IH. Qed.
Lemma ltb_total a b : String.ltb a b = false -> String.ltb b a = false -> a = b.
Proof.
  unfold String.ltb. intros K1 K2. destruct (String.compare a b) eqn:E; [apply String.compare_eq_iff, E|discriminate|]. rewrite String.compare_antisym, E in K2. discriminate.
Qed.
Definition before (a b : string) : Prop := String.ltb a b = true.
Notation sorted := (StronglySorted before).

(** ** The flat set over its names *)
Fixpoint place (n : string) (l : list string) : nat := match l with [] => 0 | m :: l => if String.ltb m n then S (place n l) else 0 end.
Lemma place_le n l : place n l <= List.length l.
Proof. induction l as [|m l IH]; cbn; [lia|]. destruct (String.ltb m n); lia. Qed.
Lemma place_lower name l r : Forall2 (fun f n => name f = Some n) l r -> forall n, lower_bound name n l = Some (place n r).
Proof. induction 1 as [|f m l r E F IH]; intros n; cbn; [reflexivity|]. rewrite E. cbn. destruct (String.ltb m n); [rewrite IH; reflexivity|reflexivity]. Qed.
Lemma place_front n l : Forall (fun m => before m n) (firstn (place n l) l).
Proof. induction l as [|m l IH]; cbn; [constructor|]. destruct (String.ltb m n) eqn:E; cbn; [constructor; auto|constructor]. Qed.
Lemma place_next n l m : l !! place n l = Some m -> String.ltb m n = false.
Proof. induction l as [|x l IH]; cbn; [discriminate|]. destruct (String.ltb x n) eqn:E; cbn; [exact IH|intros [= <-]; exact E]. Qed.
Lemma place_found n l : sorted l -> In n l -> l !! place n l = Some n.
Proof.
  induction 1 as [|x l S IH F]; [intros []|]. intros [->|I]; cbn; [rewrite ltb_irrefl; reflexivity|]. rewrite List.Forall_forall in F. rewrite (F n I). exact (IH I).
Qed.
Lemma sorted_app l r : sorted l -> sorted r -> (forall a b, In a l -> In b r -> before a b) -> sorted (l ++ r).
Proof.
  intros S1 S2 K. induction S1 as [|x l S IH F]; [exact S2|]. cbn. constructor; [apply IH; intros a b I; apply K; right; exact I|].
  apply List.Forall_forall. intros y I. apply in_app_or in I as [I|I]; [rewrite List.Forall_forall in F; exact (F y I)|apply K; [left; reflexivity|exact I]].
Qed.
Lemma sorted_split l r : sorted (l ++ r) -> sorted l /\ sorted r /\ (forall a b, In a l -> In b r -> before a b).
Proof.
  induction l as [|x l IH]; cbn; intros S; [split; [constructor|split; [exact S|intros a b []]]|]. inversion S as [|? ? S1 F]; subst. destruct (IH S1) as (K1 & K2 & K3). rewrite List.Forall_forall in F.
  split; [constructor; [exact K1|]|split; [exact K2|]].
  - apply List.Forall_forall. intros y I. apply F, in_or_app. auto.
  - intros a b [<-|I] J; [apply F, in_or_app; auto|exact (K3 a b I J)].
Qed.
Lemma sorted_insert n l : sorted l -> ~ In n l -> sorted (firstn (place n l) l ++ n :: skipn (place n l) l).
Proof.
  intros S N. pose proof (firstn_skipn (place n l) l) as Q. rewrite <- Q in S. destruct (sorted_split _ _ S) as (S1 & S2 & B). pose proof (place_front n l) as F. rewrite List.Forall_forall in F.
  assert (A : forall b, In b (skipn (place n l) l) -> before n b).
  { intros b I. destruct (skipn (place n l) l) as [|m r] eqn:Sk; [destruct I|].
    assert (L : l !! place n l = Some m) by (pose proof (lookup_drop l (place n l) 0) as Lk; rewrite Sk, Nat.add_0_r in Lk; symmetry; exact Lk).
    assert (Bm : before n m).
    { unfold before. destruct (String.ltb n m) eqn:E; [reflexivity|]. destruct N. rewrite (ltb_total n m E (place_next n l m L)). assert (Im : In m (firstn (place n l) l ++ m :: r)) by (apply in_or_app; right; left; reflexivity). rewrite Q in Im. exact Im. }
    destruct I as [<-|I]; [exact Bm|]. inversion S2 as [|? ? _ F2]; subst. rewrite List.Forall_forall in F2. exact (ltb_trans _ _ _ Bm (F2 b I)). }
  apply sorted_app; [exact S1|constructor; [exact S2|apply List.Forall_forall, A]|]. intros a b I [<-|J]; [exact (F a I)|exact (B a b I J)].
Qed.
Lemma sorted_remove i l : sorted l -> sorted (firstn i l ++ skipn (S i) l).
Proof.
  intros S0. rewrite <- (firstn_skipn i l) in S0. destruct (sorted_split _ _ S0) as (S1 & S2 & B). destruct (skipn i l) as [|m r] eqn:E.
  - assert (Q : skipn (S i) l = []) by (change (S i) with (1 + i); rewrite Nat.add_comm, <- drop_drop, E; reflexivity). rewrite Q, app_nil_r. exact S1.
  - assert (Q : skipn (S i) l = r) by (change (S i) with (1 + i); rewrite Nat.add_comm, <- drop_drop, E; reflexivity). rewrite Q. inversion S2; subst. apply sorted_app; [exact S1|assumption|]. intros a b I J. apply B; [exact I|right; exact J].
Qed.
Lemma sorted_nodup l : sorted l -> List.NoDup l.
Proof.
  induction 1 as [|x l S IH F]; constructor; [|exact IH]. intros I. rewrite List.Forall_forall in F. specialize (F x I). unfold before in F. rewrite ltb_irrefl in F. discriminate.
Qed.

(** ** What the tree shows *)
Definition tree_sound (s : model) : Prop := forall n f, tree_table s !! n = Some f <-> tree_name s f = Some n.
Record tree_shows (s : model) (l : list addr) (v : tree_view) : Prop := {
  tr_sorted : sorted (names v);
  tr_names : Forall2 (fun f n => tree_name s f = Some n) l (names v);
  tr_all f : In f l <-> is_Some (trees s !! f);
  tr_numbers : numbers v = [size (tree_table s); count s KGate; count s KBasic; count s KHouse] }.
Lemma tree_follow_app l1 : forall l2 t v t1 v1, tree_follow l1 t v = Some (t1, v1) -> tree_follow (l1 ++ l2) t v = tree_follow l2 t1 v1.
Proof.
  induction l1 as [|[x s] l1 IH]; intros l2 t v t1 v1 E; cbn [tree_follow app] in *; [injection E as -> ->; reflexivity|].
  destruct (tree_react x s t) as [r|]; [|discriminate]. cbn [mbind option_bind] in *. destruct (tree_watch_all s (snd r) v) as [w|]; [|discriminate]. cbn [mbind option_bind] in *. apply IH, E.
Qed.
Definition tree_keeps (s : model) (l : list (signal * model)) (s' : model) : Prop :=
  forall t v, tree_shows s t v -> exists t' v', tree_follow l t v = Some (t', v') /\ tree_shows s' t' v'.
Lemma tree_keeps_nil s : tree_keeps s [] s.
Proof. intros t v H. exists t, v. auto. Qed.
Lemma tree_keeps_app s l1 s1 l2 s2 : tree_keeps s l1 s1 -> tree_keeps s1 l2 s2 -> tree_keeps s (l1 ++ l2) s2.
Proof. intros K1 K2 t v H. destruct (K1 t v H) as (t1 & v1 & E1 & H1). destruct (K2 t1 v1 H1) as (t2 & v2 & E2 & H2). exists t2, v2. split; [rewrite (tree_follow_app _ _ _ _ _ _ E1); exact E2|exact H2]. Qed.
(** ** Changes of the model that the tree does not see *)
Record tree_like (s s' : model) : Prop := {
  tl_names f : tree_name s' f = tree_name s f; tl_table : tree_table s' = tree_table s; tl_count k : count s' k = count s k }.
Lemma tree_like_refl s : tree_like s s. Proof. split; reflexivity. Qed.
Lemma tree_like_trans s s1 s2 : tree_like s s1 -> tree_like s1 s2 -> tree_like s s2.
Proof. intros [A1 A2 A3] [B1 B2 B3]. split; [intros f; rewrite B1; apply A1|congruence|intros k; rewrite B3; apply A3]. Qed.
Lemma tree_name_some s f : is_Some (tree_name s f) <-> is_Some (trees s !! f).
Proof. unfold tree_name. destruct (trees s !! f); cbn; split; intros [? ?]; eauto; discriminate. Qed.
Lemma tree_like_shows s s' t v : tree_like s s' -> tree_shows s t v -> tree_shows s' t v.
Proof.
  intros [A1 A2 A3] [B1 B2 B3 B4]. split; [exact B1| | |rewrite A2, !A3; exact B4].
  - eapply Forall2_impl; [exact B2|]. intros f n K. rewrite A1. exact K.
  - intros f. rewrite B3, <- !tree_name_some, A1. reflexivity.
Qed.
Lemma tree_like_sound s s' : tree_like s s' -> tree_sound s -> tree_sound s'.
Proof. intros [A1 A2 A3] So n f. rewrite A2, A1. apply So. Qed.
Definition handled {A} (m : SM A) : Prop := forall s x s' l, tree_sound s -> sends m s x s' l -> tree_keeps s l s' /\ tree_sound s'.
Lemma handled_ret {A} (x : A) : handled (sret x).
Proof. intros s y s' l H K. apply sends_ret in K as (-> & -> & ->). split; [apply tree_keeps_nil|exact H]. Qed.
Lemma handled_bind {A B} (m : SM A) (f : A -> SM B) : handled m -> (forall x, handled (f x)) -> handled (sbind m f).
Proof.
  intros Hm Hf s y s' l H K. apply sends_bind in K as (x & s1 & l1 & l2 & K1 & K2 & ->). destruct (Hm _ _ _ _ H K1) as [U1 S1]. destruct (Hf x _ _ _ _ S1 K2) as [U2 S2].
  split; [eapply tree_keeps_app; eauto|exact S2].
Qed.
Definition silent {A} (m : M A) : Prop := forall s x s', runs m s x s' -> tree_like s s'.
Lemma handled_quiet {A} (m : M A) : silent m -> handled (quiet m).
Proof.
  intros Q s x s' l H K. apply sends_quiet in K as [K ->]. specialize (Q _ _ _ K). split; [|eapply tree_like_sound; eauto]. intros t v Sh. exists t, v. split; [reflexivity|eapply tree_like_shows; eauto].
Qed.
Lemma silent_ret {A} (x : A) : silent (ret x). Proof. intros s y s' K. apply runs_ret in K as [_ ->]. apply tree_like_refl. Qed.
Lemma silent_fail {A} : silent (@fail A). Proof. intros s y s' K. destruct (proj1 (runs_fail _ _ _) K). Qed.
Lemma silent_read {A} (f : model -> option A) : silent (read f). Proof. intros s y s' K. apply runs_read in K as [_ ->]. apply tree_like_refl. Qed.
Lemma silent_check (P : model -> Prop) `{forall s, Decision (P s)} : silent (check P). Proof. intros s y s' K. apply runs_check in K as [_ ->]. apply tree_like_refl. Qed.
Lemma silent_note e : silent (note e). Proof. intros s y s' K. apply runs_note in K as ->. apply tree_like_refl. Qed.
Lemma silent_modify f : (forall s, tree_like s (f s)) -> silent (modify f). Proof. intros Q s y s' K. apply runs_modify in K as ->. apply Q. Qed.
Lemma silent_bind {A B} (m : M A) (f : A -> M B) : silent m -> (forall x, silent (f x)) -> silent (bind m f).
Proof. intros Km Kf s y s' K. apply runs_bind in K as (x & s1 & K1 & K2). eapply tree_like_trans; [exact (Km _ _ _ K1)|exact (Kf _ _ _ _ K2)]. Qed.
Lemma silent_take {A} (o : option A) : silent (take o). Proof. intros s y s' K. apply runs_take in K as [_ ->]. apply tree_like_refl. Qed.
Lemma like_events x s : tree_like s (with_events x s). Proof. split; reflexivity. Qed.
Lemma like_tables x s : tree_like s (with_tables x s). Proof. split; reflexivity. Qed.
Lemma like_mname x s : tree_like s (with_mname x s). Proof. split; reflexivity. Qed.
Ltac hush := repeat first [apply silent_ret|apply silent_fail|apply silent_read|apply silent_check|apply silent_note|apply silent_take|apply silent_modify; intros ?; first [apply like_events|apply like_mname|exact (tree_like_trans _ _ _ (like_events _ _) (like_tables _ _))]|apply silent_bind; [|intros ?]].
Lemma silent_model_add a e : silent (model_add a e). Proof. unfold model_add. hush. Qed.
Lemma silent_model_remove k a : silent (model_remove k a). Proof. unfold model_remove, event_of. hush. Qed.
Lemma like_put_tree f t g s : trees s !! f = Some t -> tree_like s (with_trees (<[f := Tree (t_name t) g]> (trees s)) s).
Proof.
  intros E. split; [|reflexivity|reflexivity]. intros x. unfold tree_name. cbn [trees with_trees]. destruct (decide (x = f)) as [->|N]; [rewrite lookup_insert, E; reflexivity|rewrite lookup_insert_ne by auto; reflexivity].
Qed.
Lemma silent_tree_add k a n ft : silent (tree_add k a n ft).
Proof.
  unfold tree_add, tree_of, put_tree. destruct ft as [f|]; [|apply silent_ret]. destruct k; try apply silent_ret. intros s x s' K. apply runs_bind in K as (t & s1 & K1 & K). apply runs_read in K1 as [E ->].
  apply runs_bind in K as (u & s2 & K2 & K). apply runs_check in K2 as [_ ->]. apply runs_bind in K as (u' & s3 & K3 & K). apply runs_modify in K3 as ->. apply runs_note in K as ->. apply like_put_tree, E.
Qed.
Lemma silent_tree_remove k a n ft : silent (tree_remove k a n ft).
Proof.
  unfold tree_remove, tree_of, put_tree. destruct ft as [f|]; [|apply silent_ret]. destruct k; try apply silent_ret. intros s x s' K. apply runs_bind in K as (t & s1 & K1 & K). apply runs_read in K1 as [E ->].
  apply runs_bind in K as (u & s2 & K2 & K). apply runs_check in K2 as [_ ->]. apply runs_bind in K as (u' & s3 & K3 & K). apply runs_note in K3 as ->. apply runs_modify in K as ->. apply like_put_tree, E.
Qed.
Lemma silent_swap_event a b g : silent (swap_event a b g).
Proof. unfold swap_event, event_of, put_event. apply silent_bind; [apply silent_read|]. intros x. destruct (e_data x); try apply silent_fail. destruct (swap_first _ _ _) as [[c l]|]; [|apply silent_fail]. hush. Qed.
Lemma silent_swap_events a b l : silent (swap_events a b l).
Proof. induction l as [|g l IH]; cbn; [apply silent_ret|]. apply silent_bind; [apply silent_swap_event|intros ?; exact IH]. Qed.
(** The table of proxies *)
Lemma count_dom s s' k : (dom (proxies s') : gset (kind * addr)) = dom (proxies s) -> count s' k = count s k.
Proof. unfold count. intros ->. reflexivity. Qed.
Lemma count_other s s' k : (forall x, fst x = k -> x ∈ (dom (proxies s') : gset (kind * addr)) <-> x ∈ (dom (proxies s) : gset (kind * addr))) -> count s' k = count s k.
Proof.
  intros E. unfold count. f_equal. apply set_eq. intros x. rewrite !elem_of_filter. split; intros [Q I]; (split; [exact Q|]); apply (E x Q), I.
Qed.

(** ** The signals *)
Record like_but (k : kind) (s s' : model) : Prop := {
  lb_names f : tree_name s' f = tree_name s f; lb_table : tree_table s' = tree_table s; lb_count k' : k' <> k -> count s' k' = count s k' }.
Lemma counted_keeps k x s s' : like_but k s s' -> (exists a, x = Added k a \/ x = Removed k a) -> tree_keeps s [(x, s')] s'.
Proof.
  intros [L1 L2 L3] Q t v [B1 B2 B3 B4]. exists t. exists (TreeView (<[top_row k := count s' k]> (numbers v)) (names v)). split.
  - assert (R : tree_react x s' t = Some (t, [(TCount (top_row k), t)])) by (destruct Q as (a & [->| ->]); reflexivity). cbn [tree_follow]. rewrite R. cbn [mbind option_bind snd fst tree_watch_all tree_watch].
    replace (read_count s' (top_row k)) with (Some (count s' k)) by (destruct k; reflexivity). reflexivity.
  - split; cbn [names numbers]; [exact B1| | |].
    + eapply Forall2_impl; [exact B2|]. intros f n K. rewrite L1. exact K.
    + intros f. rewrite B3, <- !tree_name_some, L1. reflexivity.
    + rewrite B4, L2. destruct k; cbn; rewrite ?(L3 KGate), ?(L3 KBasic), ?(L3 KHouse) by discriminate; reflexivity.
Qed.
Lemma handled_counted {A B} k (q : M A) x (R : A -> SM B) :
  (forall s y s', runs q s y s' -> like_but k s s') -> (exists a, x = Added k a \/ x = Removed k a) -> (forall y, handled (R y)) -> handled (sbind (quiet q) (fun y => emit x ~;; R y)).
Proof.
  intros Q Ex HR s y s' l So K. apply sends_bind in K as (y1 & s1 & l1 & l2 & K1 & K & ->). apply sends_quiet in K1 as [K1 ->]. apply sends_bind in K as (u & s2 & l3 & l4 & K2 & K & ->). apply sends_emit in K2 as [-> ->].
  specialize (Q _ _ _ K1). assert (So1 : tree_sound s1) by (intros n f; rewrite (lb_names _ _ _ Q), (lb_table _ _ _ Q); apply So).
  destruct (HR y1 _ _ _ _ So1 K) as [U S2]. split; [|exact S2]. apply (tree_keeps_app s [(x, s1)] s1 l4); [|exact U]. exact (counted_keeps k x s s1 Q Ex).
Qed.
Lemma proxy_add_but k a fl s y s' : runs (proxy_add k a fl) s y s' -> like_but k s s'.
Proof.
  unfold proxy_add. intros K. apply runs_bind in K as (u & s1 & K1 & K). apply runs_check in K1 as [_ ->]. apply runs_modify in K as ->. split; [reflexivity|reflexivity|]. intros k' N. apply count_other. intros x E. cbn [proxies with_proxies].
  rewrite dom_insert_L, elem_of_union, elem_of_singleton. split; [intros [->|I]; [cbn in E; congruence|exact I]|auto].
Qed.
Lemma proxy_extract_but k a s y s' : runs (proxy_extract k a) s y s' -> like_but k s s'.
Proof.
  unfold proxy_extract. intros K. apply runs_bind in K as (fl & s1 & K1 & K). apply runs_read in K1 as [_ ->]. apply runs_bind in K as (u & s2 & K2 & K). apply runs_modify in K2 as ->. apply runs_ret in K as [_ ->].
  split; [reflexivity|reflexivity|]. intros k' N. apply count_other. intros x E. cbn [proxies with_proxies]. rewrite dom_delete_L, elem_of_difference, elem_of_singleton. split; [intros [I _]; exact I|]. intros I. split; [exact I|]. intros ->. cbn in E. congruence.
Qed.
Lemma handled_emit x : match x with Added _ _ | Removed _ _ | TreeAdded _ | TreeRemoved _ _ => False | _ => True end -> handled (emit x).
Proof.
  intros N s y s' l So K. apply sends_emit in K as [-> ->]. split; [|exact So]. intros t v H. exists t, v. split; [|exact H]. destruct x; try destruct N; reflexivity.
Qed.
Lemma handled_emit_formulas gs : handled (emit_all (map FormulaChanged gs)).
Proof.
  intros s y s' l So K. apply sends_emit_all in K as [-> ->]. split; [|exact So]. intros t v H. exists t, v. split; [|exact H]. clear. induction gs as [|g gs IH]; [reflexivity|]. exact IH.
Qed.
Lemma tree_unique s f g n : tree_sound s -> tree_name s f = Some n -> tree_name s g = Some n -> f = g.
Proof. intros So K1 K2. apply So in K1, K2. congruence. Qed.
Lemma shown_name s t v i f : tree_shows s t v -> t !! i = Some f -> exists n, names v !! i = Some n /\ tree_name s f = Some n.
Proof. intros H E. destruct (Forall2_lookup_l _ _ _ _ _ (tr_names _ _ _ H) E) as (n & K1 & K2). eauto. Qed.
Lemma shown_at s t v i n : tree_shows s t v -> names v !! i = Some n -> exists f, t !! i = Some f /\ tree_name s f = Some n.
Proof. intros H E. destruct (Forall2_lookup_r _ _ _ _ _ (tr_names _ _ _ H) E) as (f & K1 & K2). eauto. Qed.

Lemma tree_added_keeps s f t s' : tree_sound s -> (exists y, runs (add_tree f t) s y s') -> tree_keeps s [(TreeAdded f, s')] s' /\ tree_sound s'.
Proof.
  intros So [y K]. unfold add_tree in K. apply runs_bind in K as (t' & s1 & K1 & K). apply runs_take in K1 as [_ ->]. apply runs_bind in K as (u & s2 & K1 & K). apply runs_check in K1 as [New ->].
  apply runs_bind in K as (u1 & s3 & K1 & K). apply runs_check in K1 as [Fr ->]. apply runs_bind in K as (u2 & s4 & K1 & K). apply runs_modify in K1 as ->. apply runs_bind in K as (u3 & s5 & K1 & K). apply runs_note in K1 as ->. apply runs_ret in K as [_ ->].
  set (s1 := with_tree_table _ _). assert (Nf : tree_name s1 f = Some (t_name t')) by (unfold tree_name, s1; cbn; rewrite lookup_insert; reflexivity).
  assert (No : forall x, x <> f -> tree_name s1 x = tree_name s x) by (intros x N; unfold tree_name, s1; cbn; rewrite lookup_insert_ne by auto; reflexivity).
  assert (Fs : tree_name s f = None) by (unfold tree_name; rewrite Fr; reflexivity).
  split.
  - intros l v H. pose proof H as [B1 B2 B3 B4]. set (n := t_name t') in *.
    assert (NI : ~ In n (names v)). { intros I. apply in_lookup in I as [i I]. destruct (shown_at _ _ _ _ _ H I) as (x & _ & Q). apply So in Q. congruence. }
    assert (Nx : forall x, In x l -> x <> f). { intros x I ->. apply B3 in I. rewrite Fr in I. destruct I; discriminate. }
    assert (B2' : Forall2 (fun x m => tree_name s1 x = Some m) l (names v)).
    { apply Forall2_same_length_lookup_2; [eapply Forall2_length; exact B2|]. intros i x m X Y. rewrite No; [exact (Forall2_lookup_lr _ _ _ _ _ _ B2 X Y)|]. apply Nx, in_lookup. eauto. }
    pose proof (place_lower _ _ _ B2' n) as P. set (i := place n (names v)) in *.
    assert (Ins : insert_at (tree_name s1) n i f l = Some (firstn i l ++ f :: skipn i l)).
    { unfold insert_at. destruct (l !! i) as [x|] eqn:X; [|reflexivity]. destruct (Forall2_lookup_l _ _ _ _ _ B2' X) as (m & Y & Q). rewrite Q. cbn [mbind option_bind].
      destruct (String.ltb n m) eqn:E; [reflexivity|]. destruct NI. rewrite (ltb_total n m E (place_next n _ m Y)). apply in_lookup. eauto. }
    assert (Le : i <= List.length l) by (rewrite (Forall2_length _ _ _ B2); apply place_le).
    set (m := firstn i l ++ f :: skipn i l) in *. assert (At : m !! i = Some f).
    { unfold m. rewrite lookup_app_r by (rewrite take_length; lia). rewrite take_length, Nat.min_l by lia. rewrite Nat.sub_diag. reflexivity. }
    exists m. exists (TreeView (<[0 := size (tree_table s1)]> (numbers v)) (firstn i (names v) ++ n :: skipn i (names v))). split.
    + cbn [tree_follow tree_react]. rewrite Nf. cbn [mbind option_bind]. rewrite P. cbn [mbind option_bind]. rewrite Ins. cbn [mbind option_bind snd fst tree_watch_all tree_watch]. rewrite At. cbn [mbind option_bind]. rewrite Nf. reflexivity.
    + split; cbn [names numbers].
      * apply sorted_insert; assumption.
      * unfold m. apply Forall2_app; [apply Forall2_take, B2'|]. constructor; [exact Nf|apply Forall2_drop, B2'].
      * intros x. unfold m. rewrite <- tree_name_some. transitivity (x = f \/ In x l).
        { rewrite <- (firstn_skipn i l) at 3. rewrite !in_app_iff. cbn. intuition congruence. }
        destruct (decide (x = f)) as [->|N]; [rewrite Nf; split; eauto|]. rewrite (No x N), tree_name_some, <- B3. tauto.
      * rewrite B4. reflexivity.
  - intros m x. unfold s1 at 1. cbn [tree_table with_tree_table]. destruct (decide (x = f)) as [->|Nx].
    + rewrite Nf. split; [|intros [= <-]; apply lookup_insert]. intros Q. destruct (decide (m = t_name t')) as [->|Nm]; [reflexivity|]. rewrite lookup_insert_ne in Q by auto. apply So in Q. congruence.
    + rewrite (No x Nx). destruct (decide (m = t_name t')) as [->|Nm].
      * rewrite lookup_insert. split; [intros [= ->]; congruence|]. intros Q. apply So in Q. congruence.
      * rewrite lookup_insert_ne by auto. apply So.
Qed.
Lemma tree_removed_keeps s f s' t : tree_sound s -> runs (remove_tree f) s (Some t) s' -> tree_keeps s [(TreeRemoved f (t_name t), s')] s' /\ tree_sound s'.
Proof.
  intros So K. unfold remove_tree, tree_of in K. apply runs_bind in K as (t' & s1 & K1 & K). apply runs_read in K1 as [Ef ->]. apply runs_bind in K as (u & s2 & K1 & K). apply runs_check in K1 as [Tb ->].
  apply runs_bind in K as (u1 & s3 & K1 & K). apply runs_note in K1 as ->. apply runs_bind in K as (u2 & s4 & K1 & K). apply runs_modify in K1 as ->. apply runs_ret in K as [Q ->]. injection Q as ->.
  set (s1 := with_tree_table _ _). set (n := t_name t') in *. assert (Nf : tree_name s f = Some n) by (unfold tree_name; rewrite Ef; reflexivity).
  assert (No : forall x, x <> f -> tree_name s1 x = tree_name s x) by (intros x N; unfold tree_name, s1; cbn; rewrite lookup_delete_ne by auto; reflexivity).
  assert (Fs : tree_name s1 f = None) by (unfold tree_name, s1; cbn; rewrite lookup_delete; reflexivity).
  split.
  - intros l v H. pose proof H as [B1 B2 B3 B4]. set (nm := fun x => if decide (x = f) then Some n else tree_name s1 x).
    assert (NM : forall x, nm x = tree_name s x) by (intros x; unfold nm; destruct (decide (x = f)) as [->|N]; [congruence|apply No, N]).
    assert (B2' : Forall2 (fun x m => nm x = Some m) l (names v)) by (eapply Forall2_impl; [exact B2|]; intros x m Q; rewrite NM; exact Q).
    assert (If : In f l) by (apply B3; rewrite Ef; eauto). apply in_lookup in If as [j J]. destruct (shown_name _ _ _ _ _ H J) as (n' & J' & Q). rewrite Nf in Q. injection Q as <-.
    assert (I : names v !! place n (names v) = Some n) by (apply place_found; [exact B1|apply in_lookup; eauto]). set (i := place n (names v)) in *.
    destruct (shown_at _ _ _ _ _ H I) as (x & X & Q). assert (x = f) as -> by (eapply tree_unique; eauto).
    assert (Fi : flat_find nm n l = Some i).
    { unfold flat_find. rewrite (place_lower _ _ _ B2' n). fold i. cbn [mbind option_bind]. rewrite X. cbn [mbind option_bind]. rewrite NM, Nf. cbn [mbind option_bind]. rewrite ltb_irrefl. reflexivity. }
    set (m := firstn i l ++ skipn (S i) l). set (w := firstn i (names v) ++ skipn (S i) (names v)).
    assert (F : Forall2 (fun x m => tree_name s x = Some m) m w) by (apply Forall2_app; [apply Forall2_take|apply Forall2_drop]; exact B2).
    assert (Nw : ~ In n w).
    { pose proof (sorted_nodup _ B1) as D. rewrite <- (take_drop_middle _ _ _ I) in D. apply NoDup_remove_2 in D. exact D. }
    assert (Nm : ~ In f m). { intros P. apply in_lookup in P as [k P]. destruct (Forall2_lookup_l _ _ _ _ _ F P) as (q & P' & Q'). rewrite Nf in Q'. injection Q' as <-. apply Nw, in_lookup. eauto. }
    exists m. exists (TreeView (<[0 := size (tree_table s1)]> (numbers v)) w). split.
    + cbn [tree_follow tree_react]. fold nm. rewrite Fi. cbn [mbind option_bind]. reflexivity.
    + split; cbn [names numbers].
      * apply sorted_remove, B1.
      * apply Forall2_same_length_lookup_2; [eapply Forall2_length; exact F|]. intros k y q Y Z. rewrite No; [exact (Forall2_lookup_lr _ _ _ _ _ _ F Y Z)|]. intros ->. apply Nm, in_lookup. eauto.
      * intros y. destruct (decide (y = f)) as [->|N]; [rewrite <- tree_name_some, Fs; split; [contradiction|intros [? ?]; discriminate]|].
        rewrite <- tree_name_some, (No y N), tree_name_some, <- B3. assert (D : In y l <-> In y (firstn i l ++ f :: skipn (S i) l)) by (rewrite (take_drop_middle _ _ _ X); reflexivity). rewrite D. unfold m. rewrite !in_app_iff. cbn. intuition congruence.
      * rewrite B4. reflexivity.
  - intros m x. unfold s1 at 1. cbn [tree_table with_tree_table]. destruct (decide (x = f)) as [->|Nx].
    + rewrite Fs. split; [|discriminate]. intros Q. destruct (decide (m = n)) as [->|Nm]; [rewrite lookup_delete in Q; discriminate|]. rewrite lookup_delete_ne in Q by auto. apply So in Q. congruence.
    + rewrite (No x Nx). destruct (decide (m = n)) as [->|Nm].
      * rewrite lookup_delete. split; [discriminate|]. intros Q. destruct Nx. eapply tree_unique; eauto.
      * rewrite lookup_delete_ne by auto. apply So.
Qed.

(** ** The commands *)
Lemma handled_tree_command (b : bool) i f t :
  handled (t' <~ quiet (if b then remove_tree f else add_tree f t);;; emit_all (tree_signal b f t') ~;; sret (AddFaultTree i f t')).
Proof.
  intros s x s' l So K. apply sends_bind in K as (t' & s1 & l1 & l2 & K1 & K & ->). apply sends_quiet in K1 as [K1 ->]. apply sends_bind in K as (u & s2 & l3 & l4 & K2 & K & ->). apply sends_ret in K as (_ & -> & ->). apply sends_emit_all in K2 as [-> ->]. rewrite app_nil_r.
  destruct b; cbn [tree_signal].
  - assert (exists q, t' = Some q) as [q ->] by (unfold remove_tree, tree_of in K1; apply runs_bind in K1 as (q & ? & _ & K1); apply runs_bind in K1 as (? & ? & _ & K1); apply runs_bind in K1 as (? & ? & _ & K1); apply runs_bind in K1 as (? & ? & _ & K1); apply runs_ret in K1 as [-> _]; eauto).
    exact (tree_removed_keeps s f s1 q So K1).
  - exact (tree_added_keeps s f t s1 So (ex_intro _ t' K1)).
Qed.
Ltac tame := repeat first [apply handled_ret|apply handled_emit; exact I|apply handled_emit_formulas
  |apply handled_quiet; first [apply silent_model_add|apply silent_model_remove|apply silent_tree_add|apply silent_tree_remove|apply silent_swap_events|unfold event_of, put_event; solve [hush]]
  |apply handled_bind; [|intros ?]|progress case_decide|match goal with |- context [match e_data ?e with _ => _ end] => destruct (e_data e) end].
Lemma silent_put_with a e : silent (put_event a e).
Proof. unfold put_event. hush. Qed.
Lemma like_flavor a fl cur s : proxies s !! (KBasic, a) = Some cur -> tree_like s (with_proxies (<[(KBasic, a) := fl]> (proxies s)) s).
Proof.
  intros E. split; [reflexivity|reflexivity|]. intros k. apply count_dom. cbn [proxies with_proxies]. rewrite dom_insert_L. assert (In : (KBasic, a) ∈ (dom (proxies s) : gset (kind * addr))) by (apply elem_of_dom; eauto). set_solver.
Qed.
Lemma handled_flavor a fl : handled (involution_s (SetFlavor a fl)).
Proof.
  cbn [involution_s]. intros s x s' l So K. apply sends_bind in K as (cur & s1 & l1 & l2 & K1 & K & ->). apply sends_quiet in K1 as [K1 ->]. apply runs_read in K1 as [Ec ->].
  destruct (decide (fl = cur)); [apply sends_ret in K as (_ & -> & ->); split; [apply tree_keeps_nil|exact So]|].
  apply sends_bind in K as (e & s2 & l3 & l4 & K1 & K & ->). apply sends_quiet in K1 as [K1 ->]. unfold event_of in K1. apply runs_read in K1 as [_ ->].
  apply sends_bind in K as (u & s3 & l5 & l6 & K1 & K & ->). apply sends_quiet in K1 as [K1 ->]. unfold put_event in K1. apply runs_modify in K1 as ->.
  apply sends_bind in K as (u1 & s4 & l7 & l8 & K1 & K & ->). apply sends_quiet in K1 as [K1 ->]. apply runs_modify in K1 as ->.
  set (t := with_events _ s) in *. assert (L : tree_like s (with_proxies (<[(KBasic, a) := fl]> (proxies t)) t)) by (eapply tree_like_trans; [apply like_events|]; apply (like_flavor a fl cur t); exact Ec).
  set (t2 := with_proxies _ _) in *. assert (H : handled (emit (FlavorChanged a) ~;; sret (SetFlavor a cur))) by (tame).
  destruct (H _ _ _ _ (tree_like_sound _ _ L So) K) as [U S2]. split; [|exact S2]. intros l v Sh. exact (U l v (tree_like_shows _ _ _ _ L Sh)).
Qed.
Lemma handled_involution c : handled (involution_s c).
Proof.
  destruct c; try apply handled_flavor; cbn [involution_s]; try solve [tame]; apply handled_quiet; cbn [involution]; hush; case_decide; hush.
Qed.
Lemma handled_add k a o ft : handled (add_event_s k a o ft).
Proof. unfold add_event_s. apply handled_bind; [tame|intros p]. apply handled_bind; [tame|intros _]. apply (handled_counted k); [apply proxy_add_but|eauto|]. intros _. tame. Qed.
Lemma handled_remove k a ft : handled (remove_event_s k a ft).
Proof. unfold remove_event_s. apply handled_bind; [tame|intros e]. apply (handled_counted k _ _ (fun fl => quiet (tree_remove k a (e_name e) ft) ~;; sret (Some (e, fl)))); [apply proxy_extract_but|eauto|]. intros fl. tame. Qed.
Lemma handled_switch C N sw ft gs : handled (switch_s C N sw ft gs).
Proof.
  unfold switch_s. cbv zeta. apply handled_bind; [tame|intros e]. apply (handled_counted C _ _ (fun fl => _)); [apply proxy_extract_but|eauto|]. intros fl. apply handled_bind; [tame|intros p]. apply handled_bind; [tame|intros _].
  apply (handled_counted N _ _ (fun _ => _)); [apply proxy_add_but|eauto|]. intros _. tame.
Qed.
Lemma handled_redo c : handled (redo_s c).
Proof.
  destruct c as [| | | | | | |i f t|i k a o ft|E N to from ft gs]; try exact (handled_involution _).
  - cbn [redo_s]. apply handled_tree_command.
  - cbn [redo_s]. apply handled_bind; [destruct i; [apply handled_remove|apply handled_add]|intros ?; apply handled_ret].
  - cbn [redo_s]. apply handled_bind; [apply handled_switch|intros ?; apply handled_ret].
Qed.
Lemma handled_undo c : handled (undo_s c).
Proof.
  destruct c as [| | | | | | |i f t|i k a o ft|E N to from ft gs]; try exact (handled_involution _).
  - cbn [undo_s]. destruct i; [exact (handled_tree_command false true f t)|exact (handled_tree_command true false f t)].
  - cbn [undo_s]. apply handled_bind; [destruct i; [apply handled_add|apply handled_remove]|intros ?; apply handled_ret].
  - cbn [undo_s]. apply handled_bind; [apply handled_switch|intros ?; apply handled_ret].
Qed.
Lemma handled_redo_all l : handled (redo_all_s l).
Proof. induction l as [|c l IH]; cbn; [apply handled_ret|]. apply handled_bind; [apply handled_redo|intros ?]. apply handled_bind; [exact IH|intros ?; apply handled_ret]. Qed.
Lemma handled_undo_all l : handled (undo_all_s l).
Proof. induction l as [|c l IH]; cbn; [apply handled_ret|]. apply handled_bind; [exact IH|intros ?]. apply handled_bind; [apply handled_undo|intros ?; apply handled_ret]. Qed.
Lemma handled_act x q : handled (act_s x q).
Proof.
  destruct x as [c| | | | |]; cbn [act_s].
  - apply handled_bind; [apply handled_redo|]. intros c'. destruct (open q); cbv zeta; apply handled_ret.
  - apply handled_quiet. cbn [act]. destruct (open q); [apply silent_fail|]. cbv zeta. apply silent_ret.
  - apply handled_quiet. cbn [act]. destruct (open q); apply silent_ret.
  - destruct (open q); [apply handled_ret|]. destruct (done q); [apply handled_ret|]. apply handled_bind; [apply handled_undo_all|intros ?; apply handled_ret].
  - destruct (open q); [apply handled_ret|]. destruct (undone q); [apply handled_ret|]. apply handled_bind; [apply handled_redo_all|intros ?; apply handled_ret].
  - apply handled_quiet. cbn [act]. destruct (open q); apply silent_ret.
Qed.
Lemma handled_session l : forall q, handled (session_s l q).
Proof. induction l as [|x l IH]; intros q; cbn [session_s]; [apply handled_ret|]. apply handled_bind; [apply handled_act|intros q'; apply IH]. Qed.
