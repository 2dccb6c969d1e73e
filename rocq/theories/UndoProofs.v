(** Proofs about undo and redo (Undo.v, UndoSpec.v). *)
From stdpp Require Import gmap strings list.
From Coq Require Import List String.
From Verif Require Import Undo UndoSpec.
Import ListNotations.

Definition runs {A} (m : M A) (s : model) (x : A) (s' : model) : Prop := exists l, m s = Some (x, s', l).
Section Runs.
Context {A B : Type}.
Lemma runs_det (m : M A) s x s1 y s2 : runs m s x s1 -> runs m s y s2 -> x = y /\ s1 = s2.
Proof. intros (l & K) (l' & K'). split; congruence. Qed.
Lemma runs_bind (m : M A) (f : A -> M B) s y s2 : runs (bind m f) s y s2 <-> exists x s1, runs m s x s1 /\ runs (f x) s1 y s2.
Proof.
  unfold runs, bind. split.
  - intros (l & K). destruct (m s) as [[[x s1] l1]|]; [|discriminate]. destruct (f x s1) as [[[y' s2'] l2]|] eqn:E; [|discriminate].
    injection K as <- <- <-. exists x, s1. split; eauto.
  - intros (x & s1 & (l1 & K) & (l2 & K2)). rewrite K, K2. eauto.
Qed.
Lemma runs_ret (x : A) s y s' : runs (ret x) s y s' <-> y = x /\ s' = s.
Proof. unfold runs, ret. split; [intros (l & K); split; congruence|intros [-> ->]; eauto]. Qed.
Lemma runs_fail s (y : A) s' : runs fail s y s' <-> False.
Proof. unfold runs, fail. split; [intros (l & K); discriminate|tauto]. Qed.
Lemma runs_read (f : model -> option A) s y s' : runs (read f) s y s' <-> f s = Some y /\ s' = s.
Proof. unfold runs, read. destruct (f s); (split; [intros (l & K); split; congruence|]). - intros [K ->]. injection K as ->. eauto. - intros [K _]. discriminate. Qed.
Lemma runs_take (o : option A) s y s' : runs (take o) s y s' <-> o = Some y /\ s' = s.
Proof. unfold take. apply runs_read. Qed.
End Runs.
Lemma runs_check (P : model -> Prop) `{forall s, Decision (P s)} s y s' : runs (check P) s y s' <-> P s /\ s' = s.
Proof. unfold runs, check. destruct (decide (P s)); (split; [intros (l & K); split; congruence|intros [K ->]; destruct y; eauto; tauto]). Qed.
Lemma runs_modify f s y s' : runs (modify f) s y s' <-> s' = f s.
Proof. unfold runs, modify. split; [intros (l & K); congruence|intros ->; destruct y; eauto]. Qed.
Lemma runs_note e s y s' : runs (note e) s y s' <-> s' = s.
Proof. unfold runs, note. split; [intros (l & K); congruence|intros ->; destruct y; eauto]. Qed.

Lemma model_eq s t : m_name s = m_name t -> events s = events t -> tables s = tables t -> trees s = trees t -> tree_table s = tree_table t -> proxies s = proxies t -> s = t.
Proof. destruct s, t. cbn. intros -> -> -> -> -> ->. reflexivity. Qed.

(** The functions one by one. *)
Lemma runs_model_add a e s y s' : runs (model_add a e) s y s' <->
  new_name (e_name e) s /\ events s !! a = None /\ s' = with_tables (<[(kind_of e, e_name e) := a]> (tables s)) (with_events (<[a := e]> (events s)) s).
Proof.
  unfold model_add. rewrite runs_bind. setoid_rewrite runs_bind. setoid_rewrite runs_bind. setoid_rewrite runs_check. setoid_rewrite runs_modify. setoid_rewrite runs_note.
  split.
  - intros (x & s1 & (K & ->) & x2 & s2 & (K2 & ->) & x3 & s3 & -> & ->). auto.
  - intros (K & K2 & ->). exists tt, s. split; [auto|]. exists tt, s. split; [auto|]. exists tt. eexists. split; reflexivity.
Qed.
Lemma runs_model_remove k a s e s' : runs (model_remove k a) s e s' <->
  events s !! a = Some e /\ tables s !! (k, e_name e) = Some a /\ s' = with_tables (delete (k, e_name e) (tables s)) (with_events (delete a (events s)) s).
Proof.
  unfold model_remove, event_of. rewrite runs_bind. setoid_rewrite runs_bind. setoid_rewrite runs_bind. setoid_rewrite runs_bind.
  setoid_rewrite runs_check. setoid_rewrite runs_modify. setoid_rewrite runs_note. setoid_rewrite runs_ret. setoid_rewrite runs_read.
  split.
  - intros (x & s1 & (K & ->) & x2 & s2 & (K2 & ->) & x3 & s3 & -> & x4 & s4 & -> & -> & ->). auto.
  - intros (K & K2 & ->). exists e, s. split; [auto|]. exists tt, s. split; [auto|]. exists tt, s. split; [auto|]. exists tt. eexists. split; [reflexivity|]. auto.
Qed.
Definition add_ok (k : kind) (n : string) (ft : option addr) (m : gmap addr tree) : Prop :=
  match ft, k with Some f, KGate => exists t, m !! f = Some t /\ t_gates t !! n = None | _, _ => True end.
Definition del_ok (k : kind) (a : addr) (n : string) (ft : option addr) (m : gmap addr tree) : Prop :=
  match ft, k with Some f, KGate => exists t, m !! f = Some t /\ t_gates t !! n = Some a | _, _ => True end.
Lemma alter_insert_eq {A} (h : A -> A) i x (m : gmap addr A) : m !! i = Some x -> alter h i m = <[i := h x]> m.
Proof.
  intros K. apply map_eq. intros j. destruct (decide (j = i)) as [->|D].
  - rewrite lookup_alter, K, lookup_insert. reflexivity.
  - rewrite lookup_alter_ne, lookup_insert_ne by congruence. reflexivity.
Qed.
Lemma with_trees_id s : with_trees (trees s) s = s.
Proof. destruct s. reflexivity. Qed.
Lemma runs_tree_add k a n ft s y s' : runs (tree_add k a n ft) s y s' <->
  add_ok k n ft (trees s) /\ s' = with_trees (retree k ft (<[n := a]>) (trees s)) s.
Proof.
  unfold tree_add, add_ok, retree.
  destruct ft as [f|]; [|rewrite runs_ret, with_trees_id; destruct y; tauto].
  destruct k; [|rewrite runs_ret, with_trees_id; destruct y; tauto..].
  unfold tree_of, put_tree. rewrite runs_bind. setoid_rewrite runs_bind. setoid_rewrite runs_bind. setoid_rewrite runs_check. setoid_rewrite runs_modify. setoid_rewrite runs_note.
  setoid_rewrite runs_read. split.
  - intros (t & s1 & (K & ->) & x2 & s2 & (K2 & ->) & x3 & s3 & -> & ->). split; [eauto|]. rewrite (alter_insert_eq _ _ _ _ K). reflexivity.
  - intros ((t & K & K2) & ->). exists t, s. split; [auto|]. exists tt, s. split; [auto|]. exists tt. eexists. split; [reflexivity|]. rewrite (alter_insert_eq _ _ _ _ K). reflexivity.
Qed.
Lemma runs_tree_remove k a n ft s y s' : runs (tree_remove k a n ft) s y s' <->
  del_ok k a n ft (trees s) /\ s' = with_trees (retree k ft (delete n) (trees s)) s.
Proof.
  unfold tree_remove, del_ok, retree.
  destruct ft as [f|]; [|rewrite runs_ret, with_trees_id; destruct y; tauto].
  destruct k; [|rewrite runs_ret, with_trees_id; destruct y; tauto..].
  unfold tree_of, put_tree. rewrite runs_bind. setoid_rewrite runs_bind. setoid_rewrite runs_bind. setoid_rewrite runs_check. setoid_rewrite runs_note. setoid_rewrite runs_modify.
  setoid_rewrite runs_read. split.
  - intros (t & s1 & (K & ->) & x2 & s2 & (K2 & ->) & x3 & s3 & -> & ->). split; [eauto|]. rewrite (alter_insert_eq _ _ _ _ K). reflexivity.
  - intros ((t & K & K2) & ->). exists t, s. split; [auto|]. exists tt, s. split; [auto|]. exists tt. eexists. split; [reflexivity|]. rewrite (alter_insert_eq _ _ _ _ K). reflexivity.
Qed.
Lemma runs_proxy_add k a fl s y s' : runs (proxy_add k a fl) s y s' <-> proxies s !! (k, a) = None /\ s' = with_proxies (<[(k, a) := fl]> (proxies s)) s.
Proof.
  unfold proxy_add. rewrite runs_bind. setoid_rewrite runs_check. setoid_rewrite runs_modify. split.
  - intros (x & s1 & (K & ->) & ->). auto.
  - intros (K & ->). exists tt, s. auto.
Qed.
Lemma runs_proxy_extract k a s fl s' : runs (proxy_extract k a) s fl s' <-> proxies s !! (k, a) = Some fl /\ s' = with_proxies (delete (k, a) (proxies s)) s.
Proof.
  unfold proxy_extract. rewrite runs_bind. setoid_rewrite runs_bind. setoid_rewrite runs_read. setoid_rewrite runs_modify. setoid_rewrite runs_ret. split.
  - intros (x & s1 & (K & ->) & x2 & s2 & -> & -> & ->). auto.
  - intros (K & ->). exists fl, s. split; [auto|]. exists tt. eexists. split; [reflexivity|]. auto.
Qed.

(** Fault trees: adding and removing undo each other. *)
Lemma retree_comp k ft h1 h2 m : retree k ft h2 (retree k ft h1 m) = retree k ft (fun g => h2 (h1 g)) m.
Proof. unfold retree. destruct ft; [|reflexivity]. destruct k; [|reflexivity..]. rewrite <- alter_compose. reflexivity. Qed.
Lemma retree_id k ft h m : (forall f t, ft = Some f -> k = KGate -> m !! f = Some t -> h (t_gates t) = t_gates t) -> retree k ft h m = m.
Proof.
  unfold retree. intros K. destruct ft as [f|]; [|reflexivity]. destruct k; [|reflexivity..]. apply map_eq. intros j. destruct (decide (j = f)) as [->|D].
  - rewrite lookup_alter. destruct (m !! f) as [t|] eqn:E; [|reflexivity]. cbn. f_equal. rewrite (K f t) by auto. destruct t; reflexivity.
  - rewrite lookup_alter_ne by congruence. reflexivity.
Qed.
Lemma retree_add_del k a n ft m : del_ok k a n ft m -> add_ok k n ft (retree k ft (delete n) m) /\ retree k ft (<[n := a]>) (retree k ft (delete n) m) = m.
Proof.
  intros K. split.
  - unfold del_ok, add_ok, retree in *. destruct ft as [f|]; [|exact I]. destruct k; [|exact I..]. destruct K as (t & K & K2). rewrite lookup_alter, K. cbn.
    eexists. split; [reflexivity|]. cbn. apply lookup_delete.
  - rewrite retree_comp. apply retree_id. intros f t -> -> L. cbn in K. destruct K as (t' & K & K2). rewrite L in K. injection K as ->. rewrite insert_delete_insert. apply insert_id. exact K2.
Qed.
Lemma retree_del_add k a n ft m : add_ok k n ft m -> del_ok k a n ft (retree k ft (<[n := a]>) m) /\ retree k ft (delete n) (retree k ft (<[n := a]>) m) = m.
Proof.
  intros K. split.
  - unfold del_ok, add_ok, retree in *. destruct ft as [f|]; [|exact I]. destruct k; [|exact I..]. destruct K as (t & K & K2). rewrite lookup_alter, K. cbn.
    eexists. split; [reflexivity|]. cbn. apply lookup_insert.
  - rewrite retree_comp. apply retree_id. intros f t -> -> L. cbn in K. destruct K as (t' & K & K2). rewrite L in K. injection K as ->. apply delete_insert. exact K2.
Qed.

(** Names. *)
Lemma new_name_all n s : new_name n s <-> forall k, tables s !! (k, n) = None.
Proof. unfold new_name. split; [intros (A & B & C) []; assumption|intros K; auto]. Qed.
Lemma free_new s n : consistent s -> (forall a e, events s !! a = Some e -> e_name e <> n) -> new_name n s.
Proof.
  intros C K. apply new_name_all. intros k. destruct (tables s !! (k, n)) as [a|] eqn:E; [|reflexivity]. apply (c_table s C) in E. destruct E as (e & E & N & _). exfalso. eapply K; eauto.
Qed.
Lemma table_of s a e : consistent s -> events s !! a = Some e -> tables s !! (kind_of e, e_name e) = Some a.
Proof. intros C K. apply (c_table s C). eauto. Qed.
Lemma new_after_delete s a e : consistent s -> events s !! a = Some e -> forall k, delete (kind_of e, e_name e) (tables s) !! (k, e_name e) = None.
Proof.
  intros C K k. destruct (decide (k = kind_of e)) as [->|D]; [apply lookup_delete|]. rewrite lookup_delete_ne by congruence.
  destruct (tables s !! (k, e_name e)) as [b|] eqn:E; [|reflexivity]. apply (c_table s C) in E. destruct E as (e' & E & N & <-).
  assert (b = a) as -> by (eapply (c_unique s C); eauto). congruence.
Qed.
Lemma tree_del_ok s k a e ft : consistent s -> events s !! a = Some e -> kind_of e = k -> tree_of_event s k a ft -> del_ok k a (e_name e) ft (trees s).
Proof.
  intros C K Kk T. unfold del_ok. destruct ft as [f|]; [|exact I]. destruct k; [|exact I..]. destruct (T eq_refl) as (f' & [= <-] & (t & n & L & G)).
  exists t. split; [exact L|]. destruct (c_gates s C _ _ _ _ L G) as (e' & K' & <- & _). rewrite K in K'. injection K' as <-. exact G.
Qed.
Lemma tree_add_ok s k n ft : consistent s -> tree_for_event s k ft -> (forall a e, events s !! a = Some e -> e_name e <> n) -> add_ok k n ft (trees s).
Proof.
  intros C T N. unfold add_ok. destruct ft as [f|]; [|exact I]. destruct k; [|exact I..]. destruct (T eq_refl) as (f' & t & [= <-] & L).
  exists t. split; [exact L|]. destruct (t_gates t !! n) as [a|] eqn:G; [|reflexivity]. destruct (c_gates s C _ _ _ _ L G) as (e & K & <- & _). exfalso. eapply N; eauto.
Qed.
