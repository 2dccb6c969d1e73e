(** Allowed edits keep the model consistent. *)
From stdpp Require Import gmap strings list.
From Coq Require Import List String.
From Verif Require Import Undo UndoSpec UndoProofs UndoRuns.
Import ListNotations.

(** The tables, the proxies and the fault trees depend on the types and names of the events only. *)
Record indexed (nk : addr -> option (kind * string)) (tb : gmap (kind * string) addr) (px : gmap (kind * addr) flavor) (tr : gmap addr tree) : Prop := {
  i_table k n a : tb !! (k, n) = Some a <-> nk a = Some (k, n);
  i_unique a b k k' n : nk a = Some (k, n) -> nk b = Some (k', n) -> a = b;
  i_valid a k n : nk a = Some (k, n) -> valid_name n;
  i_proxy k a : is_Some (px !! (k, a)) <-> exists n, nk a = Some (k, n);
  i_gates f t n a : tr !! f = Some t -> t_gates t !! n = Some a -> nk a = Some (KGate, n);
  i_tree a n : nk a = Some (KGate, n) -> exists f t, tr !! f = Some t /\ t_gates t !! n = Some a;
  i_one f f' t t' n a : tr !! f = Some t -> t_gates t !! n = Some a -> tr !! f' = Some t' -> t_gates t' !! n = Some a -> f = f' }.
Definition type_name (s : model) (a : addr) : option (kind * string) := (fun e => (kind_of e, e_name e)) <$> events s !! a.
Lemma type_name_some s a k n : type_name s a = Some (k, n) <-> exists e, events s !! a = Some e /\ e_name e = n /\ kind_of e = k.
Proof. unfold type_name. destruct (events s !! a) as [e|]; cbn; split; [intros [= <- <-]; eauto|intros (e' & [= <-] & <- & <-); reflexivity|discriminate|intros (e' & K & _); discriminate]. Qed.
Definition good_args (s : model) : Prop :=
  forall a e, events s !! a = Some e -> (List.NoDup (args_of e) /\ forall b, In b (args_of e) -> is_Some (events s !! b)) /\
  forall f, e_data e = DGate f -> f_conn f = CNull \/ f_conn f = CNot -> forall c b, In (c, b) (f_args f) -> c = false.
Definition tree_names (s : model) : Prop := forall n f, tree_table s !! n = Some f <-> exists t, trees s !! f = Some t /\ t_name t = n.
Lemma consistent_iff s : consistent s <-> indexed (type_name s) (tables s) (proxies s) (trees s) /\ valid_name (m_name s) /\ good_args s /\ tree_names s.
Proof.
  split.
  - intros C. split; [|split; [apply C|split]].
    + constructor.
      * intros k n a. rewrite type_name_some. apply (c_table s C).
      * intros a b k k' n K K'. apply type_name_some in K as (e & K & N & _). apply type_name_some in K' as (e' & K' & N' & _). apply (c_unique s C a b e e'); congruence.
      * intros a k n K. apply type_name_some in K as (e & K & <- & _). eapply (c_valid s C); eauto.
      * intros k a. rewrite (c_proxy s C). setoid_rewrite type_name_some. split; [intros (e & K & <-); eauto|intros (n & e & K & _ & <-); eauto].
      * intros f t n a L G. apply type_name_some. eapply (c_gates s C); eauto.
      * intros a n K. apply type_name_some in K as (e & K & <- & Kk). destruct (c_tree s C a e K Kk) as (f & t & n & L & G). exists f, t. split; [exact L|].
        destruct (c_gates s C _ _ _ _ L G) as (e' & K' & <- & _). rewrite K in K'. injection K' as <-. exact G.
      * intros f f' t t' n a L G L' G'. apply (c_one_tree s C f f' a); [exists t, n|exists t', n]; auto.
    + intros a e K. split; [apply (c_args s C a e K)|]. intros f D. apply (c_nesting s C a e f K D).
    + intros n f. apply (c_tree_table s C).
  - intros (X & V & A & T). constructor.
    + intros k n a. rewrite <- type_name_some. apply (i_table _ _ _ _ X).
    + intros a b e e' K K' N. apply (i_unique _ _ _ _ X a b (kind_of e) (kind_of e') (e_name e)); apply type_name_some; eauto.
    + intros a e K. apply (i_valid _ _ _ _ X a (kind_of e)). apply type_name_some. eauto.
    + exact V.
    + intros a e K. apply (A a e K).
    + intros a e f K D. apply (proj2 (A a e K) f D).
    + intros k a. rewrite (i_proxy _ _ _ _ X). setoid_rewrite type_name_some. split; [intros (n & e & K & _ & <-); eauto|intros (e & K & <-); eauto].
    + intros n f. apply T.
    + intros f t n a L G. apply type_name_some. apply (i_gates _ _ _ _ X f t n a L G).
    + intros a e K Kk. destruct (i_tree _ _ _ _ X a (e_name e)) as (f & t & L & G); [apply type_name_some; eauto|]. exists f, t, (e_name e). auto.
    + intros f f' a (t & n & L & G) (t' & n' & L' & G'). pose proof (i_gates _ _ _ _ X _ _ _ _ L G) as Q. pose proof (i_gates _ _ _ _ X _ _ _ _ L' G') as Q'. rewrite Q in Q'. injection Q' as <-.
      apply (i_one _ _ _ _ X f f' t t' n a L G L' G').
Qed.
Lemma indexed_ext nk nk' tb px tr : (forall a, nk' a = nk a) -> indexed nk tb px tr -> indexed nk' tb px tr.
Proof.
  intros Q X. constructor.
  - intros k n a. rewrite Q. apply X.
  - intros a b k k' n. rewrite !Q. apply X.
  - intros a k n. rewrite Q. apply X.
  - intros k a. setoid_rewrite Q. apply X.
  - intros f t n a. rewrite Q. apply X.
  - intros a n. rewrite Q. apply X.
  - apply X.
Qed.
(** The gates of a tree after a change. *)
Lemma retree_lookup k ft h m f : retree k ft h m !! f = if decide (ft = Some f /\ k = KGate) then (fun t => Tree (t_name t) (h (t_gates t))) <$> m !! f else m !! f.
Proof.
  unfold retree. destruct ft as [g|]; [|rewrite decide_False by (intros [? _]; discriminate); reflexivity].
  destruct k; [|rewrite decide_False by (intros [_ ?]; discriminate); reflexivity..].
  destruct (decide (f = g)) as [->|D].
  - rewrite decide_True by auto. apply lookup_alter.
  - rewrite decide_False by (intros [[= ->] _]; congruence). apply lookup_alter_ne. congruence.
Qed.
Lemma retree_some k ft h m f t' : retree k ft h m !! f = Some t' -> exists t, m !! f = Some t /\ t_name t' = t_name t /\ t_gates t' = if decide (ft = Some f /\ k = KGate) then h (t_gates t) else t_gates t.
Proof.
  rewrite retree_lookup. destruct (decide (ft = Some f /\ k = KGate)) as [D|D].
  - intros K. apply fmap_Some in K as (t & K & ->). exists t. auto.
  - intros K. exists t'. auto.
Qed.
Lemma retree_of k ft h m f t : m !! f = Some t -> retree k ft h m !! f = Some (Tree (t_name t) (if decide (ft = Some f /\ k = KGate) then h (t_gates t) else t_gates t)).
Proof. intros K. rewrite retree_lookup, K. destruct (decide (ft = Some f /\ k = KGate)); cbn; [reflexivity|]. destruct t; reflexivity. Qed.
Lemma tree_names_retree k ft h s s' : tree_names s -> tree_table s' = tree_table s -> trees s' = retree k ft h (trees s) -> tree_names s'.
Proof.
  intros T E1 E2 n f. rewrite E1, E2, (T n f). split.
  - intros (t & L & <-). eexists. split; [apply retree_of; exact L|reflexivity].
  - intros (t' & L & <-). apply retree_some in L as (t & L & -> & _). eauto.
Qed.

Lemma indexed_remove nk tb px tr a k n ft : indexed nk tb px tr -> nk a = Some (k, n) -> (k = KGate -> exists f t, ft = Some f /\ tr !! f = Some t /\ t_gates t !! n = Some a) ->
  indexed (fun x => if decide (x = a) then None else nk x) (delete (k, n) tb) (delete (k, a) px) (retree k ft (delete n) tr).
Proof.
  intros X Ka TF. constructor.
  - intros k' n' b. destruct (decide ((k', n') = (k, n))) as [[= -> ->]|D].
    + rewrite lookup_delete. destruct (decide (b = a)) as [->|Db]; [split; discriminate|]. split; [discriminate|]. intros Kb. exfalso. apply Db. apply (i_unique _ _ _ _ X b a k k n Kb Ka).
    + rewrite lookup_delete_ne by congruence. rewrite (i_table _ _ _ _ X). destruct (decide (b = a)) as [->|Db]; [|reflexivity]. split; [congruence|discriminate].
  - intros b c k1 k2 m. destruct (decide (b = a)); [discriminate|]. destruct (decide (c = a)); [discriminate|]. apply X.
  - intros b k1 m. destruct (decide (b = a)); [discriminate|]. apply X.
  - intros k1 b. destruct (decide (b = a)) as [->|Db].
    + split; [|intros (? & ?); discriminate]. destruct (decide (k1 = k)) as [->|Dk]; [rewrite lookup_delete; intros (? & ?); discriminate|]. rewrite lookup_delete_ne by congruence. intros K. apply (i_proxy _ _ _ _ X) in K as (m & K). congruence.
    + rewrite lookup_delete_ne by congruence. apply X.
  - intros f t' m b L G. apply retree_some in L as (t & L & _ & Gt). rewrite Gt in G. destruct (decide (b = a)) as [->|Db].
    + exfalso. assert (G0 : t_gates t !! m = Some a) by (destruct (decide (ft = Some f /\ k = KGate)); [apply lookup_delete_Some in G; tauto|exact G]).
      pose proof (i_gates _ _ _ _ X _ _ _ _ L G0) as Q. rewrite Ka in Q. injection Q as -> ->. destruct (TF eq_refl) as (f' & t0 & -> & L0 & G1).
      assert (f' = f) as -> by (apply (i_one _ _ _ _ X f' f t0 t m a); assumption). rewrite decide_True in G by auto. rewrite lookup_delete in G. discriminate.
    + apply (i_gates _ _ _ _ X f t); [exact L|]. destruct (decide (ft = Some f /\ k = KGate)); [apply lookup_delete_Some in G; tauto|exact G].
  - intros b m. destruct (decide (b = a)) as [->|Db]; [discriminate|]. intros Kb. destruct (i_tree _ _ _ _ X b m Kb) as (f & t & L & G). exists f. eexists. split; [apply retree_of; exact L|]. cbn.
    destruct (decide (ft = Some f /\ k = KGate)) as [[-> ->]|D]; [|exact G]. rewrite lookup_delete_ne; [exact G|]. intros ->. apply Db. apply (i_unique _ _ _ _ X b a KGate KGate m Kb Ka).
  - intros f f' t1 t1' m b L G L' G'. apply retree_some in L as (t & L & _ & Gt). apply retree_some in L' as (t' & L' & _ & Gt'). rewrite Gt in G. rewrite Gt' in G'.
    apply (i_one _ _ _ _ X f f' t t' m b L); [|exact L'|].
    + destruct (decide (ft = Some f /\ k = KGate)); [apply lookup_delete_Some in G; tauto|exact G].
    + destruct (decide (ft = Some f' /\ k = KGate)); [apply lookup_delete_Some in G'; tauto|exact G'].
Qed.
Lemma indexed_add nk tb px tr a k n fl ft : indexed nk tb px tr -> nk a = None -> (forall b k', nk b <> Some (k', n)) -> valid_name n -> (k = KGate -> exists f t, ft = Some f /\ tr !! f = Some t) ->
  indexed (fun x => if decide (x = a) then Some (k, n) else nk x) (<[(k, n) := a]> tb) (<[(k, a) := fl]> px) (retree k ft (<[n := a]>) tr).
Proof.
  intros X Ka NF V TF. constructor.
  - intros k' n' b. destruct (decide ((k', n') = (k, n))) as [[= -> ->]|D].
    + rewrite lookup_insert. destruct (decide (b = a)) as [->|Db]; [tauto|]. split; [congruence|]. intros Kb. exfalso. eapply NF; eauto.
    + rewrite lookup_insert_ne by congruence. rewrite (i_table _ _ _ _ X). destruct (decide (b = a)) as [->|Db]; [|reflexivity]. split; [congruence|]. congruence.
  - intros b c k1 k2 m. destruct (decide (b = a)) as [->|Db], (decide (c = a)) as [->|Dc]; [reflexivity| | |apply X].
    + intros [= <- <-] K. exfalso. eapply NF; eauto.
    + intros K [= <- <-]. exfalso. eapply NF; eauto.
  - intros b k1 m. destruct (decide (b = a)) as [->|Db]; [intros [= <- <-]; exact V|]. apply X.
  - intros k1 b. destruct (decide (b = a)) as [->|Db].
    + destruct (decide (k1 = k)) as [->|Dk]; [rewrite lookup_insert; split; eauto|]. rewrite lookup_insert_ne by congruence. split; [|intros (m & [= <- <-]); congruence]. intros K. apply (i_proxy _ _ _ _ X) in K as (m & K). congruence.
    + rewrite lookup_insert_ne by congruence. apply X.
  - intros f t' m b L G. apply retree_some in L as (t & L & _ & Gt). rewrite Gt in G. destruct (decide (ft = Some f /\ k = KGate)) as [[-> ->]|D].
    + apply lookup_insert_Some in G as [[<- <-]|[Dm G]]; [rewrite decide_True by reflexivity; reflexivity|]. pose proof (i_gates _ _ _ _ X _ _ _ _ L G) as Q. rewrite decide_False by congruence. exact Q.
    + pose proof (i_gates _ _ _ _ X _ _ _ _ L G) as Q. rewrite decide_False by congruence. exact Q.
  - intros b m. destruct (decide (b = a)) as [->|Db].
    + intros [= -> ->]. destruct (TF eq_refl) as (f & t & -> & L). exists f. eexists. split; [apply retree_of; exact L|]. cbn. rewrite decide_True by auto. apply lookup_insert.
    + intros Kb. destruct (i_tree _ _ _ _ X b m Kb) as (f & t & L & G). exists f. eexists. split; [apply retree_of; exact L|]. cbn.
      destruct (decide (ft = Some f /\ k = KGate)) as [[-> ->]|D]; [|exact G]. rewrite lookup_insert_ne; [exact G|]. intros ->. eapply NF; eauto.
  - intros f f' t1 t1' m b L G L' G'. apply retree_some in L as (t & L & _ & Gt). apply retree_some in L' as (t' & L' & _ & Gt'). rewrite Gt in G. rewrite Gt' in G'.
    destruct (decide (b = a)) as [->|Db].
    + assert (Hf : forall f t, tr !! f = Some t -> t_gates t !! m <> Some a) by (intros g u Lu Gu; pose proof (i_gates _ _ _ _ X _ _ _ _ Lu Gu); congruence).
      destruct (decide (ft = Some f /\ k = KGate)) as [[-> ->]|D]; [|exfalso; exact (Hf f t L G)]. destruct (decide (Some f = Some f' /\ KGate = KGate)) as [[[= ->] _]|D]; [reflexivity|exfalso; exact (Hf f' t' L' G')].
    + apply (i_one _ _ _ _ X f f' t t' m b L); [|exact L'|].
      * destruct (decide (ft = Some f /\ k = KGate)); [apply lookup_insert_Some in G as [[<- <-]|[_ G]]; [congruence|exact G]|exact G].
      * destruct (decide (ft = Some f' /\ k = KGate)); [apply lookup_insert_Some in G' as [[<- <-]|[_ G']]; [congruence|exact G']|exact G'].
Qed.
