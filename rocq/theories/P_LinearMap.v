(** Property C32: the linear containers behave like finite maps and sets. *)
From Coq Require Import List Arith Lia Bool Permutation.
From Verif Require Import LinearMap.
Import ListNotations.

Section spec.
Context {K V : Type} (keq : K -> K -> bool).
Context (keq_ok : forall a b, keq a b = true <-> a = b).
Context (dflt : V) (move : bool).

(** ** Specification: a finite map is a partial function. *)
Definition pmap := K -> option V.
Definition p_set (k : K) (v : V) (f : pmap) : pmap := fun x => if keq k x then Some v else f x.
Definition p_remove (k : K) (f : pmap) : pmap := fun x => if keq k x then None else f x.
Definition p_add (k : K) (v : V) (f : pmap) : pmap := match f k with Some _ => f | None => p_set k v f end.
(** [key_at i]: the key stored at iterator position i. *)
Definition p_step (o : mop K V) (key_at : nat -> option K) (f : pmap) : pmap :=
  match o with
  | MInsert k v => p_add k v f
  | MAssign k v => p_set k v f
  | MRead k => p_add k dflt f
  | MEraseKey k => p_remove k f
  | MEraseAt i => match key_at i with Some k => p_remove k f | None => f end
  | MInsertRange l => fold_left (fun f p => p_add (fst p) (snd p) f) l f
  | MClear => fun _ => None
  end.
(** A vector represents a partial function. *)
Definition represents (m : lmap) (f : pmap) : Prop :=
  NoDup (map fst m) /\ forall k v, In (k, v) m <-> f k = Some v.

Lemma keq_refl k : keq k k = true. Proof. now apply keq_ok. Qed.
Lemma keq_neq a b : keq a b = false <-> a <> b.
Proof. split; [intros E ->; rewrite keq_refl in E; discriminate|]. intros N. destruct (keq a b) eqn:E; auto. apply keq_ok in E. contradiction. Qed.

Lemma find_some k (m : @lmap K V) i : find keq k m = Some i ->
  exists v m1 m2, m = m1 ++ (k, v) :: m2 /\ length m1 = i /\ ~ In k (map fst m1).
Proof.
  revert i. induction m as [|[k' v'] m IH]; simpl; intros i; [discriminate|].
  destruct (keq k' k) eqn:E.
  - intros [= <-]. apply keq_ok in E. subst. exists v', [], m. simpl. auto.
  - destruct (find keq k m) as [j|] eqn:F; [|discriminate]. intros [= <-].
    destruct (IH j eq_refl) as (v & m1 & m2 & -> & <- & N). exists v, ((k', v') :: m1), m2. simpl. repeat split; auto.
    apply keq_neq in E. intuition.
Qed.
Lemma find_none k (m : @lmap K V) : find keq k m = None <-> ~ In k (map fst m).
Proof.
  induction m as [|[k' v'] m IH]; simpl; [intuition|]. destruct (keq k' k) eqn:E.
  - apply keq_ok in E. subst. split; [discriminate|]. tauto.
  - apply keq_neq in E. destruct (find keq k m); simpl; split; try discriminate.
    + intros H. exfalso. assert (Some n = None); [|discriminate]. apply IH. tauto.
    + intros _. assert (~ In k (map fst m)) by now apply IH. tauto.
    + auto.
Qed.

Lemma represents_get m f k : represents m f -> get keq k m = f k.
Proof.
  intros [N R]. unfold get. destruct (find keq k m) as [i|] eqn:F.
  - destruct (find_some _ _ _ F) as (v & m1 & m2 & -> & <- & H).
    rewrite nth_error_app2 by lia. rewrite Nat.sub_diag. simpl. symmetry. apply R. apply in_or_app. simpl. auto.
  - apply find_none in F. destruct (f k) as [v|] eqn:E; auto. exfalso. apply F. apply R in E.
    apply in_map_iff. exists (k, v). auto.
Qed.
Lemma represents_find m f k : represents m f -> (find keq k m = None <-> f k = None).
Proof.
  intros R. rewrite <- (represents_get m f k R). unfold get. destruct (find keq k m) as [i|] eqn:F; [|tauto].
  destruct (find_some _ _ _ F) as (v & m1 & m2 & -> & <- & H).
  rewrite nth_error_app2 by lia. rewrite Nat.sub_diag. simpl. split; discriminate.
Qed.

Lemma represents_perm m m' f : Permutation m m' -> represents m f -> represents m' f.
Proof.
  intros P [N R]. split.
  - eapply Permutation_NoDup; [apply Permutation_map; eauto|auto].
  - intros k v. rewrite <- R. split; apply Permutation_in; auto using Permutation_sym.
Qed.
Lemma represents_add m f k v : represents m f -> f k = None -> represents (m ++ [(k, v)]) (p_set k v f).
Proof.
  intros [N R] E. apply represents_perm with ((k, v) :: m); [apply Permutation_cons_append|].
  split; simpl.
  - constructor; auto. intros H. apply in_map_iff in H. destruct H as ([k' v'] & E' & H). simpl in E'. subst.
    apply R in H. congruence.
  - intros k' v'. unfold p_set. destruct (keq k k') eqn:Q.
    + apply keq_ok in Q. subst. split.
      * intros [[= <-]|H]; auto. apply R in H. congruence.
      * intros [= <-]. auto.
    + apply keq_neq in Q. rewrite <- R. split; [intros [[= -> ->]|H]; auto; congruence|auto].
Qed.
Lemma represents_remove m1 k v m2 f : represents (m1 ++ (k, v) :: m2) f -> represents (m1 ++ m2) (p_remove k f).
Proof.
  intros [N R]. rewrite map_app in N. simpl in N.
  pose proof (NoDup_remove_1 _ _ _ N) as N1. pose proof (NoDup_remove_2 _ _ _ N) as N2.
  rewrite <- map_app in N1, N2. split; auto. intros k' v'. unfold p_remove. destruct (keq k k') eqn:Q.
  - apply keq_ok in Q. subst. split; [|discriminate]. intros H. exfalso. apply N2. apply in_map_iff. exists (k', v'). auto.
  - apply keq_neq in Q. rewrite <- R, !in_app_iff. simpl. split; [tauto|].
    intros [H|[[= -> ->]|H]]; auto. congruence.
Qed.

Lemma set_nth_split (m1 m2 : @lmap K V) k v0 v : set_nth (length m1) v (m1 ++ (k, v0) :: m2) = m1 ++ (k, v) :: m2.
Proof. induction m1 as [|p m1 IH]; simpl; auto. now rewrite IH. Qed.
Lemma represents_set m1 k v0 v m2 f : represents (m1 ++ (k, v0) :: m2) f -> represents (m1 ++ (k, v) :: m2) (p_set k v f).
Proof.
  intros R. pose proof (represents_remove _ _ _ _ _ R) as R1.
  apply represents_perm with ((m1 ++ m2) ++ [(k, v)]).
  { rewrite <- app_assoc. apply Permutation_app_head. apply Permutation_sym, Permutation_cons_append. }
  assert (X : represents ((m1 ++ m2) ++ [(k, v)]) (p_set k v (p_remove k f))).
  { apply represents_add; auto. unfold p_remove. now rewrite keq_refl. }
  destruct X as [X1 X2]. split; auto. intros k' v'. rewrite X2. unfold p_set, p_remove. destruct (keq k k'); tauto.
Qed.

Lemma erase_move_perm (m1 m2 : @lmap K V) p : Permutation (erase_move (length m1) (m1 ++ p :: m2)) (m1 ++ m2).
Proof.
  unfold erase_move. rewrite app_length. cbn [length].
  destruct (exists_last (l := p :: m2)) as (r & b & E); [discriminate|].
  destruct m2 as [|q m2'].
  - cbn [length]. replace (length m1 + 1 - 1) with (length m1) by lia. rewrite Nat.eqb_refl.
    rewrite removelast_app by discriminate. simpl. rewrite app_nil_r. reflexivity.
  - destruct (exists_last (l := q :: m2')) as (m2 & c & E2); [discriminate|]. rewrite E2. rewrite app_length. cbn [length].
    destruct (Nat.eqb_spec (length m1) (length m1 + S (length m2 + 1) - 1)); [lia|].
    rewrite firstn_app, firstn_all, Nat.sub_diag. cbn [firstn]. rewrite app_nil_r.
    replace (skipn (S (length m1)) (m1 ++ p :: m2 ++ [c])) with (m2 ++ [c]).
    2: { rewrite skipn_app. rewrite (skipn_all2 (n := S (length m1)) m1) by lia. replace (S (length m1) - length m1) with 1 by lia. reflexivity. }
    replace (nth_error (m1 ++ p :: m2 ++ [c]) (length m1 + S (length m2 + 1) - 1)) with (Some c).
    2: { rewrite nth_error_app2 by lia. replace (length m1 + S (length m2 + 1) - 1 - length m1) with (S (length m2)) by lia.
         simpl. rewrite nth_error_app2 by lia. now rewrite Nat.sub_diag. }
    cbn [app]. rewrite removelast_app by discriminate.
    change (c :: m2 ++ [c]) with ((c :: m2) ++ [c]). rewrite removelast_last.
    apply Permutation_app_head. apply Permutation_cons_append.
Qed.
Lemma eraser_perm (m1 m2 : @lmap K V) p : Permutation (eraser move (length m1) (m1 ++ p :: m2)) (m1 ++ m2).
Proof.
  unfold eraser. destruct move; [apply erase_move_perm|]. unfold erase_default.
  rewrite firstn_app, firstn_all, Nat.sub_diag. simpl firstn. rewrite app_nil_r. apply Permutation_app_head.
  rewrite skipn_app. rewrite (skipn_all2 (n := S (length m1)) m1) by lia.
  replace (S (length m1) - length m1) with 1 by lia. reflexivity.
Qed.

Definition key_at (m : @lmap K V) (i : nat) : option K := option_map fst (nth_error m i).

Lemma represents_ext m f g : (forall k, f k = g k) -> represents m f -> represents m g.
Proof. intros E [N R]. split; auto. intros k v. now rewrite <- E. Qed.

Lemma insert_ok m f k v : represents m f -> represents (fst (insert keq k v m)) (p_add k v f).
Proof.
  intros R. unfold insert, p_add. pose proof (represents_find m f k R) as F.
  destruct (find keq k m); destruct (f k) eqn:E; simpl; auto.
  - exfalso. assert (Some n = None); [|discriminate]. now apply F.
  - exfalso. assert (Some v0 = None); [|discriminate]. now apply F.
  - now apply represents_add.
Qed.
Lemma insert_range_ok l : forall m f, represents m f ->
  represents (insert_range keq l m) (fold_left (fun f p => p_add (fst p) (snd p) f) l f).
Proof.
  induction l as [|[k v] l IH]; intros m f R; simpl; auto. apply IH.
  pose proof (insert_ok m f k v R) as I. unfold insert in I. destruct (find keq k m); exact I.
Qed.

(** One step follows the specification. *)
Theorem C32_step o m f : represents m f -> represents (mstep keq dflt move o m) (p_step o (key_at m) f).
Proof.
  intros R. destruct o as [k v|k v|k|k|i|l|]; simpl.
  - now apply insert_ok.
  - unfold index_assign. destruct (find keq k m) as [i|] eqn:F.
    + destruct (find_some _ _ _ F) as (v0 & m1 & m2 & -> & <- & _). rewrite set_nth_split. eapply represents_set; eauto.
    + rewrite app_length. cbn [length]. replace (length m + 1 - 1) with (length m) by lia.
      rewrite set_nth_split. apply represents_add; auto. now apply (represents_find m f k R).
  - pose proof (insert_ok m f k dflt R) as I. unfold insert in I. unfold index_read. destruct (find keq k m); exact I.
  - unfold erase_key. destruct (find keq k m) as [i|] eqn:F; simpl.
    + destruct (find_some _ _ _ F) as (v0 & m1 & m2 & -> & <- & _).
      eapply represents_perm; [apply Permutation_sym, eraser_perm|]. eapply represents_remove; eauto.
    + apply (represents_find m f k R) in F. apply represents_ext with f; auto. intros x. unfold p_remove.
      destruct (keq k x) eqn:E; auto. apply keq_ok in E. now subst.
  - unfold key_at. destruct (Nat.ltb_spec i (length m)) as [H|H].
    + destruct (nth_error m i) as [[k v]|] eqn:N; [|apply nth_error_None in N; lia].
      destruct (nth_error_split _ _ N) as (m1 & m2 & -> & <-). simpl.
      eapply represents_perm; [apply Permutation_sym, eraser_perm|]. eapply represents_remove; eauto.
    + rewrite (proj2 (nth_error_None m i)) by auto. exact R.
  - now apply insert_range_ok.
  - split; [constructor|]. simpl. intuition discriminate.
Qed.

(** Histories: the spec state after a history, given the iterator positions seen. *)
Fixpoint p_run (h : list (mop K V)) (m : @lmap K V) (f : pmap) : pmap :=
  match h with
  | [] => f
  | o :: h => p_run h (mstep keq dflt move o m) (p_step o (key_at m) f)
  end.
Theorem C32_map_history h : represents (mrun keq dflt move h) (p_run h [] (fun _ => None)).
Proof.
  assert (G : forall h m f, represents m f ->
     represents (fold_left (fun m o => mstep keq dflt move o m) h m) (p_run h m f)).
  { clear h. induction h as [|o h IH]; simpl; auto. intros m f R. apply IH. now apply C32_step. }
  apply G. split; [constructor|]. simpl. intuition discriminate.
Qed.

(** Observations on any represented state: lookup, membership, size, flags, equality. *)
Theorem C32_map_observations m f : represents m f ->
  (forall k, at_ keq k m = f k) /\
  (forall k, count keq k m = match f k with Some _ => 1 | None => 0 end) /\
  (forall k v, exists i, snd (insert keq k v m) = (i, match f k with Some _ => false | None => true end) /\
     nth_error (fst (insert keq k v m)) i = Some (k, match f k with Some v0 => v0 | None => v end)) /\
  (forall k, snd (index_read keq dflt k m) = match f k with Some v => v | None => dflt end) /\
  (forall k, snd (erase_key keq (eraser move) k m) = match f k with Some _ => 1 | None => 0 end) /\
  (exists keys, NoDup keys /\ length keys = length m /\ forall k, In k keys <-> f k <> None).
Proof.
  intros R. pose proof (fun k => represents_get m f k R) as G. pose proof (fun k => represents_find m f k R) as FN.
  assert (FS : forall k i, find keq k m = Some i -> exists v, f k = Some v /\ nth_error m i = Some (k, v)).
  { intros k i F. destruct (find_some _ _ _ F) as (v & m1 & m2 & -> & <- & _). exists v. split.
    - apply R. apply in_or_app. simpl. auto.
    - rewrite nth_error_app2 by lia. now rewrite Nat.sub_diag. }
  split; [exact G|]. split; [|split; [|split; [|split]]].
  - intros k. unfold count. destruct (find keq k m) eqn:F.
    + destruct (FS _ _ F) as (v & -> & _). auto.
    + apply FN in F. now rewrite F.
  - intros k v. unfold insert. destruct (find keq k m) eqn:F.
    + destruct (FS _ _ F) as (v0 & -> & N). exists n. auto.
    + apply FN in F. rewrite F. exists (length m). split; auto. simpl. rewrite nth_error_app2 by lia. now rewrite Nat.sub_diag.
  - intros k. unfold index_read. destruct (find keq k m) eqn:F.
    + destruct (FS _ _ F) as (v0 & -> & N). simpl. now rewrite N.
    + apply FN in F. now rewrite F.
  - intros k. unfold erase_key. destruct (find keq k m) eqn:F.
    + destruct (FS _ _ F) as (v0 & -> & N). auto.
    + apply FN in F. now rewrite F.
  - exists (map fst m). destruct R as [N R]. split; auto. split; [apply map_length|].
    intros k. rewrite in_map_iff. split.
    + intros ([k' v] & E & H). simpl in E. subst. apply R in H. congruence.
    + intros H. destruct (f k) as [v|] eqn:E; [|congruence]. apply R in E. exists (k, v). auto.
Qed.

(** Two maps compare equal exactly if they are the same partial function. *)
Theorem C32_map_equality veq (veq_ok : forall a b, veq a b = true <-> a = b) m f m' f' :
  represents m f -> represents m' f' -> (map_eq keq veq m m' = true <-> forall k, f k = f' k).
Proof.
  intros R R'. unfold map_eq. rewrite andb_true_iff, Nat.eqb_eq, forallb_forall.
  assert (INC : (forall p, In p m -> existsb (fun q => keq (fst q) (fst p) && veq (snd q) (snd p)) m' = true)
                <-> incl m m').
  { split.
    - intros H p Hp. specialize (H p Hp). apply existsb_exists in H. destruct H as (q & Hq & E).
      apply andb_true_iff in E. destruct E as [E1 E2]. apply keq_ok in E1. apply veq_ok in E2.
      destruct p, q. simpl in *. now subst.
    - intros H p Hp. apply existsb_exists. exists p. split; [now apply H|].
      apply andb_true_iff. split; [apply keq_refl|now apply veq_ok]. }
  rewrite INC. pose proof R as [N RI]. pose proof R' as [N' RI'].
  assert (ND : NoDup m) by (eapply NoDup_map_inv; eauto). assert (ND' : NoDup m') by (eapply NoDup_map_inv; eauto).
  split.
  - intros [L I] k. assert (I' : incl m' m) by (apply NoDup_length_incl; auto; lia).
    destruct (f k) as [v|] eqn:E.
    + symmetry. apply RI'. apply I. now apply RI.
    + destruct (f' k) as [v|] eqn:E'; auto. exfalso. apply RI' in E'. apply I' in E'. apply RI in E'. congruence.
  - intros H. assert (I : incl m m') by (intros [k v] Hp; apply RI in Hp; rewrite H in Hp; now apply RI').
    assert (I' : incl m' m) by (intros [k v] Hp; apply RI' in Hp; rewrite <- H in Hp; now apply RI).
    split; auto. apply Nat.le_antisymm; apply NoDup_incl_length; auto.
Qed.

(** Insertion appends, and the default eraser keeps the order of the other entries. *)
Theorem C32_order : forall (m : @lmap K V) k,
  (forall v, fst (insert keq k v m) = m \/ fst (insert keq k v m) = m ++ [(k, v)]) /\
  (fst (erase_key keq (eraser false) k m) = m \/
   exists m1 v m2, m = m1 ++ (k, v) :: m2 /\ fst (erase_key keq (eraser false) k m) = m1 ++ m2).
Proof.
  intros m k. split.
  - intros v. unfold insert. destruct (find keq k m); simpl; auto.
  - unfold erase_key. destruct (find keq k m) as [i|] eqn:F; simpl; auto. right.
    destruct (find_some _ _ _ F) as (v & m1 & m2 & -> & <- & _). exists m1, v, m2. split; auto.
    unfold erase_default. rewrite firstn_app, firstn_all, Nat.sub_diag. simpl firstn. rewrite app_nil_r. f_equal.
    rewrite skipn_app. rewrite (skipn_all2 (n := S (length m1)) m1) by lia.
    replace (S (length m1) - length m1) with 1 by lia. reflexivity.
Qed.
End spec.

(** ** Sets: a linear set is the linear map of its values by key. *)
Section set.
Context {K V : Type} (keq : K -> K -> bool) (key : V -> K).
Context (keq_ok : forall a b, keq a b = true <-> a = b) (dflt : V).
Definition entries (s : list V) : list (K * V) := map (fun v => (key v, v)) s.
Definition op_of (o : sop V K) : mop K V :=
  match o with
  | SInsert v => MInsert (key v) v
  | SEraseKey k => MEraseKey k
  | SEraseAt i => MEraseAt i
  | SInsertRange l => MInsertRange (entries l)
  | SClear => MClear
  end.

Lemma keq_sym a b : keq a b = keq b a.
Proof.
  destruct (keq a b) eqn:E; symmetry.
  - apply keq_ok in E. apply keq_ok. auto.
  - destruct (keq b a) eqn:E'; auto. apply keq_ok in E'. symmetry in E'. apply keq_ok in E'. congruence.
Qed.
Lemma sfind_entries k s : sfind keq key k s = find keq k (entries s).
Proof. induction s as [|v s IH]; simpl; auto. rewrite IH, keq_sym. reflexivity. Qed.
Lemma sinsert_range_entries l : forall s, entries (sinsert_range keq key l s) = insert_range keq (entries l) (entries s).
Proof.
  induction l as [|v l IH]; intros s; simpl; auto. rewrite IH, sfind_entries. simpl.
  destruct (find keq (key v) (entries s)); auto. unfold entries. now rewrite map_app.
Qed.
Lemma firstn_entries i s : firstn i (entries s) = entries (firstn i s).
Proof. unfold entries. now rewrite firstn_map. Qed.
Lemma skipn_entries i s : skipn i (entries s) = entries (skipn i s).
Proof. unfold entries. now rewrite skipn_map. Qed.

Lemma sstep_refines o s : entries (sstep keq key o s) = mstep keq dflt false (op_of o) (entries s).
Proof.
  destruct o as [v|k|i|l|]; simpl.
  - unfold sinsert, insert. rewrite sfind_entries. destruct (find keq (key v) (entries s)); simpl; auto.
    unfold entries. now rewrite map_app.
  - unfold serase_key, erase_key. rewrite sfind_entries. destruct (find keq k (entries s)); simpl; auto.
    unfold serase, eraser, erase_default. rewrite firstn_entries, skipn_entries. unfold entries. now rewrite map_app.
  - replace (length (entries s)) with (length s) by (symmetry; apply map_length). destruct (i <? length s); auto.
    unfold serase, eraser, erase_default. rewrite firstn_entries, skipn_entries. unfold entries. now rewrite map_app.
  - apply sinsert_range_entries.
  - reflexivity.
Qed.
Theorem C32_set_history h : entries (srun keq key h) = mrun keq dflt false (map op_of h).
Proof.
  unfold srun, mrun. assert (G : forall h s m, entries s = m -> 
    entries (fold_left (fun s o => sstep keq key o s) h s) = fold_left (fun m o => mstep keq dflt false o m) (map op_of h) m).
  { clear h. induction h as [|o h IH]; simpl; auto. intros s m <-. apply IH. apply sstep_refines. }
  now apply G.
Qed.
(** Keys stay unique, a present key is found, and equality compares key sets. *)
Theorem C32_set_observations h : let s := srun keq key h in
  NoDup (map key s) /\
  (forall k, scount keq key k s = 1 <-> exists v, In v s /\ key v = k) /\
  (forall v, snd (snd (sinsert keq key v s)) = false <-> exists v', In v' s /\ key v' = key v) /\
  (forall h', set_eq keq key s (srun keq key h') = true <->
     forall k, (exists v, In v s /\ key v = k) <-> (exists v, In v (srun keq key h') /\ key v = k)).
Proof.
  assert (ND : forall h, NoDup (map key (srun keq key h))).
  { intros h0. destruct (C32_map_history keq keq_ok dflt false (map op_of h0)) as [N _].
    rewrite <- C32_set_history in N. unfold entries in N. rewrite map_map in N. exact N. }
  assert (FD : forall k s, sfind keq key k s <> None <-> exists v, In v s /\ key v = k).
  { intros k s. rewrite sfind_entries. rewrite (find_none keq keq_ok). unfold entries. rewrite map_map. simpl.
    split.
    - intros H. destruct (in_dec (fun a b => match keq a b as x return (keq a b = x -> {a = b} + {a <> b}) with
        | true => fun E => left (proj1 (keq_ok a b) E) | false => fun E => right (fun Q => eq_ind false (fun b => if b then False else True) I true (eq_trans (eq_sym E) (proj2 (keq_ok a b) Q))) end eq_refl) k (map key s)) as [Hin|]; [|contradiction].
      apply in_map_iff in Hin. destruct Hin as (v & E & Hv). eauto.
    - intros (v & Hv & E) H. apply H. apply in_map_iff. eauto. }
  intros s. split; [apply ND|]. split; [|split].
  - intros k. unfold scount. rewrite <- FD. destruct (sfind keq key k s); split; congruence.
  - intros v. unfold sinsert. rewrite <- FD. destruct (sfind keq key (key v) s); simpl; split; congruence.
  - intros h'. set (s' := srun keq key h'). unfold set_eq. rewrite andb_true_iff, Nat.eqb_eq, forallb_forall.
    assert (INC : (forall v, In v s -> match sfind keq key (key v) s' with Some _ => true | None => false end = true)
                  <-> incl (map key s) (map key s')).
    { split.
      - intros H k Hk. apply in_map_iff in Hk. destruct Hk as (v & <- & Hv). specialize (H v Hv).
        assert (X : sfind keq key (key v) s' <> None) by (destruct (sfind keq key (key v) s'); congruence).
        apply FD in X. destruct X as (v' & Hv' & E). apply in_map_iff. eauto.
      - intros H v Hv. assert (X : sfind keq key (key v) s' <> None).
        { apply FD. specialize (H (key v) (in_map key _ _ Hv)). apply in_map_iff in H. destruct H as (v' & E & H). eauto. }
        destruct (sfind keq key (key v) s'); congruence. }
    rewrite INC. split.
    + intros [L I]. assert (I' : incl (map key s') (map key s)).
      { apply NoDup_length_incl; [apply ND|rewrite !map_length; lia|exact I]. }
      intros k. split; intros (v & Hv & <-).
      * assert (In (key v) (map key s')) by (apply I, in_map; auto). apply in_map_iff in H. destruct H as (v' & E & H). eauto.
      * assert (In (key v) (map key s)) by (apply I', in_map; auto). apply in_map_iff in H. destruct H as (v' & E & H). eauto.
    + intros H. assert (I : incl (map key s) (map key s')).
      { intros k Hk. apply in_map_iff in Hk. destruct Hk as (v & E & Hv). destruct (proj1 (H k)) as (v' & Hv' & E'); [eauto|].
        apply in_map_iff. eauto. }
      assert (I' : incl (map key s') (map key s)).
      { intros k Hk. apply in_map_iff in Hk. destruct Hk as (v & E & Hv). destruct (proj2 (H k)) as (v' & Hv' & E'); [eauto|].
        apply in_map_iff. eauto. }
      split; auto. rewrite <- (map_length key s), <- (map_length key s').
      apply Nat.le_antisymm; apply NoDup_incl_length; auto; apply ND.
Qed.
End set.

Example C32_example :
  let h := [MInsert 1 10; MAssign 2 20; MInsert 1 99; MRead 3; MAssign 1 11; MEraseKey 2; MInsertRange [(4, 40); (1, 0)]] in
  mrun Nat.eqb 0 false h = [(1, 11); (3, 0); (4, 40)] /\ mrun Nat.eqb 0 true h = [(1, 11); (3, 0); (4, 40)] /\
  represents (mrun Nat.eqb 0 true h) (p_run Nat.eqb 0 true h [] (fun _ => None)).
Proof. split; [reflexivity|]. split; [reflexivity|]. apply C32_map_history. apply Nat.eqb_eq. Qed.
