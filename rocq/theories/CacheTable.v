(** Model of the lossy direct-mapped computation cache.
    Source: /repo/src/bdd.h:560-662 [class CacheTable].
    The hash function (boost::hash_value) and the capacity policy
    (GetPrimeNumber) are arbitrary parameters of every definition. *)
From Coq Require Import List Arith Bool Lia.
Import ListNotations.

Section Cache.
  Variable K V : Type.
  Variable keq : forall a b : K, {a = b} + {a <> b}.
  Variable hash : K -> nat.
  Variable prime : nat -> nat.          (* GetPrimeNumber, bdd.cc:32-39 *)

  (** [value_type] = key and computation result; a slot whose result is null
      ([!entry.second]) is modelled by [None]; the stale key which such a slot may still hold
      is dropped (it is never read: every reader tests [entry.second] first). *)
  Local Notation slot := (option (K * V)).
  Record cache := mk_cache { csize : nat; slots : list slot }.

  (** bdd.h:573-576: the constructor. *)
  Definition new_cache (init : nat) : cache := mk_cache 0 (repeat None (prime init)).

  Definition index_of (k : K) (t : list slot) : nat := hash k mod length t.

  Fixpoint set_nth (n : nat) (x : slot) (t : list slot) : list slot :=
    match t, n with
    | [], _ => []
    | _ :: t', O => x :: t'
    | y :: t', S n' => y :: set_nth n' x t'
    end.

  (** bdd.h:584-590 [clear]. *)
  Definition clear (c : cache) : cache := mk_cache 0 (map (fun _ => None) (slots c)).

  (** bdd.h:610-616 [find]: [None] is [end()]. *)
  Definition find (c : cache) (k : K) : option V :=
    match nth_error (slots c) (index_of k (slots c)) with
    | Some (Some (k', v)) => if keq k' k then Some v else None
    | _ => None
    end.

  (** bdd.h:642-657 [Rehash]: one step of the loop over old entries. *)
  Definition rehash_step (acc : nat * list slot) (e : slot) : nat * list slot :=
    match e with
    | None => acc
    | Some (k, v) =>
        let '(n, t) := acc in
        let i := index_of k t in
        let n' := match nth_error t i with Some None => S n | _ => n end in
        (n', set_nth i (Some (k, v)) t)
    end.
  Definition rehash (cap : nat) (c : cache) : cache :=
    let '(n, t) := fold_left rehash_step (slots c) (0, repeat None cap) in mk_cache n t.

  (** bdd.h:626-639 [emplace]; the test [size_ >= 0.75 * capacity]. *)
  Definition emplace (c : cache) (k : K) (v : V) : cache :=
    let c := if 3 * length (slots c) <=? 4 * csize c
             then rehash (prime (length (slots c) * 2)) c else c in
    let i := index_of k (slots c) in
    let n := match nth_error (slots c) i with Some None => S (csize c) | _ => csize c end in
    mk_cache n (set_nth i (Some (k, v)) (slots c)).

  (** bdd.h:596-604 [reserve]; [n / 0.75 + 1] truncated to int.  The case
      [size_ = 0 and n = 0] empties the table; after it only destruction is
      legal ([find] would compute modulo zero), which is why it is not an operation below. *)
  Definition reserve (c : cache) (n : nat) : cache :=
    if n <=? csize c then c else rehash (prime (4 * n / 3 + 1)) c.

  (** Operations available between construction and the final [reserve(0)]. *)
  Inductive op := OEmplace (k : K) (v : V) | OClear | OReserve (n : nat).
  Definition run_op (c : cache) (o : op) : cache :=
    match o with OEmplace k v => emplace c k v | OClear => clear c
            | OReserve n => reserve c n end.

  (** ---- Specification: the most recent value stored for a key since the last clear. ---- *)
  Fixpoint last_stored (h : list op) (k : K) (acc : option V) : option V :=
    match h with
    | [] => acc
    | OEmplace k' v :: h' => last_stored h' k (if keq k' k then Some v else acc)
    | OClear :: h' => last_stored h' k None
    | OReserve _ :: h' => last_stored h' k acc
    end.

  (* ---- Proofs ---- *)
  Definition wf_slots (t : list slot) : Prop :=
    0 < length t /\
    forall i k v, nth_error t i = Some (Some (k, v)) -> i = index_of k t.

  Lemma set_nth_length n x t : length (set_nth n x t) = length t.
  Proof. revert n; induction t as [|y t IH]; intros [|n]; simpl; auto. Qed.

  Lemma set_nth_spec t : forall n x i,
    nth_error (set_nth n x t) i =
    if Nat.eq_dec i n then (if n <? length t then Some x else None) else nth_error t i.
  Proof.
    induction t as [|y t IH]; intros n x i; simpl.
    - destruct (Nat.eq_dec i n); destruct n, i; reflexivity.
    - destruct n as [|n].
      + destruct i; simpl; reflexivity.
      + destruct i as [|i]; simpl; [reflexivity|]. rewrite IH.
        destruct (Nat.eq_dec i n), (Nat.eq_dec (S i) (S n)); try lia; try reflexivity.
  Qed.

  Lemma index_lt k t : 0 < length t -> index_of k t < length t.
  Proof. intros H. apply Nat.mod_upper_bound. lia. Qed.

  Lemma wf_set k v t : wf_slots t -> wf_slots (set_nth (index_of k t) (Some (k, v)) t).
  Proof.
    intros [Hl H]. split; [now rewrite set_nth_length|].
    intros i k' v' E. rewrite set_nth_spec in E. unfold index_of. rewrite set_nth_length.
    destruct (Nat.eq_dec i (index_of k t)) as [->|N].
    - destruct (_ <? _); [|discriminate]. injection E as <- <-. reflexivity.
    - apply H in E. exact E.
  Qed.

  Lemma wf_repeat n : 0 < n -> wf_slots (repeat None n).
  Proof.
    intros H; split; [now rewrite repeat_length|]. intros i k v E.
    apply nth_error_In in E. apply repeat_spec in E. discriminate.
  Qed.

  Definition has (t : list slot) k v := In (Some (k, v)) t.

  Lemma find_has c k v : find c k = Some v -> has (slots c) k v.
  Proof.
    unfold find. destruct (nth_error _ _) as [[[k' v']|]|] eqn:E; try discriminate.
    destruct (keq k' k) as [->|]; [|discriminate]. intros [= ->].
    eapply nth_error_In; eauto.
  Qed.

  Lemma has_find c k v : wf_slots (slots c) -> has (slots c) k v -> find c k = Some v.
  Proof.
    intros [Hl H] Hin. apply In_nth_error in Hin as [i Hi]. pose proof (H _ _ _ Hi) as ->.
    unfold find. rewrite Hi. destruct (keq k k); congruence.
  Qed.

  Lemma has_set t n x k v : has (set_nth n x t) k v -> x = Some (k, v) \/ has t k v.
  Proof.
    intros Hin. apply In_nth_error in Hin as [i Hi]. rewrite set_nth_spec in Hi.
    destruct (Nat.eq_dec i n).
    - destruct (_ <? _); [|discriminate]. injection Hi as ->. now left.
    - right. eapply nth_error_In; eauto.
  Qed.

  Definition occupied (t : list slot) : nat :=
    length (filter (fun e => match e with Some _ => true | None => false end) t).

  Lemma occupied_set t : forall i k v, i < length t ->
    occupied (set_nth i (Some (k, v)) t) =
    match nth_error t i with Some None => S (occupied t) | _ => occupied t end.
  Proof.
    induction t as [|y t IH]; intros i k v Hi; simpl in Hi; [lia|].
    destruct i as [|i]; simpl.
    - destruct y; reflexivity.
    - unfold occupied in *. simpl. destruct y; simpl; rewrite IH by lia;
        destruct (nth_error t i) as [[?|]|]; reflexivity.
  Qed.

  Lemma occupied_repeat n : occupied (repeat None n) = 0.
  Proof. induction n; simpl; auto. Qed.

  Lemma rehash_fold es : forall n t, wf_slots t -> n = occupied t ->
    let r := fold_left rehash_step es (n, t) in
    wf_slots (snd r) /\ length (snd r) = length t /\ fst r = occupied (snd r) /\
    (forall k v, has (snd r) k v -> has t k v \/ has es k v).
  Proof.
    induction es as [|e es IH]; intros n t Hwf Hn; simpl.
    - split; [exact Hwf|]. split; [reflexivity|]. split; [exact Hn|]. auto.
    - destruct e as [[k v]|]; simpl.
      + pose proof (index_lt k t (proj1 Hwf)) as Hi.
        specialize (IH (match nth_error t (index_of k t) with Some None => S n | _ => n end)
                       (set_nth (index_of k t) (Some (k, v)) t) (wf_set k v t Hwf)).
        destruct IH as (A & B & C & D).
        { rewrite occupied_set by exact Hi. subst n. reflexivity. }
        split; [exact A|]. split; [now rewrite B, set_nth_length|]. split; [exact C|].
        intros k' v' Hh. apply D in Hh as [Hh|Hh].
        * apply has_set in Hh as [[= -> ->]|Hh]; [right; now left|now left].
        * right; now right.
      + destruct (IH n t Hwf Hn) as (A & B & C & D).
        split; [exact A|]. split; [exact B|]. split; [exact C|].
        intros k' v' Hh. apply D in Hh as [Hh|Hh]; [now left|right; now right].
  Qed.

  Definition wf (c : cache) : Prop := wf_slots (slots c) /\ csize c = occupied (slots c).

  Hypothesis prime_pos : forall n, 0 < prime n.

  Lemma rehash_wf cap c : 0 < cap -> wf (rehash cap c) /\
    forall k v, has (slots (rehash cap c)) k v -> has (slots c) k v.
  Proof.
    intros Hc. unfold rehash.
    pose proof (rehash_fold (slots c) 0 (repeat None cap) (wf_repeat cap Hc) (eq_sym (occupied_repeat cap))) as H.
    destruct (fold_left _ _ _) as [n t]; simpl in H. destruct H as (A & B & C & D).
    split; [split; assumption|]. simpl. intros k v Hh. destruct (D k v Hh) as [Hr|]; auto.
    unfold has in Hr. apply repeat_spec in Hr. discriminate.
  Qed.

  Lemma new_wf n : wf (new_cache n).
  Proof.
    split; simpl; [apply wf_repeat, prime_pos|]. now rewrite occupied_repeat.
  Qed.

  Lemma emplace_wf c k v : wf c -> wf (emplace c k v) /\
    find (emplace c k v) k = Some v /\
    (forall k' v', find (emplace c k v) k' = Some v' -> (k' = k /\ v' = v) \/ (k' <> k /\ find c k' = Some v')).
  Proof.
    intros Hwf. unfold emplace.
    set (c1 := if 3 * length (slots c) <=? 4 * csize c then rehash (prime (length (slots c) * 2)) c else c).
    assert (H1 : wf c1 /\ forall k v, has (slots c1) k v -> has (slots c) k v).
    { unfold c1. destruct (_ <=? _); [apply rehash_wf, prime_pos|auto]. }
    clearbody c1. destruct H1 as [[W1 W2] Hsub].
    assert (Hw : wf (mk_cache (match nth_error (slots c1) (index_of k (slots c1)) with
                    | Some None => S (csize c1) | _ => csize c1 end)
                    (set_nth (index_of k (slots c1)) (Some (k, v)) (slots c1)))).
    { split; simpl; [now apply wf_set|].
      rewrite occupied_set by (apply index_lt, W1). rewrite W2. reflexivity. }
    assert (Hk : find (mk_cache (match nth_error (slots c1) (index_of k (slots c1)) with
                    | Some None => S (csize c1) | _ => csize c1 end)
                    (set_nth (index_of k (slots c1)) (Some (k, v)) (slots c1))) k = Some v).
    { apply has_find; [apply Hw|]. simpl. unfold has.
      eapply nth_error_In with (n := index_of k (slots c1)). rewrite set_nth_spec.
      destruct (Nat.eq_dec _ _); [|congruence].
      destruct (Nat.ltb_spec (index_of k (slots c1)) (length (slots c1))) as [|L]; [reflexivity|].
      pose proof (index_lt k (slots c1) (proj1 W1)). lia. }
    split; [exact Hw|]. split; [exact Hk|].
    intros k' v' Hf. destruct (keq k' k) as [->|N].
    - left. split; [reflexivity|]. rewrite Hk in Hf. congruence.
    - right. split; [exact N|]. apply find_has in Hf. simpl in Hf.
      apply has_set in Hf as [[= -> ->]|Hf]; [congruence|].
      apply has_find; [apply Hwf|]. now apply Hsub.
  Qed.

  Lemma clear_wf c : wf c -> wf (clear c) /\ forall k, find (clear c) k = None.
  Proof.
    intros [[Hl H] Hs]. assert (Hn : forall k v, ~ has (slots (clear c)) k v).
    { intros k v Hh. unfold has in Hh. simpl in Hh. apply in_map_iff in Hh as (? & ? & _). discriminate. }
    split.
    - split; simpl.
      + split; [now rewrite map_length|]. intros i k v E. apply nth_error_In in E. now apply Hn in E.
      + clear. induction (slots c); simpl; auto.
    - intros k. destruct (find (clear c) k) eqn:E; auto. apply find_has in E. now apply Hn in E.
  Qed.

  Lemma reserve_wf c n : wf c -> wf (reserve c n) /\
    forall k v, find (reserve c n) k = Some v -> find c k = Some v.
  Proof.
    intros Hwf. unfold reserve. destruct (_ <=? _); [auto|].
    destruct (rehash_wf (prime (4 * n / 3 + 1)) c (prime_pos _)) as [A B]. split; [exact A|].
    intros k v Hf. apply has_find; [apply Hwf|]. apply B. now apply find_has.
  Qed.

  Lemma run_op_wf c o : wf c -> wf (run_op c o).
  Proof.
    destruct o; simpl; intros H; [now apply emplace_wf|now apply clear_wf|now apply reserve_wf].
  Qed.

  Lemma last_stored_app h1 : forall h2 k acc,
    last_stored (h1 ++ h2) k acc = last_stored h2 k (last_stored h1 k acc).
  Proof. induction h1 as [|[]]; simpl; auto. Qed.

  Lemma cache_wf init h : wf (fold_left run_op h (new_cache init)).
  Proof.
    induction h as [|o h IH] using rev_ind; [apply new_wf|].
    rewrite fold_left_app. simpl. now apply run_op_wf.
  Qed.

  Lemma cache_sound init h : forall k v,
    find (fold_left run_op h (new_cache init)) k = Some v -> last_stored h k None = Some v.
  Proof.
    induction h as [|o h IH] using rev_ind; intros k v Hf.
    - simpl in Hf. apply find_has in Hf. unfold has in Hf. apply repeat_spec in Hf. discriminate.
    - rewrite fold_left_app in Hf. rewrite last_stored_app.
      assert (W : wf (fold_left run_op h (new_cache init))) by apply cache_wf.
      set (c := fold_left run_op h (new_cache init)) in *. simpl in Hf.
      destruct o as [k' v'| |n]; simpl in *.
      + apply (emplace_wf c k' v' W) in Hf as [[-> ->]|[N Hf]].
        * destruct (keq k' k'); congruence.
        * destruct (keq k' k); [congruence|auto].
      + pose proof (proj2 (clear_wf c W) k). congruence.
      + apply IH. eapply reserve_wf; eauto.
  Qed.

  Lemma cache_size init h :
    let c := fold_left run_op h (new_cache init) in
    csize c = length (filter (fun e => match e with Some _ => true | None => false end) (slots c)).
  Proof. simpl. apply cache_wf. Qed.

  Lemma cache_hit init h k v :
    find (emplace (fold_left run_op h (new_cache init)) k v) k = Some v.
  Proof. apply emplace_wf, cache_wf. Qed.
End Cache.
Arguments mk_cache {K V}. Arguments csize {K V}. Arguments slots {K V}.
Arguments OEmplace {K V}. Arguments OClear {K V}. Arguments OReserve {K V}.
