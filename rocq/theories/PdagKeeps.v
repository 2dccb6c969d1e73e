(** Graph rewriting that keeps the meaning of every node: framework. *)
From stdpp Require Import gmap.
From Coq Require Import Lia Permutation.
From Verif Require Import Pdag PdagProofs PdagAdd PdagSem.
Open Scope Z_scope.

(** [G'] gives every node of [G] the same value. *)
Record keeps (G G' : graph) : Prop := {
  k_wf : wf G';
  k_nxt : nxt G <= nxt G';
  k_vars : forall j, 1 < j < nxt G -> (gs G' !! j = None <-> gs G !! j = None);
  k_fresh : forall j, nxt G <= j < nxt G' -> is_Some (gs G' !! j);
  k_sem : forall ν, consistent G ν -> exists ν', consistent G' ν' /\ forall j, j < nxt G -> ν' j = ν j;
  k_acyclic : acyclic G -> acyclic G' }.

Lemma keeps_refl G : wf G -> keeps G G.
Proof. intros W. constructor; auto; try lia; try tauto; try (intros; lia). intros ν H; exists ν; auto. Qed.

Lemma keeps_trans G1 G2 G3 : keeps G1 G2 -> keeps G2 G3 -> keeps G1 G3.
Proof.
  intros A B. pose proof (k_nxt _ _ A). pose proof (k_nxt _ _ B). constructor.
  - apply B.
  - lia.
  - intros j Hj. rewrite (k_vars _ _ B) by lia. now apply A.
  - intros j Hj. destruct (Z.lt_ge_cases j (nxt G2)) as [L|L]; [|apply B; lia].
    destruct (k_fresh _ _ A j ltac:(lia)) as [x Ex].
    destruct (gs G3 !! j) eqn:E; [eauto|]. apply (k_vars _ _ B) in E; [congruence|].
    split; [|lia]. apply (k_wf _ _ A) in Ex. lia.
  - intros ν Hc. destruct (k_sem _ _ A ν Hc) as (ν2 & H2 & E2). destruct (k_sem _ _ B ν2 H2) as (ν3 & H3 & E3).
    exists ν3. split; [auto|]. intros j Hj. rewrite E3, E2 by lia. auto.
  - intros Ha. apply B, A, Ha.
Qed.

Lemma keeps_wf G G' : keeps G G' -> wf G'. Proof. apply k_wf. Qed.

(** The result: same value for every node and assignment. *)
Lemma keeps_value G G' : wf G -> acyclic G -> keeps G G' ->
  forall σ j b, 0 < j < nxt G -> (node_value G' σ j b <-> node_value G σ j b).
Proof.
  intros W A K.
  assert (H : forall σ j b, 0 < j < nxt G -> node_value G σ j b -> node_value G' σ j b).
  { intros σ j b Hj (ν & Hc & Hv & Hb). destruct (k_sem _ _ K ν Hc) as (ν' & Hc' & E).
    exists ν'. split; [auto|]. split; [|rewrite E by lia; auto].
    intros k Hk Ek. destruct (Z.lt_ge_cases k (nxt G)).
    - rewrite E by lia. apply Hv; [lia|]. apply (k_vars _ _ K); auto. lia.
    - destruct (k_fresh _ _ K k ltac:(lia)) as [? ?]. congruence. }
  intros σ j b Hj. split; [|apply H; auto].
  intros Hb. destruct (node_value_total G σ j W A) as (b0 & Hb0).
  assert (b = b0) as ->; auto. pose proof (k_nxt _ _ K).
  eapply (node_value_unique G' σ j); [apply K|apply K; auto|lia|apply H; eauto|auto].
Qed.

(** Edit of one gate. *)
Lemma keeps_edit G G1 G' i b x x1 P :
  wf G -> gs G !! i = Some x -> gs G1 = <[i := x1]> (gs G) -> nxt G1 = nxt G ->
  (forall c, In c (g_args x1) -> In c (g_args x)) ->
  changes G1 G' i b P ->
  (forall ν, consistent G ν -> P ν = ν i) ->
  (acyclic G -> exists r, ranked G r /\ (is_Some (gs G !! Z.abs b) -> (r (Z.abs b) < r i)%nat)) ->
  keeps G G'.
Proof.
  intros W Ex HG1 Hn Hsub C HP Hr.
  assert (Hi : 1 < i < nxt G) by (now apply W in Ex).
  pose proof (ch_nxt _ _ _ _ _ C) as Hnn.
  assert (Hsome : forall k, is_Some (gs G1 !! k) <-> is_Some (gs G !! k)).
  { intros k. rewrite HG1. destruct (Z.eq_dec k i) as [->|]; [rewrite lookup_insert, Ex; split; eauto|].
    now rewrite lookup_insert_ne by auto. }
  constructor.
  - apply C.
  - lia.
  - intros j Hj. destruct (Z.eq_dec j i) as [->|J].
    + destruct (ch_self _ _ _ _ _ C) as [y ->]. rewrite Ex. split; discriminate.
    + rewrite (ch_others _ _ _ _ _ C) by (auto; lia). now rewrite HG1, lookup_insert_ne by auto.
  - intros j Hj. apply C. lia.
  - intros ν Hc. rewrite <- Hn. apply (ch_sets _ _ _ _ _ C ν); [apply Hc| |].
    + intros j y J Ey. rewrite HG1, lookup_insert_ne in Ey by auto. now apply Hc.
    + symmetry. auto.
  - intros A. destruct (Hr A) as (r & Hrk & Hrb).
    destruct (ch_rank _ _ _ _ _ C r) as (r' & Hr' & _); [..|now exists r'].
    + intros j y c Ey Hc Hs. apply Hsome in Hs. rewrite HG1 in Ey. destruct (Z.eq_dec j i) as [->|J].
      * rewrite lookup_insert in Ey. injection Ey as <-. eapply Hrk; eauto.
      * rewrite lookup_insert_ne in Ey by auto. eapply Hrk; eauto.
    + intros Hs. apply Hrb. now apply Hsome.
Qed.

(** Replacing the contents of one gate, no fresh gates. *)
Lemma keeps_put G G' i x x' :
  wf G -> gs G !! i = Some x -> gs G' = <[i := x']> (gs G) -> nxt G' = nxt G ->
  args_ok (nxt G) (g_args x') ->
  (forall ν, consistent G ν -> gate_value ν x' = gate_value ν x) ->
  (acyclic G -> exists r, ranked G r /\ forall c, In c (g_args x') -> is_Some (gs G !! Z.abs c) -> (r (Z.abs c) < r i)%nat) ->
  keeps G G'.
Proof.
  intros W Ex HG' Hn Hok HP Hr.
  assert (Hi : 1 < i < nxt G) by (now apply W in Ex).
  assert (Hsome : forall k, is_Some (gs G' !! k) <-> is_Some (gs G !! k)).
  { intros k. rewrite HG'. destruct (Z.eq_dec k i) as [->|]; [rewrite lookup_insert, Ex; split; eauto|].
    now rewrite lookup_insert_ne by auto. }
  constructor.
  - split; [destruct W; lia|]. intros j y Ey. rewrite HG' in Ey. rewrite Hn. destruct (Z.eq_dec j i) as [->|J].
    + rewrite lookup_insert in Ey. injection Ey as <-. auto.
    + rewrite lookup_insert_ne in Ey by auto. now apply W.
  - lia.
  - intros j Hj. rewrite HG'. destruct (Z.eq_dec j i) as [->|J].
    + rewrite lookup_insert, Ex. split; discriminate.
    + now rewrite lookup_insert_ne by auto.
  - intros; lia.
  - intros ν Hc. exists ν. split; [|auto]. split; [apply Hc|]. intros j y Ey. rewrite HG' in Ey.
    destruct (Z.eq_dec j i) as [->|J].
    + rewrite lookup_insert in Ey. injection Ey as <-. rewrite HP by auto. now apply Hc.
    + rewrite lookup_insert_ne in Ey by auto. now apply Hc.
  - intros A. destruct (Hr A) as (r & Hrk & Hrb). exists r.
    intros j y c Ey Hc Hs. apply Hsome in Hs. rewrite HG' in Ey. destruct (Z.eq_dec j i) as [->|J].
    + rewrite lookup_insert in Ey. injection Ey as <-. auto.
    + rewrite lookup_insert_ne in Ey by auto. eapply Hrk; eauto.
Qed.

(** A fresh gate nobody refers to. *)
Lemma keeps_new G G' x : wf G -> gs G' = <[nxt G := x]> (gs G) -> nxt G' = nxt G + 1 ->
  args_ok (nxt G) (g_args x) -> keeps G G'.
Proof.
  intros W HG' Hn Hok.
  assert (W1 : 1 < nxt G) by apply W.
  assert (Ho : forall j, j <> nxt G -> gs G' !! j = gs G !! j) by (intros j J; now rewrite HG', lookup_insert_ne by auto).
  assert (Hnew : gs G' !! nxt G = Some x) by (now rewrite HG', lookup_insert).
  assert (Hlt : forall j y a, gs G !! j = Some y -> In a (g_args y) -> Z.abs a < nxt G).
  { intros j y a Ey Ha. apply W in Ey as [_ [_ H]]. now apply H in Ha. }
  constructor.
  - split; [lia|]. intros j y Ey. destruct (Z.eq_dec j (nxt G)) as [->|J].
    + rewrite Hnew in Ey. injection Ey as <-. split; [lia|]. eapply args_ok_mono; eauto. lia.
    + rewrite Ho in Ey by auto. apply W in Ey as [? ?]. split; [lia|]. eapply args_ok_mono; eauto. lia.
  - lia.
  - intros j Hj. rewrite Ho by lia. tauto.
  - intros j Hj. replace j with (nxt G) by lia. eauto.
  - intros ν [H1 Hc].
    exists (fun j => if j =? nxt G then gate_value ν x else ν j). split; [split|].
    + destruct (Z.eqb_spec 1 (nxt G)); [lia|auto].
    + assert (Hag : forall y, (forall a, In a (g_args y) -> Z.abs a < nxt G) ->
         gate_value (fun j => if j =? nxt G then gate_value ν x else ν j) y = gate_value ν y).
      { intros y Hy. apply gate_value_ext. intros a Ha. specialize (Hy a Ha). destruct (Z.eqb_spec (Z.abs a) (nxt G)); [lia|auto]. }
      intros j y Ey. destruct (Z.eqb_spec j (nxt G)) as [->|J].
      * rewrite Hnew in Ey. injection Ey as <-. rewrite Hag; auto. intros a Ha. now apply Hok in Ha.
      * rewrite Ho in Ey by auto. rewrite Hag; eauto.
    + intros j Hj. destruct (Z.eqb_spec j (nxt G)); [lia|auto].
  - intros [r Hr]. 
    set (m := fold_right (fun a n => Nat.max (r (Z.abs a)) n) 0%nat (g_args x)).
    exists (fun j => if j =? nxt G then S m else r j).
    intros j y a Ey Ha Hs.
    assert (Hma : forall a, In a (g_args x) -> (r (Z.abs a) <= m)%nat).
    { intros c. unfold m. clear. induction (g_args x) as [|d l IH]; intros []; simpl; [subst; lia|]. specialize (IH H). lia. }
    assert (La : Z.abs a < nxt G).
    { destruct (Z.eq_dec j (nxt G)) as [->|J]; [rewrite Hnew in Ey; injection Ey as <-; now apply Hok in Ha|].
      rewrite Ho in Ey by auto. eauto. }
    destruct (Z.eqb_spec (Z.abs a) (nxt G)); [lia|].
    destruct (Z.eqb_spec j (nxt G)) as [->|J].
    + rewrite Hnew in Ey. injection Ey as <-. specialize (Hma a Ha). lia.
    + rewrite Ho in Ey by auto. rewrite Ho in Hs by auto. eapply Hr; eauto.
Qed.

Lemma keeps_sem_gate G i x ν : consistent G ν -> gs G !! i = Some x -> ν i = gate_value ν x.
Proof. intros [_ H]. apply H. Qed.

(** ** A rank that depends only on the arguments *)
Fixpoint height (G : graph) (n : nat) (j : Z) : nat :=
  match gs G !! j with
  | None => 0
  | Some x => match n with
              | O => 0
              | S n => S (fold_right (fun a m => Nat.max (height G n (Z.abs a)) m) 0%nat (g_args x))
              end
  end.
Lemma height_stable G r : ranked G r -> forall n m j, (r j < n)%nat -> (r j < m)%nat -> height G n j = height G m j.
Proof.
  intros Hr. induction n as [|n IH]; intros m j Hn Hm; [lia|]. destruct m as [|m]; [lia|].
  simpl. destruct (gs G !! j) as [x|] eqn:Ex; [|auto]. f_equal.
  assert (H : forall a, In a (g_args x) -> height G n (Z.abs a) = height G m (Z.abs a)).
  { intros a Ha. destruct (gs G !! Z.abs a) as [y|] eqn:Ey.
    - assert (r (Z.abs a) < r j)%nat by (eapply Hr; eauto). apply IH; lia.
    - destruct n, m; simpl; now rewrite Ey. }
  revert H. generalize (g_args x). intros l. induction l as [|a l IHl]; intros H; [auto|]. simpl.
  rewrite (H a) by (left; auto). rewrite IHl; auto. intros; apply H; right; auto.
Qed.
Lemma canonical_rank G : acyclic G -> exists h, ranked G h /\
  forall i j x y, gs G !! i = Some x -> gs G !! j = Some y -> (forall a, In a (g_args x) -> In a (g_args y)) -> (h i <= h j)%nat.
Proof.
  intros [r Hr]. exists (fun j => height G (S (r j)) j).
  set (mx := fun n l => fold_right (fun a m => Nat.max (height G n (Z.abs a)) m) 0%nat l).
  assert (Hmx : forall n a l, In a l -> (height G n (Z.abs a) <= mx n l)%nat).
  { intros n a l. induction l as [|b l IH]; intros []; simpl; [subst; lia|]. specialize (IH H). fold (mx n l). lia. }
  assert (Hmx' : forall n m l l', (forall a, In a l -> exists b, In b l' /\ (height G n (Z.abs a) <= height G m (Z.abs b))%nat) -> (mx n l <= mx m l')%nat).
  { intros n m l l' H. induction l as [|a l IH]; [simpl; lia|]. simpl. fold (mx n l).
    destruct (H a) as (b & Hb & L); [left; auto|]. pose proof (Hmx m b l' Hb).
    assert (mx n l <= mx m l')%nat by (apply IH; intros; apply H; right; auto). lia. }
  assert (Hst : forall j x a, gs G !! j = Some x -> In a (g_args x) ->
            height G (r j) (Z.abs a) = height G (S (r (Z.abs a))) (Z.abs a)).
  { intros j x a Ex Ha. destruct (gs G !! Z.abs a) as [y|] eqn:Ey.
    - assert (r (Z.abs a) < r j)%nat by (eapply Hr; eauto). apply (height_stable G r Hr); lia.
    - destruct (r j); simpl; now rewrite Ey. }
  assert (Hh : forall j x, gs G !! j = Some x -> height G (S (r j)) j = S (mx (r j) (g_args x))).
  { intros j x Ex. simpl. now rewrite Ex. }
  split.
  - intros i x a Ex Ha Hs. rewrite (Hh i x Ex). rewrite <- (Hst i x a Ex Ha). pose proof (Hmx (r i) a _ Ha). lia.
  - intros i j x y Ex Ey H. rewrite (Hh i x Ex), (Hh j y Ey).
    enough (mx (r i) (g_args x) <= mx (r j) (g_args y))%nat by lia.
    apply Hmx'. intros a Ha. exists a. split; [auto|]. rewrite (Hst i x a Ex Ha), (Hst j y a Ey) by auto. lia.
Qed.

Lemma keeps_same G G' : wf G -> gs G' = gs G -> nxt G' = nxt G -> keeps G G'.
Proof.
  intros W E1 E2. constructor.
  - unfold wf. rewrite E1, E2. exact W.
  - lia.
  - intros; now rewrite E1.
  - intros; lia.
  - intros ν Hc. exists ν. split; [|auto]. unfold consistent. now rewrite E1.
  - intros [r Hr]. exists r. unfold ranked. now rewrite E1.
Qed.
