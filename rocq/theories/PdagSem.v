(** Labellings of acyclic graphs exist and are unique; consequences for [changes]. *)
From stdpp Require Import gmap.
From Coq Require Import Lia Permutation.
From Verif Require Import Pdag PdagProofs PdagAdd.
Open Scope Z_scope.

Lemma gate_value_ext ν ν' x : (forall a, In a (g_args x) -> ν' (Z.abs a) = ν (Z.abs a)) ->
  gate_value ν' x = gate_value ν x.
Proof.
  intros H. unfold gate_value. f_equal. apply map_ext_in. intros a Ha. specialize (H a Ha).
  unfold lit. destruct (Z.ltb_spec a 0).
  - now rewrite Z.abs_neq in H by lia; rewrite H.
  - now rewrite Z.abs_eq in H by lia.
Qed.

Section Exists.
  Variables (G : graph) (r : Z -> nat) (σ : Z -> bool).
  Hypothesis W : wf G.
  Hypothesis Hr : ranked G r.

  Fixpoint ev (n : nat) (j : Z) : bool :=
    if j =? 1 then true else
    match gs G !! j with
    | None => σ j
    | Some x => match n with O => false | S n => gate_value (ev n) x end
    end.

  Lemma ev_stable n m j : (r j < n)%nat -> (r j < m)%nat -> ev n j = ev m j.
  Proof using Hr.
    revert m j. induction n as [|n IH]; intros m j Hn Hm; [lia|].
    destruct m as [|m]; [lia|]. simpl. destruct (j =? 1); [auto|].
    destruct (gs G !! j) as [x|] eqn:Ex; [|auto].
    apply gate_value_ext. intros a Ha.
    destruct (gs G !! Z.abs a) as [y|] eqn:Ey.
    - assert (r (Z.abs a) < r j)%nat by (eapply Hr; eauto). apply IH; lia.
    - destruct n, m; simpl; rewrite Ey; auto.
  Qed.

  Lemma labelling_exists : exists ν, consistent G ν /\ forall j, 1 < j < nxt G -> gs G !! j = None -> ν j = σ j.
  Proof using Hr W.
    exists (fun j => ev (S (r j)) j). split; [split|].
    - reflexivity.
    - intros i x Ex. assert (1 < i) by (now apply W in Ex).
      assert (Hi : ev (S (r i)) i = gate_value (ev (r i)) x).
      { cbn [ev]. destruct (Z.eqb_spec i 1); [lia|]. now rewrite Ex. }
      rewrite Hi. apply gate_value_ext. intros a Ha.
      assert (Hs : is_Some (gs G !! Z.abs a) \/ gs G !! Z.abs a = None) by (destruct (gs G !! Z.abs a); eauto).
      destruct Hs as [Hs|Ey].
      + assert (r (Z.abs a) < r i)%nat by (eapply Hr; eauto). apply ev_stable; lia.
      + destruct (r i); simpl; rewrite Ey; auto.
    - intros j Hj Ej. simpl. destruct (Z.eqb_spec j 1); [lia|]. now rewrite Ej.
  Qed.

  Lemma labelling_unique ν ν' : consistent G ν -> consistent G ν' ->
    (forall j, 1 < j < nxt G -> gs G !! j = None -> ν' j = ν j) ->
    forall j, 0 < j < nxt G -> ν' j = ν j.
  Proof using Hr W.
    intros [H1 H2] [H1' H2'] Hv.
    assert (H : forall n j, (r j < n)%nat -> 0 < j < nxt G -> ν' j = ν j).
    { induction n as [|n IH]; intros j Hn Hj; [lia|].
      destruct (Z.eq_dec j 1) as [->|J1]; [congruence|].
      destruct (gs G !! j) as [x|] eqn:Ex; [|apply Hv; auto; lia].
      rewrite (H2 _ _ Ex), (H2' _ _ Ex). apply gate_value_ext. intros a Ha.
      assert (La : 0 < Z.abs a < nxt G).
      { apply W in Ex as [_ [_ Hok]]. destruct (Hok a Ha) as (? & ? & _). lia. }
      destruct (gs G !! Z.abs a) as [y|] eqn:Ey.
      - apply IH; auto. assert (r (Z.abs a) < r j)%nat by (eapply Hr; eauto). lia.
      - destruct (Z.eq_dec (Z.abs a) 1) as [->|]; [congruence|]. apply Hv; auto; lia. }
    intros j. apply (H (S (r j))). lia.
  Qed.
End Exists.

Lemma node_value_total G σ j : wf G -> acyclic G -> exists b, node_value G σ j b.
Proof.
  intros W [r Hr]. destruct (labelling_exists G r σ W Hr) as (ν & Hc & Hv). exists (ν j), ν. auto.
Qed.
Lemma node_value_unique G σ j b b' : wf G -> acyclic G -> 0 < j < nxt G ->
  node_value G σ j b -> node_value G σ j b' -> b' = b.
Proof.
  intros W [r Hr] Hj (ν & Hc & Hv & <-) (ν' & Hc' & Hv' & <-).
  eapply labelling_unique; eauto. intros k Hk Ek. rewrite Hv, Hv'; auto.
Qed.

(** The value of an argument. *)
Definition literal_value (G : graph) (σ : Z -> bool) (a : Z) (b : bool) : Prop :=
  exists v, node_value G σ (Z.abs a) v /\ b = if a <? 0 then negb v else v.

Lemma lit_abs ν a : lit ν a = if a <? 0 then negb (ν (Z.abs a)) else ν (Z.abs a).
Proof. unfold lit. destruct (Z.ltb_spec a 0); [now rewrite Z.abs_neq by lia|now rewrite Z.abs_eq by lia]. Qed.

Lemma changes_value G G' i a x r P : wf G -> ranked G r -> gs G !! i = Some x -> below G a ->
  (is_Some (gs G !! Z.abs a) -> (r (Z.abs a) < r i)%nat) ->
  (forall ν, P ν = conn_value (g_type x) (g_min x) (lit ν a :: map (lit ν) (g_args x))) ->
  changes G G' i a P ->
  wf G' /\ acyclic G' /\
  (forall j, 1 < j < nxt G -> (gs G' !! j = None <-> gs G !! j = None)) /\
  (forall j, nxt G <= j < nxt G' -> is_Some (gs G' !! j)) /\
  (forall j, j <> i -> j < nxt G -> gs G' !! j = gs G !! j) /\
  (forall σ j b, 0 < j < nxt G -> (is_Some (gs G !! j) -> (r j < r i)%nat) ->
     (node_value G' σ j b <-> node_value G σ j b)) /\
  forall σ vs, Forall2 (literal_value G σ) (a :: g_args x) vs ->
   (forall b, node_value G' σ i b <-> b = conn_value (g_type x) (g_min x) vs).
Proof.
  intros W Hr Ex Ha Hra HP HC.
  assert (Wx := proj2 W _ _ Ex). destruct Wx as [Hi Hok].
  assert (WA : wf G' /\ acyclic G').
  { split; [apply HC|]. destruct (ch_rank _ _ _ _ _ HC r Hr Hra) as (r' & Hr' & _). now exists r'. }
  split; [apply WA|]. split; [apply WA|].
  assert (Hvars : forall j, 1 < j < nxt G -> (gs G' !! j = None <-> gs G !! j = None)).
  { intros j Hj. destruct (Z.eq_dec j i) as [->|J].
    - rewrite Ex. destruct (ch_self _ _ _ _ _ HC) as [y ->]. split; discriminate.
    - rewrite (ch_others _ _ _ _ _ HC) by (auto; lia). tauto. }
  split; [auto|]. split; [apply HC|]. split; [apply HC|].
  assert (Hex : forall σ,
     (forall vs, Forall2 (literal_value G σ) (a :: g_args x) vs -> node_value G' σ i (conn_value (g_type x) (g_min x) vs)) /\
     (forall j b, 0 < j < nxt G -> (is_Some (gs G !! j) -> (r j < r i)%nat) -> node_value G σ j b -> node_value G' σ j b)).
  { intros σ. destruct (labelling_exists G r σ W Hr) as (ν0 & Hc0 & Hv0).
    (* the graph with the raw argument *)
    set (R := put i (with_args x (a :: g_args x)) G).
    assert (HR : ranked R r).
    { intros j y b. unfold R. simpl. intros Ey Hb Hs.
      assert (Hs' : is_Some (gs G !! Z.abs b)).
      { destruct (Z.eq_dec (Z.abs b) i) as [E|E]; [rewrite E; eauto|]. now rewrite lookup_insert_ne in Hs by auto. }
      destruct (Z.eq_dec j i) as [->|J].
      - rewrite lookup_insert in Ey. injection Ey as <-. destruct Hb as [<-|Hb]; [auto|]. eapply Hr; eauto.
      - rewrite lookup_insert_ne in Ey by auto. eapply Hr; eauto. }
    set (ν := fun j => ev R σ (S (r j)) j).
    assert (N1 : ν 1 = true) by reflexivity.
    assert (Nv : forall j, 1 < j -> gs G !! j = None -> ν j = σ j).
    { intros j Hj Ej. unfold ν. simpl. destruct (Z.eqb_spec j 1); [lia|]. rewrite lookup_insert_ne by congruence. now rewrite Ej. }
    assert (Ng : forall j y, 1 < j -> gs R !! j = Some y -> ν j = gate_value ν y).
    { intros j y Hj Ey.
      assert (Hi' : ν j = gate_value (ev R σ (r j)) y).
      { unfold ν. cbn [ev]. destruct (Z.eqb_spec j 1); [lia|]. now rewrite Ey. }
      rewrite Hi'. apply gate_value_ext. intros b Hb.
      assert (Hs : is_Some (gs R !! Z.abs b) \/ gs R !! Z.abs b = None) by (destruct (gs R !! Z.abs b); eauto).
      destruct Hs as [Hs|Ez].
      - assert (r (Z.abs b) < r j)%nat by (eapply HR; eauto). unfold ν. apply (ev_stable R r σ HR); lia.
      - unfold ν. destruct (r j); cbn [ev]; rewrite Ez; auto. }
    assert (No : forall j y, j <> i -> gs G !! j = Some y -> ν j = gate_value ν y).
    { intros j y J Ey. apply Ng; [apply W in Ey; lia|]. unfold R. simpl. now rewrite lookup_insert_ne by auto. }
    assert (Ni : ν i = P ν).
    { rewrite HP. rewrite (Ng i (with_args x (a :: g_args x))); [reflexivity|lia|]. unfold R. simpl. now rewrite lookup_insert. }
    destruct (ch_sets _ _ _ _ _ HC ν N1 No Ni) as (ν' & Hc' & Hag).
    assert (Hv' : forall j, 1 < j < nxt G' -> gs G' !! j = None -> ν' j = σ j).
    { intros j Hj Ej. destruct (Z.lt_ge_cases j (nxt G)) as [L|L].
      + rewrite Hag by auto. apply Nv; [lia|]. apply Hvars; auto. lia.
      + destruct (ch_fresh _ _ _ _ _ HC j ltac:(lia)) as [? E]. congruence. }
      (* below i the labelling is that of G *)
      assert (Hb : forall n j, (r j < n)%nat -> (is_Some (gs G !! j) -> r j < r i)%nat -> 0 < j < nxt G -> ν j = ν0 j).
      { induction n as [|n IH]; intros j Hn Hji Hj; [lia|].
        destruct (Z.eq_dec j 1) as [->|J1]; [rewrite N1; symmetry; apply Hc0|].
        destruct (gs G !! j) as [y|] eqn:Ey.
        - assert (j <> i) by (intros ->; specialize (Hji ltac:(eauto)); lia).
          rewrite (No j y) by auto. rewrite (proj2 Hc0 _ _ Ey). apply gate_value_ext. intros b Hb'.
          assert (Lb : 0 < Z.abs b < nxt G).
          { apply W in Ey as [_ [_ Hok']]. destruct (Hok' b Hb') as (? & ? & _). lia. }
          destruct (gs G !! Z.abs b) as [z|] eqn:Ez.
          + assert (r (Z.abs b) < r j)%nat by (eapply Hr; eauto). apply IH; auto; [lia|]. intros _. specialize (Hji ltac:(eauto)). lia.
          + destruct (Z.eq_dec (Z.abs b) 1) as [->|]; [rewrite N1; symmetry; apply Hc0|].
            rewrite Nv, Hv0 by (auto; lia). auto.
        - rewrite Nv, Hv0 by (auto; lia). auto. }
    split; [|intros j b Hj Hji Hnv].
    - intros vs Hvs. exists ν'. split; [auto|]. split; [auto|]. rewrite Hag by lia. rewrite Ni, HP. f_equal.
      assert (Hl : forall b, In b (a :: g_args x) -> lit ν b = lit ν0 b).
      { intros b Hb'. rewrite !lit_abs.
        assert (E : ν (Z.abs b) = ν0 (Z.abs b)); [|now rewrite E].
        apply (Hb (S (r (Z.abs b)))); [lia|..].
        - intros Hs. destruct Hb' as [<-|Hb']; [auto|]. eapply Hr; eauto.
        - destruct Hb' as [<-|Hb']; [destruct Ha; lia|]. destruct (proj2 Hok b Hb') as (? & ? & _). lia. }
      change (lit ν a :: map (lit ν) (g_args x)) with (map (lit ν) (a :: g_args x)).
      assert (Hlt : forall b, In b (a :: g_args x) -> 0 < Z.abs b < nxt G).
      { intros b [<-|Hb']; [destruct Ha; lia|]. destruct (proj2 Hok b Hb') as (? & ? & _). lia. }
      revert Hvs Hl Hlt. generalize (a :: g_args x). intros l Hvs. induction Hvs as [|b v l vs Hb1 Hvs IH]; intros Hl Hlt; [reflexivity|].
      simpl. f_equal.
      + rewrite Hl by (left; auto). destruct Hb1 as (w & Hw & ->).
        assert (w = ν0 (Z.abs b)).
        { eapply (node_value_unique G σ); [auto|now exists r|apply Hlt; left; auto| |exact Hw].
          exists ν0. auto. }
        subst w. apply lit_abs.
      + apply IH; intros; [apply Hl|apply Hlt]; right; auto.
    - exists ν'. split; [auto|]. split; [auto|]. rewrite Hag by lia.
      rewrite (Hb (S (r j))) by (auto; lia).
      eapply (node_value_unique G σ); [auto|now exists r|exact Hj|exact Hnv|]. exists ν0. auto. }
  pose proof (ch_nxt _ _ _ _ _ HC) as Hnn.
  split.
  - intros σ j b Hj Hji. split; [|apply Hex; auto].
    intros Hb. destruct (node_value_total G σ j W ltac:(now exists r)) as (b0 & Hb0).
    assert (b = b0) as ->; [|auto].
    eapply (node_value_unique G' σ j); [apply WA|apply WA|lia|apply Hex; eauto|exact Hb].
  - intros σ vs Hvs b. split.
    + intros Hb. eapply (node_value_unique G' σ i); [apply WA|apply WA|lia|now apply (proj1 (Hex σ))|exact Hb].
    + intros ->. now apply (proj1 (Hex σ)).
Qed.
