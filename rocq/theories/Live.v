(** The part of a graph that is alive: gates are shared pointers held by the root pointer and by
    the argument lists of their parents (/repo/src/pdag.h:373-385, 812; pdag.h:230-260: parents are
    weak pointers), so a gate that is not below the root any more is destroyed.  The rewriting of
    the model (Pdag.v, Preproc.v) keeps such gates in its map; [live] takes them away. *)
From stdpp Require Import gmap.
From Coq Require Import List ZArith Lia Bool.
Import ListNotations.
From Verif Require Import Pdag PdagProofs PdagSem ZbddModules.
Open Scope Z_scope.

Record live (G : graph) (root : Z) (H : graph) : Prop := {
  l_nxt : nxt H = nxt G;
  l_gates : forall j x, gs H !! j = Some x <-> gs G !! j = Some x /\ under G root j }.

Lemma under_trans G i j k : under G i j -> under G j k -> under G i k.
Proof. intros A. induction 1 as [|k x a U IH E J]; auto. eapply under_arg; eauto. Qed.
(** The nodes below a node can be listed. *)
Lemma under_list G r : ranked G r -> forall i, exists l, forall j, In j l <-> under G i j.
Proof.
  intros RK. assert (H : forall n i, (r i < n)%nat -> exists l, forall j, In j l <-> under G i j); [|intros i; apply (H (S (r i))); lia].
  induction n as [|n IH]; intros i L; [lia|]. destruct (gs G !! i) as [x|] eqn:E.
  - assert (LS : forall l, incl l (g_args x) -> exists m, forall j, In j m <-> exists a, In a l /\ under G (Z.abs a) j).
    { induction l as [|a l IHl]; intros I; [exists []; split; [intros []|intros (a & [] & _)]|]. destruct IHl as [m M]; [intros b J; apply I; simpl; auto|].
      assert (D : exists la, forall j, In j la <-> under G (Z.abs a) j).
      { destruct (gs G !! Z.abs a) as [y|] eqn:Ey.
        - apply IH. assert (r (Z.abs a) < r i)%nat; [|lia]. apply (RK i x a E); [apply I; simpl; auto|eauto].
        - exists [Z.abs a]. intros j. split; [intros [<-|[]]; constructor|]. intros U. left. induction U as [|j y b U IHU F J]; auto. subst j. congruence. }
      destruct D as [la LA]. exists (la ++ m). intros j. rewrite in_app_iff, LA, M. split.
      - intros [U|(b & J & U)]; [exists a|exists b]; simpl; auto.
      - intros (b & [<-|J] & U); eauto. }
    destruct (LS (g_args x) (incl_refl _)) as [m M]. exists (i :: m). intros j. split.
    + intros [<-|J]; [constructor|]. apply M in J as (a & Ia & U). eapply under_trans; [|exact U]. apply (under_arg G i i x a); auto. constructor.
    + intros U. induction U as [|j y a U IHU F J]; [left; auto|]. right. apply M. destruct IHU as [<-|IHU].
      * rewrite E in F. injection F as <-. exists a. split; auto. constructor.
      * apply M in IHU as (b & Jb & Ub). exists b. split; auto. eapply under_arg; eauto.
  - exists [i]. intros j. split; [intros [<-|[]]; constructor|]. intros U. left. induction U as [|j y a U IHU F J]; auto. subst j. congruence.
Qed.
Lemma under_dec G r i j : ranked G r -> under G i j \/ ~ under G i j.
Proof. intros RK. destruct (under_list G r RK i) as [l H]. destruct (in_dec Z.eq_dec j l) as [I|I]; [left|right]; rewrite <- H; auto. Qed.
(** Every graph has a live part. *)
Lemma live_exists G root : acyclic G -> exists H, live G root H.
Proof.
  intros [r RK]. destruct (under_list G r RK root) as [l U].
  exists (Graph (base.filter (fun p : Z * gate => p.1 ∈ l) (gs G)) (nxt G) (nulls G) (reg G)). constructor; auto. cbn [gs]. intros j x. rewrite map_filter_lookup_Some. cbn [fst].
  rewrite <- U, <- elem_of_list_In. tauto.
Qed.
Section Live.
Context (G : graph) (root : Z) (H : graph) (L : live G root H).
Lemma live_wf : PdagProofs.wf G -> PdagProofs.wf H.
Proof.
  intros [W0 W]. pose proof (l_nxt _ _ _ L) as N. split; [rewrite N; auto|]. intros j x E. apply (l_gates _ _ _ L) in E as [E _]. rewrite N. apply (W j x E).
Qed.
Lemma live_ranked r : ranked G r -> ranked H r.
Proof.
  intros RK i x a E J [y F]. apply (l_gates _ _ _ L) in E as [E _]. apply (l_gates _ _ _ L) in F as [F _]. eapply RK; eauto.
Qed.
Lemma live_acyclic : acyclic G -> acyclic H.
Proof. intros [r RK]. exists r. apply live_ranked. auto. Qed.
Lemma live_root : is_Some (gs G !! root) -> is_Some (gs H !! root).
Proof. intros [x E]. exists x. apply (l_gates _ _ _ L). split; auto. constructor. Qed.
Lemma live_none j : under G root j -> (gs H !! j = None <-> gs G !! j = None).
Proof.
  intros U. destruct (gs H !! j) as [x|] eqn:E.
  - apply (l_gates _ _ _ L) in E as [E _]. split; congruence.
  - split; auto. intros _. destruct (gs G !! j) as [y|] eqn:F; auto. rewrite (proj2 (l_gates _ _ _ L j y)) in E by auto. discriminate.
Qed.
Lemma live_under j : under H root j <-> under G root j.
Proof.
  split.
  - induction 1 as [|j x a U IH E J]; [constructor|]. apply (l_gates _ _ _ L) in E as [E _]. eapply under_arg; eauto.
  - induction 1 as [|j x a U IH E J]; [constructor|]. apply (under_arg H root j x a); auto. apply (l_gates _ _ _ L). auto.
Qed.
Lemma live_var v : var H root v <-> var G root v.
Proof. unfold var. rewrite live_under. split; intros [U N]; split; auto; apply live_none; auto. Qed.
Lemma live_all i : is_Some (gs H !! i) -> under H root i.
Proof. intros [x E]. apply (l_gates _ _ _ L) in E as [_ U]. apply live_under. auto. Qed.
(** The root has the same value. *)
Lemma live_label r ν ν' : ranked G r -> PdagProofs.wf G -> consistent G ν -> consistent H ν' ->
  (forall v, 1 < v < nxt G -> var G root v -> ν v = ν' v) -> forall j, under G root j -> is_Some (gs G !! j) \/ 0 < j < nxt G -> ν j = ν' j.
Proof.
  intros RK [W0 W] [C1 C2] [D1 D2] AG. assert (X : forall n j, (r j < n)%nat -> under G root j -> is_Some (gs G !! j) \/ 0 < j < nxt G -> ν j = ν' j); [|intros j; apply (X (S (r j))); lia].
  induction n as [|n IH]; intros j Lj U B; [lia|]. destruct (gs G !! j) as [x|] eqn:E.
  - rewrite (C2 j x E), (D2 j x) by (apply (l_gates _ _ _ L); auto). apply gate_value_ext. intros a J. assert (Ua : under G root (Z.abs a)) by (eapply under_arg; eauto).
    destruct (W j x E) as [_ [_ AO]]. destruct (AO a J) as (Z0 & Ba & _). destruct (gs G !! Z.abs a) as [y|] eqn:F.
    + apply IH; [|auto|left; eauto]. pose proof (RK j x a E J ltac:(eauto)). lia.
    + destruct (Z.eq_dec (Z.abs a) 1) as [->|]; [congruence|]. apply AG; [lia|]. split; auto.
  - destruct B as [[y Q]|B]; [discriminate|]. destruct (Z.eq_dec j 1) as [->|]; [congruence|]. apply AG; [lia|]. split; auto.
Qed.
Lemma live_value σ b : PdagProofs.wf G -> acyclic G -> is_Some (gs G !! root) -> (node_value H σ root b <-> node_value G σ root b).
Proof.
  intros W [r RK] S. pose proof (l_nxt _ _ _ L) as N. split; intros (ν & C & A & V).
  - destruct (labelling_exists G r σ W RK) as (μ & M & B). exists μ. split; auto. split; auto. rewrite <- V.
    apply (live_label r μ ν RK W M C); auto; [|constructor]. intros v Bv [U Nv]. rewrite B, A; auto; [lia|apply live_none; auto].
  - destruct (labelling_exists H r σ (live_wf W) (live_ranked r RK)) as (μ & M & B). exists μ. split; auto. split; auto. rewrite <- V. symmetry.
    apply (live_label r ν μ RK W C M); auto; [|constructor]. intros v Bv [U Nv]. rewrite B, A; auto; [lia|apply live_none; auto].
Qed.
End Live.
(** The value of a node depends on the variables below it only. *)
Lemma value_local G σ σ' i b : PdagProofs.wf G -> acyclic G -> 0 < i < nxt G -> (forall v, 1 < v < nxt G -> var G i v -> σ v = σ' v) -> node_value G σ i b -> node_value G σ' i b.
Proof.
  intros [W0 W] [r RK] Bi AG (ν & [C1 C2] & A & V). destruct (labelling_exists G r σ' (conj W0 W) RK) as (μ & [M1 M2] & B). exists μ. split; [split; auto|]. split; auto. rewrite <- V. clear V.
  assert (X : forall n j, (r j < n)%nat -> under G i j -> 0 < j < nxt G -> μ j = ν j); [|apply (X (S (r i))); auto; constructor].
  induction n as [|n IH]; intros j Lj U Bj; [lia|]. destruct (gs G !! j) as [x|] eqn:E.
  - rewrite (C2 j x E), (M2 j x E). apply gate_value_ext. intros a J. assert (Ua : under G i (Z.abs a)) by (eapply under_arg; eauto).
    destruct (W j x E) as [_ [_ AO]]. destruct (AO a J) as (Z0 & Ba & _). destruct (gs G !! Z.abs a) as [y|] eqn:F.
    + apply IH; [|auto|lia]. pose proof (RK j x a E J ltac:(eauto)). lia.
    + destruct (Z.eq_dec (Z.abs a) 1) as [->|]; [congruence|]. rewrite A, B by (auto; lia). symmetry. apply AG; [lia|]. split; auto.
  - destruct (Z.eq_dec j 1) as [->|]; [congruence|]. rewrite A, B by (auto; lia). symmetry. apply AG; [lia|]. split; auto.
Qed.
