(** EliminateConstantModules on families with complemented literals. *)
From Coq Require Import List ZArith Lia Bool.
Import ListNotations.
From Verif Require Import Zbdd ZbddProofs ZbddHistory.
Open Scope Z_scope.

Section Signed.
Context (ord : Z -> Z) (top : Z) (counted : Z -> bool) (ORD : ordering ord) (limit : Z) (const : Z -> option bool).
Notation wf := (Zbdd.wf ord top).
Notation size := (Zbdd.size counted).
Notation inv := (ZbddProofs.inv ord top counted).
Notation alive := (ZbddHistory.alive const).
Notation remaining := (ZbddHistory.remaining const).

(** Every product of the result implies what is left of a living product, and what is left of a
    living product contains a product of the result. *)
Record left (t r : zt) : Prop := {
  l_wf : wf r; l_anti : antichain r;
  l_lits : forall j, lits r j -> lits t j /\ const j = None;
  l_sound : forall v, assignment v -> ev v r = true -> exists p, In p (fam t) /\ alive p = true /\ forall j, In j (remaining p) -> v j = true;
  l_complete : forall p, In p (fam t) -> alive p = true -> ev (mem (remaining p)) r = true }.

Lemma ev_incl x y t : incl x y -> ev (mem x) t = true -> ev (mem y) t = true.
Proof. intros I. rewrite !ev_mem. intros (p & P & J). exists p. split; auto. eapply incl_tran; eauto. Qed.
Lemma remaining_size p : size (remaining p) <= size p.
Proof.
  induction p as [|a p IH]; [simpl; lia|]. unfold ZbddHistory.remaining in *. simpl. pose proof (cost_range counted a).
  destruct (const a); rewrite ?size_cons; lia.
Qed.
Lemma eliminate_signed t : forall s, inv s -> wf t -> (forall p, In p (fam t) -> size (remaining p) <= limit) ->
  runs (eliminate_constants ord top counted limit const t) s (fun r s' => inv s' /\ left t r).
Proof.
  induction t as [| |i h IHh l IHl]; intros s I W S; cbn [eliminate_constants].
  - apply runs_ret. split; auto. constructor; [auto|intros p q []|intros j (p & [] & _)|intros v _ H; discriminate|intros p []].
  - apply runs_ret. split; auto. constructor; auto.
    + intros p q [<-|[]] [<-|[]]; auto.
    + intros j (p & [<-|[]] & []).
    + intros v _ _. exists []. split; [simpl; auto|]. split; [auto|]. intros j [].
  - pose proof (wf_high ord top counted _ _ _ W) as Wh. pose proof (wf_low ord top counted _ _ _ W) as Wl.
    assert (Sh : forall p, In p (fam h) -> size (remaining p) <= limit).
    { intros p Q. assert (X : size (remaining (i :: p)) <= limit) by (apply S; apply in_fam; eauto). revert X. simpl.
      destruct (const i); auto. rewrite size_cons. pose proof (cost_range counted i). lia. }
    apply runs_seq with (1 := IHh s I Wh Sh). intros h' s1 (I1 & Lh).
    apply runs_seq with (1 := IHl s1 I1 Wl (fun p Q => S p (proj2 (in_fam i h l p) (or_intror Q)))). intros l' s2 (I2 & Ll).
    assert (LH : forall j, lits h' j -> lits (ZN i h l) j /\ const j = None) by (intros j J; destruct (l_lits _ _ Lh j J); split; auto; apply lits_high; auto).
    assert (LL : forall j, lits l' j -> lits (ZN i h l) j /\ const j = None) by (intros j J; destruct (l_lits _ _ Ll j J); split; auto; apply lits_low; auto).
    destruct (const i) as [[]|] eqn:Ec.
    + eapply runs_mono; [apply (apply_or_ok ord top counted ORD h' l' limit s2 I2 (l_wf _ _ Lh) (l_wf _ _ Ll) (l_anti _ _ Lh) (l_anti _ _ Ll))|].
      intros r s3 (I3 & [Wr Ar Lr Zr So Co]). split; auto. constructor; auto.
      * intros j J. destruct (Lr j J); auto.
      * intros v A V. destruct (So v A V) as [V'|V'].
        -- destruct (l_sound _ _ Lh v A V') as (p & P & AL & H). exists (i :: p). split; [apply in_fam; eauto|]. simpl. rewrite Ec. auto.
        -- destruct (l_sound _ _ Ll v A V') as (p & P & AL & H). exists p. split; [apply in_fam; auto|]. auto.
      * intros p P AL. apply Co.
        -- apply NoDup_filter. apply (nodup_fam ord top counted _ W); auto.
        -- intros j J K. apply filter_In in J as [J _]. apply filter_In in K as [K _]. apply (consistent_fam ord top counted ORD _ W p P j J K).
        -- apply S; auto.
        -- apply in_fam in P as [(p' & -> & P)|P].
           ++ left. simpl in AL. rewrite Ec in AL. simpl. rewrite Ec. apply (l_complete _ _ Lh p' P AL).
           ++ right. apply (l_complete _ _ Ll p P AL).
    + apply runs_ret. split; auto. constructor; [apply Ll|apply Ll|auto| |].
      * intros v A V. destruct (l_sound _ _ Ll v A V) as (p & P & AL & H). exists p. split; [apply in_fam; auto|auto].
      * intros p P AL. apply in_fam in P as [(p' & -> & P)|P]; [simpl in AL; rewrite Ec in AL; discriminate|]. apply (l_complete _ _ Ll p P AL).
    + destruct (wf_lit ord top counted _ _ _ W) as [Ni Oi].
      assert (WR : wf (reduced i h' l')).
      { apply reduced_wf; auto; [| |apply Lh|apply Ll].
        - intros p j Q J. destruct (l_lits _ _ Lh j) as [(q & Q' & J') _]; [exists p; auto|]. exact (wf_above ord top i h l W q j Q' J').
        - intros p j Q J. destruct (l_lits _ _ Ll j) as [(q & Q' & J') _]; [exists p; auto|]. exact (wf_after_low ord top i h l W q j Q' J'). }
      eapply runs_mono; [apply (minimize_ok ord top counted ORD (reduced i h' l') s2 I2 WR)|].
      intros r s3 (I3 & Wr & Fr). split; auto.
      assert (EV : forall x, ev (mem x) r = ev (mem x) (reduced i h' l')).
      { intros x. apply eq_true_iff_eq. rewrite <- !(covers_ev top counted). apply (covers_min ord); auto. intros p P. apply (sorted_fam ord top counted _ WR); auto. }
      constructor; auto.
      * apply (antichain_min r _ Fr).
      * intros j (p & Q & J). apply Fr in Q as [Q _]. apply reduced_fam in Q as [(p' & -> & Q)|Q].
        -- destruct J as [<-|J]; [split; auto; apply (root_lit ord top i h l W)|]. apply LH. exists p'. auto.
        -- apply LL. exists p. auto.
      * intros v A V. apply ev_fam in V as (p & P & V). apply Fr in P as [P _].
        assert (V' : ev v (reduced i h' l') = true) by (apply ev_fam; eauto). rewrite reduced_ev in V'. apply orb_true_iff in V' as [V'|V'].
        -- apply andb_true_iff in V' as [Vi V']. destruct (l_sound _ _ Lh v A V') as (q & Q & AL & H). exists (i :: q).
           split; [apply in_fam; eauto|]. simpl. rewrite Ec. split; auto. intros j [<-|J]; auto.
        -- destruct (l_sound _ _ Ll v A V') as (q & Q & AL & H). exists q. split; [apply in_fam; auto|auto].
      * intros p P AL. rewrite EV, reduced_ev. apply orb_true_iff. apply in_fam in P as [(p' & -> & P)|P].
        -- left. simpl in *. rewrite Ec in *. apply andb_true_iff. split; [apply mem_In; simpl; auto|].
           eapply ev_incl; [|apply (l_complete _ _ Lh p' P AL)]. intros j J. simpl; auto.
        -- right. apply (l_complete _ _ Ll p P AL).
Qed.
(** Without constants nothing changes. *)
Lemma left_id t : wf t -> antichain t -> (forall i, const i = None) -> left t t.
Proof.
  intros W A N.
  assert (R : forall p, remaining p = p) by (induction p as [|a p IH]; auto; unfold ZbddHistory.remaining in *; simpl; rewrite N; f_equal; auto).
  constructor; auto.
  - intros v _ V. apply ev_fam in V as (p & P & V). exists p. split; auto. rewrite R. split; auto. apply forallb_forall. intros i _. rewrite N. auto.
  - intros p P _. rewrite R. apply ev_mem. exists p. split; auto. apply incl_refl.
Qed.
End Signed.
