(** Minimal sets over one alphabet and over another one. *)
From stdpp Require Import gmap.
From Coq Require Import List ZArith Lia Bool.
Import ListNotations.
Open Scope Z_scope.

Section Match.
Context {A : Type} (st : A -> Z -> Prop) (F1 : forall a v v', st a v -> st a v' -> v = v') (F2 : forall a a' v, st a v -> st a' v -> a = a').
Lemma match_left X P a : Forall2 st X P -> In a X -> exists v, In v P /\ st a v.
Proof. induction 1 as [|b w X P S F IH]; intros J; [destruct J|]. destruct J as [<-|J]; [exists w; simpl; auto|]. destruct (IH J) as (v & J' & S'). exists v. simpl; auto. Qed.
Lemma match_right X P v : Forall2 st X P -> In v P -> exists a, In a X /\ st a v.
Proof. induction 1 as [|b w X P S F IH]; intros J; [destruct J|]. destruct J as [<-|J]; [exists b; simpl; auto|]. destruct (IH J) as (a & J' & S'). exists a. simpl; auto. Qed.
Lemma match_of X : (forall a, In a X -> exists v, st a v) -> exists P, Forall2 st X P.
Proof.
  induction X as [|a X IH]; intros H; [exists []; constructor|]. destruct (H a (or_introl eq_refl)) as [v S]. destruct IH as [P F]; [intros; apply H; simpl; auto|]. exists (v :: P). constructor; auto.
Qed.
Lemma match_back P : (forall v, In v P -> exists a, st a v) -> exists X, Forall2 st X P.
Proof.
  induction P as [|v P IH]; intros H; [exists []; constructor|]. destruct (H v (or_introl eq_refl)) as [a S]. destruct IH as [X F]; [intros; apply H; simpl; auto|]. exists (a :: X). constructor; auto.
Qed.
Lemma match_in X P a v : Forall2 st X P -> st a v -> (In a X <-> In v P).
Proof.
  intros F S. split; intros J.
  - destruct (match_left X P a F J) as (w & J' & S'). now rewrite (F1 a v w).
  - destruct (match_right X P v F J) as (b & J' & S'). now rewrite (F2 a b v).
Qed.
Lemma match_nodup X P : Forall2 st X P -> (List.NoDup X <-> List.NoDup P).
Proof.
  induction 1 as [|b w X P S F IH]; [split; constructor|]. split; intros N; inversion N as [|? ? N1 N2]; subst; constructor; try (apply IH; auto).
  - intros J. apply N1. apply (match_in X P b w F S). auto.
  - intros J. apply N1. apply (match_in X P b w F S). auto.
Qed.
Lemma match_incl X P Y Q : Forall2 st X P -> Forall2 st Y Q -> (incl X Y <-> incl P Q).
Proof.
  intros F F'. split; intros I u J.
  - destruct (match_right X P u F J) as (a & Ja & S). apply (match_in Y Q a u F' S). auto.
  - destruct (match_left X P u F J) as (v & Jv & S). apply (match_in Y Q u v F' S). auto.
Qed.
End Match.

Section Transfer.
Context {A : Type} (st : A -> Z -> Prop) (F1 : forall a v v', st a v -> st a v' -> v = v') (F2 : forall a a' v, st a v -> st a' v -> a = a').
Context (vars : Z -> Prop) (VD : forall v, vars v \/ ~ vars v) (VA : forall v, vars v -> exists a, st a v).
Context (okz cut : list Z -> Prop) (oka CUT : list A -> Prop).
Context (OM : forall P Q, incl Q P -> okz P -> okz Q)
  (OE : forall X P, Forall2 st X P -> (okz P <-> oka X)) (CE : forall X P, Forall2 st X P -> (cut P <-> CUT X))
  (CR : forall P Q, okz P -> cut P -> incl Q P -> (forall v, In v P -> vars v -> In v Q) -> cut Q).
Definition set_z (P : list Z) : Prop := List.NoDup P /\ (forall v, In v P -> vars v) /\ okz P.
Definition min_z (P : list Z) : Prop := set_z P /\ cut P /\ forall Y, set_z Y -> incl Y P -> cut Y -> incl P Y.
Definition set_a (X : list A) : Prop := List.NoDup X /\ (forall a, In a X -> exists v, st a v) /\ oka X.
Definition min_a (X : list A) : Prop := set_a X /\ CUT X /\ forall Y, set_a Y -> incl Y X -> CUT Y -> incl X Y.
Lemma restrict P : List.NoDup P -> exists Q, List.NoDup Q /\ incl Q P /\ (forall v, In v Q -> vars v) /\ (forall v, In v P -> vars v -> In v Q).
Proof.
  induction P as [|v P IH]; intros N; [exists []; repeat split; auto; intros ? []|]. inversion N as [|? ? N1 N2]; subst. destruct (IH N2) as (Q & NQ & I & V & K). destruct (VD v) as [Vv|Vv].
  - exists (v :: Q). split; [constructor; auto|]. split; [intros u [<-|J]; simpl; auto|]. split; [intros u [<-|J]; auto|]. intros u [<-|J] Vu; simpl; auto.
  - exists Q. split; auto. split; [intros u J; simpl; auto|]. split; auto. intros u [<-|J] Vu; [contradiction|auto].
Qed.
Lemma set_match X P : Forall2 st X P -> set_z P -> set_a X.
Proof.
  intros F (N & V & O). split; [apply (match_nodup st F1 F2 X P F); auto|]. split; [|apply (OE X P F); auto]. intros a J. destruct (match_left st X P a F J) as (v & _ & S). eauto.
Qed.
Lemma back_match X P : Forall2 st X P -> set_a X -> (forall v, In v P -> vars v) -> set_z P.
Proof. intros F (N & V & O) H. split; [apply (match_nodup st F1 F2 X P F); auto|]. split; auto. apply (OE X P F); auto. Qed.
Lemma to_events P : min_z P -> exists X, Forall2 st X P /\ min_a X.
Proof.
  intros ((N & V & O) & C & M). destruct (match_back st P) as [X F]; [intros v J; apply VA; auto|]. exists X. split; auto. split; [eapply set_match; eauto; split; auto|]. split; [apply (CE X P F); auto|].
  intros Y (NY & VY & OY) I CY. destruct (match_of st Y VY) as [Q FQ]. apply (match_incl st F1 F2 X P Y Q F FQ). assert (IQ : incl Q P) by (apply (match_incl st F1 F2 Y Q X P FQ F); auto).
  apply M; auto; [|apply (CE Y Q FQ); auto]. apply (back_match Y Q FQ); [split; auto|]. intros v J. auto.
Qed.
Lemma to_vars X : min_a X -> exists P, Forall2 st X P /\ min_z P.
Proof.
  intros ((N & V & O) & C & M). destruct (match_of st X V) as [P F]. exists P. split; auto. assert (NP : List.NoDup P) by (apply (match_nodup st F1 F2 X P F); auto).
  assert (OP : okz P) by (apply (OE X P F); auto). destruct (restrict P NP) as (Q & NQ & IQ & VQ & KQ).
  destruct (match_back st Q) as [Y FY]; [intros v J; apply VA; auto|].
  assert (CQ : cut Q) by (apply (CR P Q); auto; apply (CE X P F); auto).
  assert (IX : incl X Y).
  { apply M; [|apply (match_incl st F1 F2 Y Q X P FY F); auto|apply (CE Y Q FY); auto]. apply (set_match Y Q FY). split; auto. split; auto. eapply OM; eauto. }
  assert (IP : incl P Q) by (apply (match_incl st F1 F2 X P Y Q F FY); auto).
  assert (SP : set_z P) by (split; auto). split; auto. split; [apply (CE X P F); auto|].
  intros R SR IR CR'. destruct (match_back st R) as [W FW]; [intros v J; apply VA, SR; auto|]. apply (match_incl st F1 F2 X P W R F FW). apply M.
  - eapply set_match; eauto.
  - apply (match_incl st F1 F2 W R X P FW F); auto.
  - apply (CE W R FW); auto.
Qed.
End Transfer.
