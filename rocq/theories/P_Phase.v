(** Property C37: analysing a phase leaves the model as it was. *)
From Coq Require Import List Arith Lia Bool QArith.
From Verif Require Import Phase.
Import ListNotations.
Local Open Scope nat_scope.

(** One phase that names each house event at most once: the analysis runs with the requested
    states and the scaled time, and afterwards everything is as before. *)
Theorem C37_phase {T} (mul : T -> T -> T) p (s : mstate T) :
  NoDup (map fst (instructions p)) -> known (instructions p) (houses s) -> model_time s = settings_time s ->
  exists seen s', run_phase mul (Some p) s = Some (seen, s') /\ phase_view mul p s seen /\ same s s'.
Proof.
  intros D K E. unfold run_phase. pose proof (apply_total (instructions p) (houses s) [] K) as A.
  destruct (apply_instructions (instructions p) (houses s) []) as [[f saved]|] eqn:H; [|congruence].
  do 2 eexists. split; [reflexivity|]. split.
  - split; [|auto]. simpl. eapply apply_view; eauto.
  - destruct (apply_saved _ _ _ _ _ D H) as (new & E1 & _ & R). simpl in E1. subst. split; [|split]; simpl; auto.
Qed.

(** The state afterwards is also that before for an analysis without a phase. *)
Theorem C37_no_phase {T} (mul : T -> T -> T) (s : mstate T) : model_time s = settings_time s ->
  exists s', run_phase mul None s = Some (s, s') /\ same s s'.
Proof. intros E. eexists. split; [reflexivity|]. split; simpl; auto. Qed.

(** All phases of all alignments: each is analysed as if it were the only one. *)
Theorem C37_all_phases {T} (mul : T -> T -> T) als (s : mstate T) :
  (forall p, In p (concat als) -> NoDup (map fst (instructions p)) /\ known (instructions p) (houses s)) ->
  model_time s = settings_time s -> als <> [] ->
  exists l s', analyze_model mul als s = Some (l, s') /\ Forall2 (fun p seen => phase_view mul p s seen) (concat als) l /\ same s s'.
Proof.
  intros V E N. unfold analyze_model. destruct als as [|a als]; [congruence|]. clear N. revert V.
  assert (G : forall ps s', same s s' -> (forall p, In p ps -> NoDup (map fst (instructions p)) /\ known (instructions p) (houses s)) ->
    exists l s2, run_phases mul ps s' = Some (l, s2) /\ Forall2 (fun p seen => phase_view mul p s seen) ps l /\ same s s2).
  { induction ps as [|p ps IH]; intros s' S V; cbn [run_phases].
    - do 2 eexists. split; [reflexivity|]. auto.
    - destruct S as (S1 & S2 & S3). destruct (V p (or_introl eq_refl)) as [D K].
      destruct (C37_phase mul p s') as (seen & s1 & R & (V1 & V2 & V3) & (Q1 & Q2 & Q3)); auto; [|congruence|].
      { intros h b I. rewrite <- S1. apply (K h b I). }
      rewrite R.
      destruct (IH s1) as (l & s2 & R2 & F & S).
      { split; [|split]; [|congruence|congruence]. intros h. now rewrite S1. }
      { intros q I. apply V. simpl; auto. }
      rewrite R2. do 2 eexists. split; [reflexivity|]. split; auto. constructor; auto. split; [|split].
      + intros h. rewrite V1. apply wanted_ext. intros; auto.
      + congruence.
      + congruence. }
  intros V. apply G; auto. split; auto.
Qed.

(** The states come out wrong when a phase sets a house event twice: the vector of old states
    is put back from the front, so the last saved state wins. *)
Definition h_false : mstate nat := mkM (fun h => if Nat.eqb h 0 then Some false else None) 10 10.
Theorem C37_duplicate_refuted : exists p seen s',
  known (instructions p) (houses h_false) /\ run_phase Nat.mul (Some p) h_false = Some (seen, s') /\
  houses h_false 0 = Some false /\ houses s' 0 = Some true.
Proof.
  exists (mkPhase 1 [(0, true); (0, false)]). do 2 eexists. split; [|split; [reflexivity|auto]].
  intros h b [E|[E|[]]]; inversion E; subst; discriminate.
Qed.

(** A phase with two instructions, one of which changes a state. *)
Definition two_houses : mstate Q := mkM (fun h => if Nat.eqb h 0 then Some false else if Nat.eqb h 1 then Some true else None) 8760%Q 8760%Q.
Definition ex_phase : phase Q := mkPhase (1#4)%Q [(0, true); (1, true)].
Example C37_applies : NoDup (map fst (instructions ex_phase)) /\ known (instructions ex_phase) (houses two_houses) /\
  model_time two_houses = settings_time two_houses /\
  exists seen s', run_phase Qmult (Some ex_phase) two_houses = Some (seen, s') /\ houses seen 0 = Some true /\ houses s' 0 = Some false.
Proof.
  split; [repeat constructor; simpl; intuition discriminate|]. split.
  - intros h b [E|[E|[]]]; inversion E; subst; discriminate.
  - split; auto. do 2 eexists. split; [reflexivity|auto].
Qed.
