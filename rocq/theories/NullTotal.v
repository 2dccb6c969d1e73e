(** RemoveNullGates (/repo/src/pdag.cc:795-821) ends on every graph without a failed assertion. *)
From stdpp Require Import gmap.
From Coq Require Import Lia Permutation List.
From Verif Require Import Pdag PdagProofs PdagAdd PdagSem PdagKeeps Preproc Decompose Rooted BoolOpt BoolOptProofs BoolOptEdits Shaped ShapedOps NullGates NullGatesProofs Full.
Import ListNotations.
Open Scope Z_scope.

(** No unfolding grows. *)
Definition no_heavier (G G' : graph) : Prop := forall w w', weighs G w -> weighs G' w' -> forall j, j < nxt G -> (w' j <= w j)%nat.
Lemma no_heavier_trans G1 G2 G3 : nxt G1 <= nxt G2 -> acyclic G2 -> no_heavier G1 G2 -> no_heavier G2 G3 -> no_heavier G1 G3.
Proof. intros L A H1 H2 w w' W W' j Lj. destruct (weighs_exists G2 A) as [v V]. specialize (H1 w v W V j Lj). specialize (H2 v w' V W' j ltac:(lia)). lia. Qed.
Lemma weights_unique G w w' : weighs G w -> weighs G w' -> forall j, w j = w' j.
Proof.
  intros W W'. assert (M : forall n j, w j = n -> w j = w' j).
  { induction n as [n IH] using (well_founded_induction lt_wf). intros j En. destruct (gs G !! j) as [x|] eqn:E.
    - rewrite (weight_at G w j x W E), (weight_at G w' j x W' E). f_equal. apply sum_eq. intros a I. apply (IH (w (Z.abs a))); auto. pose proof (weight_arg G w j x a W E I). lia.
    - rewrite (weight_none G w j W E), (weight_none G w' j W' E). auto. }
  intros j. apply (M (w j)). auto.
Qed.
Lemma no_heavier_refl G : no_heavier G G.
Proof. intros w w' W W' j _. rewrite (weights_unique G w w' W W'). lia. Qed.
Lemma same_weights G G' w : gs G' = gs G -> weighs G w -> weighs G' w.
Proof. intros E W j. rewrite E. apply W. Qed.

Section Total.
Context (parents : graph -> Z -> list Z) (expired : graph -> Z -> bool) (held : list Z).
(** parents(): gates in memory, that is, below the root or other gates held by the caller, that have the gate as an argument. *)
Context (MEMORY : forall G g p, In p (parents G g) -> (exists k, In k held /\ reach G k p) /\ exists x, gs G !! p = Some x /\ arg_in g x).
Context (G0 : graph) (NC : forall H, rtc joins G0 H -> no_clash H).

Lemma propagate_null_total : forall fuel g G y, rtc joins G0 G -> wf G -> acyclic G -> full_graph G -> (forall k, In k held -> 1 < k < nxt G) -> gs G !! g = Some y -> g_type y = kNull ->
  (forall w, weighs G w -> (sum w held < fuel)%nat) ->
  exists G', propagate_null parents fuel g G = Some G' /\ full_graph G' /\ keeps G G' /\ rtc joins G0 G' /\ no_heavier G G' /\ reg G' = reg G.
Proof.
  induction fuel as [|fuel IH]; intros g G y J W AC FG LR Ey Ty FU; [destruct (weighs_exists G AC) as [w Hw]; specialize (FU w Hw); lia|].
  cbn [propagate_null]. rewrite Ey. cbn [mbind option_bind]. rewrite Ty. cbn [conn_eqb negb]. pose proof (MEMORY G g) as MEM. destruct (parents G g) as [|p ps] eqn:EP.
  { exists G. split; [auto|]. split; [auto|]. split; [apply keeps_refl; auto|]. split; [auto|]. split; [apply no_heavier_refl|auto]. }
  destruct (MEM p ltac:(left; auto)) as ((k & Ik & RP) & x & Ex & AI). rewrite Ex. cbn [mbind option_bind].
  assert (BY := proj2 W g y Ey). assert (IA : In (arg_of x g) (g_args x)) by (unfold arg_of; destruct (has g (g_args x)) eqn:HG; [apply has_In; auto|destruct AI as [AI|AI]; [apply has_In in AI; congruence|auto]]).
  assert (AB : Z.abs (arg_of x g) = g) by (unfold arg_of; destruct (has g (g_args x)); lia).
  destruct (join_total G p (arg_of x g) x y W FG Ex IA ltac:(rewrite AB; exact Ey) Ty) as (G1 & E1 & FG1 & LI & RG1). rewrite E1. cbn [mbind option_bind].
  pose proof (full_roomy G FG) as RM. pose proof (join_keeps _ _ _ _ W AC (proj1 RM) (NC G J) E1) as K1. assert (J1 : rtc joins G0 G1) by (eapply rtc_joins_r; [exact J|eexists; eexists; exact E1]).
  pose proof (k_wf _ _ K1) as W1. pose proof (k_acyclic _ _ K1 AC) as AC1. pose proof (k_nxt _ _ K1) as N1.
  assert (F1 : forall w, weighs G1 w -> (sum w held < fuel)%nat).
  { intros w' H'. destruct (weighs_exists G AC) as [w Hw]. specialize (FU w Hw). enough (sum w' held < sum w held)%nat by lia. apply (sum_strict w w' k); auto; [intros b Ib; pose proof (LR b Ib); apply (LI w w' Hw H'); lia|]. pose proof (LR k Ik). rewrite Z.abs_eq by lia. apply (LI w w' Hw H' k); [lia|exact RP]. }
  assert (NH1 : no_heavier G G1) by (intros w w' Hw H' j Lj; apply (LI w w' Hw H' j); lia).
  assert (EX1 : exists x1, gs G1 !! p = Some x1). { destruct (gs G1 !! p) as [x1|] eqn:Q; [eauto|]. apply (k_vars _ _ K1) in Q; [congruence|]. apply W in Ex. lia. }
  destruct EX1 as [x1 Ex1]. rewrite Ex1. cbn [mbind option_bind].
  destruct (join_stays _ _ G G1 g y W (proj1 RM) E1 Ey Ty) as (y1 & Ey1 & Ty1).
  assert (X2 : exists G2, (if conn_eqb (g_type x1) kNull then propagate_null parents fuel p G1 else Some G1) = Some G2 /\ full_graph G2 /\ keeps G1 G2 /\ rtc joins G0 G2 /\ no_heavier G1 G2 /\ reg G2 = reg G1).
  { destruct (conn_eqb (g_type x1) kNull) eqn:T.
    - apply (IH p G1 x1); auto; [intros q Iq; specialize (LR q Iq); lia|]. destruct (g_type x1); try discriminate; auto.
    - exists G1. split; [auto|]. split; [auto|]. split; [apply keeps_refl; auto|]. split; [auto|]. split; [apply no_heavier_refl|auto]. }
  destruct X2 as (G2 & E2 & FG2 & K2 & J2 & NH2 & RG2). rewrite E2. cbn [mbind option_bind]. pose proof (k_nxt _ _ K2) as N2. pose proof (k_acyclic _ _ K2 AC1) as AC2.
  assert (Y2 : exists y2, gs G2 !! g = Some y2 /\ g_type y2 = kNull).
  { destruct (conn_eqb (g_type x1) kNull) eqn:T; [apply (propagate_null_stays parents G0 g NC fuel p G1 G2 y1 J1 W1 AC1 (full_roomy G1 FG1) E2 Ey1 Ty1)|injection E2 as <-; eauto]. }
  destruct Y2 as (y2 & Ey2 & Ty2).
  destruct (IH g G2 y2 J2 (k_wf _ _ K2) AC2 FG2 ltac:(intros q Iq; specialize (LR q Iq); lia) Ey2 Ty2) as (G3 & E3 & FG3 & K3 & J3 & NH3 & RG3).
  { intros w' H'. destruct (weighs_exists G1 AC1) as [w Hw]. specialize (F1 w Hw). enough (sum w' held <= sum w held)%nat by lia. apply sum_mono. intros b Ib. pose proof (LR b Ib). apply (NH2 w w' Hw H'). lia. }
  exists G3. split; [exact E3|]. split; [auto|]. split; [apply (keeps_trans _ _ _ K1), (keeps_trans _ _ _ K2 K3)|]. split; [auto|]. split; [|congruence].
  apply (no_heavier_trans G G1 G3 N1 AC1 NH1). apply (no_heavier_trans G1 G2 G3 N2 AC2 NH2 NH3).
Qed.
Lemma propagate_each_total : forall fuel l G, rtc joins G0 G -> wf G -> acyclic G -> full_graph G -> (forall k, In k held -> 1 < k < nxt G) ->
  (forall g, In g l -> exists y, gs G !! g = Some y /\ g_type y = kNull) -> (forall w, weighs G w -> (sum w held < fuel)%nat) ->
  exists G', propagate_each parents expired fuel l G = Some G' /\ full_graph G' /\ keeps G G' /\ no_heavier G G' /\ rtc joins G0 G'.
Proof.
  intros fuel. induction l as [|g l IH]; intros G J W AC FG LR NL FU; cbn [propagate_each].
  { exists G. split; [auto|]. split; [auto|]. split; [apply keeps_refl; auto|]. split; [apply no_heavier_refl|auto]. }
  assert (X1 : exists G1, (if expired G g then Some G else propagate_null parents fuel g G) = Some G1 /\ full_graph G1 /\ keeps G G1 /\ rtc joins G0 G1 /\ no_heavier G G1 /\ forall h y, gs G !! h = Some y -> g_type y = kNull -> exists y1, gs G1 !! h = Some y1 /\ g_type y1 = kNull).
  { destruct (expired G g).
    - exists G. split; [auto|]. split; [auto|]. split; [apply keeps_refl; auto|]. split; [auto|]. split; [apply no_heavier_refl|eauto].
    - destruct (NL g ltac:(left; auto)) as (y & Ey & Ty). destruct (propagate_null_total fuel g G y J W AC FG LR Ey Ty FU) as (G1 & E1 & FG1 & K1 & J1 & NH1 & _). exists G1. split; [auto|]. split; [auto|]. split; [auto|]. split; [auto|]. split; [auto|].
      intros h z Ez Tz. apply (propagate_null_stays parents G0 h NC fuel g G G1 z J W AC (full_roomy G FG) E1 Ez Tz). }
  destruct X1 as (G1 & E1 & FG1 & K1 & J1 & NH1 & ST). rewrite E1. cbn [mbind option_bind]. pose proof (k_nxt _ _ K1) as N1. pose proof (k_acyclic _ _ K1 AC) as AC1.
  destruct (IH G1 J1 (k_wf _ _ K1) AC1 FG1 ltac:(intros q Iq; specialize (LR q Iq); lia)) as (G2 & E2 & FG2 & K2 & NH2 & J2).
  - intros h Ih. destruct (NL h ltac:(right; auto)) as (z & Ez & Tz). apply (ST h z Ez Tz).
  - intros w' H'. destruct (weighs_exists G AC) as [w Hw]. specialize (FU w Hw). enough (sum w' held <= sum w held)%nat by lia. apply sum_mono. intros b Ib. pose proof (LR b Ib). apply (NH1 w w' Hw H'). lia.
  - exists G2. split; [auto|]. split; [auto|]. split; [apply (keeps_trans _ _ _ K1 K2)|]. split; [|auto]. apply (no_heavier_trans G G1 G2 N1 AC1 NH1 NH2).
Qed.
End Total.

Theorem remove_null_total parents expired held G w :
  (forall G g p, In p (parents G g) -> (exists k, In k held /\ reach G k p) /\ exists x, gs G !! p = Some x /\ arg_in g x) ->
  wf G -> acyclic G -> full_graph G -> (forall k, In k held -> 1 < k < nxt G) -> (forall H, rtc joins (unregistered G) H -> no_clash H) ->
  (forall g, In g (nulls G) -> exists y, gs G !! g = Some y /\ g_type y = kNull) -> weighs G w ->
  forall fuel, (sum w held < fuel)%nat -> exists G', remove_null_gates parents expired fuel G = Some G' /\ full_graph G' /\ keeps G G' /\ no_heavier G G' /\ nulls G' = [] /\ reg G' = true /\
    exists H, rtc joins (unregistered G) H /\ gs G' = gs H /\ nxt G' = nxt H.
Proof.
  intros MEM W AC FG LR NC NL Hw fuel LF.
  destruct (propagate_each_total parents expired held MEM (unregistered G) NC fuel (nulls G) (unregistered G)) as (G1 & E1 & FG1 & K1 & NH1 & J1); auto.
  - apply rtc_refl.
  - intros w' H'. rewrite (sum_eq w' w held); [lia|]. intros b _. apply (weights_unique G w' w (same_weights (unregistered G) G w' eq_refl H') Hw).
  - exists (Graph (gs G1) (nxt G1) [] true). unfold remove_null_gates. rewrite E1. cbn [mbind option_bind]. split; [auto|]. split; [exact FG1|]. split; [|split; [|split; [auto|split; [auto|]]]].
    + apply (keeps_trans G (unregistered G)); [apply keeps_same; auto|]. apply (keeps_trans _ G1 _ K1). apply keeps_same; auto. apply K1.
    + intros v v' V V' j Lj. apply (NH1 v v'); [apply (same_weights G); auto|apply (same_weights (Graph (gs G1) (nxt G1) [] true)); auto|auto].
    + exists G1. auto.
Qed.
