(** The course of the preprocessing with the memory taken into account: gates that are no longer below
    the root are destroyed (/repo/src/pdag.h:373-385, 812), so that later phases do not see them.
    The phases are those of P_Preprocess.v (/repo/src/preprocessor.cc:320-420, 2369-2409); between two of
    them the dead gates may be taken away ([live], Live.v), from the moment on when the graph consists
    of AND, OR, K/N and pass-through gates (after NormalizeGates, preprocessor.cc:479-504). *)
From stdpp Require Import gmap.
From Coq Require Import Lia Permutation List.
From Verif Require Import Pdag PdagProofs PdagSem Rooted Shaped ShapedOps P_Preprocess ZbddModules Live Neat P_Neat.
From Verif Require Complement ComplementProofs P_Complement.
Import ListNotations.
Open Scope Z_scope.

(** ** The course *)
Inductive segments (root : Z) (comp : bool) (H : graph) : Z -> bool -> graph -> Prop :=
| seg_done : segments root comp H root comp H
| seg_more r1 c1 G1 H1 r2 c2 H2 : preprocess root comp H r1 c1 G1 -> live G1 r1 H1 -> segments r1 c1 H1 r2 c2 H2 -> segments root comp H r2 c2 H2.
Notation simple_graph := (only [kAnd; kOr; kNull; kAtleast]).
Definition course (root : Z) (comp : bool) (G : graph) (r' : Z) (c' : bool) (H : graph) : Prop :=
  exists r1 c1 G1 H1, preprocess root comp G r1 c1 G1 /\ live G1 r1 H1 /\ (r' = r1 /\ c' = c1 /\ H = H1 \/ simple_graph H1 /\ segments r1 c1 H1 r' c' H).
(** Phase IV (preprocessor.cc:376-397) on a graph in memory. *)
Definition phase_four_run (root : Z) (comp : bool) (H H' : graph) : Prop :=
  exists single order fuel G,
    (forall root G C g, single G C g = true -> forall p q, Complement.in_memory root G C p -> Complement.in_memory root G C q -> Complement.parent G p g -> Complement.parent G q g -> p = q) /\
    (forall G i x, gs G !! i = Some x -> Permutation (order G i) (List.filter (fun a => bool_decide (is_Some (gs G !! Z.abs a))) (g_args x))) /\
    ComplementProofs.tidy H root /\ Complement.phase_four single order fuel root comp H = Some G /\ live G root H'.

(** ** What is kept *)
(** [n]: the number of variables, which are the nodes 2 to n + 1. *)
Record sound (n : Z) (H : graph) (top : Z) : Prop := {
  so_wf : wf H;
  so_acyclic : acyclic H;
  so_roomy : roomy H;
  so_root : is_Some (gs H !! top);
  so_all : forall i, is_Some (gs H !! i) -> under H top i;
  so_nxt : 2 + n <= nxt H;
  so_keys : forall i, is_Some (gs H !! i) -> 1 + n < i;
  so_args : forall i x a, gs H !! i = Some x -> In a (g_args x) -> is_Some (gs H !! Z.abs a) \/ 1 <= Z.abs a <= 1 + n }.
Lemma live_roomy G top H : live G top H -> roomy G -> roomy H.
Proof. intros L [A B]. split; [|rewrite (l_nxt _ _ _ L); auto]. intros j x E. apply (l_gates _ _ _ L) in E as [E _]. rewrite (l_nxt _ _ _ L). apply (A j x E). Qed.
Lemma live_sound n G top H : live G top H -> wf G -> acyclic G -> roomy G -> is_Some (gs G !! top) -> 2 + n <= nxt G -> (forall i, is_Some (gs G !! i) -> 1 + n < i) ->
  (forall i x a, gs G !! i = Some x -> In a (g_args x) -> is_Some (gs G !! Z.abs a) \/ 1 <= Z.abs a <= 1 + n) -> sound n H top.
Proof.
  intros L W A R S NX K AR. constructor.
  - apply (live_wf G top H L W).
  - apply (live_acyclic G top H L A).
  - apply (live_roomy G top H L R).
  - apply (live_root G top H L S).
  - apply (live_all G top H L).
  - rewrite (l_nxt _ _ _ L). auto.
  - intros i [x E]. apply (l_gates _ _ _ L) in E as [E _]. apply K. eauto.
  - intros i x a E I. apply (l_gates _ _ _ L) in E as [E U]. destruct (AR i x a E I) as [[y Sa]|B]; [|auto]. left. exists y. apply (l_gates _ _ _ L). split; [auto|]. eapply under_arg; eauto.
Qed.
Definition leaf_upto (n : Z) (v : Z) : Prop := 1 <= v <= 1 + n.
Lemma sound_neat n H top : 0 <= n -> sound n H top -> simple_graph H -> neat True True (leaf_upto n) (leaf_upto n) (2 + n) H.
Proof.
  intros P S T. constructor.
  - pose proof (so_nxt _ _ _ S). lia.
  - intros j Sj. pose proof (so_keys _ _ _ S j Sj). unfold leaf_upto. lia.
  - intros j x E. apply only_regular; [apply (T j x E)|auto].
  - intros j x a E I. split; [|auto]. destruct (so_args _ _ _ S j x a E I) as [K|K]; [left|right]; auto.
Qed.
Definition same_value (G : graph) (r : Z) (c : bool) (G' : graph) (r' : Z) (c' : bool) : Prop := forall σ b, node_value G' σ r' (xorb b c') <-> node_value G σ r (xorb b c).
Lemma segment_sound n H top comp r1 c1 G1 H1 : 0 <= n -> sound n H top -> simple_graph H -> preprocess top comp H r1 c1 G1 -> live G1 r1 H1 ->
  sound n H1 r1 /\ simple_graph H1 /\ same_value H top comp H1 r1 c1.
Proof.
  intros P S T PR L. destruct (C03_preprocess top comp H r1 c1 G1 (so_wf _ _ _ S) (so_acyclic _ _ _ S) (so_roomy _ _ _ S) (so_root _ _ _ S) PR) as (V & _ & W & A & R & SR).
  destruct (preprocess_neat True True (leaf_upto n) (leaf_upto n) (2 + n) ltac:(unfold leaf_upto; intros v; lia) (fun v L => L) ltac:(unfold leaf_upto; lia) _ _ _ _ _ _ PR (sound_neat n H top P S T) (so_root _ _ _ S) ltac:(left; auto)) as (N & _ & _).
  split; [|split].
  - apply (live_sound n G1 r1 H1 L W A R SR).
    + apply (nt_nxt _ _ _ _ _ _ N).
    + intros i Si. pose proof (nt_keys _ _ _ _ _ _ N i Si). unfold leaf_upto in *. lia.
    + intros i x a E I. destruct (nt_args _ _ _ _ _ _ N i x a E I) as [[K|K] _]; auto.
  - intros j x E. apply (l_gates _ _ _ L) in E as [E _]. apply (regular_only True), (nt_type _ _ _ _ _ _ N j x E).
  - intros σ b. rewrite (live_value G1 r1 H1 L σ _ W A SR). apply V.
Qed.
Lemma segments_sound n H top comp r' c' H' : segments top comp H r' c' H' -> 0 <= n -> sound n H top -> simple_graph H -> sound n H' r' /\ simple_graph H' /\ same_value H top comp H' r' c'.
Proof.
  intros SG P. induction SG as [top comp H|top comp H r1 c1 G1 H1 r2 c2 H2 PR L _ IH]; intros S T; [split; [auto|split; [auto|intros σ b; tauto]]|].
  destruct (segment_sound n H top comp r1 c1 G1 H1 P S T PR L) as (S1 & T1 & V1). destruct (IH S1 T1) as (S2 & T2 & V2). split; [auto|]. split; [auto|]. intros σ b. etransitivity; [apply V2|apply V1].
Qed.
(** From the graph of the construction: its variables are the nodes 2 to n + 1. *)
Definition variables_first (n : Z) (G : graph) : Prop := forall j, 1 < j < nxt G -> (gs G !! j = None <-> j < 2 + n).
Lemma first_sound n G r comp r1 c1 G1 H1 : 0 <= n -> wf G -> acyclic G -> roomy G -> is_Some (gs G !! r) -> variables_first n G -> preprocess r comp G r1 c1 G1 -> live G1 r1 H1 ->
  sound n H1 r1 /\ same_value G r comp H1 r1 c1.
Proof.
  intros P W A R SR VF PR L. destruct (C03_preprocess r comp G r1 c1 G1 W A R SR PR) as (V & VS & W1 & A1 & R1 & SR1).
  assert (NX : 2 + n <= nxt G).
  { destruct SR as [y Ey]. pose proof (proj1 (proj2 W r y Ey)) as Br. destruct (Z.lt_ge_cases r (2 + n)) as [C|]; [|lia]. apply VF in C; [congruence|lia]. }
  assert (K1 : forall i, is_Some (gs G1 !! i) -> 1 + n < i).
  { intros i [x E]. pose proof (proj1 (proj2 W1 i x E)) as Bi. destruct (Z.lt_ge_cases (1 + n) i) as [|C]; auto. exfalso. assert (gs G1 !! i = None); [|congruence]. apply (VS i Bi). split; [lia|]. apply VF; lia. }
  split.
  - apply (live_sound n G1 r1 H1 L W1 A1 R1 SR1); [|exact K1|].
    + destruct (Z.lt_ge_cases (nxt G1) (2 + n)) as [C|]; [|auto]. destruct SR1 as [x E]. pose proof (proj1 (proj2 W1 r1 x E)). pose proof (K1 r1 ltac:(eauto)). lia.
    + intros i x a E I. pose proof (proj2 W1 i x E) as (_ & _ & AO). destruct (AO a I) as (N0 & Ba & _). destruct (gs G1 !! Z.abs a) as [y|] eqn:Ea; [eauto|]. right.
      destruct (Z.eq_dec (Z.abs a) 1); [lia|]. apply (VS (Z.abs a)) in Ea as [L1 Ea]; [|lia]. apply VF in Ea; lia.
  - intros σ b. rewrite (live_value G1 r1 H1 L σ _ W1 A1 SR1). apply V.
Qed.
Theorem course_sound n G r comp r' c' H : 0 <= n -> wf G -> acyclic G -> roomy G -> is_Some (gs G !! r) -> variables_first n G -> course r comp G r' c' H ->
  sound n H r' /\ same_value G r comp H r' c'.
Proof.
  intros P W A R SR VF (r1 & c1 & G1 & H1 & PR & L & [(-> & -> & ->)|(T & SG)]); [eapply first_sound; eauto|].
  destruct (first_sound n G r comp r1 c1 G1 H1 P W A R SR VF PR L) as (S1 & V1). destruct (segments_sound n _ _ _ _ _ _ SG P S1 T) as (S2 & _ & V2). split; [auto|]. intros σ b. etransitivity; [apply V2|apply V1].
Qed.
Lemma segments_trans r c H r1 c1 H1 r2 c2 H2 : segments r c H r1 c1 H1 -> segments r1 c1 H1 r2 c2 H2 -> segments r c H r2 c2 H2.
Proof. induction 1; auto. intros S. eapply seg_more; eauto. Qed.
(** A course may go on. *)
Lemma course_more r c G r1 c1 H1 r2 c2 H2 : course r c G r1 c1 H1 -> simple_graph H1 -> segments r1 c1 H1 r2 c2 H2 -> course r c G r2 c2 H2.
Proof.
  intros (r0 & c0 & G0 & H0 & PR & L & D) T S. exists r0, c0, G0, H0. split; [auto|]. split; [auto|]. right. destruct D as [(-> & -> & ->)|[T0 S0]]; [auto|]. split; [auto|]. eapply segments_trans; eauto.
Qed.

(** ** Negation normal form *)
Lemma live_only ts G r H : live G r H -> only ts G -> only ts H.
Proof. intros L T j x E. apply (l_gates _ _ _ L) in E as [E _]. apply (T j x E). Qed.
Lemma live_leaves G r H : live G r H -> complements_at_leaves G -> complements_at_leaves H.
Proof. intros L C j x a E I [y Sa]. apply (l_gates _ _ _ L) in E as [E _]. apply (l_gates _ _ _ L) in Sa as [Sa _]. apply (C j x a E I). eauto. Qed.
Lemma live_none_negated G r H : live G r H -> no_complements G -> no_complements H.
Proof. intros L C j x a E I. apply (l_gates _ _ _ L) in E as [E _]. apply (C j x a E I). Qed.
Lemma segments_normal n H r c r' c' H' : segments r c H r' c' H' -> 0 <= n -> sound n H r -> only [kAnd; kOr; kNull] H -> complements_at_leaves H -> c = false ->
  only [kAnd; kOr; kNull] H' /\ complements_at_leaves H' /\ c' = false.
Proof.
  intros SG P. induction SG as [r c H|r c H r1 c1 G1 H1 r2 c2 H2 PR L _ IH]; intros S T C E; [auto|]. subst c.
  destruct (C50_complements r H r1 c1 G1 (so_wf _ _ _ S) (so_root _ _ _ S) T C PR) as (T1 & C1 & E1).
  destruct (segment_sound n H r false r1 c1 G1 H1 P S ltac:(intros j x E; pose proof (T j x E) as Q; cbn in Q |- *; tauto) PR L) as (S1 & _ & _).
  apply IH; [auto|apply (live_only _ _ _ _ L T1)|apply (live_leaves _ _ _ L C1)|auto].
Qed.
Lemma segments_coherent n H r c r' c' H' : segments r c H r' c' H' -> 0 <= n -> sound n H r -> simple_graph H -> no_complements H -> c = false ->
  simple_graph H' /\ no_complements H' /\ c' = false.
Proof.
  intros SG P. induction SG as [r c H|r c H r1 c1 G1 H1 r2 c2 H2 PR L _ IH]; intros S T C E; [auto|]. subst c.
  destruct (C50_coherent _ r H r1 c1 G1 ltac:(right; reflexivity) (so_wf _ _ _ S) (so_root _ _ _ S) T C PR) as (T1 & C1 & E1).
  destruct (segment_sound n H r false r1 c1 G1 H1 P S T PR L) as (S1 & _ & _).
  apply IH; [auto|apply (live_only _ _ _ _ L T1)|apply (live_none_negated _ _ _ L C1)|auto].
Qed.
Lemma under_memory G r j : is_Some (gs G !! r) -> under G r j -> is_Some (gs G !! j) -> Complement.in_memory r G ∅ j.
Proof. intros S U. induction U as [|j x a U IH E J]; intros Sj; [constructor; auto|]. eapply Complement.mem_arg; [apply IH; eauto|exact E|exact J|exact Sj]. Qed.
(** After phase IV. *)
Lemma phase_four_normal n H r c H' : 0 <= n -> sound n H r -> phase_four_run r c H H' ->
  segments r c H r false H' /\ simple_graph H /\ only [kAnd; kOr; kNull] H' /\ complements_at_leaves H'.
Proof.
  intros P S (single & order & fuel & G & SI & OR & TI & E & L).
  assert (T : simple_graph H).
  { intros j x Ex. destruct (proj2 TI j x (under_memory H r j (so_root _ _ _ S) (so_all _ _ _ S j ltac:(eauto)) ltac:(eauto)) Ex) as ([Q|[Q|(_ & Q & _)]] & _); rewrite Q; cbn; auto. }
  split; [|split; [exact T|]].
  - eapply (seg_more r c H r false G H'); [|exact L|constructor]. eapply (pre_phase r c H r false G); [|constructor]. eapply phase_complement; eauto.
  - destruct (P_Complement.C05_complements single order SI OR r c H (so_wf _ _ _ S) (so_acyclic _ _ _ S) TI) as (m & G2 & F & _ & _ & T2 & _ & _ & NN & _).
    pose proof (F (max fuel m) ltac:(lia)) as E2. rewrite (phase_four_mono _ _ _ _ _ _ _ (max fuel m) E ltac:(lia)) in E2. injection E2 as <-. pose proof (proj1 T2) as S2. split.
    + intros j x Ex. apply (l_gates _ _ _ L) in Ex as [Ex U]. destruct (proj2 T2 j x (under_memory G r j S2 U ltac:(eauto)) Ex) as ([Q|[Q|(_ & Q & _)]] & _); rewrite Q; cbn; auto.
    + intros j x a Ex J [y Sa]. apply (l_gates _ _ _ L) in Ex as [Ex U]. apply (l_gates _ _ _ L) in Sa as [Sa _]. apply (NN j x a (under_memory G r j S2 U ltac:(eauto)) Ex J ltac:(eauto)).
Qed.
