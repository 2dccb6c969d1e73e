(** What visit times say about the arguments of a gate. *)
From stdpp Require Import gmap.
From Coq Require Import List ZArith Lia Bool Permutation.
Import ListNotations.
From Verif Require Import Pdag PdagProofs PdagAdd PdagSem PdagKeeps ZbddGraph ZbddModules ZbddModulesProofs Preproc Order Modules ModulesTiming ModulesGraph.
Open Scope Z_scope.

Section Static.
Context (G : graph) (root : Z) (r : Z -> nat) (RK : ranked G r) (V : times) (T : timed G root V) (W : wf G).
Context (ALL : forall i, is_Some (gs G !! i) -> under G root i) (ROOT : is_Some (gs G !! root)).
Context (parents : Z -> nat) (PAR : forall v, parents v = 1%nat -> forall p q, edge G p v -> edge G q v -> p = q).
Notation under := (under G). Notation edge := (edge G). Notation modular := (modular G).
Notation en := (enter_time V). Notation ex := (exit_time V). Notation last := (last_visit V).

Lemma edge_gate_of p j : edge p j -> is_Some (gs G !! p).
Proof. intros (y & a & Ey & _). eauto. Qed.
Lemma edge_root p j : edge p j -> under root p.
Proof. intros E. apply ALL. eapply edge_gate_of; eauto. Qed.
Lemma under_self_cycle p j : edge p j -> ~ under j p.
Proof. intros E U. exact (no_cycle G r RK p j E U). Qed.
Lemma ex_last j : under root j -> ex j <= last j.
Proof. intros U. unfold last_visit. destruct (Z.eqb_spec (third (V j)) 0); [unfold exit_time; lia|]. destruct (f_last _ _ _ T j U) as [E|E]; unfold re, exit_time in *; lia. Qed.
Lemma en_last j : under root j -> en j <= last j.
Proof. intros U. pose proof (ex_last j U). pose proof (f_exit _ _ _ T j U). lia. Qed.
Lemma under_root_under g j : is_Some (gs G !! g) -> under g j -> under root j.
Proof. intros S U. eapply under_trans; eauto. Qed.

Lemma module_times c j : is_Some (gs G !! c) -> modular c -> under c j -> j <> c -> en c < en j /\ ex j < ex c.
Proof.
  intros SC M. rewrite (modular_edges G) in M.
  enough (K : forall n j, en j <= Z.of_nat n -> under c j -> j <> c -> en c < en j /\ ex j < ex c).
  { apply (K (Z.to_nat (en j))). lia. }
  induction n as [|n IH]; intros k L U N; pose proof (under_root_under c k SC U) as UR.
  - pose proof (f_enter _ _ _ T k UR). lia.
  - assert (NR : k <> root). { intros ->. apply N. apply (under_antisym G r RK); auto. }
    destruct (f_parent _ _ _ T k UR NR) as (p & UP & E & B). destruct (M p k E U) as [|Up]; [contradiction|].
    assert (Q : en c < en k < ex c).
    { destruct (Z.eq_dec p c) as [->|NP]; [auto|]. destruct (IH p ltac:(lia) Up NP). lia. }
    split; [lia|]. apply (f_nested _ _ _ T c k); auto; lia.
Qed.
Lemma module_last c j : is_Some (gs G !! c) -> modular c -> under c j -> j <> c -> en c < en j /\ last j < ex c.
Proof.
  intros SC M U N. destruct (module_times c j SC M U N) as [A B]. split; auto. unfold last_visit. destruct (Z.eqb_spec (third (V j)) 0) as [|NZ]; [exact B|].
  destruct (f_again _ _ _ T j (under_root_under c j SC U) NZ) as (p & UP & E & P). pose proof M as M'. rewrite (modular_edges G) in M'. destruct (M' p j E U) as [|Up]; [contradiction|].
  unfold re in P. destruct (Z.eq_dec p c) as [->|NP]; [lia|]. destruct (module_times c p SC M Up NP). lia.
Qed.

(** The range of visits in the sub-graph of a node. *)
Record covers (g : Z) (ab : Z * Z) : Prop := {
  cov_all : forall j, under g j -> ab.1 <= en j /\ last j <= ab.2;
  cov_lo : exists j, under g j /\ en j = ab.1;
  cov_hi : exists j, under g j /\ last j = ab.2 }.
Lemma under_variable v j : gs G !! v = None -> under v j -> j = v.
Proof. intros N U. induction U as [|k y e U IH Ek Je]; congruence. Qed.
Lemma covers_variable v : gs G !! v = None -> covers v (en v, last v).
Proof.
  intros N. split; cbn [fst snd].
  - intros j U. rewrite (under_variable v j N U). lia.
  - exists v. split; [constructor|auto].
  - exists v. split; [constructor|auto].
Qed.

(** Arguments that belong to the gate alone. *)
Definition own (a : Z) : Prop :=
  (is_Some (gs G !! Z.abs a) /\ modular (Z.abs a) /\ revisited V (Z.abs a) = false) \/ (gs G !! Z.abs a = None /\ parents (Z.abs a) = 1%nat).
Lemma own_unique a p q : own a -> edge p (Z.abs a) -> edge q (Z.abs a) -> p = q.
Proof.
  intros [(SC & M & R)|(SC & P)] Ep Eq; [|eapply PAR; eauto].
  destruct (f_edge _ _ _ T p _ (edge_root _ _ Ep) Ep) as (t1 & A1 & A2 & A3 & A4). destruct (f_edge _ _ _ T q _ (edge_root _ _ Eq) Eq) as (t2 & B1 & B2 & B3 & B4).
  specialize (A3 R). specialize (B3 R). subst t1 t2. apply (under_antisym G r RK).
  - destruct (B4 p) as [->|]; auto; try (eapply edge_root; eassumption); try (eapply edge_gate_of; eassumption); [lia|]. exfalso. eapply under_self_cycle; [exact Ep|constructor].
  - destruct (A4 q) as [->|]; auto; try (eapply edge_root; eassumption); try (eapply edge_gate_of; eassumption); [lia|]. exfalso. eapply under_self_cycle; [exact Eq|constructor].
Qed.
Lemma own_inside g a j : own a -> edge g (Z.abs a) -> under (Z.abs a) j -> en g < en j /\ last j < ex g.
Proof.
  intros O E U. pose proof (edge_root _ _ E) as UG. pose proof (edge_under G root g _ E UG) as UA. pose proof (own_unique a g) as UQ.
  destruct O as [(SC & M & R)|(SC & P)].
  - destruct (f_edge _ _ _ T g _ UG E) as (t & A1 & A2 & A3 & _). specialize (A3 R). subst t.
    assert (X : ex (Z.abs a) < ex g) by (apply (f_nested _ _ _ T); auto; lia).
    destruct (Z.eq_dec j (Z.abs a)) as [->|N]; [|destruct (module_last _ j SC M U N); lia]. split; [lia|].
    unfold last_visit, revisited in *. apply negb_false_iff in R. rewrite R. exact X.
  - apply (under_variable _ _ SC) in U as ->. assert (NR : Z.abs a <> root) by (intros Ea; rewrite Ea in SC; destruct ROOT; congruence).
    destruct (f_parent _ _ _ T _ UA NR) as (p & UP & Ep & B). assert (g = p) as <- by (apply UQ; [right; auto|auto|auto]).
    split; [lia|]. unfold last_visit. destruct (Z.eqb_spec (third (V (Z.abs a))) 0) as [Z0|NZ]; [apply (f_nested _ _ _ T); auto; lia|].
    destruct (f_again _ _ _ T _ UA NZ) as (q & UQ' & Eq & Q). assert (g = q) as <- by (apply UQ; [right; auto|auto|auto]). unfold re in Q. lia.
Qed.
Lemma own_closed g l : (forall a, In a l -> own a /\ edge g (Z.abs a)) -> closed G g l.
Proof.
  intros H a j p J U E. destruct (H a J) as [O EA]. destruct (Z.eq_dec j (Z.abs a)) as [->|N].
  - left. split; [exact (own_unique a p g O E EA)|]. apply in_map. auto.
  - destruct O as [(SC & M & R)|(SC & P)]; [|elim N; apply (under_variable _ _ SC U)]. rewrite (modular_edges G) in M.
    destruct (M p j E U) as [|Up]; [contradiction|]. right. exists a. auto.
Qed.
Lemma walk a b j : modular b -> under b j -> under a j -> under b a \/ under a b.
Proof.
  intros M B A. rewrite (modular_edges G) in M. induction A as [|k y e A IH Ek Je]; auto.
  destruct (M k (Z.abs e) ltac:(exists y, e; auto) B) as [<-|U]; [|auto]. right. exact (under_arg G a k y e A Ek Je).
Qed.
Definition apart (u v : Z * Z) : Prop := overlap u v = false.
Lemma group_closed g x own_args l rest (rg : Z -> Z * Z) : gs G !! g = Some x -> Permutation (g_args x) (own_args ++ l ++ rest) ->
  (forall a, In a own_args -> own a) -> (forall a, In a (l ++ rest) -> covers (Z.abs a) (rg (Z.abs a))) ->
  (forall a, In a l -> en g < (rg (Z.abs a)).1 /\ (rg (Z.abs a)).2 < ex g) -> (forall a b, In a l -> In b rest -> apart (rg (Z.abs a)) (rg (Z.abs b))) ->
  closed G g l.
Proof.
  intros Ex P OWN COV IN AP a j p J U E. pose proof (ALL g ltac:(eauto)) as UG.
  assert (ARG : forall b, In b (own_args ++ l ++ rest) -> In b (g_args x)) by (intros b B; exact (Permutation_in _ (Permutation_sym P) B)).
  assert (EDGE : forall b, In b (own_args ++ l ++ rest) -> edge g (Z.abs b)) by (intros b B; exists x, b; auto).
  assert (INJ : forall b c, In b (own_args ++ l ++ rest) -> In c (own_args ++ l ++ rest) -> Z.abs b = Z.abs c -> b = c).
  { intros b c B C0 Q. apply (abs_inj G g x W Ex); auto. }
  assert (ND : List.NoDup (own_args ++ l ++ rest)) by (eapply Permutation_NoDup; [exact P|]; apply (proj2 W _ _ Ex)).
  assert (Ja : In a (own_args ++ l ++ rest)) by (rewrite !in_app_iff; auto).
  assert (NOTOWN : forall b, In b own_args -> Z.abs a <> Z.abs b).
  { intros b B Q. apply INJ in Q; auto; [subst b|rewrite in_app_iff; auto]. destruct (in_split _ _ B) as (u1 & u2 & Eu). rewrite Eu, <- app_assoc in ND. cbn [app] in ND. apply List.NoDup_remove_2 in ND. apply ND. rewrite !in_app_iff. auto. }
  pose proof (f_edge _ _ _ T p j (edge_root _ _ E) E) as (tau & T1 & T2 & _ & T4).
  pose proof (cov_all _ _ (COV a ltac:(rewrite in_app_iff; auto)) j U) as [C1 C2]. destruct (IN a J) as [I1 I2].
  destruct (T4 g UG ltac:(eauto) ltac:(lia)) as [->|Up]; [lia|].
  assert (OWNCASE : forall b, In b own_args -> ~ under (Z.abs a) (Z.abs b)).
  { intros b B Ub. destruct (under_edge G _ _ Ub) as [Q|(q & Uq & Eq)]; [apply (NOTOWN b B); auto|].
    assert (Eb : edge g (Z.abs b)) by (apply EDGE; rewrite in_app_iff; auto). assert (q = g) as -> by (apply (own_unique b); auto). apply (under_self_cycle g (Z.abs a)); auto. }
  assert (OVER : forall b, In b rest -> under (Z.abs b) j -> False).
  { intros b B Ub. pose proof (AP a b J B) as A. pose proof (cov_all _ _ (COV b ltac:(rewrite in_app_iff; auto)) j Ub) as [D1 D2].
    pose proof (en_last j ltac:(eapply (edge_under G root p); eauto; eapply edge_root; eauto)). unfold apart, overlap in A. apply andb_false_iff in A as [A|A]; apply Z.leb_gt in A; lia. }
  destruct (under_step G g x p Ex Up) as [->|(b & Jb & Ub)].
  - destruct E as (y & b & Ey & Jb & <-). rewrite Ex in Ey. injection Ey as <-. apply (Permutation_in _ P) in Jb. rewrite !in_app_iff in Jb. destruct Jb as [B|[B|B]].
    + exfalso. apply (OWNCASE b B). auto.
    + left. split; auto. apply in_map. auto.
    + exfalso. apply (OVER b B). constructor.
  - pose proof (edge_under G _ _ _ E Ub) as Ubj. apply (Permutation_in _ P) in Jb. rewrite !in_app_iff in Jb. destruct Jb as [B|[B|B]].
    + exfalso. destruct (OWN b B) as [(SC & M & R)|(SC & PR)].
      * destruct (walk (Z.abs a) (Z.abs b) j M Ubj U) as [X|X]; [|exact (OWNCASE b B X)].
        rewrite (modular_edges G) in M. destruct (M g (Z.abs a) (EDGE a Ja) X) as [Q|Q]; [exact (NOTOWN b B Q)|].
        apply (under_self_cycle g (Z.abs b)); auto. apply EDGE. rewrite in_app_iff. auto.
      * apply (under_variable _ _ SC) in Ub as ->. apply edge_gate_of in E. destruct E; congruence.
    + right. exists b. auto.
    + exfalso. exact (OVER b B Ubj).
Qed.
Lemma flag_modular g : is_Some (gs G !! g) -> (forall j, under g j -> j <> g -> en g <= en j /\ last j <= ex g) -> modular g.
Proof.
  intros SG B. apply modular_edges. intros p j E U. destruct (Z.eq_dec j g) as [|N]; auto. right. destruct (B j U N).
  destruct (f_edge _ _ _ T p j (edge_root _ _ E) E) as (tau & T1 & T2 & _ & T4). destruct (T4 g (ALL g SG) SG ltac:(lia)); [congruence|auto].
Qed.
End Static.
