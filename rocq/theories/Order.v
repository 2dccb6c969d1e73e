(** The last steps of preprocessing: numbering of the nodes and coherence flags.
    Source: /repo/src/preprocessor.cc:94-165 (pdag::OrderArguments, TopologicalOrder,
    MarkCoherence). *)
From stdpp Require Import gmap.
From Coq Require Import List ZArith Lia Bool Permutation.
Import ListNotations.
From Verif Require Import Pdag PdagProofs PdagSem ZbddGraph ZbddModules ZbddModulesProofs.
Open Scope Z_scope.

Section Model.
Context (G : graph).
Definition gate_at (i : Z) : bool := match gs G !! i with Some _ => true | None => false end.
(** Gate::args<Gate>, Gate::args<Variable> (pdag.h:440-452): the arguments that are gates, variables. *)
Definition gate_args (x : gate) : list Z := List.filter gate_at (map Z.abs (g_args x)).
Definition variable_args (x : gate) : list Z := List.filter (fun i => negb (gate_at i)) (map Z.abs (g_args x)).

(** OrderArguments, preprocessor.cc:96-106: an unstable sort by the number of parents, here any
    permutation. *)
Context (arrange : list Z -> list Z).
(** The order of the nodes (absent: 0, Node::order of pdag.h:155-160) and the last number given. *)
Notation state := (gmap Z Z * Z)%type.
(** preprocessor.cc:117-120. *)
Definition number (s : state) (v : Z) : state :=
  match s.1 !! v with Some _ => s | None => (<[v := s.2 + 1]> s.1, s.2 + 1) end.
(** The recursive lambda of TopologicalOrder, preprocessor.cc:110-125; [None] is out of fuel, a
    missing gate or the assert of 122. *)
Fixpoint topological (fuel : nat) (i : Z) (s : state) : option state :=
  match fuel with
  | O => None
  | S fuel =>
      match s.1 !! i with
      | Some _ => Some s
      | None =>
          x ← gs G !! i;
          s ← (fix go (l : list Z) (s : state) : option state :=
                 match l with [] => Some s | g :: l => s ← topological fuel g s; go l s end) (arrange (gate_args x)) s;
          let s := fold_left number (arrange (variable_args x)) s in
          if constant x then None else Some (<[i := s.2 + 1]> s.1, s.2 + 1)
      end
  end.
(** TopologicalOrder, preprocessor.cc:126-127. *)
Definition topological_order (fuel : nat) (root : Z) : option state := topological fuel root (∅, 0).
(** The numbers as a function; a node without a number is never asked for: any unused one. *)
Definition order_of (s : state) (i : Z) : Z :=
  match s.1 !! i with Some k => k | None => if 0 <? i then s.2 + i else i end.

(** The lambda of MarkCoherence, preprocessor.cc:131-158: the flags of the gates with the mark set. *)
Definition coherent_type (t : conn) : bool := match t with kXor | kNor | kNot | kNand => false | _ => true end.
Fixpoint mark_coherence (fuel : nat) (i : Z) (s : gmap Z bool) : option (gmap Z bool) :=
  match fuel with
  | O => None
  | S fuel =>
      match s !! i with
      | Some _ => Some s
      | None =>
          x ← gs G !! i;
          '(c, s) ← (fix go (l : list Z) (c : bool) (s : gmap Z bool) : option (bool * gmap Z bool) :=
                 match l with
                 | [] => Some (c, s)
                 | a :: l =>
                     s ← mark_coherence fuel (Z.abs a) s;
                     b ← s !! Z.abs a;
                     go l (c && negb ((a <? 0) || negb b)) s
                 end) (List.filter (fun a => gate_at (Z.abs a)) (g_args x)) (coherent_type (g_type x)) s;
          let c := c && negb (existsb (fun a => negb (gate_at (Z.abs a)) && (a <? 0)) (g_args x)) in
          if constant x then None else Some (<[i := c]> s)
      end
  end.
(** MarkCoherence, preprocessor.cc:160-164: the flags and that of the graph. *)
Definition mark_graph (fuel : nat) (root : Z) (complement : bool) : option (gmap Z bool * bool) :=
  s ← mark_coherence fuel root ∅;
  c ← s !! root;
  Some (s, negb complement && c).
End Model.

Section TopologicalOrder.
Context (G : graph) (arrange : list Z -> list Z) (ARR : forall l, Permutation (arrange l) l) (r : Z -> nat) (RK : ranked G r).
Context (NC : forall i x, gs G !! i = Some x -> constant x = false).
Notation state := (gmap Z Z * Z)%type.
Notation topo := (topological G arrange).
Notation under := (ZbddModules.under G).
Context (M : Z -> Prop) (MG : forall m, M m -> is_Some (gs G !! m)) (MM : forall m, M m -> modular G m).

Record inv (s : state) : Prop := {
  i_range : forall i k, s.1 !! i = Some k -> 1 <= k <= s.2;
  i_inj : forall i j k, s.1 !! i = Some k -> s.1 !! j = Some k -> i = j;
  i_closed : forall i k x a, s.1 !! i = Some k -> gs G !! i = Some x -> In a (g_args x) -> exists k', s.1 !! Z.abs a = Some k' /\ k' < k;
  i_block : forall m k, M m -> s.1 !! m = Some k -> exists lo, forall u ku, s.1 !! u = Some ku -> (under m u <-> lo < ku <= k);
  i_surj : forall k, 1 <= k <= s.2 -> exists i, s.1 !! i = Some k;
  i_nonneg : 0 <= s.2 }.
(* nothing in a module is numbered before the module is entered *)
Definition entered (strict : bool) (i : Z) (s : state) : Prop :=
  forall m j, M m -> under m j -> is_Some (s.1 !! j) -> is_Some (s.1 !! m) \/ (under m i /\ (strict = true -> m <> i)).
Record grows (i : Z) (s s' : state) : Prop := {
  w_old : forall j k, s.1 !! j = Some k -> s'.1 !! j = Some k;
  w_last : s.2 <= s'.2;
  w_new : forall j k, s.1 !! j = None -> s'.1 !! j = Some k -> s.2 < k /\ under i j }.
Lemma grows_refl i s : grows i s s.
Proof. split; auto; try lia. intros; congruence. Qed.
Lemma grows_trans i a b c : grows i a b -> grows i b c -> grows i a c.
Proof.
  intros [A1 A2 A3] [B1 B2 B3]. split; auto; try lia. intros j k N S. destruct (b.1 !! j) as [k'|] eqn:E.
  - destruct (A3 j k' N E). rewrite (B1 j k' E) in S. injection S as <-. auto.
  - destruct (B3 j k E S). split; auto; lia.
Qed.
Lemma under_trans a b c : under a b -> under b c -> under a c.
Proof. intros A. induction 1 as [|i x e U IH E J]; auto. exact (under_arg G a i x e IH E J). Qed.
Lemma under_child i x a : gs G !! i = Some x -> In a (g_args x) -> under i (Z.abs a).
Proof. intros E J. exact (under_arg G i i x a (under_refl G i) E J). Qed.
Lemma under_rank a b : under a b -> is_Some (gs G !! b) -> (r b <= r a)%nat.
Proof.
  induction 1 as [|i x e U IH E J]; intros S; auto. pose proof (RK i x e E J S). assert (r i <= r a)%nat by (apply IH; eauto). lia.
Qed.
Lemma grows_up i c s s' : under i c -> grows c s s' -> grows i s s'.
Proof. intros U [A B C]. split; auto. intros j k N S. destruct (C j k N S). split; auto. eapply under_trans; eauto. Qed.
Lemma entered_up b i s : entered true i s -> entered b i s.
Proof. intros H m j A B C. destruct (H m j A B C) as [|[U N]]; auto. Qed.
Lemma entered_down i x a s : gs G !! i = Some x -> In a (g_args x) -> is_Some (gs G !! Z.abs a) -> entered false i s -> entered true (Z.abs a) s.
Proof.
  intros E J S H m j A B C. destruct (H m j A B C) as [|[U _]]; auto. right. split; [eapply under_trans; [exact U|eapply under_child; eauto]|].
  intros _ ->. pose proof (under_rank _ _ U (mk_is_Some _ _ E)). pose proof (RK i x a E J S). lia.
Qed.
Lemma entered_back i x a s : gs G !! i = Some x -> In a (g_args x) -> entered true (Z.abs a) s -> entered false i s.
Proof.
  intros E J H m j A B C. destruct (H m j A B C) as [|[U N]]; auto. right. split; [|discriminate].
  destruct (MM m A i x a E J U) as [Q|Q]; auto. elim (N eq_refl). auto.
Qed.

(* a node gets the next number *)
Definition give (i : Z) (s : state) : state := (<[i := s.2 + 1]> s.1, s.2 + 1).
Lemma under_closed s m : inv s -> is_Some (s.1 !! m) -> forall u, under m u -> is_Some (s.1 !! u).
Proof.
  intros I S u U. induction U as [|i x e U IH E J]; auto. destruct IH as [k K]. destruct (i_closed s I i k x e K E J) as (k' & K' & _). eauto.
Qed.
Lemma give_inv i s : inv s -> s.1 !! i = None ->
  (forall x a, gs G !! i = Some x -> In a (g_args x) -> is_Some (s.1 !! Z.abs a)) ->
  (M i -> exists lo, lo <= s.2 /\ forall u ku, s.1 !! u = Some ku -> (under i u <-> lo < ku)) -> inv (give i s).
Proof.
  intros I N CL BL. unfold give. split; simpl.
  - intros j k. rewrite lookup_insert_Some. intros [[<- <-]|[_ L]]; [pose proof (i_nonneg s I); lia|]. pose proof (i_range s I j k L). lia.
  - intros j j' k. rewrite !lookup_insert_Some. intros [[<- <-]|[D L]] [[<- K]|[D' L']]; auto.
    + pose proof (i_range s I j' _ L'). lia.
    + subst k. pose proof (i_range s I j _ L). lia.
    + exact (i_inj s I j j' k L L').
  - intros j k x a. rewrite lookup_insert_Some. intros [[<- <-]|[D L]] E J.
    + destruct (CL x a E J) as [k' K']. exists k'. split; [rewrite lookup_insert_ne; auto; congruence|]. pose proof (i_range s I _ _ K'). lia.
    + destruct (i_closed s I j k x a L E J) as (k' & K' & LT). exists k'. split; auto. rewrite lookup_insert_ne; auto. congruence.
  - intros m k Mm. rewrite lookup_insert_Some. intros [[<- <-]|[D L]].
    + destruct (BL Mm) as (lo & LE & H). exists lo. intros u ku. rewrite lookup_insert_Some. intros [[<- <-]|[D L]].
      * split; [lia|constructor].
      * rewrite (H u ku L). pose proof (i_range s I u ku L). lia.
    + destruct (i_block s I m k Mm L) as (lo & H). exists lo. intros u ku. rewrite lookup_insert_Some. intros [[<- <-]|[D' L']]; [|auto].
      pose proof (i_range s I m k L). split; [|lia]. intros U. destruct (under_closed s m I (mk_is_Some _ _ L) i U) as [k' K']. congruence.
  - intros k K. destruct (Z.eq_dec k (s.2 + 1)) as [->|]; [exists i; apply lookup_insert|]. destruct (i_surj s I k) as [j J]; [lia|].
    exists j. rewrite lookup_insert_ne; auto. congruence.
  - pose proof (i_nonneg s I). lia.
Qed.
Lemma give_grows top i s : s.1 !! i = None -> under top i -> grows top s (give i s).
Proof.
  intros N U. unfold give. split; simpl; [|lia|].
  - intros j k L. rewrite lookup_insert_ne; auto. congruence.
  - intros j k N'. rewrite lookup_insert_Some. intros [[<- <-]|[_ L]]; [split; auto; lia|congruence].
Qed.
Lemma number_ok i x v s : gs G !! i = Some x -> In v (map Z.abs (g_args x)) -> gs G !! v = None -> inv s -> entered false i s ->
  let s' := number s v in inv s' /\ grows i s s' /\ entered false i s' /\ is_Some (s'.1 !! v).
Proof.
  intros E J NV I EN. apply in_map_iff in J as (a & <- & J). unfold number. destruct (s.1 !! Z.abs a) as [k|] eqn:L; cbv zeta.
  { split; [auto|]. split; [apply grows_refl|]. split; eauto. }
  change (<[Z.abs a := s.2 + 1]> s.1, s.2 + 1) with (give (Z.abs a) s).
  assert (GR : grows i s (give (Z.abs a) s)) by (apply give_grows; auto; eapply under_child; eauto).
  split; [|split; [auto|split]].
  - apply give_inv; auto; [intros; congruence|]. intros Mv. destruct (MG _ Mv); congruence.
  - intros m j Mm U [k K]. unfold give in K. simpl in K. apply lookup_insert_Some in K as [[<- _]|[D K]].
    + right. split; [|discriminate]. destruct (MM m Mm i x a E J U) as [Q|Q]; auto. destruct (MG m Mm). congruence.
    + destruct (EN m j Mm U (mk_is_Some _ _ K)) as [[k' K']|]; auto. left. exists k'. apply (w_old _ _ _ GR). auto.
  - unfold give. simpl. rewrite lookup_insert. eauto.
Qed.
Lemma numbers_ok i x : gs G !! i = Some x -> forall l s, (forall v, In v l -> In v (map Z.abs (g_args x)) /\ gs G !! v = None) -> inv s -> entered false i s ->
  let s' := fold_left number l s in inv s' /\ grows i s s' /\ entered false i s' /\ forall v, In v l -> is_Some (s'.1 !! v).
Proof.
  intros E. induction l as [|v l IH]; intros s H I EN; cbn [fold_left]; cbv zeta.
  - split; [auto|]. split; [apply grows_refl|]. split; [auto|]. intros v [].
  - destruct (H v (or_introl eq_refl)) as [V1 V2]. destruct (number_ok i x v s E V1 V2 I EN) as (I1 & G1 & E1 & S1).
    destruct (IH (number s v)) as (I2 & G2 & E2 & S2); auto. { intros u U. apply H. right; auto. }
    split; [auto|]. split; [eapply grows_trans; eauto|]. split; [auto|]. intros u [<-|U]; auto. destruct S1 as [k K]. exists k. apply (w_old _ _ _ G2). auto.
Qed.
Lemma topological_S fuel i s : topo (S fuel) i s = match s.1 !! i with Some _ => Some s | None =>
    x ← gs G !! i; s ← (fix go (l : list Z) (s : state) : option state := match l with [] => Some s | g :: l => s ← topo fuel g s; go l s end) (arrange (gate_args G x)) s;
    let s := fold_left number (arrange (variable_args G x)) s in if constant x then None else Some (give i s) end.
Proof. reflexivity. Qed.
Lemma topological_ok : forall fuel i s, (r i < fuel)%nat -> is_Some (gs G !! i) -> inv s -> entered true i s ->
  exists s', topo fuel i s = Some s' /\ inv s' /\ grows i s s' /\ entered true i s' /\ is_Some (s'.1 !! i).
Proof.
  induction fuel as [|fuel IH]; intros i s F [x E] I EN; [lia|]. rewrite topological_S. destruct (s.1 !! i) as [k|] eqn:L.
  { exists s. split; [auto|]. split; [auto|]. split; [apply grows_refl|]. split; eauto. }
  rewrite E. cbn [mbind option_bind].
  assert (GO : forall l s0, (forall g, In g l -> In g (map Z.abs (g_args x)) /\ is_Some (gs G !! g)) -> inv s0 -> entered false i s0 ->
    exists s', (fix go (l : list Z) (s : state) : option state := match l with [] => Some s | g :: l => s ← topo fuel g s; go l s end) l s0 = Some s' /\
      inv s' /\ grows i s0 s' /\ entered false i s' /\ (forall g, In g l -> is_Some (s'.1 !! g)) /\ (forall k, s0.1 !! i = None -> s'.1 !! i = Some k -> False)).
  { induction l as [|g l IHl]; intros s0 H I0 E0.
    - exists s0. split; [auto|]. split; [auto|]. split; [apply grows_refl|]. split; [auto|]. split; [intros ? []|congruence].
    - destruct (H g (or_introl eq_refl)) as [J Sg]. apply in_map_iff in J as (a & <- & J). pose proof (RK i x a E J Sg) as LT.
      destruct (IH (Z.abs a) s0) as (s1 & T1 & I1 & G1 & E1 & S1); auto; [lia|eapply entered_down; eauto|]. rewrite T1. cbn [mbind option_bind].
      pose proof (entered_back i x a s1 E J E1) as E1'.
      destruct (IHl s1) as (s2 & T2 & I2 & G2 & E2 & S2 & N2); auto. { intros u U. apply H. right; auto. }
      exists s2. split; [auto|]. split; [auto|]. split; [eapply grows_trans; [eapply grows_up; [eapply under_child; eauto|eauto]|auto]|]. split; [auto|]. split.
      + intros u [<-|U]; auto. destruct S1 as [k K]. exists k. apply (w_old _ _ _ G2). auto.
      + intros k N0 K. destruct (s1.1 !! i) as [k1|] eqn:L1; [|eapply N2; eauto].
        destruct (w_new _ _ _ G1 i k1 N0 L1) as [_ U]. pose proof (under_rank _ _ U (mk_is_Some _ _ E)). lia. }
  destruct (GO (arrange (gate_args G x)) s) as (s1 & T1 & I1 & G1 & E1 & S1 & N1); auto.
  { intros g J. apply (Permutation_in g (ARR _)) in J. apply filter_In in J as [J1 J2]. split; auto. unfold gate_at in J2. destruct (gs G !! g) eqn:Eg; [eauto|discriminate]. }
  { apply entered_up. auto. }
  rewrite T1. cbn [mbind option_bind]. cbv zeta.
  destruct (numbers_ok i x E (arrange (variable_args G x)) s1) as (I2 & G2 & E2 & S2); auto.
  { intros g J. apply (Permutation_in g (ARR _)) in J. apply filter_In in J as [J1 J2]. split; auto. unfold gate_at in J2. destruct (gs G !! g) eqn:Eg; [discriminate|auto]. }
  rewrite (NC i x E). set (s2 := fold_left number (arrange (variable_args G x)) s1) in *.
  assert (G02 : grows i s s2) by (eapply grows_trans; eauto).
  assert (N2 : s2.1 !! i = None).
  { destruct (s2.1 !! i) as [k|] eqn:L2; auto. exfalso. unfold s2 in L2. clear -L2 N1 L E S1 ARR. destruct (s1.1 !! i) as [k1|] eqn:L1; [eapply N1; eauto|].
    assert (NI : ~ In i (arrange (variable_args G x))).
    { intros J. apply (Permutation_in i (ARR _)) in J. apply filter_In in J as [_ J]. unfold gate_at in J. rewrite E in J. discriminate. }
    revert L2 L1 NI. generalize (arrange (variable_args G x)) as l. intros l. clear S1 N1. revert s1. induction l as [|v l IHl]; intros s1 L2 L1 NI; cbn [fold_left] in L2; [congruence|].
    apply (IHl (number s1 v)); auto; [|intros J; apply NI; right; auto]. unfold number. destruct (s1.1 !! v); auto. simpl. rewrite lookup_insert_ne; auto. intros ->. apply NI. left; auto. }
  assert (ARGS : forall a, In a (g_args x) -> is_Some (s2.1 !! Z.abs a)).
  { intros a J. assert (J' : In (Z.abs a) (map Z.abs (g_args x))) by (apply in_map; auto). destruct (gate_at G (Z.abs a)) eqn:GA.
    - assert (K : In (Z.abs a) (arrange (gate_args G x))) by (apply (Permutation_in _ (Permutation_sym (ARR _))), filter_In; auto).
      destruct (S1 _ K) as [k Hk]. exists k. apply (w_old _ _ _ G2). auto.
    - apply S2, (Permutation_in _ (Permutation_sym (ARR _))), filter_In. rewrite GA. auto. }
  assert (GG : grows i s2 (give i s2)) by (apply give_grows; auto; constructor).
  exists (give i s2). split; [auto|]. split; [|split; [eapply grows_trans; eauto|split]].
  - apply give_inv; auto.
    + intros y a Ey J. rewrite E in Ey. injection Ey as <-. auto.
    + intros Mi. exists s.2. split; [apply (w_last _ _ _ G02)|]. intros u ku K. destruct (s.1 !! u) as [k0|] eqn:L0.
      * rewrite (w_old _ _ _ G02 u k0 L0) in K. injection K as <-. pose proof (i_range s I u k0 L0). split; [|lia]. intros U.
        destruct (EN i u Mi U (mk_is_Some _ _ L0)) as [[k K]|[_ N]]; [congruence|]. elim (N eq_refl). auto.
      * destruct (w_new _ _ _ G02 u ku L0 K). tauto.
  - intros m j Mm U [k K]. unfold give in K. cbn [fst snd] in K. destruct (Z.eq_dec m i) as [->|D]; [left; unfold give; simpl; rewrite lookup_insert; eauto|].
    apply lookup_insert_Some in K as [[<- _]|[_ K]]; [auto|]. destruct (E2 m j Mm U (mk_is_Some _ _ K)) as [[k' K']|[Q _]]; auto. left. exists k'. apply (w_old _ _ _ GG). auto.
  - unfold give. simpl. rewrite lookup_insert. eauto.
Qed.
Lemma start_inv : inv (∅, 0).
Proof. split; simpl; intros; try lia; try (exfalso; eapply (lookup_empty_Some (M := gmap Z)); eassumption). Qed.
Lemma start_entered i : entered true i (∅, 0).
Proof. intros m j _ _ [k K]. elim (lookup_empty_Some (M := gmap Z) j k K). Qed.
End TopologicalOrder.

Section MarkCoherence.
Context (G : graph) (r : Z -> nat) (RK : ranked G r) (NC : forall i x, gs G !! i = Some x -> constant x = false).
Notation under := (ZbddModules.under G).
(** No negation at or below a node. *)
Definition clean (i : Z) : Prop := forall j x, under i j -> gs G !! j = Some x ->
  coherent_type (g_type x) = true /\ forall a, In a (g_args x) -> 0 <= a.
Lemma under_step i x j : gs G !! i = Some x -> under i j -> j = i \/ exists a, In a (g_args x) /\ under (Z.abs a) j.
Proof.
  intros E U. induction U as [|k y e U IH Ek J]; auto. right. destruct IH as [->|(a & A & Ua)].
  - rewrite E in Ek. injection Ek as <-. exists e. split; [auto|constructor].
  - exists a. split; auto. econstructor; eauto.
Qed.
Lemma clean_gate i x : gs G !! i = Some x ->
  (clean i <-> coherent_type (g_type x) = true /\ forall a, In a (g_args x) -> 0 <= a /\ (is_Some (gs G !! Z.abs a) -> clean (Z.abs a))).
Proof.
  intros E. split.
  - intros C. destruct (C i x (under_refl G i) E) as [T A]. split; auto. intros a J. split; auto. intros _ j y U Ey. apply (C j y); auto.
    clear -E J U. induction U as [|k z e U IH Ek Je]; [eapply under_arg; eauto; constructor|eapply under_arg; eauto].
  - intros [T A] j y U Ey. destruct (under_step i x j E U) as [->|(a & J & Ua)].
    + rewrite E in Ey. injection Ey as <-. split; auto. intros a J. apply A. auto.
    + destruct (gs G !! Z.abs a) as [z|] eqn:Ez; [apply (proj2 (A a J) ltac:(eauto) j y); auto|].
      exfalso. clear -Ua Ez Ey. assert (j = Z.abs a); [|congruence]. clear Ey. induction Ua as [|k' z e U IH Ek Je]; congruence.
Qed.
Definition marks_ok (s : gmap Z bool) : Prop := forall i b, s !! i = Some b -> is_Some (gs G !! i) /\ (b = true <-> clean i).
Lemma mark_ok : forall fuel i s, (r i < fuel)%nat -> is_Some (gs G !! i) -> marks_ok s ->
  exists s', mark_coherence G fuel i s = Some s' /\ marks_ok s' /\ (forall j b, s !! j = Some b -> s' !! j = Some b) /\ is_Some (s' !! i) /\
    (forall j, is_Some (s' !! j) -> is_Some (s !! j) \/ under i j) /\ ((forall j x a, is_Some (s !! j) -> gs G !! j = Some x -> In a (g_args x) -> is_Some (gs G !! Z.abs a) -> is_Some (s !! Z.abs a)) ->
      forall j x a, is_Some (s' !! j) -> gs G !! j = Some x -> In a (g_args x) -> is_Some (gs G !! Z.abs a) -> is_Some (s' !! Z.abs a)).
Proof.
  induction fuel as [|fuel IH]; intros i s F [x E] OK; [lia|]. cbn [mark_coherence]. destruct (s !! i) as [b|] eqn:L.
  { exists s. split; [auto|]. split; [auto|]. split; [auto|]. split; [eauto|]. split; [auto|]. intros H. exact H. }
  rewrite E. cbn [mbind option_bind].
  set (go := fix go (l : list Z) (c : bool) (s : gmap Z bool) : option (bool * gmap Z bool) := match l with [] => Some (c, s) | a :: l => s ← mark_coherence G fuel (Z.abs a) s; b ← s !! Z.abs a; go l (c && negb ((a <? 0) || negb b)) s end).
  assert (GO : forall l c s0, (forall a, In a l -> In a (g_args x) /\ is_Some (gs G !! Z.abs a)) -> marks_ok s0 ->
    exists c' s', go l c s0 = Some (c', s') /\ marks_ok s' /\ (forall j b, s0 !! j = Some b -> s' !! j = Some b) /\ (forall a, In a l -> is_Some (s' !! Z.abs a)) /\
      (c' = true <-> c = true /\ forall a, In a l -> 0 <= a /\ clean (Z.abs a)) /\ (forall j, is_Some (s' !! j) -> is_Some (s0 !! j) \/ exists a, In a l /\ under (Z.abs a) j) /\
      ((forall j x a, is_Some (s0 !! j) -> gs G !! j = Some x -> In a (g_args x) -> is_Some (gs G !! Z.abs a) -> is_Some (s0 !! Z.abs a)) ->
      forall j x a, is_Some (s' !! j) -> gs G !! j = Some x -> In a (g_args x) -> is_Some (gs G !! Z.abs a) -> is_Some (s' !! Z.abs a))).
  { induction l as [|a l IHl]; intros c s0 H O0.
    - exists c, s0. split; [reflexivity|]. split; [auto|]. split; [auto|]. split; [intros ? []|]. split; [split; [intros ->; split; [auto|intros ? []]|tauto]|]. split; [auto|]. intros Hc. exact Hc.
    - destruct (H a (or_introl eq_refl)) as [J Sa]. pose proof (RK i x a E J Sa).
      destruct (IH (Z.abs a) s0) as (s1 & T1 & O1 & M1 & [b1 B1] & N1 & K1); auto; [lia|]. cbn [go]. rewrite T1. cbn [mbind option_bind]. rewrite B1. cbn [mbind option_bind].
      destruct (IHl (c && negb ((a <? 0) || negb b1)) s1) as (c2 & s2 & T2 & O2 & M2 & S2 & C2 & N2 & K2); auto. { intros u U. apply H. right; auto. }
      exists c2, s2. split; [exact T2|]. split; [auto|]. split; [auto|]. split; [|split; [|split]].
      + intros u [<-|U]; auto. exists b1. auto.
      + rewrite C2. destruct (O1 _ _ B1) as [_ CB]. rewrite andb_true_iff, negb_true_iff, orb_false_iff, negb_false_iff, Z.ltb_ge, CB. split.
        * intros ((C & P & Q) & R). split; auto. intros u [<-|U]; auto.
        * intros (C & R). split; [split; auto; apply R; left; auto|]. intros u U. apply R. right; auto.
      + intros j Sj. destruct (N2 j Sj) as [S1|(u & U & Q)]; [|right; exists u; split; auto; right; auto]. destruct (N1 j S1) as [S0|Q]; auto. right. exists a. split; [left|]; auto.
      + intros Hc. apply K2, K1. exact Hc. }
  destruct (GO (List.filter (fun a => gate_at G (Z.abs a)) (g_args x)) (coherent_type (g_type x)) s) as (c' & s' & T & O & MO & SA & CC & NN & KK); auto.
  { intros a J. apply filter_In in J as [J GA]. split; auto. unfold gate_at in GA. destruct (gs G !! Z.abs a); [eauto|discriminate]. }
  rewrite T. cbn [mbind option_bind]. rewrite (NC i x E). cbv zeta.
  assert (NI : s' !! i = None).
  { destruct (s' !! i) as [b|] eqn:B; auto. exfalso. destruct (NN i ltac:(eauto)) as [[b' B']|(a & J & U)]; [congruence|].
    apply filter_In in J as [J GA]. unfold gate_at in GA. destruct (gs G !! Z.abs a) as [y|] eqn:Ey; [|discriminate].
    pose proof (under_rank G r RK _ _ U (mk_is_Some _ _ E)). pose proof (RK i x a E J ltac:(eauto)). lia. }
  eexists. split; [reflexivity|]. split; [|split; [|split; [|split]]].
  - intros j b. rewrite lookup_insert_Some. intros [[<- <-]|[_ B]]; [|auto]. split; [eauto|]. rewrite (clean_gate i x E), andb_true_iff, CC, negb_true_iff. split.
    + intros ((T1 & P) & Q). split; auto. intros a J. destruct (gate_at G (Z.abs a)) eqn:GA.
      * destruct (P a) as [P1 P2]; [apply filter_In; auto|]. auto.
      * split; [|unfold gate_at in GA; intros [y Ey]; rewrite Ey in GA; discriminate]. destruct (Z.le_gt_cases 0 a) as [|N]; auto. exfalso.
        assert (X : existsb (fun a => negb (gate_at G (Z.abs a)) && (a <? 0)) (g_args x) = true); [|congruence].
        apply existsb_exists. exists a. split; auto. rewrite GA. simpl. apply Z.ltb_lt. lia.
    + intros [T1 A]. split; [split; auto|].
      * intros a J. apply filter_In in J as [J GA]. unfold gate_at in GA. destruct (gs G !! Z.abs a) as [y|] eqn:Ey; [|discriminate]. destruct (A a J) as [A1 A2]. rewrite Ey in A2. eauto.
      * apply not_true_iff_false. intros X. apply existsb_exists in X as (a & J & X). apply andb_true_iff in X as [_ X]. apply Z.ltb_lt in X. pose proof (proj1 (A a J)). lia.
  - intros j b B. rewrite lookup_insert_ne; [auto|]. intros <-. congruence.
  - rewrite lookup_insert. eauto.
  - intros j [b B]. apply lookup_insert_Some in B as [[<- _]|[_ B]]; [right; constructor|]. destruct (NN j ltac:(eauto)) as [|(a & J & U)]; auto.
    right. apply filter_In in J as [J _]. clear -U J E. induction U as [|k z e U IH Ek Je]; [eapply under_arg; eauto; constructor|eapply under_arg; eauto].
  - intros Hc j y a [b B] Ey J Sa. destruct (decide (Z.abs a = i)) as [->|D]; [rewrite lookup_insert; eauto|]. rewrite lookup_insert_ne by congruence.
    apply lookup_insert_Some in B as [[<- _]|[_ B]].
    + rewrite E in Ey. injection Ey as <-. apply SA, filter_In. split; auto. unfold gate_at. destruct Sa as [z ->]. auto.
    + apply (KK Hc j y a); eauto.
Qed.
End MarkCoherence.
