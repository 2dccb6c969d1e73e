(** The orders MOCUS works with: src/preprocessor.cc:2346-2367 (GatherNodes), 2387-2409
    (CustomPreprocessor<Mocus>::Run, InvertOrder). *)
From stdpp Require Import gmap.
From Coq Require Import List ZArith Lia Bool Permutation Sorting.Sorted.
Import ListNotations.
From Verif Require Import Pdag PdagProofs PdagSem ZbddGraph ZbddModules ZbddModulesProofs Order.
Open Scope Z_scope.

Section Model.
Context (G : graph) (module : Z -> bool).
(** Node::Visited is membership in the list the node was put on (the visits are cleared before). *)
Definition listed (l : list Z) (i : Z) : bool := existsb (Z.eqb i) l.
Definition push (l : list Z) (v : Z) : list Z := if listed l v then l else l ++ [v].
(** GatherNodes, preprocessor.cc:2352-2367; the gates and the variables. *)
Fixpoint gather_nodes (fuel : nat) (i : Z) (s : list Z * list Z) : option (list Z * list Z) :=
  match fuel with
  | O => None
  | S fuel =>
      if listed s.1 i then Some s else
      x ← gs G !! i;
      s ← (fix go (l : list Z) (s : list Z * list Z) : option (list Z * list Z) :=
             match l with [] => Some s | g :: l => s ← gather_nodes fuel g s; go l s end) (gate_args G x) (s.1 ++ [i], s.2);
      Some (s.1, fold_left push (variable_args G x) s.2)
  end.
(** preprocessor.cc:2400-2401: gates.end() - it. *)
Fixpoint number_down (l : list Z) (m : gmap Z Z) : gmap Z Z :=
  match l with [] => m | i :: l' => number_down l' (<[i := Z.of_nat (length l)]> m) end.
(** preprocessor.cc:2404-2408. *)
Definition shift_by (sh : Z) (l : list Z) (m : gmap Z Z) : gmap Z Z := fold_left (fun m i => <[i := sh + default 0 (m !! i)]> m) l m.
(** The outcome of the std::sort of preprocessor.cc:2397-2399. *)
Definition sorts_by (order : gmap Z Z) (sort : list Z -> list Z) : Prop :=
  forall l, Permutation (sort l) l /\ StronglySorted (fun i j => default 0 (order !! i) <= default 0 (order !! j)) (sort l).
(** InvertOrder, preprocessor.cc:2390-2409; the partition of 2394-2395 may permute each part, the
    sort permutes the second one anyway. *)
Definition invert_order (sort : list Z -> list Z) (fuel : nat) (root : Z) (order : gmap Z Z) : option (gmap Z Z) :=
  '(gates, variables) ← gather_nodes fuel root ([], []);
  let inner := sort (List.filter (fun g => negb (module g)) gates) in
  let sh := Z.of_nat (length inner) in
  let order := number_down inner order in
  let order := shift_by sh (List.filter module gates) order in
  Some (shift_by sh variables order).
(** The order of a literal; a node without one is never asked for: any unused one. *)
Definition literal_order (order : gmap Z Z) (unused : Z) (j : Z) : Z :=
  match order !! Z.abs j with Some k => k | None => unused + Z.abs j end.
End Model.

Section Proofs.
Context (G : graph) (module : Z -> bool) (r : Z -> nat) (RK : ranked G r).
Notation under := (ZbddModules.under G).
Lemma listed_In l i : listed l i = true <-> In i l.
Proof. unfold listed. rewrite existsb_exists. split; [intros (x & J & E); apply Z.eqb_eq in E; subst; auto|intros J; exists i; split; auto; apply Z.eqb_refl]. Qed.
Lemma push_all vs : forall l, NoDup l -> NoDup (fold_left push vs l) /\ forall v, In v (fold_left push vs l) <-> In v l \/ In v vs.
Proof.
  induction vs as [|a vs IH]; intros l N; simpl; [split; auto; tauto|].
  assert (NP : NoDup (push l a) /\ forall v, In v (push l a) <-> In v l \/ v = a).
  { unfold push. destruct (listed l a) eqn:E.
    - apply listed_In in E. split; auto. intros v. split; [auto|intros [| ->]; auto].
    - assert (~ In a l) by (intros J; apply listed_In in J; congruence). split.
      + apply nodup_app; auto; [repeat constructor; intros []|]. intros v J [<-|[]]. auto.
      + intros v. rewrite in_app_iff. simpl. intuition. }
  destruct NP as [NP HP]. destruct (IH _ NP) as [N' H']. split; auto. intros v. rewrite H', HP. intuition.
Qed.
Lemma gate_args_in x i : In i (gate_args G x) <-> is_Some (gs G !! i) /\ exists a, In a (g_args x) /\ i = Z.abs a.
Proof.
  unfold gate_args, gate_at. rewrite filter_In, in_map_iff. split.
  - intros [(a & <- & J) K]. destruct (gs G !! Z.abs a) eqn:E; [|discriminate]. split; eauto.
  - intros [[y Y] (a & J & ->)]. rewrite Y. split; eauto.
Qed.
Lemma variable_args_in x i : In i (variable_args G x) <-> gs G !! i = None /\ exists a, In a (g_args x) /\ i = Z.abs a.
Proof.
  unfold variable_args, gate_at. rewrite filter_In, in_map_iff. split.
  - intros [(a & <- & J) K]. destruct (gs G !! Z.abs a) eqn:E; [discriminate|]. split; eauto.
  - intros [Y (a & J & ->)]. rewrite Y. split; eauto.
Qed.
Record gathered (i : Z) (s s' : list Z * list Z) : Prop := {
  g_nodup : NoDup s'.1 /\ NoDup s'.2;
  g_old : incl s.1 s'.1 /\ incl s.2 s'.2;
  g_gate : forall j, In j s'.1 -> In j s.1 \/ under i j /\ is_Some (gs G !! j);
  g_var : forall j, In j s'.2 -> In j s.2 \/ under i j /\ gs G !! j = None;
  g_closed : forall j x a, In j s'.1 -> ~ In j s.1 -> gs G !! j = Some x -> In a (g_args x) ->
    (is_Some (gs G !! Z.abs a) -> In (Z.abs a) s'.1) /\ (gs G !! Z.abs a = None -> In (Z.abs a) s'.2) }.
Lemma gather_nodes_ok : forall fuel i s, (r i < fuel)%nat -> is_Some (gs G !! i) -> NoDup s.1 -> NoDup s.2 ->
  exists s', gather_nodes G fuel i s = Some s' /\ gathered i s s' /\ In i s'.1.
Proof.
  induction fuel as [|fuel IH]; intros i s F [x Ex] N1 N2; [lia|]. cbn [gather_nodes]. destruct (listed s.1 i) eqn:V.
  - apply listed_In in V. exists s. split; auto. split; auto. constructor; auto; try (split; apply incl_refl). intros; contradiction.
  - assert (NI : ~ In i s.1) by (intros J; apply listed_In in J; congruence). rewrite Ex. cbn [mbind option_bind].
    assert (GO : forall l s, incl l (gate_args G x) -> NoDup s.1 -> NoDup s.2 -> exists s',
      (fix go (l : list Z) (s : list Z * list Z) : option (list Z * list Z) :=
             match l with [] => Some s | g :: l => s ← gather_nodes G fuel g s; go l s end) l s = Some s' /\ gathered i s s' /\ forall g, In g l -> In g s'.1).
    { clear s N1 N2 V NI. induction l as [|g l IHl]; intros s IL N1 N2.
      - exists s. split; auto. split; [|intros g []]. constructor; auto; try (split; apply incl_refl). intros; contradiction.
      - assert (GA : In g (gate_args G x)) by (apply IL; simpl; auto). apply gate_args_in in GA as [SG (a & Ja & ->)].
        pose proof (RK i x a Ex Ja SG) as RA. destruct (IH (Z.abs a) s) as (s1 & E1 & G1 & I1); auto; [lia|].
        rewrite E1. cbn [mbind option_bind]. destruct (IHl s1) as (s2 & E2 & G2 & I2); [intros j J; apply IL; simpl; auto|apply G1|apply G1|].
        exists s2. split; [exact E2|]. assert (UA : under i (Z.abs a)) by (apply (under_arg G i i x a); auto; constructor).
        destruct G1 as [A1 [B1 B1'] C1 D1 H1], G2 as [A2 [B2 B2'] C2 D2 H2]. split; [constructor; auto|].
        + split; eapply incl_tran; eauto.
        + intros j J. destruct (C2 j J) as [J1|]; auto. destruct (C1 j J1) as [|[U S]]; auto. right. split; auto. eapply under_trans; eauto.
        + intros j J. destruct (D2 j J) as [J1|]; auto. destruct (D1 j J1) as [|[U S]]; auto. right. split; auto. eapply under_trans; eauto.
        + intros j y b J NJ Ej Jb. destruct (in_dec Z.eq_dec j s1.1) as [J1|J1]; [|eapply H2; eauto].
          destruct (H1 j y b J1 NJ Ej Jb) as [X Y]. split; intros; [apply B2; auto|apply B2'; auto].
        + intros g [<-|J]; auto. }
    destruct (GO (gate_args G x) (s.1 ++ [i], s.2)) as (s1 & E1 & G1 & I1); [apply incl_refl| |auto|].
    { apply nodup_app; auto; [repeat constructor; intros []|]. intros v J [<-|[]]. auto. }
    rewrite E1. cbn [mbind option_bind]. destruct G1 as [[A1 A1'] [B1 B1'] C1 D1 H1]. cbn [fst snd] in *.
    destruct (push_all (variable_args G x) s1.2 A1') as [NP HP].
    eexists. split; [reflexivity|]. cbn [fst snd]. split; [constructor; cbn [fst snd]; auto|].
    + split; [intros j J; apply B1, in_app_iff; auto|intros j J; apply HP; auto].
    + intros j J. destruct (C1 j J) as [J1|]; auto. apply in_app_iff in J1 as [|[<-|[]]]; auto. right. split; [constructor|eauto].
    + intros j J. apply HP in J as [J|J]; [destruct (D1 j J); auto|]. apply variable_args_in in J as [Nj (a & Ja & ->)]. right. split; auto. apply (under_arg G i i x a); auto. constructor.
    + intros j y b J NJ Ej Jb. destruct (Z.eq_dec j i) as [->|Nji].
      * rewrite Ex in Ej. injection Ej as <-. split.
        -- intros SB. apply I1. apply gate_args_in. eauto.
        -- intros NB. apply HP. right. apply variable_args_in. eauto.
      * destruct (H1 j y b J) as [X Y]; auto; [intros JJ; apply in_app_iff in JJ as [|[|[]]]; auto; congruence|]. split; auto. intros NB. apply HP. auto.
    + apply B1, in_app_iff. right. simpl; auto.
Qed.
Lemma gather_all root : is_Some (gs G !! root) -> forall fuel, (r root < fuel)%nat ->
  exists gates vars, gather_nodes G fuel root ([], []) = Some (gates, vars) /\ NoDup gates /\ NoDup vars /\
    (forall i, In i gates <-> under root i /\ is_Some (gs G !! i)) /\ (forall i, In i vars <-> under root i /\ gs G !! i = None).
Proof.
  intros SR fuel F. destruct (gather_nodes_ok fuel root ([], [])) as ([gates vars] & E & [[N1 N2] _ C D H] & I); auto; [constructor|constructor|].
  cbn [fst snd] in *. exists gates, vars. split; auto. split; auto. split; auto.
  assert (K : forall i, under root i -> (is_Some (gs G !! i) -> In i gates) /\ (gs G !! i = None -> In i vars)).
  { induction 1 as [|i x a U IH Ex J]; [split; auto; intros X; destruct SR; congruence|]. destruct IH as [IH _]. apply (H i x a); eauto. }
  split; intros i; split.
  - intros J. destruct (C i J) as [[]|]; auto.
  - intros [U S]. apply K; auto.
  - intros J. destruct (D i J) as [[]|]; auto.
  - intros [U S]. apply K; auto.
Qed.

(** The numbers *)
Lemma number_down_other l : forall m i, ~ In i l -> number_down l m !! i = m !! i.
Proof. induction l as [|a l IH]; intros m i N; auto. cbn [number_down]. rewrite IH by (intros J; apply N; simpl; auto). apply lookup_insert_ne. intros ->. apply N. simpl; auto. Qed.
Lemma number_down_at l : NoDup l -> forall m a b, l = a ++ b -> forall i b', b = i :: b' -> number_down l m !! i = Some (Z.of_nat (length b)).
Proof.
  induction l as [|c l IH]; intros N m a b E i b' Eb; [destruct a; subst; discriminate|]. inversion N; subst. destruct a as [|c' a].
  - simpl in E. injection E as -> ->. cbn [number_down]. rewrite number_down_other by auto. apply lookup_insert.
  - simpl in E. injection E as -> ->. cbn [number_down]. eapply IH; eauto.
Qed.
Lemma number_down_range l : NoDup l -> forall m i, In i l -> exists k, number_down l m !! i = Some k /\ 1 <= k <= Z.of_nat (length l).
Proof.
  intros N m i J. apply in_split in J as (a & b & ->). exists (Z.of_nat (length (i :: b))). split; [eapply number_down_at; eauto|]. rewrite app_length. simpl length. lia.
Qed.
Lemma number_down_order (P : Z -> Z -> Prop) l : NoDup l -> StronglySorted P l -> forall m i j ki kj, In i l -> In j l -> i <> j ->
  number_down l m !! i = Some ki -> number_down l m !! j = Some kj -> (ki < kj -> P j i) /\ ki <> kj.
Proof.
  intros N S. revert N. induction S as [|c l S IH HF]; intros N m i j ki kj Ji Jj D Ei Ej; [destruct Ji|]. inversion N as [|? ? NC NL]; subst. cbn [number_down] in Ei, Ej.
  rewrite List.Forall_forall in HF. destruct Ji as [<-|Ji], Jj as [<-|Jj]; [congruence| | |].
  - destruct (number_down_range l NL (<[c:=Z.of_nat (length (c :: l))]> m) j Jj) as (k & Ek & Rk). rewrite Ek in Ej. injection Ej as ->.
    rewrite number_down_other, lookup_insert in Ei by auto. injection Ei as <-. simpl length. split; [|lia]. lia.
  - destruct (number_down_range l NL (<[c:=Z.of_nat (length (c :: l))]> m) i Ji) as (k & Ek & Rk). rewrite Ek in Ei. injection Ei as ->.
    rewrite number_down_other, lookup_insert in Ej by auto. injection Ej as <-. simpl length. split; [|lia]. auto.
  - eapply IH; eauto.
Qed.
Lemma shift_other sh l : forall m i, ~ In i l -> shift_by sh l m !! i = m !! i.
Proof. unfold shift_by. induction l as [|a l IH]; intros m i N; auto. simpl. rewrite IH by (intros J; apply N; simpl; auto). apply lookup_insert_ne. intros ->. apply N. simpl; auto. Qed.
Lemma shift_at sh l : NoDup l -> forall m i k, In i l -> m !! i = Some k -> shift_by sh l m !! i = Some (sh + k).
Proof.
  unfold shift_by. induction l as [|a l IH]; intros N m i k J E; [destruct J|]. inversion N; subst. simpl. destruct (Z.eq_dec a i) as [->|Na].
  - fold (shift_by sh l (<[i := sh + default 0 (m !! i)]> m)). rewrite shift_other by auto. rewrite lookup_insert, E. auto.
  - apply IH; auto; [destruct J; [congruence|auto]|]. rewrite lookup_insert_ne; auto.
Qed.

(** The orders after the inversion *)
Record inverted (root : Z) (old new : gmap Z Z) (last : Z) : Prop := {
  v_total : forall i, under root i -> exists k, new !! i = Some k /\ 1 <= k <= last;
  v_inj : forall i j k, under root i -> under root j -> new !! i = Some k -> new !! j = Some k -> i = j;
  (* gates that are no modules: before their arguments, and before everything else *)
  v_gate : forall i x a k k', under root i -> gs G !! i = Some x -> module i = false -> In a (g_args x) -> new !! i = Some k -> new !! Z.abs a = Some k' -> k < k';
  v_first : forall i j k k', under root i -> is_Some (gs G !! i) -> module i = false -> under root j -> gs G !! j = None \/ module j = true ->
    new !! i = Some k -> new !! j = Some k' -> k < k' }.
Lemma invert_ok root sort (s : gmap Z Z * Z) : is_Some (gs G !! root) -> sorts_by s.1 sort ->
  (forall i, is_Some (s.1 !! i) <-> under root i) -> (forall i k, s.1 !! i = Some k -> 1 <= k <= s.2) ->
  (forall i j k, s.1 !! i = Some k -> s.1 !! j = Some k -> i = j) ->
  (forall i x a k k', gs G !! i = Some x -> In a (g_args x) -> s.1 !! i = Some k -> s.1 !! Z.abs a = Some k' -> k' < k) ->
  forall fuel, (r root < fuel)%nat -> exists new sh, invert_order G module sort fuel root s.1 = Some new /\ 0 <= sh /\ inverted root s.1 new (sh + s.2) /\
    forall i, is_Some (new !! i) -> under root i.
Proof.
  intros SR SO DOM RG INJ LT fuel F. destruct (gather_all root SR fuel F) as (gates & vars & E & N1 & N2 & HG & HV).
  unfold invert_order. rewrite E. cbn [mbind option_bind]. cbv zeta.
  set (inner0 := List.filter (fun g => negb (module g)) gates). destruct (SO inner0) as [PS SS]. set (inner := sort inner0) in *. set (mods := List.filter module gates). set (sh := Z.of_nat (length inner)).
  assert (NI : NoDup inner) by (apply (Permutation_NoDup (Permutation_sym PS)), NoDup_filter; auto).
  assert (NM : NoDup mods) by (apply NoDup_filter; auto).
  assert (II : forall i, In i inner <-> under root i /\ is_Some (gs G !! i) /\ module i = false).
  { intros i. rewrite PS. unfold inner0. rewrite filter_In, HG, negb_true_iff. tauto. }
  assert (IM : forall i, In i mods <-> under root i /\ is_Some (gs G !! i) /\ module i = true).
  { intros i. unfold mods. rewrite filter_In, HG. tauto. }
  set (m1 := number_down inner s.1). set (m2 := shift_by sh mods m1). set (new := shift_by sh vars m2).
  assert (X1 : forall i, In i inner -> new !! i = m1 !! i).
  { intros i J. unfold new, m2. apply II in J as (U & [y Y] & M). rewrite shift_other by (rewrite HV; intros [_ Z]; congruence). apply shift_other. rewrite IM. intros (_ & _ & Z). congruence. }
  assert (X2 : forall i k, In i mods -> s.1 !! i = Some k -> new !! i = Some (sh + k)).
  { intros i k J K. pose proof J as J'. apply IM in J as (U & [y Y] & M). unfold new. rewrite shift_other by (rewrite HV; intros [_ Z]; congruence).
    unfold m2. apply shift_at; auto. unfold m1. rewrite number_down_other; auto. rewrite II. intros (_ & _ & Z). congruence. }
  assert (X3 : forall i k, In i vars -> s.1 !! i = Some k -> new !! i = Some (sh + k)).
  { intros i k J K. pose proof J as J'. apply HV in J as (U & Y). unfold new. apply shift_at; auto.
    unfold m2. rewrite shift_other by (rewrite IM; intros (_ & [y Z] & _); congruence). unfold m1. rewrite number_down_other; auto. rewrite II. intros (_ & [y Z] & _). congruence. }
  assert (CASE : forall i, under root i -> In i inner \/ (In i mods \/ In i vars) /\ (gs G !! i = None \/ module i = true)).
  { intros i U. destruct (gs G !! i) as [y|] eqn:Y.
    - destruct (module i) eqn:M; [right; split; auto; left; apply IM; rewrite Y; eauto|left; apply II; rewrite Y; eauto].
    - right. split; auto. right. apply HV. auto. }
  assert (OTHER : forall i, In i mods \/ In i vars -> under root i -> exists k, s.1 !! i = Some k /\ new !! i = Some (sh + k) /\ 1 <= k <= s.2).
  { intros i J U. apply DOM in U as [k K]. exists k. split; auto. split; [destruct J; auto|eauto]. }
  assert (FIRST : forall i j k k', In i inner -> In j mods \/ In j vars -> under root j -> new !! i = Some k -> new !! j = Some k' -> k < k').
  { intros i j k k' Ji Jj U K K'. destruct (number_down_range inner NI s.1 i Ji) as (k0 & E0 & R0). rewrite X1 in K by auto. unfold m1 in K. rewrite E0 in K. injection K as <-.
    destruct (OTHER j Jj U) as (k1 & _ & E1 & R1). rewrite E1 in K'. injection K' as <-. fold sh in R0. lia. }
  assert (INNER : forall i j k k' ki kj, In i inner -> In j inner -> s.1 !! i = Some k -> s.1 !! j = Some k' -> new !! i = Some ki -> new !! j = Some kj -> k' < k -> ki < kj).
  { intros i j k k' ki kj Ji Jj K K' Ei Ej L. rewrite X1 in Ei by auto. rewrite X1 in Ej by auto. assert (D : j <> i) by (intros ->; rewrite K in K'; injection K' as <-; lia).
    destruct (number_down_order _ inner NI SS s.1 j i kj ki Jj Ji D Ej Ei) as [A B]. destruct (Z.lt_ge_cases kj ki) as [C|C]; [|lia]. specialize (A C). rewrite K, K' in A. simpl in A. lia. }
  exists new, sh. split; auto. split; [unfold sh; lia|]. split; [constructor|].
  - intros i U. destruct (CASE i U) as [J|[J _]].
    + destruct (number_down_range inner NI s.1 i J) as (k & Ek & Rk). exists k. rewrite X1 by auto. split; auto.
      assert (1 <= s.2) by (apply DOM in U as [k' K]; apply RG in K; lia). fold sh in Rk. lia.
    + destruct (OTHER i J U) as (k & _ & Ek & Rk). exists (sh + k). split; auto. unfold sh. lia.
  - intros i j k Ui Uj Ki Kj. destruct (CASE i Ui) as [Ji|[Ji _]], (CASE j Uj) as [Jj|[Jj _]].
    + destruct (Z.eq_dec i j) as [|D]; auto. rewrite X1 in Ki, Kj by auto. destruct (number_down_order _ inner NI SS s.1 i j k k Ji Jj D Ki Kj) as [_ B]. congruence.
    + pose proof (FIRST i j k k Ji Jj Uj Ki Kj). lia.
    + pose proof (FIRST j i k k Jj Ji Ui Kj Ki). lia.
    + destruct (OTHER i Ji Ui) as (k1 & E1 & N1' & _). destruct (OTHER j Jj Uj) as (k2 & E2 & N2' & _). rewrite Ki in N1'. rewrite Kj in N2'.
      apply (INJ i j k1); auto. rewrite E2. f_equal. injection N1' as ?. injection N2' as ?. lia.
  - intros i x a k k' U Ex M Ja K K'. assert (Ji : In i inner) by (apply II; rewrite Ex; eauto).
    assert (Ua : under root (Z.abs a)) by (apply (under_arg G root i x a); auto).
    destruct (CASE _ Ua) as [Jj|[Jj _]]; [|apply (FIRST i (Z.abs a) k k'); auto].
    destruct (proj2 (DOM i) U) as [k1 K1]. destruct (proj2 (DOM _) Ua) as [k2 K2].
    apply (INNER i (Z.abs a) k1 k2 k k'); auto. apply (LT i x a k1 k2 Ex Ja K1 K2).
  - intros i j k k' U [y Y] M Uj C K K'. assert (Ji : In i inner) by (apply II; rewrite Y; eauto).
    destruct (CASE j Uj) as [Jj|[Jj _]]; [|apply (FIRST i j k k'); auto].
    apply II in Jj as (_ & [z Z] & Mj). destruct C; congruence.
  - intros i [k K]. destruct (in_dec Z.eq_dec i vars) as [J|J]; [apply HV; auto|]. destruct (in_dec Z.eq_dec i mods) as [J2|J2]; [apply IM; auto|]. destruct (in_dec Z.eq_dec i inner) as [J3|J3]; [apply II; auto|].
    apply DOM. exists k. rewrite <- K. unfold new, m2, m1. rewrite !shift_other by auto. symmetry. apply number_down_other; auto.
Qed.
End Proofs.
