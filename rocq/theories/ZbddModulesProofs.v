(** Correctness of the ZBDD with modules: its expanded products are the minimal cut sets. *)
From stdpp Require Import gmap.
From Coq Require Import List ZArith Lia Bool Permutation Sorting.Sorted.
Import ListNotations.
From Verif Require Import Pdag PdagProofs PdagSem.
From Verif Require Import Zbdd ZbddProofs ZbddHistory ZbddGraph ZbddModules.
Open Scope Z_scope.

(** ** GatherModules *)
Section Gathering.
Context (ord : Z -> Z) (top : Z) (is_module counts coherent : Z -> bool).
Notation size := (Zbdd.size counts).
Notation cost := (Zbdd.cost counts).
Definition entries (P : Z -> Prop) (m : gmap Z (bool * Z)) : Prop :=
  forall j b o, m !! j = Some (b, o) -> b = coherent (Z.abs j) /\ 0 <= o /\ P j.
Definition grows (m m' : gmap Z (bool * Z)) : Prop :=
  forall j b o, m !! j = Some (b, o) -> exists b' o', m' !! j = Some (b', o') /\ o <= o'.
Lemma grows_trans m1 m2 m3 : grows m1 m2 -> grows m2 m3 -> grows m1 m3.
Proof. intros H1 H2 j b o E. destruct (H1 j b o E) as (b' & o' & E' & L). destruct (H2 j b' o' E') as (b2 & o2 & E2 & L2). exists b2, o2. split; auto. lia. Qed.
Lemma gather_ok limit (P : Z -> Prop) t : forall c m, Zbdd.wf ord top t -> 0 <= c -> (forall p, In p (fam t) -> c + size p <= limit) ->
  (forall j, lits t j -> is_module j = true -> P j) -> entries P m ->
  exists mn m', gather is_module counts coherent limit t c m = Some (mn, m') /\ (t = ZE -> mn = -1) /\
    (t <> ZE -> exists p, In p (fam t) /\ size p = mn) /\ (forall p, In p (fam t) -> mn <= size p) /\
    (forall p j, In p (fam t) -> In j p -> is_module j = true -> exists b o, m' !! j = Some (b, o) /\ limit - c - (size p - cost j) <= o) /\
    grows m m' /\ entries P m'.
Proof.
  induction t as [| |i h IHh l IHl]; intros c m W C B HP EM.
  - exists (-1), m. split; auto. split; auto. split; [congruence|]. split; [intros p []|]. split; [intros p j []|]. split; auto.
    intros j b o E. exists b, o. split; auto. lia.
  - exists 0, m. split; auto. split; [discriminate|]. split; [exists []; simpl; auto|].
    split; [intros p [<-|[]]; unfold Zbdd.size; simpl; lia|]. split; [intros p j [<-|[]] []|]. split; auto.
    intros j b o E. exists b, o. split; auto. lia.
  - cbn [gather]. pose proof (cost_range counts i) as CR.
    destruct (IHh (c + cost i) m) as (mh & m1 & E1 & _ & X1 & N1 & L1 & G1 & EM1); auto.
    + apply (wf_high ord top counts _ _ _ W).
    + lia.
    + intros p Q. assert (H : c + size (i :: p) <= limit) by (apply B, in_fam; eauto). rewrite size_cons in H. lia.
    + intros j J. apply HP. apply lits_high; auto.
    + rewrite E1. destruct X1 as (ph & Ph & Sh); [simpl in W; tauto|].
      pose proof (size_nonneg counts ph) as Nph. destruct (Z.ltb_spec mh 0) as [X|_]; [lia|].
      assert (Bh : c + size (i :: ph) <= limit) by (apply B, in_fam; eauto). rewrite size_cons in Bh.
      set (m2 := if is_module i then
        Some (<[i := (coherent (Z.abs i), match m1 !! i with Some (_, o) => Z.max o (limit - mh - c) | None => limit - mh - c end)]> m1) else Some m1).
      match goal with |- context [match (if is_module i then ?A else ?B) with _ => _ end] => assert (M2 : (if is_module i then A else B) = m2) end.
      { unfold m2. destruct (is_module i); auto. cbv zeta. destruct (Z.ltb_spec (limit - mh - c) 0); [lia|auto]. }
      rewrite M2. assert (H2 : exists m2', m2 = Some m2' /\ grows m1 m2' /\ entries P m2' /\
        (is_module i = true -> exists b o, m2' !! i = Some (b, o) /\ limit - mh - c <= o)).
      { unfold m2. destruct (is_module i) eqn:Mi.
        - eexists. split; [reflexivity|]. split; [|split].
          + intros j b o E. destruct (Z.eq_dec i j) as [<-|Nj].
            * eexists _, _. rewrite lookup_insert. split; [reflexivity|]. rewrite E. lia.
            * exists b, o. rewrite lookup_insert_ne by auto. split; auto. lia.
          + intros j b o E. apply lookup_insert_Some in E as [[<- E]|[_ E]]; [|apply EM1; auto]. injection E as <- <-.
            split; auto. split; [|apply HP; auto; apply (root_lit ord top i h l W)].
            destruct (m1 !! i) as [[b o]|] eqn:E; lia.
          + intros _. eexists _, _. rewrite lookup_insert. split; [reflexivity|]. destruct (m1 !! i) as [[b o]|]; lia.
        - exists m1. split; auto. split; [intros j b o E; exists b, o; split; auto; lia|]. split; auto. discriminate. }
      destruct H2 as (m2' & -> & G2 & EM2 & L2).
      destruct (IHl c m2') as (ml & m3 & E3 & X3 & Y3 & N3 & L3 & G3 & EM3); auto.
      { apply (wf_low ord top counts _ _ _ W). }
      { intros p Q. apply B, in_fam. auto. }
      { intros j J. apply HP. apply lits_low; auto. }
      rewrite E3. eexists _, m3. split; [reflexivity|]. split; [discriminate|].
      assert (HM : forall p, In p (fam (ZN i h l)) -> (if ml =? -1 then mh + cost i else Z.min (mh + cost i) ml) <= size p).
      { intros p Q. apply in_fam in Q as [(p' & -> & Q)|Q].
        - rewrite size_cons. specialize (N1 p' Q). destruct (ml =? -1); lia.
        - specialize (N3 p Q). destruct (Z.eqb_spec ml (-1)) as [Em|Em]; [|lia].
          destruct (Y3 ltac:(intros ->; destruct Q)) as (q & _ & Sq). pose proof (size_nonneg counts q). lia. }
      split; [intros _|split; [exact HM|split; [|split; auto]]].
      * destruct (Z.eqb_spec ml (-1)) as [Em|Em]; [exists (i :: ph); rewrite size_cons; split; [apply in_fam; eauto|lia]|].
        destruct (Z.le_gt_cases (mh + cost i) ml) as [K|K].
        -- exists (i :: ph). rewrite size_cons. split; [apply in_fam; eauto|lia].
        -- destruct Y3 as (q & Q & Sq); [intros ->; auto|]. exists q. split; [apply in_fam; auto|lia].
      * intros p j Q J Mj. apply in_fam in Q as [(p' & -> & Q)|Q].
        -- rewrite size_cons. destruct (Z.eq_dec i j) as [<-|Nj].
           ++ destruct (L2 Mj) as (b & o & E & L). destruct (G3 _ _ _ E) as (b' & o' & E' & L'). exists b', o'. split; auto.
              specialize (N1 p' Q). lia.
           ++ destruct J as [J|J]; [congruence|]. destruct (L1 p' j Q J Mj) as (b & o & E & L).
              destruct (G2 _ _ _ E) as (b2 & o2 & E2 & L2'). destruct (G3 _ _ _ E2) as (b' & o' & E' & L'). exists b', o'. split; auto. lia.
        -- destruct (L3 p j Q J Mj) as (b & o & E & L). exists b, o. auto.
      * eapply grows_trans; [exact G1|]. eapply grows_trans; eauto.
Qed.
End Gathering.

Section Proofs.
Context (ord : Z -> Z) (top : Z) (ORD : ordering ord) (G : graph) (module coherent : Z -> bool) (parents : Z -> nat) (arrange : list zt -> list zt).
Context (ARR : forall l, Permutation (arrange l) l) (r0 : Z -> nat) (RK : ranked G r0) (top_gate : Z).
Notation is_module := (ZbddModules.is_module G module).
Notation counts := (ZbddModules.counts G module coherent).
Notation size := (Zbdd.size counts).
Notation leaf := (ZbddGraph.leaf G module).
Notation active := (ZbddGraph.active G module).
Notation under := (ZbddModules.under G).
Notation var := (ZbddModules.var G).
Notation produces := (ZbddModules.produces G module).
Notation expands := (ZbddModules.expands G module).
Notation cost := (Zbdd.cost counts).
Notation clean := (ZbddModules.clean ord top G module).
Notation walk := (ZbddModules.walk G module).
Notation walk_at := (ZbddModules.walk_at G module).
Definition good (g : Z) : Prop := is_Some (gs G !! g) /\ (module g = true \/ g = top_gate).
Context (NNF : forall g, good g -> nnf ord top G module g).
Context (COH : forall g, good g -> coherent g = true -> forall j, leaf g j -> 0 < j /\ (is_module j = true -> coherent j = true)).
Context (MOD : forall m, is_Some (gs G !! m) -> module m = true -> modular G m).

Lemma nodup_app (a b : list Z) : NoDup a -> NoDup b -> (forall v, In v a -> In v b -> False) -> NoDup (a ++ b).
Proof.
  intros Na Nb H. induction a as [|x a IH]; auto. inversion Na; subst. simpl. constructor.
  - intros I. apply in_app_iff in I as [I|I]; auto. apply (H x); simpl; auto.
  - apply IH; auto. intros v V. apply H. simpl; auto.
Qed.
Lemma nodup_app' {A} (a b : list A) : NoDup a -> NoDup b -> (forall v, In v a -> In v b -> False) -> NoDup (a ++ b).
Proof.
  intros Na Nb H. induction a as [|x a IH]; auto. inversion Na; subst. simpl. constructor.
  - intros I. apply in_app_iff in I as [I|I]; auto. apply (H x); simpl; auto.
  - apply IH; auto. intros v V. apply H. simpl; auto.
Qed.
Lemma forallb_filter_id' (f : Z -> bool) l : (forall v, In v l -> f v = true) -> List.filter f l = l.
Proof. intros H. induction l as [|x l IH]; auto. simpl. rewrite H by (simpl; auto). f_equal. apply IH. intros; apply H; simpl; auto. Qed.
Lemma filter_none (f : Z -> bool) l : (forall v, In v l -> f v = false) -> List.filter f l = [].
Proof. intros H. induction l as [|x l IH]; auto. simpl. rewrite H by (simpl; auto). apply IH. intros; apply H; simpl; auto. Qed.
(** ** Reachability *)
Lemma under_trans a b c : under a b -> under b c -> under a c.
Proof. intros H. induction 1 as [|i x e U IH E J]; auto. apply (under_arg G a i x e); auto. Qed.
Lemma under_rank m i : under m i -> is_Some (gs G !! i) -> i = m \/ (r0 i < r0 m)%nat.
Proof.
  induction 1 as [|i x a U IH E J]; auto. intros S. right. pose proof (RK i x a E J S).
  destruct IH as [->|]; [eauto|auto|lia].
Qed.
Lemma active_under g i : active g i -> under g i.
Proof. induction 1 as [|i x a A IH E J S M]; [constructor|]. apply (under_arg G g i x a); auto. Qed.
Lemma active_gate g i : is_Some (gs G !! g) -> active g i -> is_Some (gs G !! i).
Proof. intros S. induction 1; auto. Qed.
Lemma leaf_under g j : leaf g j -> under g (Z.abs j).
Proof. intros (i & x & E & A & J & _). apply (under_arg G g i x j); auto. apply active_under; auto. Qed.
Lemma leaf_nnf g j : good g -> leaf g j -> j <> 0 /\ (is_Some (gs G !! Z.abs j) -> 0 < j).
Proof. intros GD (i & x & E & A & J & _). destruct (NNF g GD i x E A) as (_ & _ & _ & H). destruct (H j J) as (? & ? & ?). auto. Qed.
Lemma is_module_iff j : is_module j = true <-> is_Some (gs G !! Z.abs j) /\ module (Z.abs j) = true.
Proof.
  unfold ZbddModules.is_module, is_gate. destruct (gs G !! Z.abs j); simpl; split; try tauto; try discriminate.
  - intros H. split; eauto.
  - intros [[? H] _]. discriminate.
Qed.
Lemma leaf_kind g j : leaf g j -> gs G !! Z.abs j = None /\ is_module j = false \/ is_module j = true.
Proof.
  intros (i & x & E & A & J & [K|K]).
  - left. split; auto. destruct (is_module j) eqn:M; auto. apply is_module_iff in M as [[y Y] _]. congruence.
  - destruct (gs G !! Z.abs j) as [y|] eqn:Ey.
    + right. apply is_module_iff. rewrite Ey. split; eauto.
    + left. split; auto. destruct (is_module j) eqn:M; auto. apply is_module_iff in M as [[z Z] _]. congruence.
Qed.
Lemma module_pos g m : good g -> leaf g m -> is_module m = true -> 0 < m /\ good m /\ (r0 m < r0 g)%nat.
Proof.
  intros GD L M. apply is_module_iff in M as [S K]. destruct (leaf_nnf g m GD L) as [_ P]. specialize (P S). rewrite Z.abs_eq in * by lia.
  split; auto. split; [split; auto|]. destruct L as (i & x & E & A & J & _).
  assert (r0 (Z.abs m) < r0 i)%nat by (apply (RK i x m); auto; rewrite Z.abs_eq by lia; auto). rewrite Z.abs_eq in H by lia.
  destruct (under_rank g i (active_under g i A)) as [->|]; eauto; lia.
Qed.
Lemma active_not_under g m i : good g -> leaf g m -> is_module m = true -> active g i -> ~ under m i.
Proof.
  intros GD L M A. destruct (module_pos g m GD L M) as (P & GM & R). induction A as [|i x a A IH E J S K]; intros U.
  - destruct (under_rank m g U) as [->|]; [apply GD|lia|lia].
  - destruct (MOD m) with (i := i) (x := x) (a := a) as [X|X]; auto; [apply GM|destruct (is_module_iff m) as [Y _]; specialize (Y M) as [_ Y]; rewrite Z.abs_eq in Y by lia; auto|].
    rewrite X in K. apply is_module_iff in M as [_ M]. rewrite Z.abs_eq in M by lia. congruence.
Qed.
Lemma leaf_sep g j m : good g -> leaf g j -> leaf g m -> is_module m = true -> under m (Z.abs j) -> Z.abs j = m.
Proof.
  intros GD (i & x & E & A & J & _) L M U. destruct (module_pos g m GD L M) as (P & GM & R).
  destruct (MOD m) with (i := i) (x := x) (a := j) as [X|X]; auto; [apply GM|apply is_module_iff in M as [_ Y]; rewrite Z.abs_eq in Y by lia; auto|].
  elim (active_not_under g m i GD L M A X).
Qed.
Lemma leaf_var_sep g j m : good g -> leaf g j -> is_module j = false -> leaf g m -> is_module m = true -> ~ under m (Z.abs j).
Proof.
  intros GD Lj Mj L M U. pose proof (leaf_sep g j m GD Lj L M U) as E. destruct (leaf_kind g j Lj) as [[X _]|X]; [|congruence].
  destruct (module_pos g m GD L M) as (P & [[y Y] _] & R). rewrite E in X. congruence.
Qed.
Lemma module_sep g m1 m2 v : good g -> leaf g m1 -> is_module m1 = true -> leaf g m2 -> is_module m2 = true -> under m1 v -> under m2 v -> m1 = m2.
Proof.
  intros GD L1 M1 L2 M2 U1 U2. destruct (module_pos g m1 GD L1 M1) as (P1 & G1 & R1). destruct (module_pos g m2 GD L2 M2) as (P2 & G2 & R2).
  assert (H : under m2 m1 \/ under m1 m2).
  { revert U1. induction U2 as [|i x a U2 IH E J]; intros U1; auto.
    destruct (MOD m1) with (i := i) (x := x) (a := a) as [X|X]; auto; [apply G1|apply is_module_iff in M1 as [_ Y]; rewrite Z.abs_eq in Y by lia; auto|].
    left. rewrite <- X. apply (under_arg G m2 i x a); auto. }
  destruct H as [H|H].
  - rewrite <- (Z.abs_eq m1) in H by lia. apply (leaf_sep g m1 m2) in H; auto. lia.
  - rewrite <- (Z.abs_eq m2) in H by lia. apply (leaf_sep g m2 m1) in H; auto. lia.
Qed.

(** ** Labellings *)
Definition labelling (ν : Z -> bool) : Prop := forall i x, gs G !! i = Some x -> ν i = gate_value ν x.
Lemma labelling_respects g ν : labelling ν -> respects G module g ν.
Proof. intros H i x E _. auto. Qed.
Lemma true_arg ν x : (g_type x = kAnd \/ g_type x = kOr) -> (2 <= length (g_args x))%nat -> gate_value ν x = true ->
  exists a, In a (g_args x) /\ lit ν a = true.
Proof.
  intros T L. unfold gate_value. destruct T as [-> | ->]; simpl.
  - destruct (g_args x) as [|a l]; simpl in *; [lia|]. intros H. apply andb_true_iff in H as [H _]. eauto.
  - intros H. apply existsb_exists in H as (b & B & ->). apply in_map_iff in B as (a & E & A). eauto.
Qed.
Lemma coherent_true ν : labelling ν -> forall n g i, (r0 i < n)%nat -> good g -> coherent g = true -> active g i -> is_Some (gs G !! i) ->
  ν i = true -> exists v, var i v /\ ν v = true.
Proof.
  intros LB. induction n as [|n IH]; intros g i N GD C A [x Ex] V; [lia|].
  destruct (NNF g GD i x Ex A) as (T & L & _ & HA). rewrite (LB i x Ex) in V.
  destruct (true_arg ν x T L V) as (a & J & E). destruct (HA a J) as (Na & _ & Pa).
  destruct (gs G !! Z.abs a) as [y|] eqn:Ey.
  - assert (Pos : 0 < a) by (apply Pa; eauto). rewrite Z.abs_eq in Ey by lia.
    assert (R : (r0 a < r0 i)%nat) by (rewrite <- (Z.abs_eq a) by lia; apply (RK i x a); auto; rewrite Z.abs_eq by lia; eauto).
    assert (Va : ν a = true) by (unfold lit in E; destruct (Z.ltb_spec a 0); [lia|auto]).
    assert (U : under i a) by (rewrite <- (Z.abs_eq a) by lia; apply (under_arg G i i x a); [constructor|auto|auto]).
    assert (H : exists v, var a v /\ ν v = true).
    { destruct (module a) eqn:Ma.
      - assert (La : leaf g a) by (exists i, x; rewrite Z.abs_eq by lia; auto).
        assert (Mm : is_module a = true) by (apply is_module_iff; rewrite Z.abs_eq by lia; eauto).
        destruct (module_pos g a GD La Mm) as (_ & GA & _). destruct (COH g GD C a La) as [_ CA].
        apply (IH a a); [lia|auto|auto|constructor|eauto|auto].
      - apply (IH g a); [lia|auto|auto| |eauto|auto]. rewrite <- (Z.abs_eq a) by lia. apply (active_arg G module g i x a); auto; rewrite Z.abs_eq by lia; eauto. }
    destruct H as (v & [Uv Nv] & Vv). exists v. split; auto. split; auto. eapply under_trans; eauto.
  - assert (La : leaf g a) by (exists i, x; auto). destruct (COH g GD C a La) as [Pos _].
    exists a. split; [|unfold lit in E; destruct (Z.ltb_spec a 0); [lia|auto]].
    rewrite Z.abs_eq in Ey by lia. split; auto. rewrite <- (Z.abs_eq a) by lia. apply (under_arg G i i x a); auto. constructor.
Qed.

(** ** Enumerating the literals below a gate *)
Fixpoint args_below (stop : Z -> bool) (n : nat) (i : Z) : list Z :=
  match n with
  | O => []
  | S n => match gs G !! i with
           | None => []
           | Some x => flat_map (fun a => a :: (if is_gate G a && negb (stop (Z.abs a)) then args_below stop n (Z.abs a) else [])) (g_args x)
           end
  end.
Lemma active_cons stop i k : ZbddGraph.active G stop i k -> k = i \/
  exists x a, gs G !! i = Some x /\ In a (g_args x) /\ is_Some (gs G !! Z.abs a) /\ stop (Z.abs a) = false /\ ZbddGraph.active G stop (Z.abs a) k.
Proof.
  induction 1 as [|k x a A IH E J S K]; auto. right. destruct IH as [->|(x' & a' & E' & J' & S' & K' & A')].
  - exists x, a. repeat (split; auto). constructor.
  - exists x', a'. repeat (split; auto). apply (active_arg G stop (Z.abs a') k x a); auto.
Qed.
Lemma active_snoc stop i a k x : gs G !! i = Some x -> In a (g_args x) -> is_Some (gs G !! Z.abs a) -> stop (Z.abs a) = false ->
  ZbddGraph.active G stop (Z.abs a) k -> ZbddGraph.active G stop i k.
Proof.
  intros E J S K A. induction A as [|k y b A IH Ek Jk Sk Kk].
  - apply (active_arg G stop i i x a); auto. constructor.
  - apply (active_arg G stop i k y b); auto.
Qed.
Lemma args_below_in stop : forall n i, (r0 i < n)%nat -> is_Some (gs G !! i) -> forall a,
  In a (args_below stop n i) <-> exists k x, ZbddGraph.active G stop i k /\ gs G !! k = Some x /\ In a (g_args x).
Proof.
  induction n as [|n IH]; intros i N [x Ex] a; [lia|]. cbn [args_below]. rewrite Ex, in_flat_map. split.
  - intros (b & Jb & [<-|J]); [exists i, x; split; [constructor|auto]|].
    unfold is_gate in J. destruct (gs G !! Z.abs b) as [y|] eqn:Ey; [|destruct J].
    destruct (stop (Z.abs b)) eqn:K; [destruct J|]. simpl in J.
    pose proof (RK i x b Ex Jb ltac:(eauto)) as R. apply IH in J as (k & z & A & Ek & J); [|lia|eauto].
    exists k, z. split; auto. apply (active_snoc stop i b k x); eauto.
  - intros (k & z & A & Ek & J). destruct (active_cons stop i k A) as [->|(x' & b & E' & Jb & S' & K' & A')].
    + rewrite Ex in Ek. injection Ek as <-. exists a. split; auto. simpl; auto.
    + rewrite Ex in E'. injection E' as <-. exists b. split; auto. right.
      unfold is_gate. pose proof (RK i x b Ex Jb S') as R. destruct S' as [y Ey]. rewrite Ey, K'. simpl.
      apply IH; [lia|eauto|]. exists k, z. auto.
Qed.
Definition atoms (g : Z) : list Z :=
  map Z.abs (List.filter (fun a => negb (is_gate G a) || module (Z.abs a)) (args_below module (S (r0 g)) g)).
Definition atom (g a : Z) : Prop := exists j, leaf g j /\ a = Z.abs j.
Lemma atoms_in g a : is_Some (gs G !! g) -> In a (atoms g) <-> atom g a.
Proof.
  intros S. unfold atoms, atom. rewrite in_map_iff. split.
  - intros (j & <- & J). apply filter_In in J as [J K]. apply args_below_in in J as (k & x & A & E & J); auto.
    exists j. split; auto. exists k, x. split; auto. split; auto. split; auto. unfold is_gate in K.
    destruct (gs G !! Z.abs j); auto.
  - intros (j & (k & x & E & A & J & K) & ->). exists j. split; auto. apply filter_In. split; [apply args_below_in; eauto|].
    unfold is_gate. destruct K as [->| ->]; simpl; auto. apply orb_true_r.
Qed.
Definition varb (m v : Z) : bool :=
  negb (is_gate G v) && existsb (fun a => Z.abs a =? v) (args_below (fun _ => false) (S (r0 m)) m).
Lemma under_active m v : is_Some (gs G !! m) -> under m v -> v = m \/ exists k x a, ZbddGraph.active G (fun _ => false) m k /\ gs G !! k = Some x /\ In a (g_args x) /\ v = Z.abs a.
Proof.
  intros S. induction 1 as [|i x a U IH E J]; auto. right. exists i, x, a. split; auto.
  destruct IH as [->|(k & y & b & A & Ek & Jb & ->)]; [constructor|].
  apply (active_arg G (fun _ => false) m k y b); eauto.
Qed.
Lemma active_under' m i : ZbddGraph.active G (fun _ => false) m i -> under m i.
Proof. induction 1 as [|i x a A IH E J S M]; [constructor|]. apply (under_arg G m i x a); auto. Qed.
Lemma var_pos m v : is_Some (gs G !! m) -> var m v -> 0 <= v.
Proof. intros S [U N]. destruct (under_active m v S U) as [->|(k & x & a & _ & _ & _ & ->)]; [|lia]. destruct S as [y Y]. congruence. Qed.
Lemma varb_in m v : is_Some (gs G !! m) -> 0 <= v -> varb m v = true <-> var m v.
Proof.
  intros S P. unfold varb, ZbddModules.var, is_gate. rewrite Z.abs_eq by auto.
  destruct (gs G !! v) as [y|] eqn:Ev; cbn [negb andb]; [split; [discriminate|intros [_ X]; congruence]|].
  rewrite existsb_exists. split.
  - intros (a & J & E). apply Z.eqb_eq in E. subst v. split; auto. apply args_below_in in J as (k & x & A & Ek & J); auto.
    apply (under_arg G m k x a); auto. apply active_under'. auto.
  - intros [U _]. destruct (under_active m v S U) as [->|(k & x & a & A & Ek & J & ->)]; [destruct S; congruence|].
    exists a. split; [apply args_below_in; eauto|apply Z.eqb_eq; auto].
Qed.

(** ** Which atom a variable belongs to *)
Definition bel (j v : Z) : bool := if is_module j then varb j v else v =? j.
Lemma atom_cases g a : good g -> atom g a -> 0 < a /\ (is_module a = false /\ gs G !! a = None /\ var g a \/ is_module a = true /\ leaf g a).
Proof.
  intros GD (j & L & ->). destruct (leaf_nnf g j GD L) as [N P]. split; [lia|]. destruct (leaf_kind g j L) as [[K M]|M].
  - left. split.
    + destruct (is_module (Z.abs j)) eqn:X; auto. apply is_module_iff in X as [[y Y] _]. rewrite Z.abs_eq in Y by lia. congruence.
    + split; auto. split; auto. apply leaf_under; auto.
  - right. destruct (module_pos g j GD L M) as (Pj & _). rewrite Z.abs_eq by lia. auto.
Qed.
Lemma bel_unique g a b v : good g -> atom g a -> atom g b -> 0 <= v -> bel a v = true -> bel b v = true -> a = b.
Proof.
  intros GD A B Pv Ha Hb. destruct (atom_cases g a GD A) as (Pa & CA). destruct (atom_cases g b GD B) as (Pb & CB). unfold bel in *.
  assert (X : forall c d, atom g c -> is_module c = false -> 0 < c -> leaf g d -> is_module d = true -> varb d c = true -> False).
  { intros c d (j & L & ->) M P Ld Md V. destruct (module_pos g d GD Ld Md) as (Pd & Gd & _).
    apply varb_in in V as [V _]; [|apply Gd|lia]. destruct (leaf_kind g j L) as [[_ K]|K].
    - apply (leaf_var_sep g j d GD L K Ld Md V).
    - destruct (module_pos g j GD L K) as (Pj & _). rewrite Z.abs_eq in M by lia. congruence. }
  destruct CA as [(Ma & _)|[Ma La]], CB as [(Mb & _)|[Mb Lb]]; rewrite Ma in Ha; rewrite Mb in Hb.
  - apply Z.eqb_eq in Ha. apply Z.eqb_eq in Hb. congruence.
  - apply Z.eqb_eq in Ha. subst v. elim (X a b); auto.
  - apply Z.eqb_eq in Hb. subst v. elim (X b a); auto.
  - destruct (module_pos g a GD La Ma) as (_ & GA & _). destruct (module_pos g b GD Lb Mb) as (_ & GB & _).
    apply varb_in in Ha as [Ua _]; [|apply GA|auto]. apply varb_in in Hb as [Ub _]; [|apply GB|auto]. apply (module_sep g a b v); auto.
Qed.

(** Disjoint parts are not larger than the whole. *)
Fixpoint total (f : Z -> Z) (p : list Z) : Z := match p with [] => 0 | j :: p => f j + total f p end.
Lemma total_le f f' p : (forall j, In j p -> f j <= f' j) -> total f p <= total f' p.
Proof. induction p as [|j p IH]; intros H; simpl; [lia|]. pose proof (H j (or_introl eq_refl)). assert (total f p <= total f' p) by (apply IH; intros; apply H; simpl; auto). lia. Qed.
Lemma total_cost p : total cost p = size p.
Proof. induction p as [|j p IH]; auto. simpl. rewrite size_cons. lia. Qed.
Lemma total_at f f' p m : NoDup p -> In m p -> (forall j, In j p -> j <> m -> f j <= f' j) -> total f p - f m <= total f' p - f' m.
Proof.
  induction p as [|j p IH]; intros N I H; [destruct I|]. inversion N; subst. simpl. destruct (Z.eq_dec j m) as [->|X].
  - assert (total f p <= total f' p); [|lia]. apply total_le. intros k K. apply H; simpl; auto. congruence.
  - destruct I as [I|I]; [congruence|]. pose proof (H j (or_introl eq_refl) X).
    assert (total f p - f m <= total f' p - f' m) by (apply IH; auto; intros; apply H; simpl; auto). lia.
Qed.
Definition part (j : Z) (X : list Z) : Z := Z.of_nat (length (List.filter (bel j) X)).
Lemma total_parts p X : NoDup p -> (forall v j k, In v X -> In j p -> In k p -> bel j v = true -> bel k v = true -> j = k) ->
  total (fun j => part j X) p <= Z.of_nat (length X).
Proof.
  intros N. induction X as [|v X IH]; intros H.
  - unfold part. simpl. induction p as [|j p IHp]; simpl; [lia|]. inversion N; subst. apply IHp; auto. intros ? ? ? [].
  - assert (E : total (fun j => part j (v :: X)) p = total (fun j => if bel j v then 1 else 0) p + total (fun j => part j X) p).
    { clear. induction p as [|j p IHp]; auto. simpl. rewrite IHp. unfold part. simpl. destruct (bel j v); simpl length; lia. }
    assert (O : total (fun j => if bel j v then 1 else 0) p <= 1).
    { clear IH E. induction p as [|j p IHp]; simpl; [lia|]. inversion N as [|? ? NI ND]; subst. destruct (bel j v) eqn:B.
      - assert (total (fun j => if bel j v then 1 else 0) p <= total (fun _ => 0) p).
        { apply total_le. intros k K. destruct (bel k v) eqn:Bk; [|lia]. exfalso. apply NI.
          rewrite (H v j k); simpl; auto. }
        assert (total (fun _ => 0) p = 0) by (clear; induction p; simpl; auto). lia.
      - assert (total (fun j => if bel j v then 1 else 0) p <= 1); [|lia]. apply IHp; auto. intros u a b U A B'. apply H; simpl; auto. }
    assert (total (fun j => part j X) p <= Z.of_nat (length X)) by (apply IH; intros u j k U J K; apply H; simpl; auto).
    simpl length. lia.
Qed.

(** ** The products of a module *)
Record exact (g : Z) (z : zbdd) (k : Z) : Prop := {
  x_var : forall P v, produces z P -> In v P -> 0 < v /\ var g v;
  x_nodup : forall P, produces z P -> NoDup P;
  x_sound : forall P ν, produces z P -> labelling ν -> (forall v, var g v -> ν v = mem P v) -> ν g = true;
  x_complete : forall X ν, NoDup X -> Z.of_nat (length X) <= k -> labelling ν -> (forall v, var g v -> ν v = mem X v) -> ν g = true ->
    exists P, produces z P /\ incl P X;
  x_anti : forall P Q, produces z P -> produces z Q -> incl P Q -> P = Q;
  x_empty : produces z [] -> root_of z = ZB;
  x_clean : clean z;
  x_walk : forall k' n, n <= k' -> NoDup (walk k' z n) }.

Lemma find_in i z l : NoDup (map fst l) -> In (i, z) l -> find_module i l = Some z.
Proof.
  induction l as [|[j y] l IH]; simpl; [tauto|]. intros N [E|I].
  - injection E as -> ->. rewrite Z.eqb_refl. auto.
  - inversion N; subst. destruct (Z.eqb_spec i j) as [->|]; auto. elim H1. apply in_map_iff. exists (j, z); auto.
Qed.
Lemma find_some i z l : find_module i l = Some z -> In (i, z) l.
Proof. induction l as [|[j y] l IH]; simpl; [discriminate|]. destruct (Z.eqb_spec i j) as [->|]; auto. intros [= ->]. auto. Qed.
(** ** Iteration *)
Definition exactly_walks (k : Z) (z : zbdd) : Prop :=
  (forall Q, produces z Q -> Q = [] -> root_of z = ZB) /\
  forall n P, n <= k -> (In P (walk k z n) <-> produces z P /\ n + Z.of_nat (length P) <= k).
Definition proxies_walk (k : Z) (mods : list (Z * zbdd)) (t : zt) : Prop :=
  forall j, lits t j -> is_module j = true -> exists z, find_module j mods = Some z /\ root_of z <> ZB /\ exactly_walks k z.
Lemma expand_nonempty k mods t p P : proxies_walk k mods t -> In p (fam t) -> expands mods p P -> p <> [] -> P <> [].
Proof.
  intros H Ip E N. inversion E; subst; [congruence|discriminate|].
  destruct (H i) as (z' & F & NB & X & _); auto; [exists (i :: p0); simpl; auto|]. assert (z' = z) by congruence. subst z'.
  intros E0. apply app_eq_nil in E0 as [E0 _]. apply NB, (X Q); auto.
Qed.
Lemma walk_at_ok k mods t : Zbdd.wf ord top t -> proxies_walk k mods t ->
  forall n P, n <= k -> (In P (walk_at k mods t n) <-> (exists p, In p (fam t) /\ expands mods p P) /\ n + Z.of_nat (length P) <= k).
Proof.
  induction t as [| |i h IHh l IHl]; intros WT H n P LE.
  - simpl. split; [tauto|]. intros [(p & [] & _) _].
  - simpl. split.
    + intros [<-|[]]. split; [exists []; split; [auto|constructor]|simpl; lia].
    + intros [(p & [<-|[]] & E) _]. inversion E. auto.
  - pose proof (wf_high ord top counts _ _ _ WT) as Wh. pose proof (wf_low ord top counts _ _ _ WT) as Wl.
    assert (Hh : proxies_walk k mods h) by (intros j J; apply H, lits_high; auto).
    assert (Hl : proxies_walk k mods l) by (intros j J; apply H, lits_low; auto).
    cbn [ZbddModules.walk_at]. destruct (Z.leb_spec k n) as [LK|LK].
    { split; [intros []|]. intros [(p & Ip & E) S]. exfalso. apply (expand_nonempty k mods (ZN i h l) p P H Ip E).
      - intros ->. pose proof (empty_set ord top _ WT Ip). discriminate.
      - destruct P; auto. simpl length in S. lia. }
    destruct (is_module i) eqn:M; rewrite in_app_iff, (IHl Wl Hl n P LE).
    + destruct (nonempty ord top h Wh) as (p1 & P1).
      { destruct WT as (_ & _ & N & _). auto. }
      destruct (H i) as (z & F & NB & X0 & X); auto; [exists (i :: p1); split; [apply in_fam; eauto|simpl; auto]|].
      rewrite F, in_flat_map. split.
      * intros [(Q & IQ & IP)|[(p & Ip & E) S]].
        -- apply in_map_iff in IP as (R & <- & IR). apply X in IQ as [PQ SQ]; auto. apply (IHh Wh Hh) in IR as [(p & Ip & E) S]; auto.
           rewrite app_length, Nat2Z.inj_add. split; [|lia]. exists (i :: p). split; [apply in_fam; eauto|]. econstructor; eauto.
        -- split; auto. exists p. split; auto. apply in_fam; auto.
      * intros [(p & Ip & E) S]. apply in_fam in Ip as [(p' & -> & Ip)|Ip]; [|right; split; eauto].
        left. inversion E; subst; [congruence|]. assert (z0 = z) by congruence. subst z0.
        rewrite app_length, Nat2Z.inj_add in S. exists Q. split; [apply X; auto; split; auto; lia|].
        apply in_map. apply (IHh Wh Hh); [lia|]. split; eauto. lia.
    + rewrite in_map_iff. split.
      * intros [(R & <- & IR)|[(p & Ip & E) S]].
        -- apply (IHh Wh Hh) in IR as [(p & Ip & E) S]; [|lia]. simpl length. split; [|lia]. exists (i :: p). split; [apply in_fam; eauto|]. constructor; auto.
        -- split; auto. exists p. split; auto. apply in_fam; auto.
      * intros [(p & Ip & E) S]. apply in_fam in Ip as [(p' & -> & Ip)|Ip]; [|right; split; eauto].
        left. inversion E; subst; [|congruence]. simpl length in S. exists P0. split; auto. apply (IHh Wh Hh); [lia|]. split; eauto. lia.
Qed.
Lemma walk_ok k : forall z, clean z -> exactly_walks k z.
Proof.
  fix IH 2. intros z [r mods W AC CM H].
  assert (PW : proxies_walk k mods r).
  { intros j J M. destruct (H j J M) as (z' & F & NB). exists z'. split; auto. split; auto. apply IH. apply (CM j z'). apply find_some; auto. }
  split.
  - intros Q PQ ->. inversion PQ as [? ? p ? Ip E]; subst. simpl. destruct p as [|j p]; [apply (empty_set ord top _ W Ip)|].
    exfalso. apply (expand_nonempty k mods r (j :: p) [] PW Ip E); [discriminate|auto].
  - intros n P LE. rewrite walk_eq, (walk_at_ok k mods r W PW n P LE). split.
    + intros [(p & Ip & E) S]. split; auto. econstructor; eauto.
    + intros [PP S]. split; auto. inversion PP; subst. eauto.
Qed.

Section Assemble.
Context (g : Z) (GD : good g) (limit : Z) (r r' : zt) (mods : list (Z * zbdd)).
Context (W : Zbdd.wf ord top r) (W' : Zbdd.wf ord top r') (A : antichain r).
Context (PL : forall p j, In p (fam r) -> In j p -> 0 < j /\ leaf g j).
Context (SZ : forall p, In p (fam r) -> size p <= limit).
Context (SOUND : forall p, In p (fam r) -> forall ν, respects G module g ν -> (forall j, In j p -> ν j = true) ->
  (forall j, leaf g j -> j < 0 -> ~ In (- j) p -> ν (- j) = false) -> ν g = true).
Context (COMPLETE : forall x ν, NoDup x -> size x <= limit -> respects G module g ν -> at_point G module g x ν -> ν g = true ->
  exists p, In p (fam r) /\ incl p x).
Context (MODS : forall p m, In p (fam r) -> In m p -> is_module m = true ->
  exists z o, find_module m mods = Some z /\ exact m z o /\ limit - (size p - cost m) <= o).
Context (FAM : forall p, In p (fam r') <-> minimal_in (projected (constant_module G module mods) (fam r)) p).

Context (CLEAN : forall j z, In (j, z) mods -> clean z).

Lemma pos_atom j : 0 < j -> leaf g j -> atom g j.
Proof. intros P L. exists j. split; auto. lia. Qed.
Lemma from p : In p (fam r') -> exists p0, In p0 (fam r) /\ alive (constant_module G module mods) p0 = true /\ p = remaining (constant_module G module mods) p0.
Proof. intros P. apply FAM in P as [P _]. apply in_projected in P as (p0 & P0 & AL & ->). eauto. Qed.
(** What is in the expansion of a product *)
Lemma expands_bel p P : expands mods p P -> (forall j, In j p -> exists p0, In p0 (fam r) /\ In j p0) ->
  forall v, In v P -> 0 < v /\ exists j, In j p /\ bel j v = true.
Proof.
  induction 1 as [mods'|mods' i p P M E IH|mods' i p P Q z M F PR E IH]; intros H v V.
  - destruct V.
  - destruct (H i (or_introl eq_refl)) as (p0 & P0 & I0). destruct V as [<-|V].
    + split; [apply (PL p0 i P0 I0)|]. exists i. split; [simpl; auto|]. unfold bel. rewrite M. apply Z.eqb_refl.
    + destruct (IH MODS FAM) with (v := v) as (Pv & j & J & B); auto; [intros j J; apply H; simpl; auto|]. split; auto. exists j. simpl; auto.
  - destruct (H i (or_introl eq_refl)) as (p0 & P0 & I0). apply in_app_iff in V as [V|V].
    + destruct (MODS p0 i P0 I0 M) as (z' & o & F' & EX & _). rewrite F in F'. injection F' as <-.
      destruct (x_var _ _ _ EX Q v PR V) as [Pv Vv]. split; auto. exists i. split; [simpl; auto|]. unfold bel. rewrite M.
      destruct (PL p0 i P0 I0) as [_ L]. destruct (module_pos g i GD L M) as (_ & [S _] & _). apply varb_in; auto. lia.
    + destruct (IH MODS FAM) with (v := v) as (Pv & j & J & B); auto; [intros j J; apply H; simpl; auto|]. split; auto. exists j. simpl; auto.
Qed.

Definition okp (p : list Z) : Prop := NoDup p /\ forall j, In j p -> exists p0, In p0 (fam r) /\ In j p0.
Lemma okp_cons i p : okp (i :: p) -> okp p /\ ~ In i p /\ exists p0, In p0 (fam r) /\ In i p0.
Proof. intros [N H]. inversion N; subst. split; [split; auto; intros j J; apply H; simpl; auto|]. split; auto. apply H. simpl; auto. Qed.
Lemma okp_atom p j : okp p -> In j p -> 0 < j /\ leaf g j /\ atom g j.
Proof. intros [_ H] J. destruct (H j J) as (p0 & P0 & J0). destruct (PL p0 j P0 J0) as [P L]. split; auto. split; auto. apply pos_atom; auto. Qed.
Lemma bel_other i p v : okp (i :: p) -> 0 < v -> bel i v = true -> forall j, In j p -> bel j v = true -> False.
Proof.
  intros O P B j J B'. destruct (okp_cons i p O) as (_ & N & _). apply N.
  rewrite (bel_unique g i j v); auto; [apply (okp_atom (i :: p)); simpl; auto|apply (okp_atom (i :: p)); simpl; auto|lia].
Qed.
Lemma mods_of m p : okp p -> In m p -> is_module m = true -> exists z o, find_module m mods = Some z /\ exact m z o /\ good m.
Proof.
  intros [N H] J M. destruct (H m J) as (p0 & P0 & J0). destruct (MODS p0 m P0 J0 M) as (z & o & F & E & _).
  destruct (PL p0 m P0 J0) as [_ L]. destruct (module_pos g m GD L M) as (_ & GM & _). eauto.
Qed.
Lemma bel_module m z o Q v : is_module m = true -> good m -> exact m z o -> produces z Q -> In v Q -> 0 < v /\ bel m v = true.
Proof.
  intros M GM E PR V. destruct (x_var _ _ _ E Q v PR V) as [P X]. split; auto. unfold bel. rewrite M. apply varb_in; auto; [apply GM|lia].
Qed.
Lemma expands_inv i p R : expands mods (i :: p) R -> okp (i :: p) ->
  (is_module i = false /\ exists P, R = i :: P /\ expands mods p P) \/
  (is_module i = true /\ exists z o Q P, find_module i mods = Some z /\ exact i z o /\ good i /\ produces z Q /\ R = Q ++ P /\ expands mods p P).
Proof.
  intros E O. inversion E; subst.
  - left. eauto.
  - right. split; auto. destruct (mods_of i (i :: p) O (or_introl eq_refl)) as (z' & o & F & X & GM); auto.
    assert (z' = z) by congruence. subst. exists z, o, Q, P. auto 10.
Qed.
Lemma expands_in p P : expands mods p P -> okp p -> forall v, In v P -> 0 < v /\ exists j, In j p /\ bel j v = true.
Proof. intros E [_ H]. apply expands_bel; auto. Qed.
Lemma expands_nodup p : forall P, expands mods p P -> okp p -> NoDup P.
Proof.
  induction p as [|i p IH]; intros R E O; [inversion E; constructor|].
  destruct (okp_cons i p O) as (O' & NI & _). destruct (expands_inv i p R E O) as [(M & P & -> & E')|(M & z & o & Q & P & F & X & GM & PR & -> & E')].
  - constructor; [|apply IH; auto]. intros J. destruct (expands_in p P E' O' i J) as (Pi & j & Jp & B).
    apply (bel_other i p i O Pi) with (j := j); auto. unfold bel. rewrite M. apply Z.eqb_refl.
  - apply nodup_app; [apply (x_nodup _ _ _ X); auto|apply IH; auto|]. intros v V1 V2.
    destruct (bel_module i z o Q v M GM X PR V1) as [Pv B]. destruct (expands_in p P E' O' v V2) as (_ & j & Jp & B').
    apply (bel_other i p v O Pv B j Jp B').
Qed.
Lemma expands_part p : forall P, expands mods p P -> okp p -> forall m, In m p -> is_module m = true ->
  exists z o Q, find_module m mods = Some z /\ exact m z o /\ produces z Q /\ incl Q P /\ forall v, In v P -> bel m v = true -> In v Q.
Proof.
  induction p as [|i p IH]; intros R E O m J Mm; [destruct J|].
  destruct (okp_cons i p O) as (O' & NI & _). destruct (expands_inv i p R E O) as [(M & P & -> & E')|(M & z & o & Q & P & F & X & GM & PR & -> & E')].
  - destruct J as [<-|J]; [congruence|]. destruct (IH P E' O' m J Mm) as (z & o & Q & F & X & PR & I & H).
    exists z, o, Q. split; auto. split; auto. split; auto. split; [intros v V; simpl; auto|].
    intros v [<-|V] B; auto. exfalso. destruct (okp_atom (i :: p) i O (or_introl eq_refl)) as (Pi & _).
    apply (bel_other i p i O Pi) with (j := m); auto. unfold bel. rewrite M. apply Z.eqb_refl.
  - destruct J as [<-|J].
    + exists z, o, Q. split; auto. split; auto. split; auto. split; [intros v V; apply in_app_iff; auto|].
      intros v V B. apply in_app_iff in V as [V|V]; auto. exfalso. destruct (expands_in p P E' O' v V) as (Pv & j & Jp & B').
      apply (bel_other i p v O Pv B j Jp B').
    + destruct (IH P E' O' m J Mm) as (z' & o' & Q' & F' & X' & PR' & I & H).
      exists z', o', Q'. split; auto. split; auto. split; auto. split; [intros v V; apply in_app_iff; auto|].
      intros v V B. apply in_app_iff in V as [V|V]; auto. exfalso. destruct (bel_module i z o Q v M GM X PR V) as [Pv B'].
      apply (bel_other i p v O Pv B' m J B).
Qed.
Lemma expands_single p : forall P, expands mods p P -> okp p -> forall j, In j p -> is_module j = false -> In j P.
Proof.
  induction p as [|i p IH]; intros R E O j J Mj; [destruct J|].
  destruct (okp_cons i p O) as (O' & NI & _). destruct (expands_inv i p R E O) as [(M & P & -> & E')|(M & z & o & Q & P & F & X & GM & PR & -> & E')].
  - destruct J as [<-|J]; [left; auto|]. right. apply IH; auto.
  - destruct J as [<-|J]; [congruence|]. apply in_app_iff. right. apply IH; auto.
Qed.
Lemma expand_exists X p : okp p -> (forall j, In j p -> is_module j = false -> In j X) ->
  (forall m, In m p -> is_module m = true -> exists z Q, find_module m mods = Some z /\ produces z Q /\ incl Q X) ->
  exists P, expands mods p P /\ incl P X.
Proof.
  induction p as [|i p IH]; intros O H1 H2; [exists []; split; [constructor|intros v []]|].
  destruct (okp_cons i p O) as (O' & _). destruct IH as (P & E & I); auto; [intros; apply H1; simpl; auto|intros; apply H2; simpl; auto|].
  destruct (is_module i) eqn:M.
  - destruct (H2 i (or_introl eq_refl) M) as (z & Q & F & PR & J). exists (Q ++ P). split; [econstructor; eauto|].
    intros v V. apply in_app_iff in V as [V|V]; auto.
  - exists (i :: P). split; [constructor; auto|]. intros v [<-|V]; auto. apply H1; simpl; auto.
Qed.
Lemma expands_eq p : forall P Q, expands mods p P -> expands mods p Q -> okp p -> incl P Q -> P = Q.
Proof.
  induction p as [|i p IH]; intros R T ER ET O I; [inversion ER; inversion ET; auto|].
  destruct (okp_cons i p O) as (O' & NI & _).
  destruct (expands_inv i p R ER O) as [(M & P & -> & EP)|(M & z & o & Q & P & F & X & GM & PR & -> & EP)],
           (expands_inv i p T ET O) as [(M' & P' & -> & EP')|(M' & z' & o' & Q' & P' & F' & X' & GM' & PR' & -> & EP')]; try congruence.
  - f_equal. apply IH; auto. intros v V. destruct (I v (or_intror V)) as [->|]; auto. exfalso.
    destruct (expands_in p P EP O' v V) as (Pv & j & J & B). apply (bel_other v p v O Pv) with (j := j); auto. unfold bel. rewrite M. apply Z.eqb_refl.
  - assert (z' = z) by congruence. subst z'. f_equal.
    + apply (x_anti _ _ _ X); auto. intros v V. destruct (bel_module i z o Q v M GM X PR V) as [Pv B].
      destruct (proj1 (in_app_iff _ _ _) (I v (proj2 (in_app_iff _ _ _) (or_introl V)))) as [|V']; auto. exfalso.
      destruct (expands_in p P' EP' O' v V') as (_ & j & J & B'). apply (bel_other i p v O Pv B j J B').
    + apply IH; auto. intros v V. destruct (proj1 (in_app_iff _ _ _) (I v (proj2 (in_app_iff _ _ _) (or_intror V)))) as [V'|]; auto. exfalso.
      destruct (bel_module i z o' Q' v M GM X' PR' V') as [Pv B']. destruct (expands_in p P EP O' v V) as (_ & j & J & B).
      apply (bel_other i p v O Pv B' j J B).
Qed.

(** Iteration *)
Lemma walk_nodup t k : (forall p, In p (fam t) -> okp p) -> Zbdd.wf ord top t ->
  (forall j z, lits t j -> is_module j = true -> find_module j mods = Some z -> root_of z <> ZB) ->
  forall n, n <= k -> NoDup (walk_at k mods t n).
Proof.
  induction t as [| |i h IHh l IHl]; intros O WT NB n LE; [constructor|constructor; [intros []|constructor]|].
  cbn [ZbddModules.walk_at]. destruct (Z.leb_spec k n) as [|LT]; [constructor|].
  pose proof (wf_high ord top counts _ _ _ WT) as Wh. pose proof (wf_low ord top counts _ _ _ WT) as Wl.
  assert (Oh : forall p, In p (fam h) -> okp (i :: p)) by (intros p P; apply O, in_fam; eauto).
  assert (Ol : forall p, In p (fam l) -> okp p) by (intros p P; apply O, in_fam; eauto).
  assert (Oh' : forall p, In p (fam h) -> okp p) by (intros p P; apply (okp_cons i p (Oh p P))).
  assert (NBh : forall j z, lits h j -> is_module j = true -> find_module j mods = Some z -> root_of z <> ZB) by (intros j z L; apply NB, lits_high; auto).
  assert (NBl : forall j z, lits l j -> is_module j = true -> find_module j mods = Some z -> root_of z <> ZB) by (intros j z L; apply NB, lits_low; auto).
  specialize (IHh Oh' Wh NBh). specialize (IHl Ol Wl NBl).
  assert (PW : forall t', (forall p, In p (fam t') -> okp p) -> (forall j z, lits t' j -> is_module j = true -> find_module j mods = Some z -> root_of z <> ZB) -> proxies_walk k mods t').
  { intros t' O' N' j J M. destruct J as (p & P0 & Jp).
    destruct (mods_of j p (O' p P0) Jp M) as (z & o & F & X & _). exists z. split; auto. split; [eapply N'; eauto; exists p; auto|].
    apply walk_ok, (x_clean _ _ _ X). }
  pose proof (PW h Oh' NBh) as PWh. pose proof (PW l Ol NBl) as PWl.
  assert (HL : forall P v, In P (walk_at k mods l n) -> In v P -> 0 < v /\ bel i v = true -> False).
  { intros P v IP IV [Pv B]. apply (walk_at_ok k mods l Wl PWl) in IP as [(p & Ip & E) _]; [|lia].
    destruct (expands_in p P E (Ol p Ip) v IV) as (_ & j & J & B').
    destruct (nonempty ord top h Wh) as (p1 & P1); [destruct WT as (_ & _ & N & _); auto|].
    assert (i = j).
    { apply (bel_unique g i j v); auto; [apply (okp_atom (i :: p1) i (Oh p1 P1)); simpl; auto|apply (okp_atom p j (Ol p Ip) J)|lia]. }
    subst j. pose proof (wf_after_low ord top _ _ _ WT p i Ip J). unfold Zbdd.before in *. lia. }
  destruct (is_module i) eqn:M.
  - destruct (nonempty ord top h Wh) as (p1 & P1); [destruct WT as (_ & _ & N & _); auto|].
    destruct (mods_of i (i :: p1) (Oh p1 P1) (or_introl eq_refl) M) as (z & o & F & X & GM). rewrite F.
    assert (NZ : root_of z <> ZB) by (apply (NB i z); auto; exists (i :: p1); split; [apply in_fam; eauto|simpl; auto]).
    destruct (walk_ok k z (x_clean _ _ _ X)) as [X0 XW].
    assert (PART : forall Q R, In Q (walk k z n) -> In R (walk_at k mods h (n + Z.of_nat (length Q))) -> List.filter (bel i) (Q ++ R) = Q).
    { intros Q R IQ IR. apply XW in IQ as [PQ SQ]; auto. apply (walk_at_ok k mods h Wh PWh) in IR as [(p & Ip & E) _]; auto.
      rewrite filter_app. replace (List.filter (bel i) R) with (@nil Z); [rewrite app_nil_r; apply forallb_filter_id'; intros v V; apply (bel_module i z o Q v); auto|].
      symmetry. apply filter_none. intros v V. destruct (bel i v) eqn:B; auto. exfalso.
      destruct (expands_in p R E (Oh' p Ip) v V) as (Pv & j & J & B'). apply (bel_other i p v (Oh p Ip) Pv B j J B'). }
    apply nodup_app'.
    + assert (NW := x_walk _ _ _ X k n LE). assert (HS : forall Q, In Q (walk k z n) -> n + Z.of_nat (length Q) <= k) by (intros Q IQ; apply XW in IQ; tauto).
      revert PART NW HS. generalize (walk k z n) as L. induction L as [|Q L IHL]; intros PART NW HS; [constructor|]. simpl.
      inversion NW; subst. apply nodup_app'.
      * apply FinFun.Injective_map_NoDup; [intros a b; apply app_inv_head|]. apply IHh. apply HS; simpl; auto.
      * apply IHL; auto; [intros; apply PART; simpl; auto|intros; apply HS; simpl; auto].
      * intros P I1 I2. apply in_map_iff in I1 as (R & <- & IR). apply in_flat_map in I2 as (Q' & IQ' & I2). apply in_map_iff in I2 as (R' & E & IR').
        assert (E1 : List.filter (bel i) (Q ++ R) = Q) by (apply PART; simpl; auto). rewrite <- E, PART in E1 by (simpl; auto). subst Q'. contradiction.
    + apply IHl; auto.
    + intros P I1 I2. apply in_flat_map in I1 as (Q & IQ & I1). apply in_map_iff in I1 as (R & <- & IR). apply XW in IQ as [PQ _]; auto.
      destruct Q as [|v Q]; [apply NZ, (X0 []); auto|]. apply (HL _ v I2); [simpl; auto|]. apply (bel_module i z o (v :: Q) v); simpl; auto.
  - apply nodup_app'.
    + apply FinFun.Injective_map_NoDup; [intros a b [= ->]; auto|]. apply IHh. lia.
    + apply IHl; auto.
    + intros P I1 I2. apply in_map_iff in I1 as (R & <- & IR). apply (HL _ i I2); [simpl; auto|].
      destruct (nonempty ord top h Wh) as (p1 & P1); [destruct WT as (_ & _ & N & _); auto|].
      split; [apply (okp_atom (i :: p1) i (Oh p1 P1)); simpl; auto|]. unfold bel. rewrite M. apply Z.eqb_refl.
Qed.

Lemma okp_of p0 : In p0 (fam r) -> okp p0.
Proof. intros P. split; [apply (nodup_fam ord top counts r W); auto|]. eauto. Qed.
Lemma okp_rem p : In p (fam r') -> okp p.
Proof.
  intros P. destruct (from p P) as (p0 & P0 & _ & ->). destruct (okp_of p0 P0) as [N H]. split; [apply NoDup_filter; auto|].
  intros j J. apply filter_In in J as [J _]. auto.
Qed.
Lemma cm_none m z : is_module m = true -> find_module m mods = Some z -> constant_module G module mods m = None -> root_of z <> ZB.
Proof. intros M F C E. unfold constant_module in C. rewrite M, F in C. destruct z as [t l]. simpl in E. subst t. discriminate. Qed.
Lemma cm_var j : is_module j = false -> constant_module G module mods j = None.
Proof. intros M. unfold constant_module. rewrite M. auto. Qed.
Lemma leaf_or j : leaf g j -> 0 < j -> is_module j = false -> var g j.
Proof. intros L P M. destruct (leaf_kind g j L) as [[K _]|K]; [|congruence]. rewrite Z.abs_eq in K by lia. split; auto. rewrite <- (Z.abs_eq j) by lia. apply leaf_under; auto. Qed.
Lemma var_in_module m v : good m -> is_module m = true -> 0 <= v -> bel m v = true <-> var m v.
Proof. intros GM M P. unfold bel. rewrite M. apply varb_in; auto. apply GM. Qed.
Lemma module_var m v : leaf g m -> is_module m = true -> var m v -> var g v.
Proof. intros L M [U N]. destruct (module_pos g m GD L M) as (P & _). split; auto. apply (under_trans g m v); auto. rewrite <- (Z.abs_eq m) by lia. apply leaf_under; auto. Qed.

Lemma PROXY p j z : In p (fam r') -> In j p -> is_module j = true -> find_module j mods = Some z -> root_of z <> ZB.
Proof.
  intros Ip J M F. destruct (from p Ip) as (p0 & _ & _ & Ep). rewrite Ep in J. apply filter_In in J as [_ C].
  destruct (constant_module G module mods j) eqn:C'; [discriminate|]. apply (cm_none j z M F C').
Qed.
Lemma assemble : exact g (Zb r' mods) limit.
Proof.
  assert (A' : antichain r') by (intros p q P Q I; apply FAM in P as [P _]; apply FAM in Q as [_ Q]; auto).
  constructor.
  - intros P v PR V. inversion PR as [? ? p ? IP E]; subst. pose proof (okp_rem p IP) as O.
    destruct (expands_in p P E O v V) as (Pv & j & J & B). split; auto. destruct (okp_atom p j O J) as (Pj & L & _).
    unfold bel in B. destruct (is_module j) eqn:M.
    + destruct (module_pos g j GD L M) as (_ & GM & _). apply varb_in in B; [|apply GM|lia]. apply (module_var j v L M B).
    + apply Z.eqb_eq in B. subst v. apply leaf_or; auto.
  - intros P PR. inversion PR as [? ? p ? IP E]; subst. apply (expands_nodup p P E). apply okp_rem; auto.
  - intros P ν PR LB H. inversion PR as [? ? p ? IP E]; subst. pose proof (okp_rem p IP) as O.
    destruct (from p IP) as (p0 & P0 & AL & Ep). pose proof (okp_of p0 P0) as O0.
    apply (SOUND p0 P0 ν); [apply labelling_respects; auto| |].
    + intros j J. destruct (okp_atom p0 j O0 J) as (Pj & L & AT). destruct (is_module j) eqn:M.
      * destruct (mods_of j p0 O0 J M) as (z & o & F & X & GM).
        destruct (constant_module G module mods j) as [b|] eqn:C.
        -- (* constant module *)
           assert (b = true).
           { unfold alive in AL. rewrite forallb_forall in AL. specialize (AL j J). rewrite C in AL. destruct b; auto. }
           subst b. unfold constant_module in C. rewrite M, F in C. destruct z as [t l]. destruct t as [| |]; try discriminate.
           apply (x_sound _ _ _ X [] ν); auto; [econstructor; [left; reflexivity|constructor]|].
           intros v V. rewrite H by (apply (module_var j v L M V)). simpl. destruct (mem P v) eqn:MV; auto. exfalso.
           apply mem_In in MV. destruct (expands_in p P E O v MV) as (Pv & k & K & B).
           destruct (okp_atom p k O K) as (_ & _ & ATk). assert (j = k).
           { apply (bel_unique g j k v); auto; [lia|]. apply var_in_module; auto. lia. }
           subst k. rewrite Ep in K. apply filter_In in K as [_ K]. unfold constant_module in K. rewrite M, F in K. discriminate.
        -- assert (Jp : In j p) by (rewrite Ep; apply filter_In; rewrite C; auto).
           destruct (expands_part p P E O j Jp M) as (z' & o' & Q & F' & X' & PQ & I & HQ).
           apply (x_sound _ _ _ X' Q ν); auto. intros v V. rewrite H by (apply (module_var j v L M V)).
           pose proof (var_pos j v (proj1 GM) V). apply eq_true_iff_eq. rewrite !mem_In. split; auto.
           intros VP. apply HQ; auto. apply var_in_module; auto.
      * rewrite H by (apply leaf_or; auto). apply mem_In. apply (expands_single p P E O); auto. rewrite Ep. apply filter_In.
        rewrite cm_var by auto. auto.
    + intros j L N NI. destruct (leaf_kind g j L) as [[K M]|K]; [|destruct (module_pos g j GD L K); lia].
      rewrite Z.abs_neq in K by lia. assert (U : under g (- j)) by (rewrite <- Z.abs_neq by lia; apply leaf_under; auto).
      rewrite H by (split; auto). destruct (mem P (- j)) eqn:MV; auto. exfalso. apply mem_In in MV.
      destruct (expands_in p P E O (- j) MV) as (Pv & k & Kp & B). destruct (okp_atom p k O Kp) as (_ & _ & ATk).
      assert (AJ : atom g (- j)) by (exists j; split; auto; lia).
      destruct (atom_cases g (- j) GD AJ) as (_ & [(Mj & _)|(Mj & Lj)]).
      * assert (- j = k) by (apply (bel_unique g (- j) k (- j)); auto; [lia|]; unfold bel; rewrite Mj; apply Z.eqb_refl).
        subst k. rewrite Ep in Kp. apply filter_In in Kp as [Kp _]. auto.
      * apply is_module_iff in Mj as [[y Y] _]. rewrite Z.abs_eq in Y by lia. congruence.
  - intros X ν NX LX LB H V.
    set (x := nodup Z.eq_dec (List.filter ν (atoms g))).
    assert (HX : forall a, In a x <-> atom g a /\ ν a = true).
    { intros a. unfold x. rewrite nodup_In, filter_In, atoms_in by apply GD. tauto. }
    assert (NDX : NoDup x) by apply NoDup_nodup.
    (* every true atom has its share of X *)
    assert (SH : forall a, atom g a -> ν a = true -> cost a <= part a X).
    { intros a AT Va. destruct (atom_cases g a GD AT) as (Pa & [(Ma & Na & Ua)|(Ma & La)]).
      - assert (In a X) by (apply mem_In; rewrite <- H by auto; auto).
        assert (In a (List.filter (bel a) X)) by (apply filter_In; split; auto; unfold bel; rewrite Ma; apply Z.eqb_refl).
        unfold part. pose proof (cost_range counts a). destruct (List.filter (bel a) X); [contradiction|]. simpl length. lia.
      - destruct (coherent a) eqn:Ca.
        + destruct (module_pos g a GD La Ma) as (_ & GM & _).
          destruct (coherent_true ν LB (S (r0 a)) a a) as (v & Vv & Tv); auto; [constructor|apply GM|].
          assert (In v X) by (apply mem_In; rewrite <- H by (apply (module_var a v La Ma Vv)); auto).
          assert (In v (List.filter (bel a) X)).
          { apply filter_In. split; auto. apply var_in_module; auto. apply (var_pos a v (proj1 GM) Vv). }
          unfold part. pose proof (cost_range counts a). destruct (List.filter (bel a) X); [contradiction|]. simpl length. lia.
        + assert (cost a = 0); [|unfold part; lia]. unfold Zbdd.cost, ZbddModules.counts. rewrite Ma, Z.abs_eq, Ca by lia.
          rewrite andb_false_r. auto. }
    assert (UNI : forall p, (forall a, In a p -> atom g a) -> forall v j k, In v X -> In j p -> In k p -> bel j v = true -> bel k v = true -> j = k).
    { intros p Hp v j k VX J K B1 B2. destruct (Z.le_gt_cases 0 v) as [Pv|Pv]; [apply (bel_unique g j k v); auto|]. exfalso.
      unfold bel in B1. destruct (is_module j) eqn:Mj.
      - unfold varb in B1. apply andb_true_iff in B1 as [_ B1]. apply existsb_exists in B1 as (b & _ & B1). apply Z.eqb_eq in B1. lia.
      - apply Z.eqb_eq in B1. destruct (atom_cases g j GD (Hp j J)). lia. }
    destruct (COMPLETE x ν) as (p0 & P0 & I0); auto.
    { rewrite <- total_cost. eapply Z.le_trans; [apply total_le with (f' := fun a => part a X)|].
      - intros a Ia. apply HX in Ia as [AT Va]. auto.
      - eapply Z.le_trans; [apply total_parts; auto|auto]. apply UNI. intros a Ia. apply HX in Ia. tauto. }
    { apply labelling_respects; auto. }
    { intros j L. apply eq_true_iff_eq. rewrite mem_In, HX. split; [|tauto]. intros T. split; auto. exists j. auto. }
    pose proof (okp_of p0 P0) as O0.
    assert (PM : forall m, In m p0 -> is_module m = true -> exists z Q, find_module m mods = Some z /\ produces z Q /\ incl Q X).
    { intros m J M. destruct (MODS p0 m P0 J M) as (z & o & F & EX & LO). destruct (PL p0 m P0 J) as [Pm L].
      destruct (module_pos g m GD L M) as (_ & GM & _).
      destruct (x_complete _ _ _ EX (List.filter (bel m) X) ν) as (Q & PQ & IQ); auto.
      - apply NoDup_filter; auto.
      - assert (TT : total cost p0 - cost m <= total (fun a => part a X) p0 - part m X).
        { apply (total_at cost (fun a => part a X)); auto; [apply O0|]. intros j Jp _. apply SH; [apply (okp_atom p0 j O0 Jp)|apply HX; auto]. }
        rewrite total_cost in TT. assert (total (fun a => part a X) p0 <= Z.of_nat (length X)).
        { apply total_parts; [apply O0|]. apply UNI. intros a Ia. apply (okp_atom p0 a O0 Ia). }
        unfold part in TT at 2. lia.
      - intros v Vv. rewrite H by (apply (module_var m v L M Vv)). apply eq_true_iff_eq. rewrite !mem_In, filter_In.
        split; [|tauto]. intros VX. split; auto. apply var_in_module; auto. apply (var_pos m v (proj1 GM) Vv).
      - apply HX; auto.
      - exists z, Q. split; auto. split; auto. intros v Vv. apply IQ, filter_In in Vv. tauto. }
    assert (AL : alive (constant_module G module mods) p0 = true).
    { apply forallb_forall. intros j J. destruct (constant_module G module mods j) as [[]|] eqn:C; auto. exfalso.
      unfold constant_module in C. destruct (is_module j) eqn:M; [|discriminate]. destruct (PM j J M) as (z & Q & F & PQ & _).
      rewrite F in C. destruct z as [[] l]; try discriminate. inversion PQ; simpl in *; contradiction. }
    destruct (minimal_exists ord (projected (constant_module G module mods) (fam r))) with (p := remaining (constant_module G module mods) p0) as (p & Mp & Ip).
    { apply (sorted_projected ord top counts (constant_module G module mods) r W). }
    { apply in_projected. eauto. }
    assert (Pp : In p (fam r')) by (apply FAM; auto).
    assert (Ip0 : incl p p0) by (intros j J; apply Ip, filter_In in J; tauto).
    destruct (expand_exists X p) as (P & EP & IP).
    { apply okp_rem; auto. }
    { intros j J M. apply Ip0 in J. destruct (okp_atom p0 j O0 J) as (Pj & L & AT). apply mem_In. rewrite <- H by (apply leaf_or; auto). apply HX. auto. }
    { intros m J M. apply PM; auto. }
    exists P. split; auto. econstructor; eauto.
  - intros P Q PP PQ I. inversion PP as [? ? p ? Ip EP]; subst. inversion PQ as [? ? q ? Iq EQ]; subst.
    pose proof (okp_rem p Ip) as Op. pose proof (okp_rem q Iq) as Oq.
    assert (p = q).
    { apply A'; auto. intros j J. destruct (okp_atom p j Op J) as (Pj & L & AT).
      assert (HV : forall v, In v P -> bel j v = true -> In j q).
      { intros v V B. destruct (expands_in q Q EQ Oq v (I v V)) as (Pv & k & K & B'). destruct (okp_atom q k Oq K) as (_ & _ & ATk).
        rewrite (bel_unique g j k v); auto. lia. }
      destruct (is_module j) eqn:M.
      - destruct (expands_part p P EP Op j J M) as (z & o & R & F & EX & PR & IR & _).
        destruct (mods_of j p Op J M) as (_ & _ & _ & _ & GM).
        assert (NZ : R <> []).
        { intros ->. apply (x_empty _ _ _ EX) in PR. destruct (from p Ip) as (p0 & _ & _ & Ep). rewrite Ep in J. apply filter_In in J as [_ C].
          destruct (constant_module G module mods j) eqn:C'; [discriminate|]. apply (cm_none j z M F C' PR). }
        destruct R as [|v R]; [congruence|]. apply (HV v); [apply IR; simpl; auto|].
        apply (bel_module j z o (v :: R) v); simpl; auto.
      - apply (HV j); [apply (expands_single p P EP Op); auto|]. unfold bel. rewrite M. apply Z.eqb_refl. }
    subst q. apply (expands_eq p P Q EP EQ Op I).
  - intros PE. inversion PE as [? ? p ? Ip EP]; subst. pose proof (okp_rem p Ip) as Op. simpl.
    destruct p as [|j p]; [apply (empty_set ord top r' W' Ip)|]. exfalso.
    destruct (is_module j) eqn:M.
    + destruct (expands_part (j :: p) [] EP Op j (or_introl eq_refl) M) as (z & o & R & F & EX & PR & IR & _).
      assert (R = []) by (destruct R as [|v R]; auto; destruct (IR v); simpl; auto). subst R.
      apply (x_empty _ _ _ EX) in PR. destruct (from _ Ip) as (p0 & _ & _ & Ep).
      assert (J : In j (j :: p)) by (simpl; auto). rewrite Ep in J. apply filter_In in J as [_ C].
      destruct (constant_module G module mods j) eqn:C'; [discriminate|]. apply (cm_none j z M F C' PR).
    + apply (in_nil (expands_single (j :: p) [] EP Op j (or_introl eq_refl) M)).
  - constructor; auto. intros j (p & Ip & J) M. destruct (mods_of j p (okp_rem p Ip) J M) as (z & o & F & X & _). exists z. split; auto.
    apply (PROXY p j z Ip J M F).
  - intros k' n LE. rewrite walk_eq. apply walk_nodup; auto; [apply okp_rem|]. intros j z (p & Ip & J) M F. apply (PROXY p j z Ip J M F).
Qed.
End Assemble.

(** ** The recursive construction *)
Lemma exact_empty m : good m -> module m = true -> coherent m = true -> exact m (Zb ZE []) 0.
Proof.
  intros GM MM CM. assert (E : forall P, ~ produces (Zb ZE []) P) by (intros P H; inversion H; simpl in *; contradiction).
  split; try (intros; exfalso; eapply E; eauto; fail).
  2:{ constructor; [simpl; auto|intros p q []|intros j z []|]. intros j (p & [] & _). }
  2:{ intros k' n _. constructor. }
  intros X ν N L LB H T. destruct X as [|v X]; [|simpl length in L; lia]. exfalso.
  destruct (coherent_true ν LB (S (r0 m)) m m) as (v & Vv & Tv); auto; [constructor|apply GM|].
  rewrite H in Tv by auto. discriminate.
Qed.
Definition entry_ok (g : Z) (j : Z) : Prop := leaf g j /\ is_module j = true.
Definition build_all (fuel : nat) : list (Z * (bool * Z)) -> option (list (Z * zbdd)) :=
  fix go (l : list (Z * (bool * Z))) : option (list (Z * zbdd)) :=
                match l with
                | [] => Some []
                | (i, (c, o)) :: l =>
                    if (i <=? 0) || (o <? 0) then None else
                    z ← (if (o =? 0) && c then Some (Zb ZE []) else build ord top G module coherent parents arrange fuel i o);
                    zs ← go l;
                    Some ((i, z) :: zs)
                end.
Lemma build_all_ok g fuel : good g -> (r0 g < S fuel)%nat ->
  (forall m o, good m -> (r0 m < fuel)%nat -> 0 <= o -> exists z, build ord top G module coherent parents arrange fuel m o = Some z /\ exact m z o) ->
  forall l, (forall i c o, In (i, (c, o)) l -> c = coherent (Z.abs i) /\ 0 <= o /\ entry_ok g i) ->
  exists mods, build_all fuel l = Some mods /\ map fst mods = map fst l /\
    (forall i c o, In (i, (c, o)) l -> exists z, In (i, z) mods /\ exact i z o) /\
    forall i z, In (i, z) mods -> clean z.
Proof.
  intros GD F B l. induction l as [|[i [c o]] l IH]; intros H.
  - exists []. split; auto. split; auto. split; [intros i c o []|intros i z []].
  - destruct (H i c o (or_introl eq_refl)) as (-> & Po & L & M). destruct (module_pos g i GD L M) as (Pi & GM & R).
    assert (MM : module i = true) by (apply is_module_iff in M as [_ M]; rewrite Z.abs_eq in M by lia; auto).
    destruct IH as (mods & E & EF & IH & CL); [intros; apply H; simpl; auto|].
    assert (exists z, (if (o =? 0) && coherent (Z.abs i) then Some (Zb ZE []) else build ord top G module coherent parents arrange fuel i o) = Some z /\ exact i z o) as (z & Ez & X).
    { destruct (o =? 0) eqn:E0; [apply Z.eqb_eq in E0; subst o|]; simpl; [destruct (coherent (Z.abs i)) eqn:C|].
      - exists (Zb ZE []). split; auto. apply exact_empty; auto. rewrite Z.abs_eq in C by lia. auto.
      - apply B; auto; lia.
      - apply B; auto; lia. }
    exists ((i, z) :: mods). split; [|split; [simpl; congruence|]].
    + cbn [build_all]. destruct (Z.leb_spec i 0); [lia|]. destruct (Z.ltb_spec o 0); [lia|]. cbn [orb]. rewrite Ez. simpl.
      fold (build_all fuel). rewrite E. reflexivity.
    + split; [|intros i' z' [E'|I']; [injection E' as <- <-; apply (x_clean _ _ _ X)|eauto]]. intros i' c' o' [E'|I].
      * injection E' as <- _ <-. exists z. simpl; auto.
      * destruct (IH i' c' o' I) as (z' & I' & X'). exists z'. simpl; auto.
Qed.
Lemma size_filter f p : size (List.filter f p) <= size p.
Proof.
  induction p as [|a p IH]; [simpl; lia|]. simpl. pose proof (cost_range counts a).
  destruct (f a); rewrite ?size_cons; lia.
Qed.
Lemma build_ok : forall fuel g limit, good g -> (r0 g < fuel)%nat -> 0 <= limit ->
  exists z, build ord top G module coherent parents arrange fuel g limit = Some z /\ exact g z limit.
Proof.
  induction fuel as [|fuel IH]; intros g limit GD F LIM; [lia|].
  pose proof (NNF g GD) as NG. destruct GD as [SG GD']. pose proof (conj SG GD' : good g) as GD.
  destruct SG as [x Ex]. destruct (NG g x Ex (active_root G module g)) as (TY & _ & NC & _).
  cbn [build]. rewrite Ex. simpl. rewrite NC. replace (conn_eqb (g_type x) kNull) with false by (destruct TY as [->| ->]; auto). cbn [orb].
  assert (MCS : forall j, j < 0 -> counts j = false) by (intros j J; unfold ZbddModules.counts; destruct (Z.ltb_spec 0 j); [lia|auto]).
  assert (CG : coherent g = true -> forall j, leaf g j -> 0 < j) by (intros C j J; apply (COH g GD C j J)).
  destruct (convert_gate_ok ord top counts limit ORD LIM G module parents arrange g ARR NG coherent (coherent g) CG r0 RK (ex_intro _ x Ex) (S fuel) start F (inv_start ord top counts))
    as (r & s & E & I & t & R & B & W & PO & FR).
  rewrite E. simpl.
  destruct (products_ok ord top counts limit ORD G module g NG MCS t r R B W FR) as (A & PR & CO).
  assert (PL : forall p j, In p (fam r) -> In j p -> 0 < j /\ leaf g j) by (intros p j P J; apply (PR p P); auto).
  destruct (gather_ok ord top is_module counts coherent limit (entry_ok g) r 0 ∅) as (mn & subs & EG & _ & _ & _ & MO & _ & EN); auto; try lia.
  { intros p P. destruct (PR p P). lia. }
  { intros j (p & P & J) M. split; auto. apply (PL p j P J). }
  { intros j b o X. elim (lookup_empty_Some (M := gmap Z) j (b, o) X). }
  rewrite EG. simpl.
  destruct (build_all_ok g fuel GD F) with (l := map_to_list subs) as (mods & EM & EF & MM & CL).
  { intros m o GM Rm Po. apply IH; auto. }
  { intros i c o Ii. apply elem_of_list_In, elem_of_map_to_list in Ii. apply EN in Ii. tauto. }
  change (build_all fuel (map_to_list subs)) with (build_all fuel (map_to_list subs)) in EM. unfold build_all in EM. rewrite EM. simpl.
  assert (ND : NoDup (map fst mods)).
  { rewrite EF. apply NoDup_ListNoDup. apply NoDup_fst_map_to_list. }
  assert (MODS : forall p m, In p (fam r) -> In m p -> is_module m = true ->
    exists z o, find_module m mods = Some z /\ exact m z o /\ limit - (size p - cost m) <= o).
  { intros p m P J M. destruct (MO p m P J M) as (b & o & Eo & Lo). destruct (MM m b o) as (z & Iz & Xz).
    - apply elem_of_list_In, elem_of_map_to_list. auto.
    - exists z, o. split; [apply find_in; auto|]. split; auto. lia. }
  assert (FIN : forall r', Zbdd.wf ord top r' -> (forall p, In p (fam r') <-> minimal_in (projected (constant_module G module mods) (fam r)) p) -> exact g (Zb r' mods) limit).
  { intros r' W' FM. apply (assemble g GD limit r r' mods); auto; intros p P; apply (PR p P). }
  destruct (has_constant mods) eqn:HC.
  - assert (NP : forall j, lits r j -> constant_module G module mods j = None -> 0 < j) by (intros j (p & P & J) _; apply (PL p j P J)).
    assert (SZ : forall p, In p (fam r) -> size (remaining (constant_module G module mods) p) <= limit).
    { intros p P. pose proof (size_filter (fun i => match constant_module G module mods i with None => true | Some _ => false end) p).
      destruct (PR p P). unfold remaining. lia. }
    destruct (eliminate_ok ord top counts ORD limit (constant_module G module mods) r s I W NP SZ) as (r' & s' & E' & _ & W' & _ & _ & FM).
    rewrite E'. simpl. exists (Zb r' mods). auto.
  - exists (Zb r mods). split; auto. apply FIN; auto. intros p.
    assert (CN : forall i, constant_module G module mods i = None).
    { intros i. unfold constant_module. destruct (is_module i); auto. destruct (find_module i mods) as [[rr l]|] eqn:FI; auto.
      apply find_some in FI. unfold has_constant in HC.
      assert (terminal rr = false). { destruct (terminal rr) eqn:T; auto. rewrite <- HC. symmetry. apply existsb_exists. exists (i, Zb rr l). auto. }
      destruct rr; auto; discriminate. }
    assert (EP : projected (constant_module G module mods) (fam r) = fam r).
    { unfold projected. rewrite <- (map_id (fam r)) at 2. replace (List.filter (alive (constant_module G module mods)) (fam r)) with (fam r).
      - apply map_ext_in. intros q _. unfold remaining. induction q as [|a q IHq]; auto. simpl. rewrite CN. f_equal. auto.
      - assert (AL : forall q, alive (constant_module G module mods) q = true) by (intros q; apply forallb_forall; intros i _; rewrite CN; auto).
        clear -AL. induction (fam r) as [|q l IHl]; auto. simpl. rewrite AL. f_equal. auto. }
    rewrite EP. unfold minimal_in. split; [|tauto]. intros P. split; auto.
Qed.
(** ** Analyze *)
Lemma minimize_id t : Zbdd.wf ord top t -> antichain t -> exists s, minimize ord top t start = Some (t, s).
Proof.
  intros WT AT. destruct (minimize_ok ord top counts ORD t start (inv_start ord top counts) WT) as (r & s & E & _ & Wr & F).
  exists s. rewrite E. f_equal. f_equal. apply (canonical ord top); auto. intros p. rewrite F. split; [tauto|]. intros P. split; auto.
Qed.
Lemma analyze_id : forall z, clean z -> analyze ord top z = Some z.
Proof.
  fix IH 2. intros z [r mods WT AT CM _]. cbn [analyze]. destruct (minimize_id r WT AT) as (s & E). rewrite E. simpl.
  match goal with |- context [?g mods] => match type of g with list (Z * zbdd) -> option _ => assert (H : forall l, incl l mods -> g l = Some l) end end.
  { clear E. intros l. induction l as [|[i z0] l IHl]; intros IN; auto. rewrite (IH z0 (CM i z0 (IN (i, z0) (or_introl eq_refl)))). cbn.
    rewrite IHl; [reflexivity|]. intros e I. apply IN. right; auto. }
  rewrite H; [auto|]. intros e I; auto.
Qed.
End Proofs.
