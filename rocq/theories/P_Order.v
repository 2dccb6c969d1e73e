(** C07 (numbering of the nodes), C46 (coherence).
    Vocabulary: [graph], [node_value] (Pdag.v); [under G m i] (ZbddModules.v): node i is m or
    below it; [modular G m]: a gate whose nodes below have no parents outside; [prepared],
    [ordered] (P_BddProducts.v, P_Prob.v): what the analysis of the graph relies on. *)
From stdpp Require Import gmap.
From Coq Require Import List ZArith Lia Bool Permutation.
Import ListNotations.
From Verif Require Import Pdag PdagProofs PdagSem ZbddGraph ZbddModules ZbddModulesProofs Order P_BddProducts P_Prob.
Open Scope Z_scope.

Section Theorems.
Context (G : graph) (root : Z) (AC : Pdag.acyclic G) (SR : is_Some (gs G !! root)) (NC : forall i x, gs G !! i = Some x -> constant x = false).
Notation under := (ZbddModules.under G).

(** The numbering ends; exactly the nodes of the graph are numbered, with 1, 2, ... without a gap
    or a duplicate, every gate after its arguments, and the nodes of a module follow one another,
    the module last. *)
Theorem C07_order arrange : (forall l, Permutation (arrange l) l) ->
  exists fuel s, (forall f, (fuel <= f)%nat -> topological_order G arrange f root = Some s) /\
    (forall i, is_Some (s.1 !! i) <-> under root i) /\
    (forall i k, s.1 !! i = Some k -> 1 <= k <= s.2) /\ (forall k, 1 <= k <= s.2 -> exists i, s.1 !! i = Some k) /\
    (forall i j k, s.1 !! i = Some k -> s.1 !! j = Some k -> i = j) /\
    (forall i x a k k', gs G !! i = Some x -> In a (g_args x) -> s.1 !! i = Some k -> s.1 !! Z.abs a = Some k' -> k' < k) /\
    (forall m k, under root m -> is_Some (gs G !! m) -> modular G m -> s.1 !! m = Some k ->
       exists first, forall u j, s.1 !! u = Some j -> (under m u <-> first <= j <= k)).
Proof.
  intros ARR. destruct AC as [r RK]. set (M := fun m => is_Some (gs G !! m) /\ modular G m).
  assert (H : forall f, (S (r root) <= f)%nat -> exists s', topological G arrange f root (∅, 0) = Some s' /\ inv G M s' /\ grows G root (∅, 0) s' /\ entered G M true root s' /\ is_Some (s'.1 !! root)).
  { intros f F. apply (topological_ok G arrange ARR r RK NC M); auto; try (intros m [A B]; auto); [apply start_inv|apply start_entered]. }
  assert (STABLE : forall f1 f2 i s s1 s2, topological G arrange f1 i s = Some s1 -> topological G arrange f2 i s = Some s2 -> s1 = s2).
  { induction f1 as [|f1 IH]; intros f2 i s s1 s2 A B; [discriminate|]. destruct f2 as [|f2]; [discriminate|]. rewrite topological_S in A, B. destruct (s.1 !! i); [congruence|].
    destruct (gs G !! i) as [x|]; [|discriminate]. cbn [mbind option_bind] in A, B.
    assert (GO : forall l s s1 s2, 
      (fix go (l : list Z) (s : gmap Z Z * Z) : option (gmap Z Z * Z) := match l with [] => Some s | g :: l => s ← topological G arrange f1 g s; go l s end) l s = Some s1 ->
      (fix go (l : list Z) (s : gmap Z Z * Z) : option (gmap Z Z * Z) := match l with [] => Some s | g :: l => s ← topological G arrange f2 g s; go l s end) l s = Some s2 -> s1 = s2).
    { induction l as [|g l IHl]; intros u u1 u2 U1 U2; [congruence|]. destruct (topological G arrange f1 g u) as [w1|] eqn:W1; [|discriminate]. destruct (topological G arrange f2 g u) as [w2|] eqn:W2; [|discriminate].
      rewrite (IH f2 g u w1 w2 W1 W2) in U1. cbn [mbind option_bind] in U1, U2. eapply IHl; eauto. }
    unfold mbind, option_bind in A, B, GO.
    match type of A with match ?e with _ => _ end = _ => destruct e as [a|] eqn:EA; [|discriminate] end.
    match type of B with match ?e with _ => _ end = _ => destruct e as [b|] eqn:EB; [|discriminate] end.
    rewrite (GO _ _ _ _ EA EB) in A. cbv zeta in A, B. destruct (constant x); congruence. }
  destruct (H (S (r root)) (le_n _)) as (s & T & I & W & _ & SOME). exists (S (r root)), s.
  split; [|split; [|split; [|split; [|split; [|split]]]]].
  - intros f F. destruct (H f F) as (s' & T' & _). unfold topological_order. rewrite T'. f_equal. eapply STABLE; eauto.
  - intros i. split.
    + intros [k K]. refine (proj2 (w_new _ _ _ _ W i k _ K)). apply lookup_empty.
    + intros U. apply (under_closed G M s root I SOME i U).
  - apply (i_range _ _ _ I).
  - apply (i_surj _ _ _ I).
  - apply (i_inj _ _ _ I).
  - intros i x a k k' E J K K'. destruct (i_closed _ _ _ I i k x a K E J) as (k2 & K2 & LT). congruence.
  - intros m k U S MO K. destruct (i_block _ _ _ I m k (conj S MO) K) as (lo & B). exists (lo + 1). intros u j J. rewrite (B u j J). lia.
Qed.

(** With the numbering as order, the graph has what the analyses rely on: the hypotheses p_inj and
    p_top of [prepared] and those of [ordered]. *)
Theorem C07_analysis arrange module coherent : (forall l, Permutation (arrange l) l) -> PdagProofs.wf G ->
  (forall i x, gs G !! i = Some x -> (g_type x = kAnd \/ g_type x = kOr) /\ (2 <= length (g_args x))%nat) ->
  (forall m, is_Some (gs G !! m) -> module m = true -> modular G m) ->
  (forall m b, is_Some (gs G !! m) -> module m = true -> exists ρ, node_value G ρ m b) ->
  (forall i x a, gs G !! i = Some x -> coherent i = true -> In a (g_args x) -> 0 < a /\ (is_Some (gs G !! a) -> coherent a = true)) ->
  exists fuel s, (forall f, (fuel <= f)%nat -> topological_order G arrange f root = Some s) /\
    prepared G root (order_of s) (s.2 + nxt G) module coherent /\ ordered G root (order_of s) module.
Proof.
  intros ARR WF TY MOD VAL COH. destruct (C07_order arrange ARR) as (fuel & s & T & DOM & RG & SJ & INJ & LT & BL). exists fuel, s. split; [auto|].
  assert (NN : 0 <= s.2). { assert (S : is_Some (s.1 !! root)) by (apply DOM; constructor). destruct S as [k K]. pose proof (RG root k K). lia. }
  split; split; auto.
  - intros i x E. destruct (TY i x E) as [A B]. split; auto. split; auto. eauto.
  - intros i j. unfold order_of. destruct (s.1 !! i) as [k|] eqn:Ei, (s.1 !! j) as [k'|] eqn:Ej.
    + intros <-. eauto.
    + pose proof (RG i k Ei). destruct (Z.ltb_spec 0 j); lia.
    + pose proof (RG j k' Ej). destruct (Z.ltb_spec 0 i); lia.
    + destruct (Z.ltb_spec 0 i), (Z.ltb_spec 0 j); lia.
  - intros i B. unfold order_of. destruct (s.1 !! i) as [k|] eqn:Ei; [pose proof (RG i k Ei); lia|]. destruct (Z.ltb_spec 0 i); lia.
  - intros m v Um Sm Mm U D. unfold order_of. assert (DM : forall u, under m u -> is_Some (s.1 !! u)).
    { intros u Uu. apply DOM. clear -Um Uu. induction Uu; auto. econstructor; eauto. }
    destruct (DM m ltac:(constructor)) as [k K]. destruct (DM v U) as [kv V]. rewrite V, K. destruct (BL m k Um Sm (MOD m Sm Mm) K) as (lo & Q). pose proof (proj1 (Q v kv V) U).
    assert (kv <> k); [|lia]. intros ->. apply D. eauto.
  - intros m v u Um Sm Mm Uu U NU. unfold order_of. assert (DM : forall u, under m u -> is_Some (s.1 !! u)).
    { intros w Uw. apply DOM. clear -Um Uw. induction Uw; auto. econstructor; eauto. }
    destruct (DM m ltac:(constructor)) as [k K]. destruct (DM v U) as [kv V]. destruct (proj2 (DOM u) Uu) as [ku Ku]. rewrite V, K, Ku. intros L.
    destruct (BL m k Um Sm (MOD m Sm Mm) K) as (lo & Q). pose proof (proj1 (Q v kv V) U). destruct (Z.le_gt_cases ku k); [|lia]. elim NU. apply (Q u ku Ku). lia.
Qed.

(** ** C46 *)
(** A negation: a complemented argument, or a connective other than AND, OR, K/N and pass-through. *)
Definition negating (x : gate) : Prop := (exists a, In a (g_args x) /\ a < 0) \/ ~ In (g_type x) [kAnd; kOr; kAtleast; kNull].
(** A gate is flagged coherent exactly when nothing at or below it negates, and the graph when
    moreover its root is not complemented; a coherent graph is monotone: more failed events never
    repair the system. *)
Theorem C46_coherence complement : exists fuel s c, (forall f, (fuel <= f)%nat -> mark_graph G f root complement = Some (s, c)) /\
  (forall i, under root i -> is_Some (gs G !! i) -> exists b, s !! i = Some b /\ (b = true <-> forall j x, under i j -> gs G !! j = Some x -> ~ negating x)) /\
  (c = true <-> complement = false /\ forall j x, under root j -> gs G !! j = Some x -> ~ negating x).
Proof.
  destruct AC as [r RK].
  assert (M0 : marks_ok G ∅) by (intros i b E; elim (lookup_empty_Some (M := gmap Z) i b E)).
  assert (H : forall f, (S (r root) <= f)%nat -> exists s', mark_coherence G f root ∅ = Some s' /\ marks_ok G s' /\ is_Some (s' !! root) /\ (forall j, is_Some (s' !! j) -> under root j) /\
     forall i, under root i -> is_Some (gs G !! i) -> is_Some (s' !! i)).
  { intros f F. destruct (mark_ok G r RK NC f root ∅) as (s' & T & O & _ & S & N & K); auto. exists s'. split; [auto|]. split; [auto|]. split; [auto|]. split.
    - intros j J. destruct (N j J) as [[b E]|]; auto. elim (lookup_empty_Some (M := gmap Z) j b E).
    - intros i U. induction U as [|i x a U IH E J]; intros SI; auto. refine (K _ i x a (IH _) E J SI); [intros j x0 a0 [b B]; elim (lookup_empty_Some (M := gmap Z) j b B)|eauto]. }
  assert (CL : forall i, clean G i <-> forall j x, under i j -> gs G !! j = Some x -> ~ negating x).
  { intros i. unfold clean, negating. split; intros C j x U E.
    - destruct (C j x U E) as [A B]. intros [(a & J & L)|N]; [pose proof (B a J); lia|]. apply N. destruct (g_type x); simpl in *; try discriminate; auto.
    - pose proof (C j x U E) as A. split.
      + destruct (g_type x) eqn:T; auto; exfalso; apply A; right; simpl; intuition discriminate.
      + intros a J. destruct (Z.le_gt_cases 0 a) as [|L]; auto. elim A. left. exists a. split; auto. }
  destruct (H (S (r root)) (le_n _)) as (s & T & O & [b B] & N & K). exists (S (r root)), s, (negb complement && b). split; [|split].
  - intros f F. destruct (H f F) as (s' & T' & O' & _ & N' & K'). unfold mark_graph. rewrite T'. cbn [mbind option_bind].
    assert (s' = s); [|subst s'; rewrite B; reflexivity]. apply map_eq. intros i.
    assert (Q : forall s1 s2 : gmap Z bool, marks_ok G s1 -> marks_ok G s2 -> (forall j, is_Some (s1 !! j) -> under root j) -> (forall i, under root i -> is_Some (gs G !! i) -> is_Some (s2 !! i)) -> forall v, s1 !! i = Some v -> s2 !! i = Some v).
    { intros s1 s2 O1 O2 N1 K2 v V. destruct (O1 i v V) as [SI C]. destruct (K2 i (N1 i ltac:(eauto)) SI) as [w Wi]. destruct (O2 i w Wi) as [_ C2]. rewrite Wi. f_equal. apply eq_true_iff_eq. rewrite C, C2. tauto. }
    destruct (s' !! i) as [v|] eqn:V; [symmetry; eapply (Q s' s); eauto|]. destruct (s !! i) as [w|] eqn:W; auto. rewrite (Q s s' O O' N K' w W) in V. discriminate.
  - intros i U SI. destruct (K i U SI) as [v V]. exists v. split; auto. destruct (O i v V) as [_ C]. rewrite C. apply CL.
  - destruct (O root b B) as [_ C]. rewrite andb_true_iff, negb_true_iff, C, (CL root). tauto.
Qed.
Lemma count_mono l l' : Forall2 (fun a b => a = true -> b = true) l l' -> count l <= count l'.
Proof. unfold count. induction 1 as [|a b l l' H _ IH]; [lia|]. cbn [List.filter]. destruct a, b; simpl length; try lia. all: specialize (H eq_refl); discriminate. Qed.
Theorem C46_monotone : PdagProofs.wf G -> (forall j x, under root j -> gs G !! j = Some x -> ~ negating x) ->
  forall ρ ρ', (forall v, ρ v = true -> ρ' v = true) -> node_value G ρ root true -> node_value G ρ' root true.
Proof.
  intros WF CL ρ ρ' LE (ν & CN & LV & V). destruct AC as [r RK]. destruct (node_value_total G ρ' root WF (ex_intro _ r RK)) as (b & NV). pose proof NV as (ν' & CN' & LV' & V').
  assert (MONO : forall n i, (r i < n)%nat -> under root i -> is_Some (gs G !! i) -> ν i = true -> ν' i = true).
  { induction n as [|n IH]; intros i F U [x E] Vi; [lia|].
      rewrite (proj2 CN' i x E). rewrite (proj2 CN i x E) in Vi. pose proof (CL i x U E) as NG. unfold negating in NG.
      assert (A : Forall2 (fun a b => a = true -> b = true) (map (lit ν) (g_args x)) (map (lit ν') (g_args x))).
      { assert (H : forall a, In a (g_args x) -> lit ν a = true -> lit ν' a = true).
        { intros a J. destruct (Z.ltb_spec a 0) as [L|L]; [elim NG; left; exists a; auto|]. unfold lit. replace (a <? 0) with false by (symmetry; apply Z.ltb_ge; auto).
          pose proof (under_arg G root i x a U E J) as Ua. rewrite Z.abs_eq in Ua by auto. destruct (gs G !! a) as [y|] eqn:Ey.
          - apply IH; auto. pose proof (RK i x a E J) as R. rewrite Z.abs_eq in R by auto. specialize (R ltac:(eauto)). lia.
          - pose proof E as Ew. apply WF in Ew as (_ & _ & H). destruct (H a J) as (NZ & RG & _). destruct (Z.eq_dec a 1) as [->|N1]; [intros _; apply (proj1 CN')|].
            rewrite (LV a), (LV' a) by (auto; lia). auto. }
        clear -H. induction (g_args x) as [|a l IHl]; constructor; [apply H; left; auto|]. apply IHl. intros b J. apply H. right; auto. }
      unfold gate_value in *. destruct (g_type x) eqn:T; simpl in Vi |- *.
      + rewrite forallb_forall in *. intros b' J. clear -A Vi J. induction A as [|a b l l' H A IH]; [destruct J|]. destruct J as [<-|J]; [apply H, Vi; left; auto|]. apply IH; auto. intros u Hu. apply Vi. right; auto.
      + rewrite existsb_exists in *. destruct Vi as (c & J & C). subst c. clear -A J. induction A as [|a b l l' H A IH]; [destruct J|]. destruct J as [->|J]; [exists b; split; [left; auto|auto]|]. destruct (IH J) as (c & J' & C). exists c. split; [right; auto|auto].
      + pose proof (count_mono _ _ A). apply Z.leb_le in Vi. apply Z.leb_le. lia.
      + elim NG. right. simpl. intuition discriminate.
      + elim NG. right. simpl. intuition discriminate.
      + elim NG. right. simpl. intuition discriminate.
      + elim NG. right. simpl. intuition discriminate.
      + destruct (g_args x) as [|a [|a' l]]; try discriminate. simpl in *. inversion A; subst. auto. }
  rewrite (MONO (S (r root)) root) in V'; auto; [subst b; auto|constructor].
Qed.
End Theorems.

(** ** The hypotheses are met by non-trivial cases *)
(* 6 = 2 or 5, 5 = 3 and 4; the same with a shared gate and a complement *)
Definition o_g : graph := Graph {[5 := Gate kAnd 0 [3; 4]; 6 := Gate kOr 0 [2; 5]; 7 := Gate kAnd 0 [-5; 6; 8]]} 9 [] true.
Lemma o_gates i x : gs o_g !! i = Some x -> (i = 5 /\ x = Gate kAnd 0 [3; 4]) \/ (i = 6 /\ x = Gate kOr 0 [2; 5]) \/ (i = 7 /\ x = Gate kAnd 0 [-5; 6; 8]).
Proof. unfold o_g. cbn [gs]. intros E. gate_cases E. Qed.
Example o_hypotheses : Pdag.acyclic o_g /\ is_Some (gs o_g !! 7) /\ (forall i x, gs o_g !! i = Some x -> constant x = false) /\ modular o_g 5 /\ PdagProofs.wf o_g.
Proof.
  assert (U : forall i, ZbddModules.under o_g 5 i -> i = 5 \/ i = 3 \/ i = 4).
  { induction 1 as [|i x a U IH E J]; auto. destruct (o_gates i x E) as [[-> ->]|[[-> ->]|[-> ->]]]; simpl in J; lia. }
  split; [|split; [vm_compute; eauto|split; [|split]]].
  - exists (fun j => if j =? 7 then 2%nat else if j =? 6 then 1%nat else 0%nat). intros i x a E Ha [y Hy].
    destruct (o_gates i x E) as [[-> ->]|[[-> ->]|[-> ->]]]; destruct (o_gates _ y Hy) as [[Ey _]|[[Ey _]|[Ey _]]]; simpl in Ha; rewrite Ey; simpl; lia.
  - intros i x E. destruct (o_gates i x E) as [[-> ->]|[[-> ->]|[-> ->]]]; reflexivity.
  - intros i x a E J Ua. apply U in Ua. destruct (o_gates i x E) as [[-> ->]|[[-> ->]|[-> ->]]]; simpl in J; try (left; lia); right; constructor.
  - split; [simpl; lia|]. intros i x E. destruct (o_gates i x E) as [[-> ->]|[[-> ->]|[-> ->]]]; (split; [simpl; lia|]); (split; [simpl; repeat constructor; simpl; intuition lia|]);
      intros a Ha; simpl in Ha; simpl; intuition (subst; simpl; lia).
Qed.
Example o_run : option_map (fun s => map (fun i => s.1 !! i) [2; 3; 4; 5; 6; 7; 8]) (topological_order o_g (fun l => l) 10 7) = Some [Some 4; Some 1; Some 2; Some 3; Some 5; Some 7; Some 6].
Proof. vm_compute. reflexivity. Qed.
Example o_marks : option_map (fun r => (map (fun i => r.1 !! i) [5; 6; 7], r.2)) (mark_graph o_g 10 7 false) = Some ([Some true; Some true; Some false], false) /\
  option_map snd (mark_graph o_g 10 6 false) = Some true.
Proof. split; vm_compute; reflexivity. Qed.
Print Assumptions C07_order.
Print Assumptions C07_analysis.
Print Assumptions C46_coherence.
Print Assumptions C46_monotone.
