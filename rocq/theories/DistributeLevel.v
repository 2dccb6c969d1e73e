(** Factoring of distributive arguments: the function of the root after one option and after a group. *)
From stdpp Require Import gmap.
From Coq Require Import Lia Permutation List.
From Verif Require Import Pdag PdagProofs PdagAdd PdagSem PdagKeeps Preproc PreprocNorm Rooted BoolOptProofs BoolOptMain Distribute DistributeProofs.
Import ListNotations.
Open Scope Z_scope.

(** The value that decides an AND or OR gate. *)
Definition absorb (t : conn) : bool := match t with kOr => true | _ => false end.
Lemma absorb_dual u : u = kAnd \/ u = kOr -> absorb (dual u) = negb (absorb u) /\ (dual u = kAnd \/ dual u = kOr) /\ dual (dual u) = u.
Proof. intros [-> | ->]; cbn; auto. Qed.
Lemma decided x ν : g_type x = kAnd \/ g_type x = kOr -> (gate_value ν x = absorb (g_type x) <-> exists a, In a (g_args x) /\ lit ν a = absorb (g_type x)).
Proof.
  unfold gate_value. intros [-> | ->]; cbn [conn_value absorb].
  - rewrite <- not_true_iff_false, forallb_forall. split.
    + intros N. destruct (existsb (fun a => negb (lit ν a)) (g_args x)) eqn:E; [apply existsb_exists in E as (a & Ia & Ea); exists a; split; [auto|now apply negb_true_iff]|].
      exfalso. apply N. intros v Iv. apply in_map_iff in Iv as (a & <- & Ia). destruct (lit ν a) eqn:L; auto. rewrite <- not_true_iff_false in E. exfalso. apply E. apply existsb_exists. exists a. rewrite L. auto.
    + intros (a & Ia & La) Q. specialize (Q (lit ν a) (in_map _ _ _ Ia)). congruence.
  - rewrite existsb_exists. split; [intros (v & Iv & ->); apply in_map_iff in Iv as (a & La & Ia); eauto|]. intros (a & Ia & La). exists true. split; [rewrite <- La; apply in_map; auto|auto].
Qed.
Lemma bool_iff (a b c : bool) : (a = c <-> b = c) -> a = b.
Proof. intros H. destruct a, b, c; auto; destruct H as [H1 H2]; try (specialize (H1 eq_refl); discriminate); try (specialize (H2 eq_refl); discriminate). Qed.
Lemma undecided x ν : g_type x = kAnd \/ g_type x = kOr -> (gate_value ν x = negb (absorb (g_type x)) <-> forall a, In a (g_args x) -> lit ν a = negb (absorb (g_type x))).
Proof.
  intros T. pose proof (decided x ν T) as D. split.
  - intros E a Ia. destruct (bool_dec (lit ν a) (absorb (g_type x))) as [Q|Q]; [|destruct (lit ν a), (absorb (g_type x)); auto; exfalso; auto]. exfalso. rewrite (proj2 D ltac:(eauto)) in E. destruct (absorb (g_type x)); discriminate.
  - intros Q. destruct (bool_dec (gate_value ν x) (absorb (g_type x))) as [E|E]; [|destruct (gate_value ν x), (absorb (g_type x)); auto; exfalso; auto]. apply D in E as (a & Ia & La). rewrite (Q a Ia) in La. destruct (absorb (g_type x)); discriminate.
Qed.
Lemma member_value u x ν : u = kAnd \/ u = kOr -> member_gate u x -> (gate_value ν x = negb (absorb u) <-> forall a, In a (g_args x) -> lit ν a = negb (absorb u)).
Proof.
  intros Hu [T|[T L]]; [rewrite <- T in Hu |- *; apply undecided; auto|]. destruct (g_args x) as [|a [|? ?]] eqn:Ea; [discriminate| |discriminate]. unfold gate_value. rewrite T, Ea. cbn. split; [intros E b [<-|[]]; auto|intros Q; apply Q; auto].
Qed.
(** NAND and NOR are negated. *)
Definition negated (t : conn) : bool := match t with kNand | kNor => true | _ => false end.
Definition based (b : conn) (x : gate) : gate := Gate b 0 (g_args x).
Lemma based_value b x ν : coalesce_type (g_type x) = Some b -> gate_value ν x = xorb (negated (g_type x)) (gate_value ν (based b x)).
Proof. unfold gate_value, based, coalesce_type. destruct (g_type x); try discriminate; intros [= <-]; cbn [g_type g_min g_args conn_value negated]; rewrite ?xorb_true_l, ?xorb_false_l; reflexivity. Qed.
Lemma flip_type_spec u t t' : u = kAnd \/ u = kOr -> coalesce_type t = Some (dual u) -> flip_type u t = Some t' -> coalesce_type t' = Some u /\ negated t' = negated t.
Proof. intros [-> | ->]; destruct t; cbn; try discriminate; intros _ [= <-]; auto. Qed.

(** [i] is the only live parent of [m]. *)
Definition sole (G : graph) (root i m : Z) : Prop := forall p x, reach G root p -> gs G !! p = Some x -> arg_in m x -> p = i.

Section Level.
Context (G : graph) (root i : Z) (u : conn) (cs ms : list Z) (xi : gate) (G' : graph) (s : Z) (r : Z -> nat).
Context (W : wf G) (R : ranked G r) (Hu : u = kAnd \/ u = kOr) (Ei : gs G !! i = Some xi).
Context (HM : forall m, In m ms -> In m (g_args xi) /\ exists x, gs G !! m = Some x /\ member_gate u x /\ forall a, In a cs -> In a (g_args x)).
Context (NE : ms <> []) (L : level G i u cs ms xi G' s).

Lemma lv_i : 1 < i < nxt G.
Proof. apply (proj2 W i xi Ei). Qed.
Lemma lv_m m : In m ms -> 1 < m < nxt G.
Proof. intros Im. destruct (HM m Im) as (_ & x & Ex & _). apply (proj2 W m x Ex). Qed.
Lemma lv_rank m : In m ms -> (r m < r i)%nat.
Proof. intros Im. destruct (HM m Im) as (Ia & x & Ex & _). pose proof (R i xi m Ei Ia) as Q. pose proof (lv_m m Im). rewrite Z.abs_eq in Q by lia. apply Q. eauto. Qed.
Lemma lv_ni : ~ In i ms.
Proof. intros Q. apply lv_rank in Q. lia. Qed.
Lemma lv_cs a : In a cs -> exists m x, In m ms /\ gs G !! m = Some x /\ In a (g_args x).
Proof. destruct ms as [|m tl] eqn:E; [contradiction|]. intros Ia. destruct (HM m ltac:(left; auto)) as (_ & x & Ex & _ & Cx). exists m, x. split; [left; auto|auto]. Qed.
Lemma lv_cm a m : In a cs -> In m ms -> Z.abs a <> m.
Proof. intros Ia Im E. destruct (HM m Im) as (_ & x & Ex & _ & Cx). pose proof (R m x a Ex (Cx a Ia)) as Q. rewrite E in Q. specialize (Q ltac:(eauto)). lia. Qed.
Lemma lv_s : nxt G <= s < nxt G'.
Proof. destruct (l_top _ _ _ _ _ _ _ _ L) as [(-> & -> & _)|(-> & -> & _)]; lia. Qed.
(* where the arguments of old gates are *)
Lemma lv_old k x : gs G !! k = Some x -> exists x', gs G' !! k = Some x'.
Proof.
  intros E. destruct (Z.eq_dec k i) as [->|N]; [destruct (l_top _ _ _ _ _ _ _ _ L) as [(_ & _ & _ & t & y & _ & Ey & _)|(_ & _ & (y & Ey & _) & _)]; eauto|].
  destruct (in_dec Z.eq_dec k ms) as [Im|Im]; [destruct (l_mem _ _ _ _ _ _ _ _ L k x Im E) as (y & Ey & _); eauto|]. rewrite (l_other _ _ _ _ _ _ _ _ L) by (auto; apply (proj2 W k x E)). eauto.
Qed.
Lemma lv_gates j : j < nxt G -> (gs G' !! j = None <-> gs G !! j = None).
Proof.
  intros Lj. split; intros N.
  - destruct (gs G !! j) as [x|] eqn:E; auto. destruct (lv_old j x E) as [y Ey]. congruence.
  - assert (j <> i) by (intros ->; congruence). assert (~ In j ms) by (intros Q; destruct (HM j Q) as (_ & x & Ex & _); congruence). rewrite (l_other _ _ _ _ _ _ _ _ L); auto.
Qed.
Lemma lv_new j : nxt G <= j < nxt G' -> j = s \/ (j = nxt G /\ s = nxt G + 1).
Proof. intros Lj. destruct (l_top _ _ _ _ _ _ _ _ L) as [(-> & E & _)|(-> & E & _)]; lia. Qed.
Lemma lv_ranked : exists r', ranked G' r'.
Proof.
  exists (fun j : Z => if j <? nxt G then (3 * r j + 2)%nat else if j =? s then (3 * r i)%nat else (3 * r i + 1)%nat).
  intros k y a Ek Ia Sa.
  assert (OLD : forall a, Z.abs a < nxt G -> is_Some (gs G' !! Z.abs a) -> is_Some (gs G !! Z.abs a)) by (intros c Lc Sc; destruct (gs G !! Z.abs c) eqn:Q; [eauto|apply lv_gates in Q; [|auto]; rewrite Q in Sc; destruct Sc; discriminate]).
  assert (UP : forall k x a, gs G !! k = Some x -> In a (g_args x) -> is_Some (gs G' !! Z.abs a) -> Z.abs a < nxt G /\ (r (Z.abs a) < r k)%nat).
  { intros k0 x0 a0 E0 I0 S0. assert (L0 : Z.abs a0 < nxt G) by (destruct (proj2 W k0 x0 E0) as [_ [_ Q]]; apply (Q a0 I0)). split; [auto|]. apply (R k0 x0 a0 E0 I0). auto. }
  assert (UC : forall a, In a cs -> is_Some (gs G' !! Z.abs a) -> Z.abs a < nxt G /\ (r (Z.abs a) < r i)%nat).
  { intros c Ic Sc. destruct (lv_cs c Ic) as (m & x & Im & Ex & Ix). destruct (UP m x c Ex Ix Sc). pose proof (lv_rank m Im). split; [auto|lia]. }
  pose proof lv_i. pose proof lv_s as LS. destruct (Z.ltb_spec k (nxt G)) as [Lk|Lk].
  - destruct (Z.eq_dec k i) as [->|Nk].
    + destruct (l_top _ _ _ _ _ _ _ _ L) as [(E1 & E2 & _ & t & x & _ & Ex & _ & Q)|(E1 & E2 & (x & Ex & _ & _ & Q) & _)]; rewrite Ek in Ex; injection Ex as <-; apply Q in Ia.
      * destruct Ia as [->|Ic]; [rewrite Z.abs_eq by lia; destruct (Z.ltb_spec s (nxt G)); [lia|]; rewrite Z.eqb_refl; lia|]. destruct (UC a Ic Sa). destruct (Z.ltb_spec (Z.abs a) (nxt G)); lia.
      * destruct Ia as [->|[Ic _]]; [rewrite Z.abs_eq by lia; destruct (Z.ltb_spec (nxt G) (nxt G)); [lia|]; destruct (Z.eqb_spec (nxt G) s); lia|]. destruct (UP i xi a Ei Ic Sa). destruct (Z.ltb_spec (Z.abs a) (nxt G)); lia.
    + assert (K : exists x, gs G !! k = Some x /\ In a (g_args x)).
      { destruct (in_dec Z.eq_dec k ms) as [Im|Im]; [destruct (HM k Im) as (_ & x & Ex & _); destruct (l_mem _ _ _ _ _ _ _ _ L k x Im Ex) as (y' & Ey' & _ & Q); rewrite Ek in Ey'; injection Ey' as <-; exists x; split; [auto|apply Q; auto]|].
        rewrite (l_other _ _ _ _ _ _ _ _ L) in Ek by auto. eauto. }
      destruct K as (x & Ex & Ix). destruct (UP k x a Ex Ix Sa). destruct (Z.ltb_spec (Z.abs a) (nxt G)); lia.
  - assert (Lk' : k < nxt G') by (apply (proj2 (l_wf _ _ _ _ _ _ _ _ L) k y Ek)). destruct (Z.eqb_spec k s) as [->|Ns].
    + destruct (l_sub _ _ _ _ _ _ _ _ L) as (x & Ex & _ & Q). rewrite Ek in Ex. injection Ex as <-. apply Q in Ia. pose proof (lv_m a Ia). pose proof (lv_rank a Ia). rewrite Z.abs_eq by lia. destruct (Z.ltb_spec a (nxt G)); lia.
    + destruct (lv_new k ltac:(lia)) as [|[-> Es]]; [contradiction|]. destruct (l_top _ _ _ _ _ _ _ _ L) as [(E1 & _)|(E1 & E2 & _ & (x & Ex & _ & Q))]; [lia|]. rewrite Ek in Ex. injection Ex as <-. apply Q in Ia as [->|Ic].
      * rewrite Z.abs_eq by lia. destruct (Z.ltb_spec s (nxt G)); [lia|]. rewrite Z.eqb_refl. lia.
      * destruct (UC a Ic Sa). destruct (Z.ltb_spec (Z.abs a) (nxt G)); lia.
Qed.
(* what is live after the step was live before *)
Lemma lv_reach j : 1 < root < nxt G -> reach G' root j -> (j < nxt G /\ reach G root j) \/ (nxt G <= j /\ reach G root i).
Proof.
  intros Lr. induction 1 as [|k x a H IH Ek Ia]; [left; split; [lia|constructor]|].
  assert (UP : forall k x a, reach G root k -> gs G !! k = Some x -> In a (g_args x) -> Z.abs a < nxt G /\ reach G root (Z.abs a)).
  { intros k0 x0 a0 R0 E0 I0. split; [destruct (proj2 W k0 x0 E0) as [_ [_ Q]]; apply (Q a0 I0)|eapply reach_arg; eauto]. }
  assert (UM : forall m, reach G root i -> In m ms -> reach G root m).
  { intros m Ri Im. pose proof (lv_m m Im). destruct (UP i xi m Ri Ei (proj1 (HM m Im))) as [_ Q]. rewrite Z.abs_eq in Q by lia. auto. }
  assert (UC : forall a, reach G root i -> In a cs -> Z.abs a < nxt G /\ reach G root (Z.abs a)).
  { intros c Ri Ic. destruct (lv_cs c Ic) as (m & x0 & Im & Ex & Ix). apply (UP m x0 c); auto. }
  pose proof lv_s as LS. destruct IH as [[Lk Rk]|[Lk Ri]].
  - destruct (Z.eq_dec k i) as [->|Nk].
    + destruct (l_top _ _ _ _ _ _ _ _ L) as [(E1 & E2 & _ & t & y & _ & Ey & _ & Q)|(E1 & E2 & (y & Ey & _ & _ & Q) & _)]; rewrite Ek in Ey; injection Ey as <-; apply Q in Ia.
      * destruct Ia as [->|Ic]; [right; rewrite Z.abs_eq by lia; split; [lia|auto]|left; auto].
      * destruct Ia as [->|[Ic _]]; [right; rewrite Z.abs_eq by (destruct W; lia); split; [lia|auto]|left; eauto].
    + left. destruct (in_dec Z.eq_dec k ms) as [Im|Im].
      * destruct (HM k Im) as (_ & x0 & Ex & _). destruct (l_mem _ _ _ _ _ _ _ _ L k x0 Im Ex) as (y & Ey & _ & Q). rewrite Ek in Ey. injection Ey as <-. apply (UP k x0 a Rk Ex). apply Q. auto.
      * rewrite (l_other _ _ _ _ _ _ _ _ L) in Ek by auto. eauto.
  - assert (Lk' : k < nxt G') by (apply (proj2 (l_wf _ _ _ _ _ _ _ _ L) k x Ek)). destruct (Z.eq_dec k s) as [->|Ns].
    + destruct (l_sub _ _ _ _ _ _ _ _ L) as (y & Ey & _ & Q). rewrite Ek in Ey. injection Ey as <-. apply Q in Ia. pose proof (lv_m a Ia). left. rewrite Z.abs_eq by lia. split; [lia|auto].
    + destruct (lv_new k ltac:(lia)) as [|[-> Es]]; [contradiction|]. destruct (l_top _ _ _ _ _ _ _ _ L) as [(E1 & _)|(E1 & E2 & _ & (y & Ey & _ & Q))]; [lia|]. rewrite Ek in Ey. injection Ey as <-. apply Q in Ia as [->|Ic]; [right; rewrite Z.abs_eq by lia; split; [lia|auto]|left; auto].
Qed.
Lemma lv_path j : reach G root j -> reach G j i -> reach G' root j.
Proof.
  induction 1 as [|k x a H IH Ek Ia]; intros Q; [constructor|]. assert (Rk : reach G k i) by (eapply reach_trans; [eapply reach_arg; [constructor|eauto|eauto]|auto]). specialize (IH Rk).
  assert (PK : preach G k i) by (exists x, a; auto). destruct (preach_neq G r k i R PK) as [Nk Lk]. specialize (Lk ltac:(eauto)).
  assert (Nm : ~ In k ms) by (intros Im; apply lv_rank in Im; lia). eapply reach_arg; [exact IH| |exact Ia]. rewrite (l_other _ _ _ _ _ _ _ _ L); auto. apply (proj2 W k x Ek).
Qed.

Context (Ty : coalesce_type (g_type xi) = Some (dual u)) (SO : forall m, In m ms -> sole G root i m) (RI : reach G root i) (Sr : is_Some (gs G !! root)).
Lemma lv_root : ~ In root ms /\ 1 < root < nxt G.
Proof.
  destruct Sr as [x E]. split; [|apply (proj2 W root x E)]. intros Q. pose proof (lv_rank root Q). destruct (reach_rank G r root i R RI ltac:(eauto)) as [->|]; lia.
Qed.
Lemma lv_same : same_function root G root G'.
Proof.
  destruct lv_root as [NR LR]. pose proof lv_i. pose proof lv_s as LS. apply same_intro; auto; [exists r; auto|apply L|destruct lv_ranked as [r' R']; exists r'; auto|lia|destruct Sr as [x E]; destruct (lv_old root x E) as [y Ey]; eauto| |].
  { intros j Lj. destruct (Z.lt_ge_cases j (nxt G)) as [K|K]; [rewrite lv_gates by auto; tauto|]. split; [|lia]. intros N. exfalso. destruct (lv_new j ltac:(lia)) as [->|[-> Es]]; [destruct (l_sub _ _ _ _ _ _ _ _ L) as (y & Ey & _); congruence|]. destruct (l_top _ _ _ _ _ _ _ _ L) as [(E1 & _)|(_ & _ & _ & (y & Ey & _))]; [lia|congruence]. }
  intros ν μ [N1 Cν] [M1 Cμ] V.
  assert (VAR : forall k x a, gs G !! k = Some x -> In a (g_args x) -> gs G !! Z.abs a = None -> μ (Z.abs a) = ν (Z.abs a)).
  { intros k x a E Ia Na. destruct (proj2 W k x E) as [_ [_ Q]]. destruct (Q a Ia) as (Q1 & Q2 & _). destruct (Z.eq_dec (Z.abs a) 1) as [->|]; [congruence|]. apply V; auto. lia. }
  assert (X : forall n k, (r k < n)%nat -> is_Some (gs G !! k) -> reach G root k -> ~ In k ms -> μ k = ν k).
  { induction n as [|n IH]; intros k Lk [x Ek] Rk Nk; [lia|].
    assert (ARG : forall k x a, reach G root k -> gs G !! k = Some x -> In a (g_args x) -> (r k < S n)%nat -> (In (Z.abs a) ms -> False) -> lit μ a = lit ν a).
    { intros k0 x0 a R0 E0 I0 L0 N0. rewrite !lit_abs. replace (μ (Z.abs a)) with (ν (Z.abs a)); [auto|]. symmetry. destruct (gs G !! Z.abs a) as [z|] eqn:Ez; [|eapply VAR; eauto]. apply IH; eauto; [pose proof (R k0 x0 a E0 I0 ltac:(eauto)); lia|eapply reach_arg; eauto]. }
    assert (FREE : forall k x a, reach G root k -> gs G !! k = Some x -> k <> i -> In a (g_args x) -> In (Z.abs a) ms -> False).
    { intros k0 x0 a R0 E0 N0 I0 Im. apply N0. apply (SO (Z.abs a) Im k0 x0 R0 E0). apply arg_in_abs. auto. }
    destruct (Z.eq_dec k i) as [->|Ni].
    - rewrite Ei in Ek. injection Ek as <-.
      destruct (absorb_dual u Hu) as (AB & DU & _). set (β := absorb (dual u)) in *.
      assert (MN : forall m x, In m ms -> gs G !! m = Some x -> (ν m = β <-> forall a, In a (g_args x) -> lit ν a = β)).
      { intros m x Im Em. destruct (HM m Im) as (_ & x0 & Ex0 & Mx & _). rewrite Em in Ex0. injection Ex0 as <-. rewrite (Cν m x Em), AB. apply (member_value u x ν Hu Mx). }
      assert (MA : forall m x a, In m ms -> gs G !! m = Some x -> In a (g_args x) -> lit μ a = lit ν a).
      { intros m x a Im Em Ia. pose proof (lv_m m Im). assert (Rm : reach G root m) by (replace m with (Z.abs m) by lia; eapply reach_arg; [exact Rk|exact Ei|apply (HM m Im)]). pose proof (lv_rank m Im).
        apply (ARG m x a Rm Em Ia); [lia|]. apply (FREE m x a Rm Em); auto. intros ->. apply lv_ni. auto. }
      assert (SUBV : μ s = β <-> exists m x, In m ms /\ gs G !! m = Some x /\ forall a, In a (g_args x) -> ~ In a cs -> lit ν a = β).
      { destruct (l_sub _ _ _ _ _ _ _ _ L) as (xs & Es & Ts & Qs). rewrite (Cμ s xs Es). unfold β. rewrite <- Ts. rewrite (decided xs μ) by (rewrite Ts; auto). rewrite Ts. fold β.
        assert (ONE : forall m x, In m ms -> gs G !! m = Some x -> (lit μ m = β <-> forall a, In a (g_args x) -> ~ In a cs -> lit ν a = β)).
        { intros m x Im Em. destruct (l_mem _ _ _ _ _ _ _ _ L m x Im Em) as (x' & Ex' & Mx' & Q). pose proof (lv_m m Im). unfold lit at 1. destruct (Z.ltb_spec m 0); [lia|]. rewrite (Cμ m x' Ex'), AB, (member_value u x' μ Hu Mx'). split.
          - intros K a Ia Na. rewrite <- (MA m x a Im Em Ia). apply K, Q. auto.
          - intros K a Ia. apply Q in Ia as [Ia Na]. rewrite (MA m x a Im Em Ia). auto. }
        split.
        - intros (m & Im & Lm). apply Qs in Im. destruct (HM m Im) as (_ & x & Ex & _). exists m, x. split; [auto|]. split; [auto|]. apply (ONE m x Im Ex). auto.
        - intros (m & x & Im & Ex & K). exists m. split; [apply Qs; auto|]. apply (ONE m x Im Ex). auto. }
      assert (TOP : (μ s = β /\ forall a, In a cs -> lit μ a = β) <-> exists m, In m ms /\ ν m = β).
      { rewrite SUBV. split.
        - intros ((m & x & Im & Ex & K) & KC). exists m. split; [auto|]. apply (MN m x Im Ex). intros a Ia. destruct (in_dec Z.eq_dec a cs) as [Ic|Ic]; [|auto]. rewrite <- (MA m x a Im Ex Ia). auto.
        - intros (m & Im & Vm). destruct (HM m Im) as (_ & x & Ex & _ & Cx). pose proof (proj1 (MN m x Im Ex) Vm) as K. split; [exists m, x; auto|]. intros a Ic. rewrite (MA m x a Im Ex (Cx a Ic)). auto. }
      rewrite (Cν i xi Ei), (based_value (dual u) xi ν Ty).
      assert (BV : gate_value ν (based (dual u) xi) = β <-> exists a, In a (g_args xi) /\ lit ν a = β) by (apply (decided (based (dual u) xi) ν); auto).
      assert (LM : forall m, In m ms -> lit ν m = ν m) by (intros m Im; pose proof (lv_m m Im); unfold lit; destruct (Z.ltb_spec m 0); [lia|auto]).
      assert (LS' : lit μ s = μ s) by (unfold lit; destruct (Z.ltb_spec s 0); [lia|auto]).
      destruct (l_top _ _ _ _ _ _ _ _ L) as [(E1 & E2 & ALL & t & x' & Ft & Ex' & Tx & Q)|(E1 & E2 & (x' & Ex' & Tx & _ & Q) & (xp & Ep & Tp & Qp))].
      + destruct (flip_type_spec u (g_type xi) t Hu Ty Ft) as [F1 F2]. rewrite (Cμ i x' Ex'), (based_value u x' μ) by (rewrite Tx; auto). rewrite Tx, F2. f_equal. apply (bool_iff _ _ β). rewrite BV.
        pose proof (undecided (based u x') μ ltac:(auto)) as U. cbn [g_type based g_args] in U. rewrite <- AB in U. rewrite U. transitivity (exists m, In m ms /\ ν m = β); [rewrite <- TOP|].
        * split; [intros K; split; [rewrite <- LS'; apply K, Q; auto|intros a Ia; apply K, Q; auto]|]. intros [K1 K2] a Ia. apply Q in Ia as [->|Ia]; [congruence|auto].
        * split; [intros (m & Im & Vm); exists m; split; [apply (HM m Im)|rewrite LM; auto]|]. intros (a & Ia & La). pose proof (ALL a Ia). exists a. split; [auto|]. rewrite <- LM; auto.
      + rewrite (Cμ i x' Ex'), (based_value (dual u) x' μ) by (rewrite Tx; auto). rewrite Tx. f_equal. apply (bool_iff _ _ β). rewrite BV. pose proof (decided (based (dual u) x') μ ltac:(auto)) as U. cbn [g_type based g_args] in U. fold β in U. rewrite U. clear U.
        assert (PV : lit μ (nxt G) = β <-> exists m, In m ms /\ ν m = β).
        { unfold lit. destruct (Z.ltb_spec (nxt G) 0); [lia|]. rewrite (Cμ (nxt G) xp Ep), AB, <- Tp, (undecided xp μ) by (rewrite Tp; auto). rewrite Tp, <- AB, <- TOP.
          split; [intros K; split; [rewrite <- LS'; apply K, Qp; auto|intros a Ia; apply K, Qp; auto]|]. intros [K1 K2] a Ia. apply Qp in Ia as [->|Ia]; [congruence|auto]. }
        split.
        * intros (a & Ia & La). apply Q in Ia as [->|[Ia Na]]; [apply PV in La as (m & Im & Vm); exists m; split; [apply (HM m Im)|rewrite LM; auto]|]. exists a. split; [auto|]. rewrite <- La. symmetry. apply (ARG i xi a Rk Ei Ia Lk). intros Im. apply Na. destruct (HM (Z.abs a) Im) as (K & _). destruct (proj2 W i xi Ei) as [_ [_ Z0]]. destruct (Z0 a Ia) as (_ & _ & K3). destruct (Z.abs_eq_or_opp a) as [Ea|Ea]; rewrite Ea in *; auto. contradiction.
        * intros (a & Ia & La). destruct (in_dec Z.eq_dec a ms) as [Im|Im]; [exists (nxt G); split; [apply Q; auto|]; apply PV; exists a; split; [auto|]; rewrite <- LM; auto|]. exists a. split; [apply Q; auto|]. rewrite <- La. apply (ARG i xi a Rk Ei Ia Lk). intros Im'. apply Im. destruct (HM (Z.abs a) Im') as (K & _). destruct (proj2 W i xi Ei) as [_ [_ Z0]]. destruct (Z0 a Ia) as (_ & _ & K3). destruct (Z.abs_eq_or_opp a) as [Ea|Ea]; rewrite Ea in *; auto. contradiction.
    - rewrite (Cν k x Ek). rewrite (Cμ k x) by (rewrite (l_other _ _ _ _ _ _ _ _ L); auto; apply (proj2 W k x Ek)). apply gate_value_ext. intros a Ia. pose proof (ARG k x a Rk Ek Ia Lk (FREE k x a Rk Ek Ni Ia)) as Q. rewrite !lit_abs in Q. destruct (a <? 0); [apply (f_equal negb) in Q; rewrite !negb_involutive in Q|]; auto. }
  apply (X (S (r root))); auto. constructor.
Qed.
(** The members belong to the new gate; other arguments keep their owners. *)
Lemma lv_sole_sub m : In m ms -> sole G' root s m.
Proof.
  destruct lv_root as [NR LR]. pose proof lv_s as LS. intros Im p y Rp Ep Ap. destruct (Z.eq_dec p s) as [|Np]; [auto|exfalso]. pose proof (lv_m m Im) as Lm.
  assert (NC : forall a, In a cs -> a <> m /\ a <> - m) by (intros a Ic; pose proof (lv_cm a m Ic Im); lia).
  assert (Lp : p < nxt G') by (apply (proj2 (l_wf _ _ _ _ _ _ _ _ L) p y Ep)).
  destruct (Z.eq_dec p i) as [->|Npi].
  - destruct (l_top _ _ _ _ _ _ _ _ L) as [(E1 & E2 & _ & t & x & _ & Ex & _ & Q)|(E1 & E2 & (x & Ex & _ & _ & Q) & _)]; rewrite Ep in Ex; injection Ex as <-.
    + destruct Ap as [A|A]; apply Q in A as [A|A]; try lia; destruct (NC _ A); lia.
    + destruct Ap as [A|A]; apply Q in A as [A|[A1 A2]]; try lia; [contradiction|]. destruct (proj2 W i xi Ei) as [_ [_ Z0]]. destruct (Z0 (- m) A1) as (_ & _ & K). apply K. rewrite Z.opp_involutive. apply (HM m Im).
  - destruct (lv_reach p LR Rp) as [[Lp1 Rp1]|[Lp1 Rp1]].
    + assert (K : exists x, gs G !! p = Some x /\ arg_in m x).
      { destruct (in_dec Z.eq_dec p ms) as [Imp|Imp]; [destruct (HM p Imp) as (_ & x & Ex & _); destruct (l_mem _ _ _ _ _ _ _ _ L p x Imp Ex) as (y' & Ey' & _ & Q); rewrite Ep in Ey'; injection Ey' as <-; exists x; split; [auto|]; destruct Ap as [A|A]; apply Q in A; [left|right]; tauto|].
        rewrite (l_other _ _ _ _ _ _ _ _ L) in Ep by auto. eauto. }
      destruct K as (x & Ex & Ax). apply Npi. apply (SO m Im p x Rp1 Ex Ax).
    + destruct (lv_new p ltac:(lia)) as [|[-> Es]]; [contradiction|]. destruct (l_top _ _ _ _ _ _ _ _ L) as [(E1 & _)|(E1 & E2 & _ & (x & Ex & _ & Q))]; [lia|]. rewrite Ep in Ex. injection Ex as <-. destruct Ap as [A|A]; apply Q in A as [A|A]; try lia; destruct (NC _ A); lia.
Qed.
Lemma lv_sole_other o m : 1 < m < nxt G -> ~ In o ms -> ~ In m ms -> sole G root o m -> sole G' root o m.
Proof.
  destruct lv_root as [NR LR]. pose proof lv_s as LS. intros Lm No Nm Q0 p y Rp Ep Ap.
  assert (Lp : p < nxt G') by (apply (proj2 (l_wf _ _ _ _ _ _ _ _ L) p y Ep)).
  assert (NC : forall a, In a cs -> a <> m /\ a <> - m).
  { intros a Ic. destruct (lv_cs a Ic) as (k & x & Ik & Ex & Ix). assert (Rk : reach G root k) by (pose proof (lv_m k Ik); replace k with (Z.abs k) by lia; eapply reach_arg; [exact RI|exact Ei|apply (HM k Ik)]).
    split; intros ->; apply No; [rewrite <- (Q0 k x Rk Ex ltac:(left; auto))|rewrite <- (Q0 k x Rk Ex ltac:(right; auto))]; auto. }
  destruct (Z.eq_dec p i) as [->|Npi].
  - destruct (l_top _ _ _ _ _ _ _ _ L) as [(E1 & E2 & _ & t & x & _ & Ex & _ & Q)|(E1 & E2 & (x & Ex & _ & _ & Q) & _)]; rewrite Ep in Ex; injection Ex as <-.
    + destruct Ap as [A|A]; apply Q in A as [A|A]; try lia; destruct (NC _ A); lia.
    + apply (Q0 i xi RI Ei). destruct Ap as [A|A]; apply Q in A as [A|[A1 A2]]; try lia; [left|right]; auto.
  - destruct (lv_reach p LR Rp) as [[Lp1 Rp1]|[Lp1 Rp1]].
    + assert (K : exists x, gs G !! p = Some x /\ arg_in m x).
      { destruct (in_dec Z.eq_dec p ms) as [Imp|Imp]; [destruct (HM p Imp) as (_ & x & Ex & _); destruct (l_mem _ _ _ _ _ _ _ _ L p x Imp Ex) as (y' & Ey' & _ & Q); rewrite Ep in Ey'; injection Ey' as <-; exists x; split; [auto|]; destruct Ap as [A|A]; apply Q in A; [left|right]; tauto|].
        rewrite (l_other _ _ _ _ _ _ _ _ L) in Ep by auto. eauto. }
      destruct K as (x & Ex & Ax). apply (Q0 p x Rp1 Ex Ax).
    + exfalso. destruct (lv_new p ltac:(lia)) as [->|[-> Es]].
      * destruct (l_sub _ _ _ _ _ _ _ _ L) as (x & Ex & _ & Q). rewrite Ep in Ex. injection Ex as <-. destruct Ap as [A|A]; apply Q in A; [contradiction|]. apply lv_m in A. lia.
      * destruct (l_top _ _ _ _ _ _ _ _ L) as [(E1 & _)|(E1 & E2 & _ & (x & Ex & _ & Q))]; [lia|]. rewrite Ep in Ex. injection Ex as <-. destruct Ap as [A|A]; apply Q in A as [A|A]; try lia; destruct (NC _ A); lia.
Qed.
Lemma lv_reach_sub : reach G' root s.
Proof.
  pose proof (lv_path i RI ltac:(constructor)) as RI'. pose proof lv_s as LS. pose proof lv_i. destruct (l_top _ _ _ _ _ _ _ _ L) as [(E1 & E2 & _ & t & x & _ & Ex & _ & Q)|(E1 & E2 & (x & Ex & _ & _ & Q) & (xp & Ep & _ & Qp))].
  - replace s with (Z.abs s) by lia. eapply reach_arg; [exact RI'|exact Ex|]. apply Q. auto.
  - assert (K : reach G' root (nxt G)) by (replace (nxt G) with (Z.abs (nxt G)) by lia; eapply reach_arg; [exact RI'|exact Ex|apply Q; auto]). replace s with (Z.abs s) by lia. eapply reach_arg; [exact K|exact Ep|]. apply Qp. auto.
Qed.
End Level.
