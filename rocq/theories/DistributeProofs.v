(** Factoring of distributive arguments keeps the function of the root: one option. *)
From stdpp Require Import gmap.
From Coq Require Import Lia Permutation List.
From Verif Require Import Pdag PdagProofs PdagAdd PdagSem PdagKeeps Preproc PreprocNorm Rooted BoolOptProofs BoolOptMain Distribute.
Import ListNotations.
Open Scope Z_scope.

(** ** Operations *)
Lemma add_fresh j a G G' y : wf G -> gs G !! j = Some y -> Z.abs a < nxt G -> ~ In a (g_args y) -> ~ In (- a) (g_args y) -> add_arg j a G = Some G' ->
  exists l, gs G' = <[j := with_args y l]> (gs G) /\ nxt G' = nxt G /\ wf G' /\ (forall b, In b l <-> b = a \/ In b (g_args y)) /\ length l = S (length (g_args y)).
Proof.
  intros W E L N1 N2 H. unfold add_arg in H. rewrite E in H. cbn [mbind option_bind] in H. destruct (negb _ || (a =? 0)) eqn:C; [discriminate|]. apply orb_false_iff in C as [_ C]. apply Z.eqb_neq in C.
  rewrite (proj2 (has_false _ _) N1), (proj2 (has_false _ _) N2) in H. apply add_new_inv in H as (x & Ex & _ & _ & HG & HN). rewrite E in Ex. injection Ex as <-.
  exists (set_insert a (g_args y)). split; [auto|]. split; [auto|]. split; [|split; [intros b; apply set_insert_In|now rewrite (Permutation_length (set_insert_perm a _ N1))]]. apply (put_wf G G' j y _ W E HG HN). cbn. apply args_ok_insert; auto. apply (proj2 W j y E).
Qed.
Lemma erase_op j a G G' : wf G -> erase_arg j a G = Some G' ->
  exists y l, gs G !! j = Some y /\ In a (g_args y) /\ gs G' = <[j := with_args y l]> (gs G) /\ nxt G' = nxt G /\ wf G' /\ (forall b, In b l <-> In b (g_args y) /\ b <> a).
Proof.
  intros W H. apply erase_arg_inv in H as (x & Ex & I & HG & HN). exists x, (set_erase a (g_args x)). split; [auto|]. split; [auto|]. split; [auto|]. split; [auto|]. split; [|intros b; apply set_erase_In].
  apply (put_wf G G' j x _ W Ex HG HN). cbn. apply args_ok_erase. apply (proj2 W j x Ex).
Qed.
Lemma erase_list j : forall l G G' y, wf G -> gs G !! j = Some y -> erase_all j l G = Some G' ->
  exists l', gs G' = <[j := with_args y l']> (gs G) /\ nxt G' = nxt G /\ wf G' /\ (forall b, In b l' <-> In b (g_args y) /\ ~ In b l).
Proof.
  induction l as [|a l IH]; intros G G' y W E H; cbn [erase_all] in H.
  - injection H as <-. exists (g_args y). split; [rewrite insert_id; [auto|]; rewrite E; destruct y; auto|]. split; [auto|]. split; [auto|]. intros b. cbn. tauto.
  - apply bind_inv in H as (G1 & E1 & H). destruct (erase_op j a G G1 W E1) as (y0 & l1 & Ey & I & HG & HN & W1 & Q). rewrite E in Ey. injection Ey as <-.
    destruct (IH G1 G' (with_args y l1) W1 ltac:(rewrite HG; apply lookup_insert) H) as (l' & HG' & HN' & W' & Q'). exists l'. split; [rewrite HG', HG, insert_insert; reflexivity|]. split; [lia|]. split; [auto|].
    intros b. rewrite Q'. cbn [g_args with_args]. rewrite Q. cbn. intuition congruence.
Qed.
Lemma share_list_op rep j : forall l G G' y, wf G -> gs G !! j = Some y -> List.NoDup l -> (forall a, In a l -> ~ In (- a) l) ->
  (forall a, In a l -> Z.abs a < nxt G /\ ~ In a (g_args y) /\ ~ In (- a) (g_args y)) -> share_list rep l j G = Some G' ->
  exists l', gs G' = <[j := with_args y l']> (gs G) /\ nxt G' = nxt G /\ wf G' /\ (forall b, In b l' <-> In b l \/ In b (g_args y)).
Proof.
  induction l as [|a l IH]; intros G G' y W E ND NN N H; cbn [share_list] in H.
  - injection H as <-. exists (g_args y). split; [rewrite insert_id; [auto|]; rewrite E; destruct y; auto|]. split; [auto|]. split; [auto|]. intros b. cbn. tauto.
  - apply bind_inv in H as (G1 & E1 & H). inversion ND as [|? ? NI ND']; subst. destruct (N a ltac:(left; auto)) as (La & N1 & N2).
    apply share_arg_inv in E1. destruct (add_fresh j a G G1 y W E La N1 N2 E1) as (l1 & HG & HN & W1 & Q & _).
    destruct (IH G1 G' (with_args y l1) W1 ltac:(rewrite HG; apply lookup_insert) ND') as (l' & HG' & HN' & W' & Q'); [| |exact H|].
    { intros b Ib C. apply (NN b); right; auto. }
    { intros b Ib. destruct (N b ltac:(right; auto)) as (Lb & K1 & K2). rewrite HN. split; [auto|]. cbn [g_args with_args]. split; intros C; apply Q in C as [C|C]; try contradiction; [subst b; contradiction|]. apply (NN b ltac:(right; auto)). left. lia. }
    exists l'. split; [rewrite HG', HG, insert_insert; reflexivity|]. split; [lia|]. split; [auto|]. intros b. rewrite Q'. cbn [g_args with_args]. rewrite Q. cbn. intuition congruence.
Qed.

(** ** The members *)
(** A member is an AND/OR gate, or a NULL gate with one argument. *)
Definition member_gate (u : conn) (x : gate) : Prop := g_type x = u \/ (g_type x = kNull /\ length (g_args x) = 1%nat).
Lemma move_members_op i s u cs : u = kAnd \/ u = kOr -> forall ms G G' xi xs, wf G -> i <> s -> ~ In i ms -> ~ In s ms -> List.NoDup ms -> gs G !! i = Some xi -> gs G !! s = Some xs ->
  (forall m, In m ms -> (exists x, gs G !! m = Some x /\ member_gate u x) /\ In m (g_args xi) /\ ~ In m (g_args xs) /\ ~ In (- m) (g_args xs)) ->
  move_members i s cs ms G = Some G' ->
  nxt G' = nxt G /\ wf G' /\ (forall j, j <> i -> j <> s -> ~ In j ms -> gs G' !! j = gs G !! j) /\
  (exists l, gs G' !! i = Some (with_args xi l) /\ forall b, In b l <-> In b (g_args xi) /\ ~ In b ms) /\
  (exists l, gs G' !! s = Some (with_args xs l) /\ forall b, In b l <-> In b ms \/ In b (g_args xs)) /\
  (forall m x, In m ms -> gs G !! m = Some x -> exists x', gs G' !! m = Some x' /\ member_gate u x' /\ forall b, In b (g_args x') <-> In b (g_args x) /\ ~ In b cs).
Proof.
  intros Hu. induction ms as [|m ms IH]; intros G G' xi xs W NE Ni Ns ND Ei Es HM H; cbn [move_members] in H.
  { injection H as <-. split; [auto|]. split; [auto|]. split; [auto|]. split; [exists (g_args xi); split; [destruct xi; auto|intros b; cbn; tauto]|]. split; [exists (g_args xs); split; [destruct xs; auto|intros b; cbn; tauto]|]. intros m x []. }
  inversion ND as [|? ? NI ND']; subst. destruct (HM m ltac:(left; auto)) as ((x & Ex & Mx) & Ii & Ns1 & Ns2).
  assert (Nmi : m <> i) by (intros ->; apply Ni; left; auto). assert (Nms : m <> s) by (intros ->; apply Ns; left; auto).
  apply bind_inv in H as (G1 & E1 & H). destruct (erase_op i m G G1 W E1) as (xi0 & li & Ei0 & _ & HG1 & HN1 & W1 & Q1). rewrite Ei in Ei0. injection Ei0 as <-.
  apply bind_inv in H as (G2 & E2 & H). assert (Es1 : gs G1 !! s = Some xs) by (rewrite HG1, lookup_insert_ne by auto; auto).
  assert (Lm : Z.abs m < nxt G1) by (rewrite HN1; destruct (proj2 W m x Ex) as [Q _]; lia).
  destruct (add_fresh s m G1 G2 xs W1 Es1 Lm Ns1 Ns2 E2) as (ls & HG2 & HN2 & W2 & Q2 & _).
  apply bind_inv in H as (G3 & E3 & H). assert (Ex2 : gs G2 !! m = Some x) by (rewrite HG2, HG1, !lookup_insert_ne by auto; auto).
  destruct (erase_list m cs G2 G3 x W2 Ex2 E3) as (lm & HG3 & HN3 & W3 & Q3).
  apply bind_inv in H as (x3 & Ex3 & H). rewrite HG3, lookup_insert in Ex3. injection Ex3 as <-. cbn [g_args with_args] in H.
  destruct (Z.eqb_spec (size lm) 0) as [Z0|Z0]; [discriminate|]. apply bind_inv in H as (G4 & E4 & H).
  assert (K4 : exists x4, gs G4 = <[m := x4]> (gs G3) /\ nxt G4 = nxt G3 /\ wf G4 /\ g_args x4 = lm /\ member_gate u x4).
  { destruct (Z.eqb_spec (size lm) 1) as [S1|S1].
    - apply set_type_spec in E4 as (y & Ey & HG4 & HN4). rewrite HG3, lookup_insert in Ey. injection Ey as <-. exists (Gate kNull (g_min x) lm). split; [auto|]. split; [auto|]. split; [|split; [auto|right; split; [auto|unfold size in S1; cbn; lia]]].
      apply (put_wf G3 G4 m (with_args x lm) _ W3 ltac:(rewrite HG3; apply lookup_insert) HG4 HN4). cbn. apply (proj2 W3 m (with_args x lm)). rewrite HG3. apply lookup_insert.
    - injection E4 as <-. exists (with_args x lm). split; [rewrite HG3, insert_insert; auto|]. split; [auto|]. split; [auto|]. split; [auto|]. destruct Mx as [T|[T L]]; [left; auto|].
      exfalso. destruct (proj2 W3 m (with_args x lm) ltac:(rewrite HG3; apply lookup_insert)) as [_ [NDl _]]. cbn in NDl. assert (INC : incl lm (g_args x)) by (intros b Ib; apply Q3 in Ib; tauto). pose proof (NoDup_incl_length NDl INC). unfold size in *. destruct lm as [|? [|? ?]]; cbn in *; lia. }
  destruct K4 as (x4 & HG4 & HN4 & W4 & A4 & M4).
  assert (OTH : forall j, j <> i -> j <> s -> j <> m -> gs G4 !! j = gs G !! j) by (intros j J1 J2 J3; rewrite HG4, HG3, HG2, HG1, !lookup_insert_ne by auto; auto).
  destruct (IH G4 G' (with_args xi li) (with_args xs ls) W4 NE) as (r1 & r2 & r3 & (l1 & r4 & r4') & (l2 & r5 & r5') & r6); [intros Q; apply Ni; right; auto|intros Q; apply Ns; right; auto|auto|rewrite HG4, HG3, HG2, HG1, !lookup_insert_ne by auto; apply lookup_insert|rewrite HG4, HG3, HG2, !lookup_insert_ne by auto; apply lookup_insert| |exact H|].
  { intros k Ik. assert (Nk : k <> m) by (intros ->; contradiction). destruct (HM k ltac:(right; auto)) as ((y & Ey & My) & I1 & I2 & I3). split.
    - exists y. rewrite OTH; auto; intros ->; [apply Ni|apply Ns]; right; auto.
    - cbn [g_args with_args]. split; [apply Q1; auto|]. assert (Lk : 1 < k) by (destruct (proj2 W k y Ey); lia). assert (Lm1 : 1 < m) by (destruct (proj2 W m x Ex); lia). split; intros C; apply Q2 in C as [C|C]; auto; lia. }
  split; [lia|]. split; [auto|]. split; [intros j J1 J2 J3; rewrite r3, OTH; auto; [intros ->; apply J3; left; auto|intros Q; apply J3; right; auto]|].
  split; [exists l1; split; [auto|intros b; rewrite r4'; cbn [g_args with_args]; rewrite Q1; cbn; intuition congruence]|].
  split; [exists l2; split; [auto|intros b; rewrite r5'; cbn [g_args with_args]; rewrite Q2; cbn; intuition congruence]|].
  intros k y [<-|Ik] Ey.
  - rewrite Ex in Ey. injection Ey as <-. exists x4. split; [|split; [auto|intros b; rewrite A4; apply Q3]]. rewrite r3; auto. rewrite HG4. apply lookup_insert.
  - assert (Nk : k <> m) by (intros ->; contradiction). apply (r6 k y Ik). rewrite OTH; auto; intros ->; [apply Ni|apply Ns]; right; auto.
Qed.

(** ** One option *)
Record level (G : graph) (i : Z) (u : conn) (cs ms : list Z) (xi : gate) (G' : graph) (s : Z) : Prop := {
  l_wf : wf G';
  l_other : forall j, j <> i -> ~ In j ms -> j < nxt G -> gs G' !! j = gs G !! j;
  l_mem : forall m x, In m ms -> gs G !! m = Some x -> exists x', gs G' !! m = Some x' /\ member_gate u x' /\ forall b, In b (g_args x') <-> In b (g_args x) /\ ~ In b cs;
  l_sub : exists x, gs G' !! s = Some x /\ g_type x = dual u /\ forall b, In b (g_args x) <-> In b ms;
  l_top : (s = nxt G /\ nxt G' = nxt G + 1 /\ (forall a, In a (g_args xi) -> In a ms) /\
             exists t x, flip_type u (g_type xi) = Some t /\ gs G' !! i = Some x /\ g_type x = t /\ forall b, In b (g_args x) <-> b = s \/ In b cs) \/
          (s = nxt G + 1 /\ nxt G' = nxt G + 2 /\
             (exists x, gs G' !! i = Some x /\ g_type x = g_type xi /\ g_min x = g_min xi /\ forall b, In b (g_args x) <-> b = nxt G \/ (In b (g_args xi) /\ ~ In b ms)) /\
             exists x, gs G' !! nxt G = Some x /\ g_type x = u /\ forall b, In b (g_args x) <-> b = s \/ In b cs) }.

Lemma new_gate_op t G : wf G -> wf (new_gate t G).1 /\ gs (new_gate t G).1 = <[nxt G := Gate t 0 []]> (gs G) /\ nxt (new_gate t G).1 = nxt G + 1 /\ (new_gate t G).2 = nxt G.
Proof.
  intros W. split; [|auto]. split; cbn; [destruct W; lia|]. intros j x E. destruct (decide (nxt G = j)) as [<-|N]; [rewrite lookup_insert in E; injection E as <-; split; [destruct W; lia|apply args_ok_nil]|].
  rewrite lookup_insert_ne in E by auto. destruct (proj2 W j x E) as [L [ND A]]. split; [lia|]. split; [auto|]. intros b Ib. destruct (A b Ib) as (? & ? & ?). split; [auto|]. split; [lia|auto].
Qed.
Lemma transform_once_op i u cs ms G xi r G' s : wf G -> ranked G r -> u = kAnd \/ u = kOr -> gs G !! i = Some xi -> List.NoDup ms -> List.NoDup cs ->
  (forall m, In m ms -> In m (g_args xi) /\ exists x, gs G !! m = Some x /\ member_gate u x /\ forall a, In a cs -> In a (g_args x)) ->
  transform_once i u (cs, ms) G = Some (G', s) -> level G i u cs ms xi G' s.
Proof.
  intros W R Hu Ei NDm NDc HM H. unfold transform_once in H. rewrite Ei in H. cbn [mbind option_bind] in H.
  assert (Li : 1 < i < nxt G) by (apply (proj2 W i xi Ei)).
  assert (LM : forall m, In m ms -> 1 < m < nxt G) by (intros m Im; destruct (HM m Im) as (_ & x & Ex & _); apply (proj2 W m x Ex)).
  assert (NI : ~ In i ms) by (intros Q; destruct (HM i Q) as (Q1 & _); pose proof (R i xi i Ei Q1) as Q2; rewrite Z.abs_eq in Q2 by lia; specialize (Q2 ltac:(eauto)); lia).
  assert (CM : forall a m, In a cs -> In m ms -> Z.abs a <> m).
  { intros a m Ia Im E. destruct (HM m Im) as (_ & x & Ex & _ & Cx). pose proof (R m x a Ex (Cx a Ia)) as Q. rewrite E in Q. specialize (Q ltac:(eauto)). lia. }
  assert (CL : forall rep tl, ms = rep :: tl -> (forall a, In a cs -> a <> 0 /\ Z.abs a < nxt G /\ ~ In (- a) cs)).
  { intros rep tl E a Ia. destruct (HM rep ltac:(subst ms; left; auto)) as (_ & x & Ex & _ & Cx). destruct (proj2 W rep x Ex) as [_ [_ Q]]. destruct (Q a (Cx a Ia)) as (Q1 & Q2 & Q3). split; [auto|]. split; [auto|]. intros C. apply Q3, Cx, C. }
  destruct (Z.eqb_spec (size (g_args xi)) (size ms)) as [SZ|SZ].
  - apply bind_inv in H as ([G2 p] & E1 & H). apply bind_inv in E1 as (t & Et & E1). apply bind_inv in E1 as (G1 & E1 & E1'). injection E1' as -> ->.
    apply set_type_spec in E1 as (xi0 & Ei0 & HG1 & HN1). rewrite Ei in Ei0. injection Ei0 as <-.
    assert (W1 : wf G2) by (apply (put_wf G G2 p xi _ W Ei HG1 HN1); cbn; apply (proj2 W p xi Ei)).
    destruct (new_gate_op (dual u) G2 W1) as (W2 & HG2 & HN2 & E2). destruct (new_gate (dual u) G2) as [G3 s0]. cbn [fst snd] in *. subst s0. rewrite HN1 in *.
    apply bind_inv in H as (G4 & E4 & H). assert (Ni : nxt G <> p) by lia.
    destruct (add_fresh p (nxt G) G3 G4 (Gate t (g_min xi) (g_args xi)) W2) as (l4 & HG4 & HN4 & W4 & Q4 & _); [rewrite HG2, HG1, lookup_insert_ne by auto; apply lookup_insert|lia| | |exact E4|].
    { cbn. intros Q. destruct (proj2 W p xi Ei) as [_ [_ K]]. destruct (K _ Q) as (_ & ? & _). lia. }
    { cbn. intros Q. destruct (proj2 W p xi Ei) as [_ [_ K]]. destruct (K _ Q) as (_ & ? & _). lia. }
    cbn [g_args] in Q4. destruct ms as [|rep tl] eqn:Ems; [discriminate|]. rewrite <- Ems in *. specialize (CL rep tl Ems).
    assert (ALL : forall a, In a (g_args xi) -> In a ms).
    { apply NoDup_length_incl; [exact NDm|unfold size in SZ; lia|]. intros m Im. apply (HM m Im). }
    apply bind_inv in H as (G5 & E5 & H). apply bind_inv in H as (G6 & E6 & H). injection H as -> <-.
    destruct (share_list_op rep p cs G4 G5 (with_args (Gate t (g_min xi) (g_args xi)) l4) W4) as (l5 & HG5 & HN5 & W5 & Q5); [rewrite HG4; apply lookup_insert|auto|intros a Ia; apply CL; auto| |exact E5|].
    { intros a Ia. destruct (CL a Ia) as (C1 & C2 & C3). split; [lia|]. cbn [g_args with_args]. split; intros Q; apply Q4 in Q as [Q|Q]; try lia; apply ALL in Q; [apply (CM a _ Ia Q)|apply (CM a _ Ia Q)]; pose proof (LM _ Q); lia. }
    cbn [g_args with_args] in Q5.
    destruct (move_members_op p (nxt G) u cs Hu ms G5 G' (with_args (with_args (Gate t (g_min xi) (g_args xi)) l4) l5) (Gate (dual u) 0 []) W5) as (r1 & r2 & r3 & (l6 & r4 & r4') & (l7 & r5 & r5') & r6); [lia|auto|intros Q; apply LM in Q; lia|auto|rewrite HG5; apply lookup_insert|rewrite HG5, HG4, !lookup_insert_ne by auto; rewrite HG2; apply lookup_insert| |exact E6|].
    { intros m Im. destruct (HM m Im) as (K1 & x & Ex & K2 & _). assert (m <> p) by (intros ->; contradiction). pose proof (LM m Im). split; [exists x; split; [rewrite HG5, HG4, HG2, HG1, !lookup_insert_ne by (auto; lia); auto|auto]|]. cbn [g_args with_args]. split; [apply Q5; right; apply Q4; auto|auto]. }
    cbn [g_args with_args] in *. constructor.
    + auto.
    + intros j J1 J2 J3. rewrite r3 by (auto; lia). rewrite HG5, HG4, HG2, HG1, !lookup_insert_ne by (auto; lia). auto.
    + intros m x Im Ex. assert (m <> p) by (intros ->; contradiction). pose proof (LM m Im). apply (r6 m x Im). rewrite HG5, HG4, HG2, HG1, !lookup_insert_ne by (auto; lia). auto.
    + exists (with_args (Gate (dual u) 0 []) l7). split; [auto|]. split; [auto|]. intros b. cbn [g_args with_args]. rewrite r5'. cbn. tauto.
    + left. split; [auto|]. split; [lia|]. split; [auto|]. exists t, (with_args (with_args (with_args (Gate t (g_min xi) (g_args xi)) l4) l5) l6). split; [auto|]. split; [auto|]. split; [auto|]. intros b. cbn [g_args with_args]. rewrite r4', Q5, Q4. split.
      * intros [[K|[K|K]] N]; auto. apply ALL in K. contradiction.
      * intros [->|K]; (split; [auto|]); intros Q; [apply LM in Q; lia|]. apply (CM b b K Q). pose proof (LM b Q). lia.
  - apply bind_inv in H as ([G2 p] & E1 & H). destruct (new_gate_op u G W) as (W1 & HG1 & HN1 & En). destruct (new_gate u G) as [G1 p0]. cbn [fst snd] in *. subst p0.
    apply bind_inv in E1 as (G1' & E1 & E1'). injection E1' as -> <-.
    destruct (add_fresh i (nxt G) G1 G2 xi W1) as (l2 & HG2 & HN2 & W2 & Q2 & _); [rewrite HG1, lookup_insert_ne by lia; auto|lia| | |exact E1|].
    { intros Q. destruct (proj2 W i xi Ei) as [_ [_ K]]. destruct (K _ Q) as (_ & ? & _). lia. }
    { intros Q. destruct (proj2 W i xi Ei) as [_ [_ K]]. destruct (K _ Q) as (_ & ? & _). lia. }
    destruct (new_gate_op (dual u) G2 W2) as (W3 & HG3 & HN3 & E3). destruct (new_gate (dual u) G2) as [G3 s0]. cbn [fst snd] in *. subst s0. assert (N2 : nxt G2 = nxt G + 1) by lia. rewrite N2 in *.
    apply bind_inv in H as (G4 & E4 & H).
    destruct (add_fresh (nxt G) (nxt G + 1) G3 G4 (Gate u 0 []) W3) as (l4 & HG4 & HN4 & W4 & Q4 & _); [rewrite HG3, HG2, !lookup_insert_ne by lia; rewrite HG1; apply lookup_insert|lia|auto|auto|exact E4|]. cbn [g_args] in Q4.
    destruct ms as [|rep tl] eqn:Ems; [discriminate|]. rewrite <- Ems in *. specialize (CL rep tl Ems).
    apply bind_inv in H as (G5 & E5 & H). apply bind_inv in H as (G6 & E6 & H). injection H as -> <-.
    destruct (share_list_op rep (nxt G) cs G4 G5 (with_args (Gate u 0 []) l4) W4) as (l5 & HG5 & HN5 & W5 & Q5); [rewrite HG4; apply lookup_insert|auto|intros a Ia; apply CL; auto| |exact E5|].
    { intros a Ia. destruct (CL a Ia) as (C1 & C2 & C3). split; [lia|]. cbn [g_args with_args]. split; intros Q; apply Q4 in Q as [Q|[]]; lia. }
    cbn [g_args with_args] in Q5.
    destruct (move_members_op i (nxt G + 1) u cs Hu ms G5 G' (with_args xi l2) (Gate (dual u) 0 []) W5) as (r1 & r2 & r3 & (l6 & r4 & r4') & (l7 & r5 & r5') & r6); [lia|auto|intros Q; apply LM in Q; lia|auto|rewrite HG5, HG4, HG3, !lookup_insert_ne by lia; rewrite HG2; apply lookup_insert|rewrite HG5, HG4, !lookup_insert_ne by lia; rewrite HG3; apply lookup_insert| |exact E6|].
    { intros m Im. destruct (HM m Im) as (K1 & x & Ex & K2 & _). assert (m <> i) by (intros ->; contradiction). pose proof (LM m Im). split; [exists x; split; [rewrite HG5, HG4, HG3, HG2, HG1, !lookup_insert_ne by (auto; lia); auto|auto]|]. cbn [g_args with_args]. split; [apply Q2; auto|auto]. }
    cbn [g_args with_args] in *. constructor.
    + auto.
    + intros j J1 J2 J3. rewrite r3 by (auto; lia). rewrite HG5, HG4, HG3, HG2, HG1, !lookup_insert_ne by (auto; lia). auto.
    + intros m x Im Ex. assert (m <> i) by (intros ->; contradiction). pose proof (LM m Im). apply (r6 m x Im). rewrite HG5, HG4, HG3, HG2, HG1, !lookup_insert_ne by (auto; lia). auto.
    + exists (with_args (Gate (dual u) 0 []) l7). split; [auto|]. split; [auto|]. intros b. cbn [g_args with_args]. rewrite r5'. cbn. tauto.
    + right. split; [auto|]. split; [lia|]. split.
      * exists (with_args (with_args xi l2) l6). split; [auto|]. split; [auto|]. split; [auto|]. intros b. cbn [g_args with_args]. rewrite r4', Q2. split; [tauto|]. intros [->|K]; [|tauto]. split; [auto|]. intros Q. apply LM in Q. lia.
      * exists (with_args (with_args (Gate u 0 []) l4) l5). rewrite r3 by (try lia; intros Q; apply LM in Q; lia). split; [rewrite HG5; apply lookup_insert|]. split; [auto|]. intros b. cbn [g_args with_args]. rewrite Q5, Q4. cbn. tauto.
Qed.
