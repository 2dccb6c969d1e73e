(** Factoring of distributive arguments: clones of shared gates and the complete step. *)
From stdpp Require Import gmap.
From Coq Require Import Lia Permutation List.
From Verif Require Import Pdag PdagProofs PdagAdd PdagSem PdagKeeps Preproc PreprocNorm Rooted BoolOptProofs BoolOptMain Distribute DistributeProofs DistributeLevel DistributeGroup DistributeAll.
Import ListNotations.
Open Scope Z_scope.

Section Clones.
Context (root : Z) (parents : graph -> Z -> list Z).
Context (PARENTS : forall G p g x, reach G root p -> gs G !! p = Some x -> arg_in g x -> In p (parents G g)).

(** Fresh gates that nobody refers to. *)
Record grown (G : graph) (r : Z -> nat) (i : Z) (ms : list Z) (G1 : graph) (sws : list (Z * Z)) : Prop := {
  w_keeps : keeps G G1;
  w_old : forall j, j < nxt G -> gs G1 !! j = gs G !! j;
  w_nd : List.NoDup (map fst sws) /\ List.NoDup (map snd sws);
  w_new : forall m c, In (m, c) sws -> In m ms /\ nxt G <= c < nxt G1 /\ gs G1 !! c = gs G !! m;
  w_all : forall c, nxt G <= c < nxt G1 -> exists m, In (m, c) sws;
  w_sole : forall m, In m ms -> ~ In m (map fst sws) -> sole G root i m;
  w_rank : exists r1, ranked G1 r1 /\ (forall j, j < nxt G -> r1 j = r j) /\ forall m c, In (m, c) sws -> r1 c = r m }.
Lemma reach_old G G1 j : wf G -> (forall k, k < nxt G -> gs G1 !! k = gs G !! k) -> 1 < root < nxt G -> reach G1 root j <-> reach G root j.
Proof.
  intros W OLD L. assert (X : forall j, reach G root j -> j < nxt G) by (induction 1 as [|k x a H IH E Ia]; [lia|]; destruct (proj2 W k x E) as [_ [_ Q]]; apply (Q a Ia)).
  split.
  - assert (Y : forall k, reach G1 root k -> reach G root k).
    { induction 1 as [|k x a H IH E Ia]; [constructor|]. rewrite OLD in E by (apply X; auto). eapply reach_arg; eauto. } apply Y.
  - induction 1 as [|k x a H IH E Ia]; [constructor|]. eapply reach_arg; [exact IH| |exact Ia]. rewrite OLD; auto.
Qed.
Lemma clone_members_ok i xi : forall ms G r G1 sws, wf G -> ranked G r -> gs G !! i = Some xi -> reach G root i -> 1 < root < nxt G -> List.NoDup ms -> (forall m, In m ms -> In m (g_args xi) /\ exists x, gs G !! m = Some x) ->
  clone_members parents ms G = Some (G1, sws) -> grown G r i ms G1 sws.
Proof.
  induction ms as [|m ms IH]; intros G r G1 sws W R Ei RI LR ND HM H; cbn [clone_members] in H.
  { injection H as <- <-. constructor.
    - apply keeps_refl; auto.
    - auto.
    - split; constructor.
    - intros m c [].
    - intros c Lc; lia.
    - intros m [].
    - exists r; split; [auto|split; [auto|intros m c []]]. }
  apply bind_inv in H as ([G0 sw] & E0 & H). apply bind_inv in H as ([G2 sws2] & E2 & H). injection H as <- <-. inversion ND as [|? ? NI ND']; subst. destruct (HM m ltac:(left; auto)) as (Im & x & Ex).
  assert (Lm : 1 < m < nxt G) by (apply (proj2 W m x Ex)). assert (Li : 1 < i < nxt G) by (apply (proj2 W i xi Ei)).
  destruct (Z.ltb_spec 1 (size (parents G m))) as [SZ|SZ].
  - apply bind_inv in E0 as ([G0' c] & EC & E0). injection E0 as -> <-. unfold clone in EC. rewrite Ex in EC. destruct (constant x || conn_eqb (g_type x) kNull); [discriminate|]. injection EC as <- <-.
    set (G0 := Graph (<[nxt G:=x]> (gs G)) (nxt G + 1) (nulls G) (reg G)) in *.
    assert (K0 : keeps G G0) by (apply (keeps_new G G0 x); auto; apply (proj2 W m x Ex)).
    assert (OLD0 : forall j, j < nxt G -> gs G0 !! j = gs G !! j) by (intros j Lj; unfold G0; cbn; apply lookup_insert_ne; lia).
    set (r0 := fun j => if j =? nxt G then r m else r j).
    assert (R0 : ranked G0 r0).
    { intros k y a Ek Ia Sa. assert (La : Z.abs a < nxt G).
      { destruct (Z.eq_dec k (nxt G)) as [->|Nk]; [unfold G0 in Ek; cbn in Ek; rewrite lookup_insert in Ek; injection Ek as <-; destruct (proj2 W m x Ex) as [_ [_ Q]]; apply (Q a Ia)|]. unfold G0 in Ek; cbn in Ek. rewrite lookup_insert_ne in Ek by auto. destruct (proj2 W k y Ek) as [_ [_ Q]]. apply (Q a Ia). }
      rewrite OLD0 in Sa by auto. unfold r0. destruct (Z.eqb_spec (Z.abs a) (nxt G)); [lia|]. unfold G0 in Ek; cbn in Ek. destruct (Z.eqb_spec k (nxt G)) as [->|Nk]; [rewrite lookup_insert in Ek; injection Ek as <-; apply (R m x a Ex Ia Sa)|rewrite lookup_insert_ne in Ek by auto; apply (R k y a Ek Ia Sa)]. }
    assert (N0 : nxt G0 = nxt G + 1) by reflexivity.
    destruct (IH G0 r0 G2 sws2 (k_wf _ _ K0) R0) as [a1 a2 [a3 a3'] a4 a5 a6 (r1 & b1 & b2 & b3)]; [rewrite OLD0 by lia; auto|apply (reach_old G G0 i W OLD0 LR); auto|lia|auto| |exact E2|].
    { intros k Ik. destruct (HM k ltac:(right; auto)) as (I1 & y & Ey). split; [auto|]. exists y. rewrite OLD0; auto. apply (proj2 W k y Ey). }
    constructor.
    + apply (keeps_trans _ _ _ K0 a1).
    + intros j Lj. rewrite a2 by lia. auto.
    + cbn [app map fst snd]. split; constructor; auto; intros Q; apply in_map_iff in Q as ([m' c'] & E & I); cbn in E; subst; destruct (a4 _ _ I) as (J1 & J2 & _); [contradiction|lia].
    + cbn [app]. intros m' c' [Q|Q].
      * injection Q as <- <-. split; [left; auto|]. split; [pose proof (k_nxt _ _ a1); lia|]. rewrite a2 by lia. rewrite Ex. unfold G0. cbn. apply lookup_insert.
      * destruct (a4 m' c' Q) as (J1 & J2 & J3). split; [right; auto|]. split; [lia|]. rewrite J3. apply OLD0. destruct (HM m' ltac:(right; auto)) as (_ & y & Ey). apply (proj2 W m' y Ey).
    + intros c' Lc. cbn [app]. destruct (Z.eq_dec c' (nxt G)) as [->|Nc]; [exists m; left; auto|]. destruct (a5 c' ltac:(lia)) as (m' & Q). exists m'. right. auto.
    + cbn [app map fst]. intros m' [<-|I'] N'; [exfalso; apply N'; left; auto|]. assert (Q : sole G0 root i m') by (apply a6; [auto|intros Q; apply N'; right; auto]). intros p y Rp Ep Ap. apply (Q p y); [apply (reach_old G G0 p W OLD0 LR); auto| |auto]. rewrite OLD0; auto. apply (proj2 W p y Ep).
    + exists r1. split; [auto|]. split; [intros j Lj; rewrite b2 by lia; unfold r0; destruct (Z.eqb_spec j (nxt G)); [lia|auto]|]. cbn [app]. intros m' c' [Q|Q].
      * injection Q as <- <-. rewrite b2 by lia. unfold r0. rewrite Z.eqb_refl. auto.
      * rewrite (b3 m' c' Q). unfold r0. destruct (a4 m' c' Q) as (J1 & _). destruct (HM m' ltac:(right; auto)) as (_ & y & Ey). pose proof (proj1 (proj2 W m' y Ey)). destruct (Z.eqb_spec m' (nxt G)); [lia|auto].
  - injection E0 as <- <-. destruct (IH G r G2 sws2 W R Ei RI LR ND') as [a1 a2 [a3 a3'] a4 a5 a6 a7]; [intros k Ik; apply HM; right; auto|exact E2|].
    constructor; auto; cbn [app].
    + intros m' c' Q. destruct (a4 m' c' Q) as (J1 & J2). split; [right; auto|auto].
    + intros m' [<-|I'] N'; [|auto]. intros p y Rp Ep Ap.
      assert (I1 : In i (parents G m)) by (apply (PARENTS G i m xi RI Ei); left; auto). assert (I2 : In p (parents G m)) by (apply (PARENTS G p m y); auto).
      unfold size in SZ. destruct (parents G m) as [|q [|? ?]]; cbn in *; [destruct I1| |lia]. destruct I1 as [<-|[]], I2 as [<-|[]]. auto.
Qed.
Lemma swap_members_ok i : forall sws G G' xi, wf G -> gs G !! i = Some xi -> (forall m c, In (m, c) sws -> nxt G > c /\ 1 < c /\ ~ In c (g_args xi) /\ ~ In (- c) (g_args xi)) -> List.NoDup (map snd sws) ->
  (forall m c, In (m, c) sws -> ~ In c (map fst sws)) ->
  swap_members i sws G = Some G' ->
  exists l, gs G' = <[i := with_args xi l]> (gs G) /\ nxt G' = nxt G /\ wf G' /\ forall b, In b l <-> (In b (g_args xi) /\ ~ In b (map fst sws)) \/ In b (map snd sws).
Proof.
  induction sws as [|[m c] sws IH]; intros G G' xi W Ei FR ND SEP H; cbn [swap_members] in H.
  { injection H as <-. exists (g_args xi). split; [rewrite insert_id; [auto|]; rewrite Ei; destruct xi; auto|]. split; [auto|]. split; [auto|]. intros b. cbn. tauto. }
  apply bind_inv in H as (G1 & E1 & H). apply bind_inv in H as (G2 & E2 & H). cbn [map fst snd] in *. inversion ND as [|? ? NI ND']; subst.
  destruct (erase_op i m G G1 W E1) as (xi0 & l1 & Ei0 & Im & HG1 & HN1 & W1 & Q1). rewrite Ei in Ei0. injection Ei0 as <-.
  destruct (FR m c ltac:(left; auto)) as (F1 & F2 & F3 & F4).
  destruct (add_fresh i c G1 G2 (with_args xi l1) W1) as (l2 & HG2 & HN2 & W2 & Q2 & _); [rewrite HG1; apply lookup_insert|lia|cbn; intros Q; apply Q1 in Q; tauto|cbn; intros Q; apply Q1 in Q; tauto|exact E2|]. cbn [g_args with_args] in Q2.
  destruct (IH G2 G' (with_args (with_args xi l1) l2) W2) as (l & HG & HN & W' & Q); [rewrite HG2; apply lookup_insert| |auto| |exact H|].
  { intros m' c' I'. destruct (FR m' c' ltac:(right; auto)) as (K1 & K2 & K3 & K4). split; [lia|]. split; [auto|]. cbn [g_args with_args]. split; intros J; apply Q2 in J as [J|J]; try (apply Q1 in J; tauto); [|lia]. subst c'. apply NI. apply in_map_iff. exists (m', c). auto. }
  { intros m' c' I' J. apply (SEP m' c' ltac:(right; auto)). right. auto. }
  exists l. split; [rewrite HG, HG2, HG1, !insert_insert; reflexivity|]. split; [lia|]. split; [auto|]. intros b. rewrite Q. cbn [g_args with_args]. rewrite Q2, Q1. cbn. split.
  - intros [[[->|[K1 K2]] K3]|K]; auto. left. split; [auto|]. intros [<-|K]; auto.
  - intros [[K1 K2]|[<-|K]]; auto; [left; split; [right; split; [auto|intros ->; apply K2; auto]|intros K; apply K2; auto]|]. left. split; [auto|]. intros K. apply (SEP m c ltac:(left; auto)). right. auto.
Qed.

(** One group. *)
Context (u : conn) (Hu : u = kAnd \/ u = kOr).
Record pending (G : graph) (xi : gate) (g : list moption) : Prop := {
  e_ne : g <> [];
  e_nested : nested (base g) g;
  e_ok : group_ok G g;
  e_mem : forall m, In m (base g) -> In m (g_args xi) /\ exists x, gs G !! m = Some x /\ g_type x = u }.
(** Members that already have one parent. *)
Definition single (G : graph) (i : Z) (xi : gate) (m : Z) : Prop := In m (g_args xi) /\ sole G root i m /\ exists x, gs G !! m = Some x /\ g_type x = u.
Lemma renamed_In sws m : List.NoDup (map fst sws) -> (forall c, In (m, c) sws -> renamed sws m = c) /\ (~ In m (map fst sws) -> renamed sws m = m).
Proof.
  intros ND. unfold renamed. split.
  - intros c I. destruct (List.find _ sws) as [[m' c']|] eqn:F.
    + apply find_some in F as [F1 F2]. cbn in F2. apply Z.eqb_eq in F2. subst m'. cbn. revert ND I F1. clear. induction sws as [|[a b] sws IH]; intros ND I F; [destruct I|]. cbn in ND. inversion ND as [|? ? N1 N2]; subst.
      destruct I as [I|I], F as [F|F]; try congruence; [injection I as -> ->; exfalso; apply N1; apply in_map_iff; exists (m, c'); auto|injection F as -> ->; exfalso; apply N1; apply in_map_iff; exists (m, c); auto|auto].
    + exfalso. apply (find_none _ _ F) in I. cbn in I. rewrite Z.eqb_refl in I. discriminate.
  - intros N. destruct (List.find _ sws) as [[m' c']|] eqn:F; [|auto]. apply find_some in F as [F1 F2]. cbn in F2. apply Z.eqb_eq in F2. subst m'. exfalso. apply N. apply in_map_iff. exists (m, c'). auto.
Qed.
Lemma base_map f g : base (map (fun p : moption => (p.1, map f p.2)) g) = map f (base g).
Proof. destruct g; auto. Qed.
Lemma in_base g o m : nested (base g) g -> In o g -> In m o.2 -> In m (base g).
Proof.
  intros N. assert (X : forall g B, nested B g -> In o g -> In m o.2 -> In m B).
  { clear. induction g as [|p g IH]; intros B N I J; [destruct I|]. destruct N as [N1 N2]. destruct I as [->|I]; [apply N1; auto|]. apply N1. apply (IH p.2 N2 I J). }
  apply X. auto.
Qed.
Lemma sanitize_ok i g G G' g' xi : wf G -> acyclic G -> gs G !! i = Some xi -> coalesce_type (g_type xi) = Some (dual u) -> reach G root i -> is_Some (gs G !! root) -> pending G xi g ->
  sanitize parents i g G = Some (G', g') ->
  exists xi', keeps G G' /\ gs G' !! i = Some xi' /\ g_type xi' = g_type xi /\ reach G' root i /\ pending G' xi' g' /\
    (forall m, In m (base g') -> single G' i xi' m) /\ (forall m, In m (base g') -> In m (base g) \/ nxt G <= m < nxt G') /\
    (forall m, ~ In m (base g) -> In m (g_args xi) -> In m (g_args xi')) /\ (forall m, m <> i -> m < nxt G -> gs G' !! m = gs G !! m) /\
    (forall m, ~ In m (base g) -> single G i xi m -> single G' i xi' m).
Proof.
  intros W [r R] Ei Ty RI Sr [NE NS OK HM] H. unfold sanitize in H. destruct g as [|o0 g0] eqn:EG; [contradiction|]. rewrite <- EG in *. assert (EB : o0.2 = base g) by (subst g; auto). rewrite EB in H. clear o0 g0 EG EB.
  assert (LR : 1 < root < nxt G) by (destruct Sr as [x E]; apply (proj2 W root x E)). assert (Li : 1 < i < nxt G) by (apply (proj2 W i xi Ei)).
  apply bind_inv in H as ([G1 sws] & E1 & H). apply bind_inv in H as (G2 & E2 & H). injection H as <- <-.
  assert (NDB : List.NoDup (base g)) by (destruct g as [|o g]; [contradiction|]; cbn; apply (o_nd _ _ OK o ltac:(left; auto))).
  assert (LB : forall m, In m (base g) -> 1 < m < nxt G) by (intros m Im; destruct (HM m Im) as (_ & x & Ex & _); apply (proj2 W m x Ex)).
  destruct (clone_members_ok i xi (base g) G r G1 sws W R Ei RI LR NDB ltac:(intros m Im; destruct (HM m Im) as (I1 & x & Ex & _); eauto) E1) as [a1 a2 [a3 a3'] a4 a5 a6 (r1 & b1 & b2 & b3)].
  assert (Ei1 : gs G1 !! i = Some xi) by (rewrite a2 by lia; auto). assert (LA : forall a, In a (g_args xi) -> Z.abs a < nxt G) by (intros a Ia; destruct (proj2 W i xi Ei) as [_ [_ Q]]; apply (Q a Ia)).
  destruct (swap_members_ok i sws G1 G2 xi (k_wf _ _ a1) Ei1) as (l & HG & HN & W2 & Q); [| | |exact E2|].
  { intros m c I. destruct (a4 m c I) as (J1 & J2 & _). split; [lia|]. split; [lia|]. split; intros K; apply LA in K; lia. }
  { auto. }
  { intros m c I J. destruct (a4 m c I) as (_ & J2 & _). apply in_map_iff in J as ([m' c'] & E & I'). cbn in E. subst m'. destruct (a4 c c' I') as (J1 & _). apply LB in J1. lia. }
  assert (KEY : forall m, In m (map fst sws) -> exists c, In (m, c) sws) by (intros m I; apply in_map_iff in I as ([m' c'] & E & I'); cbn in E; subst m'; eauto).
  assert (VAL : forall c, In c (map snd sws) -> exists m, In (m, c) sws) by (intros c I; apply in_map_iff in I as ([m' c'] & E & I'); cbn in E; subst c'; eauto).
  assert (KB : forall m, In m (map fst sws) -> In m (base g)) by (intros m I; destruct (KEY m I) as [c Ic]; apply (a4 m c Ic)).
  assert (NI : forall m, In m (base g) -> m <> i).
  { intros m Im ->. destruct (HM i Im) as (I1 & _). pose proof (R i xi i Ei I1) as K. rewrite Z.abs_eq in K by lia. specialize (K ltac:(eauto)). lia. }
  assert (OLD : forall j, j <> i -> j < nxt G -> gs G2 !! j = gs G !! j) by (intros j J1 J2; rewrite HG, lookup_insert_ne by auto; apply a2; auto).
  assert (CL : forall m c, In (m, c) sws -> gs G2 !! c = gs G !! m) by (intros m c I; destruct (a4 m c I) as (_ & J2 & J3); rewrite HG, lookup_insert_ne by lia; auto).
  (* same function *)
  assert (K2 : keeps G1 G2).
  { apply (keeps_put G1 G2 i xi (with_args xi l) (k_wf _ _ a1) Ei1 HG HN).
    - rewrite <- HN. apply (proj2 W2 i). rewrite HG. apply lookup_insert.
    - intros ν C. assert (CV : forall m c, In (m, c) sws -> lit ν c = lit ν m).
      { intros m c I. destruct (a4 m c I) as (J1 & J2 & J3). pose proof (LB m J1). unfold lit. destruct (Z.ltb_spec c 0); [lia|]. destruct (Z.ltb_spec m 0); [lia|]. destruct (HM m J1) as (_ & x & Ex & _). rewrite (proj2 C m x) by (rewrite a2; auto; lia). apply (proj2 C c x). rewrite J3. auto. }
      rewrite (based_value (dual u) xi ν Ty), (based_value (dual u) (with_args xi l) ν Ty). cbn [g_type with_args]. f_equal. destruct (absorb_dual u Hu) as (_ & DU & _).
      apply (bool_iff _ _ (absorb (dual u))). rewrite (decided (based (dual u) (with_args xi l)) ν DU), (decided (based (dual u) xi) ν DU). cbn [based g_args g_type with_args]. split.
      + intros (a & Ia & La). apply Q in Ia as [[Ia _]|Ia]; [eauto|]. destruct (VAL a Ia) as [m Im]. exists m. split; [apply (HM m); apply (a4 m a Im)|]. rewrite <- (CV m a Im). auto.
      + intros (a & Ia & La). destruct (in_dec Z.eq_dec a (map fst sws)) as [Ik|Nk]; [|exists a; split; [apply Q; auto|auto]]. destruct (KEY a Ik) as [c Ic]. exists c. split; [apply Q; right; apply in_map_iff; exists (a, c); auto|]. rewrite (CV a c Ic). auto.
    - intros _. exists r1. split; [auto|]. cbn [g_args with_args]. intros c Ic Sc. apply Q in Ic as [[Ic _]|Ic].
      + rewrite (b2 i) by lia. rewrite b2 by auto. apply (R i xi c Ei Ic). rewrite a2 in Sc; auto.
      + destruct (VAL c Ic) as [m Im]. destruct (a4 m c Im) as (J1 & J2 & _). rewrite Z.abs_eq by lia. rewrite (b3 m c Im), (b2 i) by lia. pose proof (LB m J1). destruct (HM m J1) as (I1 & x & Ex & _). pose proof (R i xi m Ei I1) as K. rewrite Z.abs_eq in K by lia. apply K. eauto. }
  pose proof (keeps_trans _ _ _ a1 K2) as K12. assert (LN : nxt G <= nxt G2) by (apply K12).
  (* live gates *)
  assert (RCH : forall p, reach G2 root p -> (p < nxt G /\ reach G root p) \/ (exists m, In (m, p) sws)).
  { induction 1 as [|k x a H IH Ek Ia]; [left; split; [lia|constructor]|].
    assert (UP : forall k x a, reach G root k -> gs G !! k = Some x -> In a (g_args x) -> Z.abs a < nxt G /\ reach G root (Z.abs a)) by (intros k0 x0 a0 R0 E0 I0; split; [destruct (proj2 W k0 x0 E0) as [_ [_ K]]; apply (K a0 I0)|eapply reach_arg; eauto]).
    destruct IH as [[Lk Rk]|[m Im]].
    - destruct (Z.eq_dec k i) as [->|Nk]; [|rewrite OLD in Ek by auto; left; eauto]. rewrite HG, lookup_insert in Ek. injection Ek as <-. cbn in Ia. apply Q in Ia as [[Ia _]|Ia]; [left; eauto|]. right. destruct (VAL a Ia) as [m Im]. exists m. destruct (a4 m a Im) as (_ & J & _). rewrite Z.abs_eq by lia. auto.
    - left. destruct (a4 m k Im) as (J1 & _). rewrite (CL m k Im) in Ek. pose proof (LB m J1). assert (Rm : reach G root m) by (replace m with (Z.abs m) by lia; eapply reach_arg; [exact RI|exact Ei|apply (HM m J1)]). eauto. }
  assert (RI2 : reach G2 root i).
  { assert (X : forall j, reach G root j -> reach G j i -> reach G2 root j); [|apply X; [auto|constructor]].
    induction 1 as [|k x a H IH Ek Ia]; intros Qi; [constructor|]. assert (PK : preach G k i) by (exists x, a; auto). specialize (IH ltac:(apply (preach_reach _ _ _ PK))). destruct (preach_neq G r k i R PK) as [Nk _]. eapply reach_arg; [exact IH| |exact Ia]. rewrite OLD; auto. apply (proj2 W k x Ek). }
  assert (GI2 : gs G2 !! i = Some (with_args xi l)) by (rewrite HG; apply lookup_insert).
  assert (SOLD : forall m, m < nxt G -> sole G root i m -> 1 < m -> sole G2 root i m).
  { intros m Lm S1 Lm1 p y Rp Ep Ap. destruct (Z.eq_dec p i) as [|Np]; [auto|]. destruct (RCH p Rp) as [[Lp Rp']|[m0 I0]].
    - rewrite OLD in Ep by auto. apply (S1 p y Rp' Ep Ap).
    - exfalso. destruct (a4 m0 p I0) as (J1 & _). rewrite (CL m0 p I0) in Ep. pose proof (LB m0 J1). apply (NI m0 J1). apply (S1 m0 y); auto. replace m0 with (Z.abs m0) by lia. eapply reach_arg; [exact RI|exact Ei|apply (HM m0 J1)]. }
  assert (SNEW : forall m c, In (m, c) sws -> sole G2 root i c).
  { intros m c I p y Rp Ep Ap. destruct (Z.eq_dec p i) as [|Np]; [auto|]. exfalso. destruct (a4 m c I) as (J1 & J2 & _). assert (ZZ : forall k z, gs G !! k = Some z -> ~ arg_in c z).
    { intros k z Ez [K|K]; destruct (proj2 W k z Ez) as [_ [_ K0]]; destruct (K0 _ K) as (_ & K1 & _); lia. }
    destruct (RCH p Rp) as [[Lp _]|[m0 I0]]; [rewrite OLD in Ep by auto; apply (ZZ p y Ep Ap)|rewrite (CL m0 p I0) in Ep; apply (ZZ m0 y Ep Ap)]. }
  assert (RN : forall m, In m (base g) -> (In (m, renamed sws m) sws) \/ (renamed sws m = m /\ ~ In m (map fst sws))).
  { intros m Im. destruct (renamed_In sws m a3) as [X1 X2]. destruct (in_dec Z.eq_dec m (map fst sws)) as [Ik|Nk]; [left; destruct (KEY m Ik) as [c Ic]; rewrite (X1 c Ic); auto|right; auto]. }
  assert (RG : forall m, In m (base g) -> gs G2 !! renamed sws m = gs G !! m) by (intros m Im; destruct (RN m Im) as [K|[-> _]]; [apply (CL _ _ K)|apply OLD; [apply NI; auto|apply LB; auto]]).
  assert (SG : forall m, In m (base g) -> single G2 i (with_args xi l) (renamed sws m)).
  { intros m Im. split; [cbn; apply Q|split].
    - destruct (RN m Im) as [K|[-> K]]; [right; apply in_map_iff; exists (m, renamed sws m); auto|left; split; [apply (HM m Im)|auto]].
    - destruct (RN m Im) as [K|[-> K]]; [apply (SNEW _ _ K)|]. pose proof (LB m Im). apply SOLD; try lia. apply a6; auto.
    - rewrite (RG m Im). destruct (HM m Im) as (_ & x & Ex & Tx). eauto. }
  assert (INJ : forall l0, incl l0 (base g) -> List.NoDup l0 -> List.NoDup (map (renamed sws) l0)).
  { intros l0 I0 N0. induction l0 as [|m l0 IHl]; [constructor|]. inversion N0; subst. cbn. constructor; [|apply IHl; auto; intros k Ik; apply I0; right; auto]. intros K. apply in_map_iff in K as (m' & Em & Im').
    assert (B1 : In m (base g)) by (apply I0; left; auto). assert (B2 : In m' (base g)) by (apply I0; right; auto). assert (m <> m') by (intros ->; contradiction). pose proof (LB m B1). pose proof (LB m' B2).
    destruct (RN m B1) as [X|[X _]], (RN m' B2) as [Y|[Y _]].
    - rewrite Em in Y. revert a3' X Y H. clear. generalize (renamed sws m) as c. induction sws as [|[p q] t IH]; intros c N X Y NE; [destruct X|]. cbn in N. inversion N; subst. destruct X as [X|X], Y as [Y|Y]; [congruence|injection X as -> ->; apply H1; apply in_map_iff; exists (m', c); auto|injection Y as -> ->; apply H1; apply in_map_iff; exists (m, c); auto|eauto].
    - destruct (a4 _ _ X) as (_ & K & _). lia.
    - destruct (a4 _ _ Y) as (_ & K & _). lia.
    - congruence. }
  exists (with_args xi l). split; [auto|]. split; [auto|]. split; [auto|]. split; [auto|]. split; [|split; [|split; [|split; [|split; [auto|]]]]].
  - constructor.
    + destruct g; [contradiction|discriminate].
    + rewrite base_map. revert NS. generalize (base g) as B0. clear. induction g as [|o g IH]; intros B0 NS; [exact I|]. destruct NS as [N1 N2]. split; [cbn; intros m Im; apply in_map_iff in Im as (m0 & <- & I0); apply in_map; auto|]. apply (IH o.2 N2).
    + constructor.
      * intros p Ip. apply in_map_iff in Ip as (o & <- & Io). cbn [fst snd]. destruct (o_nd _ _ OK o Io) as (X1 & X2 & X3). split; [auto|]. split; [apply INJ; [intros m Im; apply (in_base g o m NS Io Im)|auto]|]. destruct o.2; [contradiction|discriminate].
      * intros p m a x Ip Im Ex Ia. apply in_map_iff in Ip as (o & <- & Io). cbn [fst snd] in *. apply in_map_iff in Im as (m0 & <- & I0). rewrite (RG m0 (in_base g o m0 NS Io I0)) in Ex. apply (o_args _ _ OK o m0 a x Io I0 Ex Ia).
    + intros m Im. rewrite base_map in Im. apply in_map_iff in Im as (m0 & <- & I0). destruct (SG m0 I0) as (X1 & _ & X3). auto.
  - intros m Im. rewrite base_map in Im. apply in_map_iff in Im as (m0 & <- & I0). auto.
  - intros m Im. rewrite base_map in Im. apply in_map_iff in Im as (m0 & <- & I0). destruct (RN m0 I0) as [K|[-> K]]; [right; destruct (a4 _ _ K) as (_ & K1 & _); lia|auto].
  - intros m Nm Im. cbn. apply Q. left. split; [auto|]. intros K. apply Nm, KB, K.
  - intros m Nm (X1 & X2 & x & Ex & Tx). pose proof (proj1 (proj2 W m x Ex)). split; [cbn; apply Q; left; split; [auto|intros K; apply Nm, KB, K]|]. split; [apply SOLD; auto; lia|]. exists x. split; [|auto]. rewrite OLD; auto; [|lia].
    intros ->. pose proof (R i xi i Ei X1) as K. rewrite Z.abs_eq in K by lia. specialize (K ltac:(eauto)). lia.
Qed.

(** All groups. *)
Definition settled (G : graph) (i : Z) (xi : gate) (g : list moption) : Prop := pending G xi g /\ forall m, In m (base g) -> single G i xi m.
Lemma settled_mono G i xi G' xi' g : (forall m, In m (base g) -> single G' i xi' m) -> (forall m, In m (base g) -> gs G' !! m = gs G !! m) -> settled G i xi g -> settled G' i xi' g.
Proof.
  intros HS HG [[NE NS OK HM] _]. split; [|auto]. constructor; auto.
  - constructor; [apply OK|]. intros o m a x Io Im Ex Ia. rewrite HG in Ex by (apply (in_base g o m NS Io Im)). apply (o_args _ _ OK o m a x Io Im Ex Ia).
  - intros m Im. destruct (HS m Im) as (X1 & _ & X3). auto.
Qed.
Lemma pending_mono G xi G' xi' g : (forall m, In m (base g) -> In m (g_args xi')) -> (forall m, In m (base g) -> gs G' !! m = gs G !! m) -> pending G xi g -> pending G' xi' g.
Proof.
  intros HS HG [NE NS OK HM]. constructor; auto.
  - constructor; [apply OK|]. intros o m a x Io Im Ex Ia. rewrite HG in Ex by (apply (in_base g o m NS Io Im)). apply (o_args _ _ OK o m a x Io Im Ex Ia).
  - intros m Im. destruct (HM m Im) as (_ & x & Ex & Tx). split; [auto|]. exists x. rewrite HG; auto.
Qed.
Lemma base_small G i xi g r : wf G -> ranked G r -> gs G !! i = Some xi -> pending G xi g -> forall m, In m (base g) -> m < nxt G /\ m <> i.
Proof.
  intros W R Ei [_ _ _ HM] m Im. destruct (HM m Im) as (I1 & x & Ex & _). split; [apply (proj2 W m x Ex)|]. intros ->. assert (1 < i) by (apply (proj2 W i xi Ei)). pose proof (R i xi i Ei I1) as K. rewrite Z.abs_eq in K by lia. specialize (K ltac:(eauto)). lia.
Qed.
Lemma sanitize_all_ok i : forall groups G G' groups' xi, wf G -> acyclic G -> gs G !! i = Some xi -> coalesce_type (g_type xi) = Some (dual u) -> reach G root i -> is_Some (gs G !! root) ->
  (forall g, In g groups -> pending G xi g) -> disjoint groups -> sanitize_all parents i groups G = Some (G', groups') ->
  exists xi', keeps G G' /\ gs G' !! i = Some xi' /\ g_type xi' = g_type xi /\ reach G' root i /\ (forall g, In g groups' -> settled G' i xi' g) /\ disjoint groups' /\
    (forall g m, In g groups' -> In m (base g) -> (exists g0, In g0 groups /\ In m (base g0)) \/ nxt G <= m) /\
    (forall m, (forall g, In g groups -> ~ In m (base g)) -> single G i xi m -> single G' i xi' m) /\ (forall m, m <> i -> m < nxt G -> gs G' !! m = gs G !! m).
Proof.
  induction groups as [|g groups IH]; intros G G' groups' xi W AC Ei Ty RI Sr HP DJ H; cbn [sanitize_all] in H.
  { injection H as <- <-. exists xi. split; [apply keeps_refl; auto|]. split; [auto|]. split; [auto|]. split; [auto|]. split; [intros g []|]. split; [exact I|]. split; [intros g m []|]. auto. }
  apply bind_inv in H as ([G1 g1] & E1 & H). apply bind_inv in H as ([G2 groups2] & E2 & H). injection H as <- <-. destruct DJ as [D1 D2]. assert (AC' := AC). destruct AC' as [r R].
  destruct (sanitize_ok i g G G1 g1 xi W AC Ei Ty RI Sr (HP g ltac:(left; auto)) E1) as (xi1 & a1 & a2 & a3 & a4 & a5 & a6 & a7 & a8 & a9 & a10).
  assert (Sr1 : is_Some (gs G1 !! root)) by (apply (f_root _ _ _ _ (keeps_same_function root G G1 W AC Sr a1))).
  pose proof (k_nxt _ _ a1) as LN1. pose proof (k_wf _ _ a1) as W1. pose proof (k_acyclic _ _ a1 AC) as AC1.
  assert (BS : forall g0, In g0 (g :: groups) -> forall m, In m (base g0) -> m < nxt G /\ m <> i) by (intros g0 I0; apply (base_small G i xi g0 r W R Ei (HP g0 I0))).
  destruct (IH G1 G2 groups2 xi1 W1 AC1 a2 ltac:(rewrite a3; auto) a4 Sr1) as (xi2 & b1 & b2 & b3 & b4 & b5 & b6 & b7 & b8 & b9); [|auto|exact E2|].
  { intros g0 I0. apply (pending_mono G xi G1 xi1); [| |apply HP; right; auto].
    - intros m Im. apply a8; [intros K; apply (D1 m g0 K I0 Im)|]. apply (e_mem _ _ _ (HP g0 ltac:(right; auto)) m Im).
    - intros m Im. destruct (BS g0 ltac:(right; auto) m Im). apply a9; auto. }
  assert (FAR : forall m, In m (base g1) -> forall g0, In g0 groups -> ~ In m (base g0)).
  { intros m Im g0 I0 J. destruct (a7 m Im) as [K|K]; [apply (D1 m g0 K I0 J)|]. destruct (BS g0 ltac:(right; auto) m J). lia. }
  exists xi2. split; [apply (keeps_trans _ _ _ a1 b1)|]. split; [auto|]. split; [congruence|]. split; [auto|]. split; [|split; [|split; [|split]]].
  - intros g0 [<-|I0]; [|auto]. assert (AC1' := AC1). destruct AC1' as [r1 R1]. apply (settled_mono G1 i xi1); [| |split; auto].
    + intros m Im. apply b8; [apply (FAR m Im)|auto].
    + intros m Im. destruct (base_small G1 i xi1 g1 r1 W1 R1 a2 a5 m Im). apply b9; auto.
  - split; [|auto]. intros m g0 Im I0 J. destruct (b7 g0 m I0 J) as [(g' & I' & J')|K]; [apply (FAR m Im g' I' J')|]. assert (AC1' := AC1). destruct AC1' as [r1 R1]. destruct (base_small G1 i xi1 g1 r1 W1 R1 a2 a5 m Im). lia.
  - intros g0 m [<-|I0] Im; [destruct (a7 m Im) as [K|K]; [left; exists g; split; [left; auto|auto]|right; lia]|]. destruct (b7 g0 m I0 Im) as [(g' & I' & J')|K]; [left; exists g'; split; [right; auto|auto]|right; lia].
  - intros m Nm Sm. apply b8; [intros g0 I0; apply Nm; right; auto|]. apply a10; [apply Nm; left; auto|auto].
  - intros m Nm Lm. rewrite b9 by (auto; lia). apply a9; auto.
Qed.
Lemma transform_all_ok i : forall groups G G' xi, wf G -> acyclic G -> gs G !! i = Some xi -> coalesce_type (g_type xi) = Some (dual u) -> reach G root i -> is_Some (gs G !! root) ->
  (forall g, In g groups -> settled G i xi g) -> disjoint groups -> transform_all i u groups G = Some G' -> same_function root G root G'.
Proof.
  induction groups as [|g groups IH]; intros G G' xi W AC Ei Ty RI Sr HS DJ H; cbn [transform_all] in H; [injection H as <-; apply same_refl; auto|].
  apply bind_inv in H as (G1 & E1 & H). destruct DJ as [D1 D2]. destruct (HS g ltac:(left; auto)) as [PD SG]. assert (AC' := AC). destruct AC' as [r R].
  assert (RB : ready G root i u (base g)).
  { constructor; auto.
    - exists xi. split; [auto|]. split; [auto|]. intros m Im. apply (SG m Im).
    - intros m Im. destruct (SG m Im) as (_ & _ & x & Ex & Tx). exists x. split; [auto|]. left. auto.
    - intros m Im. apply (SG m Im). }
  destruct (transform_ok root u Hu (length g) g i (base g) G G1 W AC Sr RB (e_ok _ _ _ PD) (e_nested _ _ _ PD) E1) as [SF [y1 y2 y3 y4]].
  destruct groups as [|h groups'] eqn:EH; [cbn in H; injection H as <-; auto|]. rewrite <- EH in *.
  assert (FAR : forall m g0, In g0 groups -> In m (base g0) -> ~ In m (base g)) by (intros m g0 I0 J K; apply (D1 m g0 K I0 J)).
  assert (BS : forall g0, In g0 (g :: groups) -> forall m, In m (base g0) -> m < nxt G /\ m <> i) by (intros g0 I0; apply (base_small G i xi g0 r W R Ei (proj1 (HS g0 I0)))).
  assert (EX : exists m, In m (base h)) by (destruct (HS h ltac:(subst groups; right; left; auto)) as [[NE _ OK _] _]; destruct h as [|o h]; [contradiction|]; destruct (o_nd _ _ OK o ltac:(left; auto)) as (_ & _ & N2); cbn; destruct o.2 as [|m ?]; [contradiction|exists m; left; auto]).
  destruct EX as [m0 I0]. assert (Ih : In h groups) by (subst groups; left; auto). destruct (HS h ltac:(right; auto)) as [_ Sh].
  destruct (y3 xi m0 Ei (proj1 (Sh m0 I0)) (FAR m0 h Ih I0)) as (x1 & Ex1 & Tx1 & Q1).
  apply (same_trans root G root G1 root G' W SF). apply (IH G1 G' x1); auto; [apply SF|apply SF|rewrite Tx1; auto|apply SF|].
  intros g0 J0. apply (settled_mono G i xi); [| |apply HS; right; auto].
  - intros m Im. destruct (HS g0 ltac:(right; auto)) as [_ S0]. destruct (S0 m Im) as (X1 & X2 & x & Ex & Tx). destruct (BS g0 ltac:(right; auto) m Im) as [B1 B2]. assert (1 < m) by (apply (proj2 W m x Ex)). split; [apply Q1; [auto|apply (FAR m g0 J0 Im)]|]. split.
    + apply y2; auto; [intros K; destruct (BS g ltac:(left; auto) i K); contradiction|apply (FAR m g0 J0 Im)].
    + exists x. rewrite y1; auto. apply (FAR m g0 J0 Im).
  - intros m Im. destruct (BS g0 ltac:(right; auto) m Im). apply y1; auto. apply (FAR m g0 J0 Im).
Qed.
End Clones.

Theorem handle_distributive_ok root u parents sorted arranged best i cands G G' xi : u = kAnd \/ u = kOr ->
  (forall G p g x, reach G root p -> gs G !! p = Some x -> arg_in g x -> In p (parents G g)) ->
  (forall G l, Permutation (sorted G l) l) -> (forall l, Permutation (arranged l) l) ->
  wf G -> acyclic G -> is_Some (gs G !! root) -> reach G root i -> gs G !! i = Some xi -> coalesce_type (g_type xi) = Some (dual u) ->
  List.NoDup cands -> (forall c, In c cands -> In c (g_args xi) /\ exists x, gs G !! c = Some x /\ g_type x = u) ->
  handle_distributive parents sorted arranged best i u cands G = Some G' -> same_function root G root G'.
Proof.
  intros Hu PAR SRT ARR W AC Sr RI Ei Ty ND HC H. unfold handle_distributive in H. destruct cands as [|c0 cands0] eqn:EC; [injection H as <-; apply same_refl; auto|]. rewrite <- EC in *. clear c0 cands0 EC.
  apply bind_inv in H as ([G1 ex] & E1 & H). destruct (filter_distributive_ok u Hu sorted i cands G G1 ex xi SRT W AC Ei Ty ND HC E1) as [K1 X].
  pose proof (keeps_same_function root G G1 W AC Sr K1) as SF1. destruct (Z.ltb_spec (size ex) 2) as [SZ|SZ]; [injection H as <-; auto|]. destruct (X ltac:(lia)) as (NDx & x1 & Ex1 & Ty1 & C1). clear X.
  destruct (group_common_parents 1 (map (fun c => (c, args_of G1 c)) ex) []) as [|o0 opts0] eqn:EO; [injection H as <-; auto|]. rewrite <- EO in *. set (options := group_common_parents 1 _ []) in *. clear EO o0 opts0.
  assert (GO : forall o, In o (arranged options) -> good ex (args_of G1) o).
  { intros o Io. apply (Permutation_in _ (ARR options)) in Io. revert Io. apply group_common_good; [|intros p []]. intros h l I. apply in_map_iff in I as (c & E & Ic). injection E as <- <-. split; [auto|]. split; [intros a Ia; exact Ia|]. destruct (C1 c Ic) as (_ & x & Ex & _). unfold args_of. rewrite Ex. apply (proj2 (k_wf _ _ K1) c x Ex). }
  apply bind_inv in H as (groups & E2 & H). destruct (group_distributive_ok best ex (args_of G1) _ _ _ GO E2) as (g1 & g2 & _).
  apply bind_inv in H as ([G2 groups'] & E3 & H).
  assert (RI1 : reach G1 root i).
  { (* the gates above i are unchanged *)
    unfold filter_distributive in E1. apply bind_inv in E1 as (Ga & Ea & E1). apply bind_inv in E1 as ([Gb exb] & Eb & E1). apply bind_inv in E1 as (Gc & Ec & E1). injection E1 as -> _. destruct AC as [r R].
    assert (FR : forall j, j <> i -> gs G1 !! j = gs G !! j).
    { assert (F1 : forall l G0 G0', erase_all i l G0 = Some G0' -> forall j, j <> i -> gs G0' !! j = gs G0 !! j).
      { induction l as [|a l IHl]; intros G0 G0' E j J; cbn in E; [injection E as <-; auto|]. apply bind_inv in E as (Gx & Ex & E). rewrite (IHl _ _ E j J). apply erase_arg_inv in Ex as (y & _ & _ & HG & _). rewrite HG. apply lookup_insert_ne. auto. }
      assert (F2 : forall k l G0 G0' e, exclusive k i l G0 = Some (G0', e) -> forall j, j <> i -> gs G0' !! j = gs G0 !! j).
      { induction k as [|k IHk]; intros l G0 G0' e E j J; destruct l as [|s l]; cbn [exclusive] in E; try discriminate; try (injection E as <- <-; auto). apply bind_inv in E as (Gx & Ex & E). apply bind_inv in E as ([Gy ey] & Ey & E). injection E as <- <-. rewrite (IHk _ _ _ _ Ey j J). apply (F1 _ _ _ Ex j J). }
      assert (F3 : forall G0 G0', fix_single i G0 = Some G0' -> forall j, j <> i -> gs G0' !! j = gs G0 !! j).
      { intros G0 G0' E j J. unfold fix_single in E. apply bind_inv in E as (y & Ey & E). destruct (_ =? 1); [|injection E as <-; auto]. destruct (g_type y); try discriminate; apply set_type_spec in E as (z & _ & HG & _); rewrite HG; apply lookup_insert_ne; auto. }
      intros j J. rewrite (F3 _ _ Ec j J), (F2 _ _ _ _ _ Eb j J). apply (F1 _ _ _ Ea j J). }
    assert (Y : forall j, reach G root j -> reach G j i -> reach G1 root j); [|apply Y; [auto|constructor]].
    induction 1 as [|k x a H0 IH Ek Ia]; intros Qi; [constructor|]. assert (PK : preach G k i) by (exists x, a; auto). specialize (IH ltac:(apply (preach_reach _ _ _ PK))). destruct (preach_neq G r k i R PK) as [Nk _]. eapply reach_arg; [exact IH| |exact Ia]. rewrite FR; auto. }
  destruct (sanitize_all_ok root parents PAR u Hu i groups G1 G2 groups' x1 (k_wf _ _ K1) (k_acyclic _ _ K1 AC) Ex1 Ty1 RI1 (f_root _ _ _ _ SF1)) as (x2 & k2 & Ex2 & Tx2 & RI2 & ST & DJ & _); [|auto|exact E3|].
  { intros g Ig. destruct (g1 g Ig) as (a1 & a2 & a3). constructor; auto.
    - constructor; [intros o Io; destruct (a3 o Io) as [[b1 b2] b3 b4]; auto|]. intros o m a x Io Im Ex Ia. destruct (a3 o Io) as [_ _ b4]. destruct (b4 m Im) as [_ b5]. specialize (b5 a Ia). unfold args_of in b5. rewrite Ex in b5. auto.
    - intros m Im. destruct g as [|o g]; [contradiction|]. destruct (a3 o ltac:(left; auto)) as [_ _ b4]. destruct (b4 m Im) as [b5 _]. apply (C1 m b5). }
  pose proof (keeps_same_function root G1 G2 (k_wf _ _ K1) (k_acyclic _ _ K1 AC) (f_root _ _ _ _ SF1) k2) as SF2.
  apply (same_trans root G root G1 root G' W SF1). apply (same_trans root G1 root G2 root G' (k_wf _ _ K1) SF2).
  apply (transform_all_ok root u Hu i groups' G2 G' x2 (f_wf _ _ _ _ SF2) (f_acyclic _ _ _ _ SF2) Ex2 ltac:(rewrite Tx2; auto) RI2 (f_root _ _ _ _ SF2) ST DJ H).
Qed.
