(** CoalesceGates (/repo/src/preprocessor.cc:683-745) and the loop around it end, no assertion fails. *)
From stdpp Require Import gmap.
From Coq Require Import Lia Permutation List.
From Verif Require Import Pdag PdagProofs PdagAdd PdagSem PdagKeeps Preproc PreprocProofs Decompose Rooted BoolOpt BoolOptProofs BoolOptEdits Shaped ShapedOps NullGates NullGatesProofs Full NullTotal Coalesce.
Import ListNotations.
Open Scope Z_scope.

(** ** One gate *)
Definition absorbing (x : gate) : Prop := is_Some (coalesce_type (g_type x)).
Lemma absorbing_full t m l : is_Some (coalesce_type t) -> 0 <= m -> List.NoDup l -> 2 <= size l -> constant (Gate t m l) = false -> full (Gate t m l).
Proof. intros [u U] M N S C. split; [auto|]. split; [exact M|]. split; [exact N|]. cbn [g_type g_args g_min]. destruct t; try discriminate; exact S. Qed.
Lemma plain_size x : full x -> absorbing x -> constant x = false /\ 2 <= size (g_args x).
Proof. intros (C & _ & _ & S) [u U]. destruct (g_type x); try discriminate; (split; [apply C; discriminate|exact S]). Qed.

(** What absorbing arguments makes of a gate: a constant, or a gate of the same kind with the arguments. *)
Definition absorbed (G G' : graph) (i : Z) (x : gate) (l : list Z) : Prop :=
  nxt G' = nxt G /\ reg G' = reg G /\ exists x', gs G' = <[i := x']> (gs G) /\
  ((exists s : bool, x' = Gate kNull (g_min x) [if s then 1 else -1] /\ nulls G' = (if reg G then nulls G ++ [i] else nulls G)) \/
   (exists l', x' = Gate (g_type x) (g_min x) l' /\ nulls G' = nulls G /\ List.NoDup l' /\ (forall b, In b l' <-> In b (g_args x) \/ In b l) /\ constant x' = false /\
      forall w, (sum w l' <= sum w l + sum w (g_args x))%nat)).
Lemma absorb_total i : forall l G x, gs G !! i = Some x -> full x -> absorbing x -> (forall b, In b l -> b <> 0 /\ Z.abs b <> 1) ->
  exists G', add_until_constant i l G = Some G' /\ absorbed G G' i x l.
Proof.
  induction l as [|a l IH]; intros G x E F AB OK; cbn [add_until_constant]; destruct (plain_size x F AB) as [C SZ]; pose proof F as (_ & M & N & _).
  { exists G. split; [auto|]. split; [auto|]. split; [auto|]. exists x. split; [rewrite insert_id; auto|]. right. exists (g_args x). split; [destruct x; auto|]. split; [auto|]. split; [auto|]. split; [cbn; tauto|]. split; [auto|]. cbn. lia. }
  assert (OP : open x) by (apply open_full; auto). pose proof (open_asserts x OP) as AS. destruct (OK a ltac:(left; auto)) as [A0 A1].
  assert (DUP : In a (g_args x) -> add_arg i a G = Some G).
  { intros HA. unfold add_arg. rewrite E. cbn [mbind option_bind]. rewrite AS. cbn [negb orb]. destruct (Z.eqb_spec a 0); [contradiction|]. apply has_In in HA. rewrite HA. unfold process_duplicate. rewrite E. cbn [mbind option_bind]. destruct AB as [u U]. destruct (g_type x); try discriminate; (destruct (Z.eqb_spec (size (g_args x)) 1); [lia|auto]). }
  destruct (in_dec Z.eq_dec a (g_args x)) as [HA|HA].
  - rewrite (DUP HA). cbn [mbind option_bind]. rewrite E. cbn [mbind option_bind]. rewrite C. destruct (IH G x E F AB ltac:(intros b Ib; apply OK; right; auto)) as (G' & E' & NX & RG & x' & HG & Q). exists G'. split; [auto|]. split; [auto|]. split; [auto|]. exists x'. split; [auto|].
    destruct Q as [Q|(l' & X' & NU & ND & IN & CX & SU)]; [left; auto|right]. exists l'. split; [auto|]. split; [auto|]. split; [auto|]. split; [|split; [auto|]]; [|intros w; cbn; specialize (SU w); lia].
    intros b. rewrite IN. cbn. split; [tauto|]. intros [?|[<-|?]]; auto.
  - destruct (in_dec Z.eq_dec (- a) (g_args x)) as [HB|HB].
    + assert (EQ : exists s, add_arg i a G = make_constant i s G).
      { unfold add_arg. rewrite E. cbn [mbind option_bind]. rewrite AS. cbn [negb orb]. destruct (Z.eqb_spec a 0); [contradiction|]. apply has_In in HB. apply has_false in HA. rewrite HA, HB. unfold process_complement. rewrite E. cbn [mbind option_bind]. destruct AB as [u U]. destruct (g_type x); try discriminate; eauto. }
      destruct EQ as [s EQ]. rewrite EQ, (make_constant_eq i s G x E C). cbn [mbind option_bind gs]. rewrite lookup_insert. cbn [mbind option_bind].
      assert (CN : constant (Gate kNull (g_min x) [if s then 1 else -1]) = true) by (destruct s; reflexivity). rewrite CN. eexists. split; [reflexivity|]. split; [auto|]. split; [auto|]. eexists. split; [reflexivity|]. left. exists s. auto.
    + assert (EQ : add_arg i a G = Some (put i (with_args x (set_insert a (g_args x))) G)).
      { unfold add_arg. rewrite E. cbn [mbind option_bind]. rewrite AS. cbn [negb orb]. destruct (Z.eqb_spec a 0); [contradiction|]. pose proof HA as HA'. pose proof HB as HB'. apply has_false in HA, HB. rewrite HA, HB. apply (add_new_eq i a G x E AS HA' HB'). }
      rewrite EQ. cbn [mbind option_bind put gs]. rewrite lookup_insert. cbn [mbind option_bind]. set (x1 := with_args x (set_insert a (g_args x))) in *.
      assert (C1 : constant x1 = false) by (apply constant_insert; auto). rewrite C1.
      assert (F1 : full x1) by (apply absorbing_full; [exact AB|exact M|apply insert_NoDup; auto|rewrite size_insert by auto; lia|exact C1]).
      destruct (IH (put i x1 G) x1 ltac:(cbn; apply lookup_insert) F1 AB ltac:(intros b Ib; apply OK; right; auto)) as (G' & E' & NX & RG & x' & HG & Q). exists G'. split; [auto|]. split; [auto|]. split; [auto|]. exists x'. split; [rewrite HG; cbn; apply insert_insert|].
      destruct Q as [(s & X' & NU)|(l' & X' & NU & ND & IN & CX & SU)]; [left; exists s; auto|right]. exists l'. split; [auto|]. split; [auto|]. split; [auto|]. split; [|split; [auto|]].
      * intros b. rewrite IN. unfold x1, with_args. cbn [g_args]. rewrite set_insert_In. cbn. split; [intros [[->|?]|?]; auto|intros [?|[->|?]]; auto].
      * intros w. specialize (SU w). change (g_args x1) with (set_insert a (g_args x)) in SU. rewrite sum_insert in SU by auto. cbn [sum]. lia.
Qed.

(** Gate::CoalesceGate, pdag.cc:230-247 *)
Record coalesced (G G' : graph) (i c : Z) (x y : gate) : Prop := {
  co_nxt : nxt G' = nxt G;
  co_reg : reg G' = reg G;
  co_self : exists x', gs G' = <[i := x']> (gs G) /\ full x' /\
    (g_type x' = kNull /\ constant x' = true /\ (forall b, In b (g_args x') -> Z.abs b = 1) /\ nulls G' = (if reg G then nulls G ++ [i] else nulls G) \/
     g_type x' = g_type x /\ constant x' = false /\ nulls G' = nulls G /\ forall b, In b (g_args x') <-> (In b (g_args x) \/ In b (g_args y)) /\ b <> c);
  co_lighter : lighter G G' i;
  co_ranked : forall r, ranked G r -> ranked G' r }.
Lemma rank_not_self G c y : wf G -> acyclic G -> gs G !! c = Some y -> ~ In c (g_args y).
Proof. intros W [r R] E I. assert (1 < c) by (apply W in E; lia). pose proof (R c y c E I) as Q. rewrite Z.abs_eq in Q by lia. specialize (Q ltac:(eauto)). lia. Qed.
Lemma coalesce_total G i c l x y u : wf G -> acyclic G -> full_graph G -> gs G !! i = Some x -> gs G !! c = Some y -> In c (g_args x) ->
  coalesce_type (g_type x) = Some u -> g_type y = u -> Permutation l (g_args y) ->
  exists G', coalesce_gate i c l G = Some G' /\ coalesced G G' i c x y.
Proof.
  intros W AC FG Ex Ey Ic Ht Hu PL. pose proof (proj2 FG i x Ex) as [Ki Fx]. pose proof (proj2 FG c y Ey) as [Kc Fy]. assert (AX : absorbing x) by (eexists; eauto).
  assert (AY : absorbing y) by (unfold absorbing; rewrite Hu; destruct (g_type x); try discriminate; injection Ht as <-; cbn; eauto).
  destruct (plain_size x Fx AX) as [Cx Sx]. destruct (plain_size y Fy AY) as [Cy Sy]. pose proof (rank_not_self G c y W AC Ey) as NS.
  assert (NE : i <> c) by (intros ->; rewrite Ex in Ey; injection Ey as <-; contradiction).
  destruct (proj2 W c y Ey) as (_ & Ny & Ay). destruct (proj2 W i x Ex) as (_ & Nx & Ax).
  assert (OK : forall b, In b l -> b <> 0 /\ Z.abs b <> 1).
  { intros b Ib. apply (Permutation_in b PL) in Ib. split; [apply (Ay b Ib)|]. intros Q. enough (constant y = true) by congruence. unfold constant. apply orb_true_iff. rewrite !has_In. destruct (Z.eq_dec b 1) as [->|]; [left; auto|right]. replace (-1) with b by lia. auto. }
  destruct (absorb_total i l G x Ex Fx AX OK) as (G1 & E1 & NX & RG & x1 & HG1 & Q).
  unfold coalesce_gate. rewrite Ex, Ey. cbn [mbind option_bind]. pose proof Ic as Ic'. apply has_In in Ic'. rewrite Cx, Ic', Cy. destruct (Z.eqb_spec (size (g_args y)) 0); [lia|]. cbn [negb orb]. rewrite E1. cbn [mbind option_bind]. assert (Ex1 : gs G1 !! i = Some x1) by (rewrite HG1; apply lookup_insert). rewrite Ex1. cbn [mbind option_bind].
  pose proof Fx as (_ & Mx & _).
  assert (RK : forall G' x', gs G' = <[i := x']> (gs G) -> (forall b, In b (g_args x') -> Z.abs b = 1 \/ In b (g_args x) \/ In b (g_args y)) -> forall r, ranked G r -> ranked G' r).
  { intros G' x' HG SUB r R j z a Ez Ia Sa. assert (Sa' : is_Some (gs G !! Z.abs a)) by (rewrite HG in Sa; destruct (Z.eq_dec i (Z.abs a)) as [<-|N]; [eauto|rewrite lookup_insert_ne in Sa; auto]).
    rewrite HG in Ez. apply lookup_insert_Some in Ez as [[<- <-]|[N Ez]]; [|eapply R; eauto]. destruct (SUB a Ia) as [Q1|[Q1|Q1]]; [rewrite Q1 in Sa'; destruct Sa' as [z Ez]; apply W in Ez; lia|eapply R; eauto|]. pose proof (R c y a Ey Q1 Sa'). pose proof (R i x c Ex Ic). rewrite Z.abs_eq in H0 by lia. specialize (H0 ltac:(eauto)). lia. }
  assert (LT : forall G' x', gs G' = <[i := x']> (gs G) -> (forall w w', (forall j, 1 <= w' j)%nat -> w' 1 = 1%nat -> (forall b, In b (g_args x) \/ In b (g_args y) -> (w' (Z.abs b) <= w (Z.abs b))%nat) -> w c = (1 + sum w (g_args y))%nat -> (gate_weight (g_type x') (sum w' (g_args x')) < 1 + sum w (g_args x))%nat) -> lighter G G' i).
  { intros G' x' HG IMP. apply (lighter_intro G G' i x); auto; [intros j Nj _; rewrite HG, lookup_insert_ne; auto|]. intros w w' HW HW' LE. rewrite (weight_at G w i x HW Ex), (weight_at G' w' i x' HW') by (rewrite HG; apply lookup_insert).
    assert (TX : gate_weight (g_type x) (sum w (g_args x)) = (1 + sum w (g_args x))%nat) by (destruct (g_type x); try discriminate; reflexivity). rewrite TX. apply (IMP w w').
    - intros j. apply (weight_pos G' w' j HW').
    - apply (weight_none G' w' 1 HW'). rewrite HG, lookup_insert_ne by lia. destruct (gs G !! 1) eqn:Q1; [apply W in Q1; lia|auto].
    - intros b Ib. pose proof (weight_arg G w i x c HW Ex Ic) as WC. rewrite Z.abs_eq in WC by lia. destruct Ib as [Ib|Ib]; [apply LE; [apply (Ax b Ib)|apply (weight_arg G w i x b HW Ex Ib)]|]. apply LE; [apply (Ay b Ib)|]. pose proof (weight_arg G w c y b HW Ey Ib). lia.
    - rewrite (weight_at G w c y HW Ey). destruct AY as [v V]. destruct (g_type y); try discriminate; reflexivity. }
  destruct Q as [(s & X1 & NU)|(l' & X1 & NU & ND & IN & CX & SU)].
  - assert (C1 : constant x1 = true) by (subst x1; destruct s; reflexivity). rewrite C1. exists G1. split; [auto|]. constructor; [auto|auto| | |].
    + exists x1. split; [auto|]. split; [subst x1; apply constant_null; auto|]. left. subst x1. split; [auto|]. split; [auto|]. split; [|auto]. intros b [<-|[]]. destruct s; reflexivity.
    + apply (LT G1 x1 HG1). intros w w' P W1 LE WC. subst x1. cbn [g_type g_args gate_weight]. assert (w' (Z.abs (if s then 1 else -1)) = 1)%nat as Q1 by (destruct s; exact W1). cbn [sum]. rewrite Q1.
      pose proof (sum_in w c (g_args x) Ic) as S1. rewrite Z.abs_eq in S1 by lia. assert (S2 : (2 <= sum w (g_args y))%nat); [|lia].
      unfold size in Sy. destruct (g_args y) as [|b1 [|b2 t]] eqn:EY; [cbn in Sy; lia|cbn in Sy; lia|]. cbn [sum]. pose proof (LE b1 ltac:(right; left; auto)). pose proof (LE b2 ltac:(right; right; left; auto)). pose proof (P (Z.abs b1)). pose proof (P (Z.abs b2)). lia.
    + apply (RK G1 x1 HG1). subst x1. intros b [<-|[]]. left. destruct s; reflexivity.
  - rewrite CX. assert (Ic1 : In c (g_args x1)) by (subst x1; cbn [g_args]; apply IN; auto). rewrite (erase_arg_eq i c G1 x1 Ex1 Ic1). eexists. split; [reflexivity|].
    set (x2 := with_args x1 (set_erase c (g_args x1))). assert (HG2 : gs (put i x2 G1) = <[i := x2]> (gs G)) by (cbn; rewrite HG1; apply insert_insert).
    assert (A2 : g_args x2 = set_erase c l') by (subst x1; reflexivity). assert (I2 : forall b, In b (g_args x2) <-> (In b (g_args x) \/ In b (g_args y)) /\ b <> c).
    { intros b. rewrite A2, set_erase_In, IN. split; [intros [[?|Q] ?]; split; auto; right; apply (Permutation_in b PL Q)|]. intros [[?|Q] ?]; split; auto. right. apply (Permutation_in b (Permutation_sym PL) Q). }
    assert (T2 : g_type x2 = g_type x) by (subst x1; reflexivity). assert (M2 : g_min x2 = g_min x) by (subst x1; reflexivity). assert (N2 : List.NoDup (g_args x2)) by (rewrite A2; apply set_erase_NoDup; auto). assert (C2 : constant x2 = false) by (apply constant_erase, CX).
    constructor; [exact NX|exact RG| | |].
    + exists x2. split; [exact HG2|]. split; [|right; auto]. assert (X2 : x2 = Gate (g_type x2) (g_min x2) (g_args x2)) by (destruct x2; auto). rewrite X2. apply absorbing_full; [rewrite T2; exact AX|rewrite M2; exact Mx|exact N2| |rewrite <- X2; exact C2].
      unfold size in *. assert (length (g_args y) <= length (g_args x2))%nat; [|lia]. apply NoDup_incl_length; [exact Ny|]. intros b Ib. apply I2. split; [auto|]. intros ->. contradiction.
    + apply (LT _ x2 HG2). intros w w' P W1 LE WC. assert (gate_weight (g_type x2) (sum w' (g_args x2)) = (1 + sum w' (g_args x2))%nat) as -> by (rewrite T2; destruct (g_type x); try discriminate; reflexivity).
      assert (sum w' l' = w' (Z.abs c) + sum w' (g_args x2))%nat as D1 by (rewrite A2; apply sum_erase; [auto|apply IN; auto]).
      specialize (SU w'). rewrite (sum_perm w' l (g_args y) PL) in SU. assert (B1 : (sum w' (g_args y) <= sum w (g_args y))%nat) by (apply sum_mono; auto). rewrite (sum_erase w' c (g_args x) Nx Ic) in SU. rewrite (sum_erase w c (g_args x) Nx Ic).
      assert (B2 : (sum w' (set_erase c (g_args x)) <= sum w (set_erase c (g_args x)))%nat) by (apply sum_mono; intros b Ib; apply set_erase_In in Ib as [Ib _]; auto). rewrite (Z.abs_eq c) in * by lia. lia.
    + apply (RK _ x2 HG2). intros b Ib. apply I2 in Ib. tauto.
Qed.

(** ** The traversal *)
(** Steps of the loop: a bypassed NULL gate, an absorbed gate, the registration of NULL gates. *)
Inductive rewrites (module : Z -> bool) (G G' : graph) : Prop :=
| rw_join : joins G G' -> rewrites module G G'
| rw_coalesce i c l x y u : gs G !! i = Some x -> gs G !! c = Some y -> module c = false -> coalesce_type (g_type x) = Some u -> g_type y = u -> Permutation l (g_args y) -> coalesce_gate i c l G = Some G' -> rewrites module G G'
| rw_registry : gs G' = gs G -> nxt G' = nxt G -> rewrites module G G'.
Lemma join_rewrites module G H : rtc joins G H -> rtc (rewrites module) G H.
Proof. induction 1 as [|G1 G2 G3 J _ IH]; [constructor|]. eapply rtc_l; [apply rw_join; exact J|exact IH]. Qed.
Lemma reach_frame G G' r root i : ranked G r -> is_Some (gs G !! i) -> (forall j, (r i < r j)%nat -> gs G' !! j = gs G !! j) ->
  reach G root i -> reach G' root i.
Proof.
  intros R Si FR RC. assert (K : forall k, reach G root k -> is_Some (gs G !! k) -> (r i <= r k)%nat -> reach G' root k); [|apply K; auto].
  intros k RK. induction RK as [|j x a RJ IH E I]; intros Sk L; [constructor|]. pose proof (R j x a E I Sk). eapply (reach_arg G' root j x a); [apply IH; [eauto|lia]|rewrite FR by lia; exact E|exact I].
Qed.

Section Visit.
Context (order : graph -> Z -> list Z) (arranged : graph -> Z -> list Z) (module : Z -> bool) (single : graph -> Z -> bool) (common : bool).
Context (ORDER : forall G i x, gs G !! i = Some x -> Permutation (order G i) (List.filter (is_gate G) (g_args x))).
Context (ARR : forall G i x, gs G !! i = Some x -> Permutation (arranged G i) (g_args x)).
Context (root : Z) (r : Z -> nat) (G0 : graph).

(** An argument the gate is to absorb: positive, of the matching connective, not a module and, unless
    common gates are wanted too, without other parents. *)
Definition absorbs (G : graph) (i c : Z) : Prop :=
  exists x y, gs G !! i = Some x /\ In c (g_args x) /\ gs G !! c = Some y /\ coalesce_type (g_type x) = Some (g_type y) /\
    module c = false /\ (common = true \/ single G c = true).
Record inv (G : graph) : Prop := {
  v_wf : wf G;
  v_full : full_graph G;
  v_ranked : ranked G r;
  v_root : 1 < root < nxt G;
  v_nulls : forall g, In g (nulls G) -> exists y, gs G !! g = Some y /\ g_type y = kNull;
  v_reg : reg G = true;
  v_steps : rtc (rewrites module) G0 G }.
Definition smaller (G G' : graph) (ch : bool) : Prop :=
  if ch then (forall w w', weighs G w -> weighs G' w' -> (w' root < w root)%nat) else G' = G.
Lemma smaller_trans G1 G2 G3 b1 b2 : acyclic G2 -> smaller G1 G2 b1 -> smaller G2 G3 b2 -> smaller G1 G3 (b1 || b2).
Proof.
  intros AC S1 S2. destruct b1; cbn in S1; [|subst G2; exact S2]. cbn. destruct b2; cbn in S2; [|subst G3; exact S1].
  intros w w' H H'. destruct (weighs_exists G2 AC) as [v V]. specialize (S1 w v H V). specialize (S2 v w' V H'). lia.
Qed.
(** Marked gates whose arguments are marked and that absorb nothing. *)
Definition flat_at (G : graph) (C : gset Z) (j : Z) : Prop :=
  forall x, gs G !! j = Some x -> (forall a, In a (g_args x) -> is_Some (gs G !! Z.abs a) -> Z.abs a ∈ C) /\ forall c, ~ absorbs G j c.
Record visited (G : graph) (C : gset Z) (top : nat) (G' : graph) (C' : gset Z) (ch : bool) : Prop := {
  vi_inv : inv G';
  vi_keeps : keeps G G';
  vi_nxt : nxt G' = nxt G;
  vi_marks : C ⊆ C';
  vi_above : forall j, (top <= r j)%nat -> gs G' !! j = gs G !! j;
  vi_old : forall j, j ∈ C -> gs G' !! j = gs G !! j;
  vi_smaller : smaller G G' ch;
  vi_flat : ch = false -> forall j, j ∈ C' -> j ∉ C -> flat_at G C' j }.
Lemma inv_acyclic G : inv G -> acyclic G. Proof. intros V. exists r. apply V. Qed.
Lemma flat_mono G C C' j : C ⊆ C' -> flat_at G C j -> flat_at G C' j.
Proof. intros S F x E. destruct (F x E) as [A B]. split; [|auto]. intros a I Sa. apply S, A; auto. Qed.
Lemma visited_refl G C top : inv G -> visited G C top G C false.
Proof. intros V. constructor; auto; [apply keeps_refl, V|cbn; auto|intros _ j J N; contradiction]. Qed.
Lemma visited_trans G1 C1 t G2 C2 b1 G3 C3 b2 : visited G1 C1 t G2 C2 b1 -> visited G2 C2 t G3 C3 b2 -> visited G1 C1 t G3 C3 (b1 || b2).
Proof.
  intros A B. constructor; [apply B|apply (keeps_trans _ _ _ (vi_keeps _ _ _ _ _ _ A) (vi_keeps _ _ _ _ _ _ B))|rewrite (vi_nxt _ _ _ _ _ _ B); apply A| | | | |].
  - etransitivity; [apply (vi_marks _ _ _ _ _ _ A)|apply (vi_marks _ _ _ _ _ _ B)].
  - intros j L. rewrite (vi_above _ _ _ _ _ _ B) by auto. apply (vi_above _ _ _ _ _ _ A). auto.
  - intros j J. rewrite (vi_old _ _ _ _ _ _ B) by (apply (vi_marks _ _ _ _ _ _ A); auto). apply (vi_old _ _ _ _ _ _ A). auto.
  - eapply smaller_trans; [apply inv_acyclic, (vi_inv _ _ _ _ _ _ A)|apply A|apply B].
  - intros Q j J N. apply orb_false_iff in Q as [-> ->]. pose proof (vi_smaller _ _ _ _ _ _ A) as S1. cbn in S1. subst G2. destruct (decide (j ∈ C2)) as [J2|J2].
    + apply (flat_mono G1 C2 C3); [apply (vi_marks _ _ _ _ _ _ B)|]. apply (vi_flat _ _ _ _ _ _ A); auto.
    + apply (vi_flat _ _ _ _ _ _ B); auto.
Qed.
Lemma visited_weaken G C t t' G' C' b : (t <= t')%nat -> visited G C t G' C' b -> visited G C t' G' C' b.
Proof. intros L A. constructor; try apply A. intros j J. apply (vi_above _ _ _ _ _ _ A). lia. Qed.

Lemma joinable_spec t G a y : gs G !! Z.abs a = Some y -> full_graph G -> joinable module single common t G a y = true <->
  0 < a /\ coalesce_type t = Some (g_type y) /\ module (Z.abs a) = false /\ (common = true \/ single G (Z.abs a) = true).
Proof.
  intros E FG. unfold joinable. destruct (coalesce_type t) as [u|] eqn:T; [|split; [discriminate|intros (_ & Q & _); discriminate]]. rewrite !andb_true_iff, !negb_true_iff, orb_true_iff, Z.ltb_lt. split.
  - intros ((((C & A) & M) & S) & U). split; [auto|]. split; [f_equal; destruct u, (g_type y); try discriminate U; reflexivity|]. auto.
  - intros (A & Q & M & S). injection Q as ->. split; [|destruct (g_type y); reflexivity]. split; [split; [split|]|]; auto. apply (proj2 (proj2 FG _ y E)). intros Q. rewrite Q in T. destruct t; discriminate.
Qed.

(** 736-741: the collected gates are joined. *)
Lemma join_each_total i : forall js G x u, inv G -> reach G root i -> gs G !! i = Some x -> coalesce_type (g_type x) = Some u -> List.NoDup js ->
  (forall c, In c js -> In c (g_args x) /\ exists y, gs G !! c = Some y /\ g_type y = u /\ module c = false) ->
  exists G', join_each arranged i js G = Some G' /\ inv G' /\ keeps G G' /\ nxt G' = nxt G /\ (forall j, j <> i -> gs G' !! j = gs G !! j) /\ smaller G G' (negb (bool_decide (js = []))).
Proof.
  induction js as [|c js IH]; intros G x u V RC Ex Ht ND HJ; cbn [join_each].
  { exists G. split; [auto|]. split; [auto|]. split; [apply keeps_refl, V|]. split; [auto|]. split; [auto|]. rewrite bool_decide_eq_true_2 by auto. reflexivity. }
  destruct (HJ c ltac:(left; auto)) as (Ic & y & Ey & Ty & MO). pose proof (inv_acyclic G V) as AC.
  destruct (coalesce_total G i c (arranged G c) x y u (v_wf _ V) AC (v_full _ V) Ex Ey Ic Ht Ty (ARR G c y Ey)) as (G1 & E1 & CO). rewrite E1. cbn [mbind option_bind].
  destruct (co_self _ _ _ _ _ _ CO) as (x1 & HG1 & F1 & Q). assert (Ex1 : gs G1 !! i = Some x1) by (rewrite HG1; apply lookup_insert). rewrite Ex1. cbn [mbind option_bind].
  pose proof (coalesce_keeps i c (arranged G c) G G1 x y u (v_wf _ V) AC Ex Ey Ht Ty (ARR G c y Ey) E1) as K1.
  assert (OTH : forall j, j <> i -> gs G1 !! j = gs G !! j) by (intros j Nj; rewrite HG1, lookup_insert_ne; auto).
  assert (V1 : inv G1).
  { constructor; [apply K1| |apply CO, V|rewrite (co_nxt _ _ _ _ _ _ CO); apply V| |rewrite (co_reg _ _ _ _ _ _ CO); apply V|].
    - split; [rewrite (co_nxt _ _ _ _ _ _ CO); apply V|]. intros j z Ez. rewrite (co_nxt _ _ _ _ _ _ CO). destruct (Z.eq_dec j i) as [->|Nj]; [rewrite Ex1 in Ez; injection Ez as <-; split; [apply (proj2 (v_full _ V) i x Ex)|auto]|]. rewrite OTH in Ez by auto. apply (proj2 (v_full _ V) j z Ez).
    - intros g Ig. assert (In g (nulls G) \/ g = i /\ g_type x1 = kNull) as [Jg|[-> Tg]]; [| |eauto].
      { destruct Q as [(T & _ & _ & NU)|(_ & _ & NU & _)]; rewrite NU in Ig; [|auto]. rewrite (v_reg _ V) in Ig. apply in_app_iff in Ig as [?|[<-|[]]]; auto. }
      destruct (v_nulls _ V g Jg) as (z & Ez & Tz). exists z. split; [|auto]. rewrite OTH; auto. intros ->. rewrite Ex in Ez. injection Ez as <-. rewrite Tz in Ht. discriminate.
    - eapply rtc_r; [apply V|]. eapply (rw_coalesce module G G1 i c (arranged G c) x y u); eauto. }
  assert (S1 : smaller G G1 true) by (intros w w' HW HW'; apply (co_lighter _ _ _ _ _ _ CO w w' HW HW'); [apply V|exact RC]).
  rewrite bool_decide_eq_false_2 by discriminate. cbn [negb].
  assert (DONE : constant x1 = true -> exists G', Some G1 = Some G' /\ inv G' /\ keeps G G' /\ nxt G' = nxt G /\ (forall j, j <> i -> gs G' !! j = gs G !! j) /\ smaller G G' true).
  { intros _. exists G1. split; [auto|]. split; [auto|]. split; [auto|]. split; [apply CO|]. auto. }
  destruct Q as [(T1 & C1 & _)|(T1 & C1 & _ & I1)]; rewrite C1; [apply DONE; auto|].
  destruct (plain_size x1 F1 ltac:(unfold absorbing; rewrite T1; eauto)) as [_ S2]. destruct (Z.leb_spec (size (g_args x1)) 1); [lia|].
  inversion ND as [|? ? NI ND']; subst. destruct (IH G1 x1 (g_type y) V1) as (G2 & E2 & V2 & K2 & N2 & O2 & S3); auto.
  - eapply (reach_frame G G1 r root i); [apply V|eauto| |exact RC]. intros j L. apply OTH. intros ->. lia.
  - rewrite T1. auto.
  - intros d Jd. destruct (HJ d ltac:(right; auto)) as (Id & z & Ez & Tz). split; [apply I1; split; [auto|intros ->; contradiction]|]. exists z. split; [|auto]. rewrite OTH; auto. intros ->. rewrite Ex in Ez. injection Ez as <-. eapply (rank_not_self G i x (v_wf _ V) AC Ex Id).
  - exists G2. split; [auto|]. split; [auto|]. split; [apply (keeps_trans _ _ _ K1 K2)|]. split; [rewrite N2; apply CO|]. split; [intros j Nj; rewrite O2, OTH; auto|]. apply (smaller_trans G G1 G2 true _ (inv_acyclic _ V1) S1 S3).
Qed.

Definition visit := coalesce_visit order arranged module single common.
Definition visit_ok (fuel : nat) : Prop := forall i G C, inv G -> is_Some (gs G !! i) -> reach G root i -> (r i < fuel)%nat ->
  exists ch G' C', visit fuel i G C = Some (ch, G', C') /\ visited G C (S (r i)) G' C' ch /\ i ∈ C'.
Lemma keeps_gate G G' j : keeps G G' -> 1 < j < nxt G -> is_Some (gs G !! j) -> is_Some (gs G' !! j).
Proof. intros K L [x E]. destruct (gs G' !! j) eqn:Q; [eauto|]. apply (k_vars _ _ K) in Q; [congruence|auto]. Qed.
Lemma collect_total fuel i x : visit_ok fuel -> forall l G C, inv G -> reach G root i -> gs G !! i = Some x -> i ∈ C ->
  (forall a, In a l -> In a (g_args x) /\ is_Some (gs G !! Z.abs a)) -> List.NoDup l -> (r i <= fuel)%nat ->
  exists ch js G' C', collect module single common (visit fuel) (g_type x) l G C = Some (ch, js, G', C') /\ visited G C (r i) G' C' ch /\
    (forall a, In a l -> Z.abs a ∈ C') /\ List.NoDup js /\ (forall c, In c js -> In c l /\ exists y, gs G' !! c = Some y /\ coalesce_type (g_type x) = Some (g_type y) /\ module c = false) /\
    (ch = false -> forall a, In a l -> absorbs G i a -> In a js).
Proof.
  intros IHV. induction l as [|a l IH]; intros G C V RC Ex IC HL ND LF; cbn [collect].
  { exists false, [], G, C. split; [auto|]. split; [apply visited_refl; auto|]. split; [intros a []|]. split; [constructor|]. split; [intros c []|intros _ a []]. }
  destruct (HL a ltac:(left; auto)) as [Ia Sa]. pose proof (v_ranked _ V i x a Ex Ia Sa) as RA.
  destruct (IHV (Z.abs a) G C V Sa) as (ch1 & G1 & C1 & E1 & VI1 & M1); [eapply reach_arg; eauto|lia|]. rewrite E1. cbn [mbind option_bind].
  apply (visited_weaken _ _ _ (r i)) in VI1; [|lia]. pose proof (vi_inv _ _ _ _ _ _ VI1) as V1.
  assert (SG : forall j, is_Some (gs G !! j) -> is_Some (gs G1 !! j)) by (intros j Sj; apply (keeps_gate G G1 j (vi_keeps _ _ _ _ _ _ VI1)); auto; destruct Sj as [z Ez]; apply (v_wf _ V) in Ez; lia).
  destruct (SG _ Sa) as [y Ey]. rewrite Ey. cbn [mbind option_bind]. inversion ND as [|? ? NI ND']; subst.
  destruct (IH G1 C1) as (ch2 & js & G2 & C2 & E2 & VI2 & M2 & NJ & HJ & FL); auto.
  - eapply (reach_frame G G1 r root i); [apply V|eauto| |exact RC]. intros j L. apply (vi_above _ _ _ _ _ _ VI1). lia.
  - rewrite (vi_old _ _ _ _ _ _ VI1) by auto. exact Ex.
  - apply (vi_marks _ _ _ _ _ _ VI1). auto.
  - intros b Ib. destruct (HL b ltac:(right; auto)) as [Q1 Q2]. split; [auto|]. apply SG. auto.
  - rewrite E2. cbn [mbind option_bind]. set (j := joinable module single common (g_type x) G1 a y). pose proof (joinable_spec (g_type x) G1 a y Ey (v_full _ V1)) as JS. fold j in JS.
    exists (ch1 || ch2), (if j then Z.abs a :: js else js), G2, C2. split; [auto|]. split; [apply (visited_trans G C (r i) G1 C1 ch1 G2 C2 ch2 VI1 VI2)|]. split; [|split; [|split]].
    + intros b [<-|Ib]; [apply (vi_marks _ _ _ _ _ _ VI2); auto|apply M2; auto].
    + destruct j eqn:J; [|auto]. destruct (proj1 JS eq_refl) as (PA & _). constructor; [|auto]. rewrite Z.abs_eq by lia. intros Q. apply HJ in Q as [Q _]. contradiction.
    + intros c Jc. destruct j eqn:J; [|apply HJ in Jc as [Q1 Q2]; split; [right; auto|auto]]. destruct Jc as [<-|Jc]; [|apply HJ in Jc as [Q1 Q2]; split; [right; auto|auto]].
      destruct (proj1 JS eq_refl) as (PA & CT & MO & _). split; [left; lia|]. exists y. rewrite (vi_old _ _ _ _ _ _ VI2) by auto. auto.
    + intros Q b [<-|Ib] AB; apply orb_false_iff in Q as [-> ->]; pose proof (vi_smaller _ _ _ _ _ _ VI1) as S1; cbn in S1; subst G1.
      * destruct AB as (x0 & y0 & E0 & _ & E3 & CT & MO & SI). rewrite Ex in E0. injection E0 as <-. assert (1 < a) by (apply (v_wf _ V) in E3; lia). rewrite (Z.abs_eq a) in * by lia. rewrite E3 in Ey. injection Ey as ->.
        assert (j = true) as -> by (apply JS; split; [lia|auto]). left. auto.
      * pose proof (FL eq_refl b Ib AB). destruct j; [right|]; auto.
Qed.
Lemma order_in G i x a : gs G !! i = Some x -> In a (order G i) <-> In a (g_args x) /\ is_Some (gs G !! Z.abs a).
Proof.
  intros E. pose proof (ORDER G i x E) as P. split.
  - intros I. apply (Permutation_in a P) in I. apply filter_In in I as [I Q]. split; [auto|]. unfold is_gate in Q. destruct (gs G !! Z.abs a); [eauto|discriminate].
  - intros [I S]. apply (Permutation_in a (Permutation_sym P)), filter_In. split; [auto|]. unfold is_gate. destruct S as [z ->]. reflexivity.
Qed.
Lemma visit_total : forall fuel, visit_ok fuel.
Proof.
  induction fuel as [|fuel IH]; intros i G C V Si RC LF; [lia|]. unfold visit. cbn [coalesce_visit]. destruct (bool_decide_reflect (i ∈ C)) as [IC|IC].
  { exists false, G, C. split; [auto|]. split; [apply visited_refl; auto|auto]. }
  destruct Si as [x Ex]. rewrite Ex. cbn [mbind option_bind]. destruct (proj2 (v_full _ V) i x Ex) as [Ki Fx].
  assert (GOOD : match coalesce_type (g_type x) with Some _ => size (g_args x) <=? 1 | None => size (g_args x) =? 0 end = false).
  { pose proof Fx as (_ & M & _ & S). destruct (g_type x); cbn [coalesce_type]; first [apply Z.leb_gt|apply Z.eqb_neq]; lia. }
  rewrite GOOD. fold visit.
  destruct (collect_total fuel i x IH (order G i) G ({[i]} ∪ C) V RC Ex ltac:(set_solver)) as (ch & js & G1 & C1 & E1 & VI1 & M1 & NJ & HJ & FL).
  { intros a I. apply (order_in G i x a Ex) in I. auto. }
  { apply (Permutation_NoDup (Permutation_sym (ORDER G i x Ex))), List.NoDup_filter, Fx. }
  { lia. }
  rewrite E1. cbn [mbind option_bind]. pose proof (vi_inv _ _ _ _ _ _ VI1) as V1.
  assert (Ex1 : gs G1 !! i = Some x) by (rewrite (vi_old _ _ _ _ _ _ VI1) by set_solver; exact Ex).
  assert (RC1 : reach G1 root i) by (eapply (reach_frame G G1 r root i); [apply V|eauto| |exact RC]; intros j L; apply (vi_above _ _ _ _ _ _ VI1); lia).
  assert (J2 : exists G2, join_each arranged i js G1 = Some G2 /\ inv G2 /\ keeps G1 G2 /\ nxt G2 = nxt G1 /\ (forall j, j <> i -> gs G2 !! j = gs G1 !! j) /\ smaller G1 G2 (negb (bool_decide (js = [])))).
  { destruct js as [|c js]; [exists G1; split; [auto|]; split; [auto|]; split; [apply keeps_refl, V1|]; split; [auto|]; split; [auto|]; rewrite bool_decide_eq_true_2 by auto; reflexivity|].
    destruct (HJ c ltac:(left; auto)) as (_ & y0 & _ & CT & _). apply (join_each_total i (c :: js) G1 x (g_type y0) V1 RC1 Ex1 CT NJ).
    intros d Jd. destruct (HJ d Jd) as (Od & y & Ey & Ty & MO). split; [apply (order_in G i x d Ex) in Od; tauto|]. exists y. split; [auto|]. split; [congruence|auto]. }
  destruct J2 as (G2 & E2 & V2 & K2 & N2 & O2 & S2). rewrite E2. cbn [mbind option_bind]. exists (ch || negb (bool_decide (js = []))), G2, C1. split; [auto|].
  assert (MI : i ∈ C1) by (apply (vi_marks _ _ _ _ _ _ VI1); set_solver). split; [|auto].
  constructor; [auto|apply (keeps_trans _ _ _ (vi_keeps _ _ _ _ _ _ VI1) K2)|rewrite N2; apply VI1| | | | |].
  - pose proof (vi_marks _ _ _ _ _ _ VI1). set_solver.
  - intros j L. rewrite O2 by (intros ->; lia). apply (vi_above _ _ _ _ _ _ VI1). lia.
  - intros j Jj. rewrite O2 by (intros ->; contradiction). apply (vi_old _ _ _ _ _ _ VI1). set_solver.
  - apply (smaller_trans G G1 G2 ch _ (inv_acyclic _ V1) (vi_smaller _ _ _ _ _ _ VI1) S2).
  - intros Q j Jj NC. apply orb_false_iff in Q as [-> Q]. apply negb_false_iff, bool_decide_eq_true in Q. subst js. destruct (Z.eq_dec j i) as [->|Nj]; [|apply (vi_flat _ _ _ _ _ _ VI1); auto; set_solver].
    intros z Ez. rewrite Ex in Ez. injection Ez as <-. split.
    + intros a I Sa. apply M1. apply (order_in G i x a Ex). auto.
    + intros c AB. pose proof AB as (z & y & Ez & Ic & Ey & _). rewrite Ex in Ez. injection Ez as <-. apply (FL eq_refl c); [|exact AB]. apply (order_in G i x c Ex). split; [auto|]. rewrite Z.abs_eq by (apply (v_wf _ V) in Ey; lia). eauto.
Qed.
End Visit.

(** ** CoalesceGates and its repetition *)
Section Whole.
Context (parents : graph -> Z -> list Z) (expired : graph -> Z -> bool).
Context (order : graph -> Z -> list Z) (arranged : graph -> Z -> list Z) (module : Z -> bool) (single : graph -> Z -> bool) (common : bool).
Context (ORDER : forall G i x, gs G !! i = Some x -> Permutation (order G i) (List.filter (is_gate G) (g_args x))).
Context (ARR : forall G i x, gs G !! i = Some x -> Permutation (arranged G i) (g_args x)).
Context (root : Z) (MEMORY : forall G g p, In p (parents G g) -> reach G root p /\ exists x, gs G !! p = Some x /\ arg_in g x).
Context (G0 : graph) (NC : forall H, rtc (rewrites module) G0 H -> no_clash H).
Definition flattened (G : graph) : Prop := (exists x, gs G !! root = Some x /\ constant x = true) \/ forall i c, reach G root i -> ~ absorbs module single common G i c.

Lemma coalesce_gates_total G w fuel : rtc (rewrites module) G0 G -> wf G -> acyclic G -> full_graph G -> is_Some (gs G !! root) -> nulls G = [] -> reg G = true -> weighs G w -> (w root < fuel)%nat ->
  exists ch G', coalesce_gates parents expired order arranged module single common fuel root G = Some (ch, G') /\
    full_graph G' /\ keeps G G' /\ nulls G' = [] /\ reg G' = true /\ rtc (rewrites module) G0 G' /\ smaller root G G' ch /\ (ch = false -> flattened G).
Proof.
  intros RW W AC FG SR NU RG HW LF. unfold coalesce_gates. rewrite NU. destruct SR as [x Ex]. rewrite Ex. cbn [mbind option_bind]. assert (LR : 1 < root < nxt G) by (apply W in Ex; lia).
  destruct (constant x) eqn:C.
  { exists false, G. split; [auto|]. split; [auto|]. split; [apply keeps_refl; auto|]. split; [auto|]. split; [auto|]. split; [auto|]. split; [cbn; auto|]. intros _. left. eauto. }
  assert (V : inv module root w G0 G).
  { constructor; auto; [|rewrite NU; intros g []]. intros j y a E I _. apply (weight_arg G w j y a HW E I). }
  destruct (visit_total order arranged module single common ORDER ARR root w G0 fuel root G ∅ V ltac:(eauto) (reach_refl G root) LF) as (ch & G1 & C1 & E1 & VI & MR). unfold visit in E1. rewrite E1. cbn [mbind option_bind].
  pose proof (vi_inv _ _ _ _ _ _ _ _ _ _ _ _ VI) as V1. pose proof (vi_smaller _ _ _ _ _ _ _ _ _ _ _ _ VI) as S1. assert (AC1 : acyclic G1) by (exists w; apply V1). destruct (weighs_exists G1 AC1) as [w1 HW1].
  assert (LW : (w1 root <= w root)%nat) by (destruct ch; [specialize (S1 w w1 HW HW1); lia|cbn in S1; subst G1; rewrite (weights_unique G w1 w HW1 HW); lia]).
  assert (MEM1 : forall G g p, In p (parents G g) -> (exists k, In k [root] /\ reach G k p) /\ exists x, gs G !! p = Some x /\ arg_in g x) by (intros H g p Ip; destruct (MEMORY H g p Ip) as [Q1 Q2]; split; [exists root; split; [left; auto|auto]|auto]).
  destruct (remove_null_total parents expired [root] G1 w1 MEM1) with (fuel := fuel) as (G2 & E2 & FG2 & K2 & NH & N2 & R2 & H & JH & HG & HN); [apply V1|auto|apply V1|intros k [<-|[]]; apply V1| |apply V1|auto|cbn [sum]; rewrite Z.abs_eq by lia; lia|].
  { intros H JH. apply NC. eapply rtc_transitive; [apply V1|]. eapply rtc_l; [|apply join_rewrites; exact JH]. apply rw_registry; reflexivity. }
  rewrite E2. cbn [mbind option_bind]. exists ch, G2. split; [auto|]. split; [auto|]. split; [apply (keeps_trans _ _ _ (vi_keeps _ _ _ _ _ _ _ _ _ _ _ _ VI) K2)|]. split; [auto|]. split; [auto|]. split; [|split].
  - eapply rtc_transitive; [apply V1|]. eapply rtc_l; [apply (rw_registry module G1 (unregistered G1)); reflexivity|]. eapply rtc_r; [apply join_rewrites; exact JH|]. apply rw_registry; auto.
  - destruct ch; cbn in *.
    + intros v v' Hv Hv'. specialize (S1 v w1 Hv HW1). specialize (NH w1 v' HW1 Hv' root ltac:(pose proof (v_root _ _ _ _ _ V1); lia)). lia.
    + subst G1. unfold remove_null_gates in E2. rewrite NU in E2. cbn [propagate_each mbind option_bind] in E2. injection E2 as <-. unfold unregistered. cbn. destruct G as [g n l b]. cbn in NU, RG. subst. reflexivity.
  - intros ->. right. cbn in S1. subst G1. intros i c RI.
    assert (MI : is_Some (gs G !! i) -> i ∈ C1).
    { clear c. induction RI as [|j z a RJ IH E I]; intros Si; [auto|]. destruct (vi_flat _ _ _ _ _ _ _ _ _ _ _ _ VI eq_refl j (IH ltac:(eauto)) ltac:(set_solver) z E) as [Q _]. apply Q; auto. }
    intros AB. pose proof AB as (z & _ & Ez & _). destruct (vi_flat _ _ _ _ _ _ _ _ _ _ _ _ VI eq_refl i (MI ltac:(eauto)) ltac:(set_solver) z Ez) as [_ Q]. apply (Q c AB).
Qed.
Lemma coalesce_loop_total : forall rounds fuel G w, rtc (rewrites module) G0 G -> wf G -> acyclic G -> full_graph G -> is_Some (gs G !! root) -> nulls G = [] -> reg G = true -> weighs G w -> (w root < fuel)%nat -> (w root < rounds)%nat ->
  exists G', coalesce_loop parents expired order arranged module single common rounds fuel root G = Some G' /\
    full_graph G' /\ keeps G G' /\ nulls G' = [] /\ reg G' = true /\ rtc (rewrites module) G0 G' /\ (forall v v', weighs G v -> weighs G' v' -> v' root <= v root)%nat /\ flattened G'.
Proof.
  induction rounds as [|rounds IH]; intros fuel G w RW W AC FG SR NU RG HW LF LN; [lia|]. cbn [coalesce_loop].
  destruct (coalesce_gates_total G w fuel RW W AC FG SR NU RG HW LF) as (ch & G1 & E1 & FG1 & K1 & N1 & R1 & RW1 & S1 & FL). rewrite E1. cbn [mbind option_bind]. destruct ch; cbn in S1.
  - pose proof (k_acyclic _ _ K1 AC) as AC1. destruct (weighs_exists G1 AC1) as [w1 HW1]. specialize (S1 w w1 HW HW1) as LT.
    destruct (IH fuel G1 w1) as (G2 & E2 & FG2 & K2 & N2 & R2 & RW2 & NH & FL2); auto; [apply K1| |lia|lia|].
    { apply (keeps_gate G G1 root K1); auto. destruct SR as [x Ex]. apply W in Ex. lia. }
    exists G2. split; [auto|]. split; [auto|]. split; [apply (keeps_trans _ _ _ K1 K2)|]. split; [auto|]. split; [auto|]. split; [auto|]. split; [|auto]. intros v v' Hv Hv'. specialize (S1 v w1 Hv HW1). specialize (NH w1 v' HW1 Hv'). lia.
  - subst G1. exists G. split; [auto|]. split; [auto|]. split; [auto|]. split; [auto|]. split; [auto|]. split; [auto|]. split; [|auto]. intros v v' Hv Hv'. rewrite (weights_unique G v' v Hv' Hv). lia.
Qed.
End Whole.
(** Without K/N gates nothing clashes. *)
Lemma add_arg_no_atleast p a G G' x : no_atleast G -> gs G !! p = Some x -> add_arg p a G = Some G' -> no_atleast G'.
Proof.
  intros N1 Ex1 Q2. pose proof (N1 p x Ex1) as T1.
  assert (MC : forall s G3, make_constant p s G = Some G3 -> no_atleast G3) by (intros s G3 K; apply make_constant_spec in K as (w & _ & _ & HG & _); eapply put_no_atleast; [exact N1| |exact HG]; cbn; discriminate).
  assert (ST : forall t G3, t <> kAtleast -> set_type p t G = Some G3 -> no_atleast G3) by (intros t G3 Ht K; apply set_type_spec in K as (w & _ & HG & _); eapply put_no_atleast; [exact N1| |exact HG]; cbn; auto).
  unfold add_arg in Q2. rewrite Ex1 in Q2. cbn [mbind option_bind] in Q2. destruct (_ || _); [discriminate|]. destruct (has _ _).
  + unfold process_duplicate in Q2. rewrite Ex1 in Q2. cbn [mbind option_bind] in Q2. destruct (g_type x) eqn:TT; try congruence; try (eapply MC; exact Q2); (destruct (_ =? 1); [first [eapply ST; [|exact Q2]; discriminate|eapply MC; exact Q2]|injection Q2 as <-; auto]).
  + destruct (has _ _).
    * unfold process_complement in Q2. rewrite Ex1 in Q2. cbn [mbind option_bind] in Q2. destruct (g_type x) eqn:TT; try congruence; try discriminate; eapply MC; exact Q2.
    * apply add_new_inv in Q2 as (w & Ew & _ & _ & HG & _). rewrite Ex1 in Ew. injection Ew as <-. eapply put_no_atleast; [exact N1| |exact HG]. exact T1.
Qed.
Lemma rewrites_no_atleast module G H : no_atleast G -> rewrites module G H -> no_atleast H.
Proof.
  intros N Q. destruct Q as [(p & a & E)|i c l x y u Ex Ey MO Ht Hu PL E|HG _]; [eapply join_no_atleast; eauto| |intros j z Ez; rewrite HG in Ez; apply (N j z Ez)].
  unfold coalesce_gate in E. rewrite Ex, Ey in E. cbn [mbind option_bind] in E. destruct (_ || _); [discriminate|]. apply bind_inv in E as (G1 & E1 & E). apply bind_inv in E as (x1 & Ex1 & E).
  assert (A : forall l G z, no_atleast G -> gs G !! i = Some z -> add_until_constant i l G = Some G1 -> no_atleast G1).
  { clear -Ex1. induction l as [|b l IH]; intros G z NG Ez E; cbn [add_until_constant] in E; [injection E as <-; auto|]. apply bind_inv in E as (G2 & E2 & E). apply bind_inv in E as (z2 & Ez2 & E).
    pose proof (add_arg_no_atleast i b G G2 z NG Ez E2) as N2. destruct (constant z2); [injection E as <-; auto|]. apply (IH G2 z2 N2 Ez2 E). }
  assert (N1 : no_atleast G1) by (apply (A l G x N Ex E1)). destruct (constant x1); [injection E as <-; auto|].
  apply erase_arg_inv in E as (x2 & Ex2 & _ & HG & _). eapply put_no_atleast; [exact N1| |exact HG]. apply (N1 i x2 Ex2).
Qed.
Lemma rewrites_no_clash module G : no_atleast G -> forall H, rtc (rewrites module) G H -> no_clash H.
Proof.
  intros N H R. assert (NH : no_atleast H) by (induction R as [|G1 G2 G3 S _ IH]; [auto|]; apply IH; eapply rewrites_no_atleast; eauto).
  intros p x a y b Ex _ _ _ _ (T & _). exact (NH p x Ex T).
Qed.
