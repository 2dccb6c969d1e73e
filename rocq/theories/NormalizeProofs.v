(** Gate normalization: proofs.  Specification and theorems are in P_Normalize.v. *)
From stdpp Require Import gmap.
From Coq Require Import Lia Permutation List.
From Verif Require Import Pdag PdagProofs PdagAdd PdagSem PdagKeeps Preproc PreprocProofs PreprocNorm PreprocNeg Decompose Rooted BoolOpt BoolOptProofs BoolOptEdits Shaped ShapedOps NullGates NullGatesProofs Full NullTotal P_Preprocess Normalize.
Import ListNotations.
Open Scope Z_scope.

(** ** NotifyParentsOfNegativeGates *)
Section Notify.
Context (order : graph -> Z -> list Z) (ORDER : gate_order order).
Context (G0 : graph) (W0 : wf G0) (r : Z -> nat) (RK : ranked G0 r).
Definition flip (x : gate) : gate := with_args x (fold_right set_insert [] (map (notify_arg G0) (g_args x))).
Record notified (G : graph) (C : gset Z) : Prop := {
  no_nxt : nxt G = nxt G0; no_nulls : nulls G = nulls G0; no_reg : reg G = reg G0;
  no_gs : forall j, gs G !! j = if bool_decide (j ∈ C) then flip <$> gs G0 !! j else gs G0 !! j }.
Lemma notified_negative G C j : notified G C -> negative_gate G j = negative_gate G0 j.
Proof. intros N. unfold negative_gate. rewrite (no_gs _ _ N). destruct (bool_decide _); [|auto]. destruct (gs G0 !! j); auto. Qed.
Lemma flip_args x : args_ok (nxt G0) (g_args x) -> forall a, In a (g_args (flip x)) <-> exists b, In b (g_args x) /\ a = notify_arg G0 b.
Proof.
  intros OK a. destruct (notify_ok G0 _ _ OK) as [_ P]. cbn. etransitivity; [split; [apply (in_perm _ _ a P)|apply (in_perm _ _ a (Permutation_sym P))]|]. rewrite in_map_iff. split; intros (b & H1 & H2); exists b; auto.
Qed.
Definition closed (C C' : gset Z) : Prop := forall j x a, j ∈ C' -> j ∉ C -> gs G0 !! j = Some x -> In a (g_args x) -> is_Some (gs G0 !! Z.abs a) -> Z.abs a ∈ C'.
Lemma notify_parents_total : forall fuel i G C, (r i < fuel)%nat -> is_Some (gs G0 !! i) -> notified G C ->
  exists G' C', notify_parents order fuel i G C = Some (G', C') /\ notified G' C' /\ C ⊆ C' /\ i ∈ C' /\ closed C C'.
Proof.
  induction fuel as [|fuel IH]; intros i G C LF [x Ex] N; [lia|]. cbn [notify_parents]. case_bool_decide as IC.
  { exists G, C. split; [auto|]. split; [auto|]. split; [auto|]. split; [auto|]. intros j y a J1 J2. contradiction. }
  assert (E : gs G !! i = Some x) by (rewrite (no_gs _ _ N), bool_decide_false by auto; auto).
  unfold negate_noncoherent. rewrite E. cbn [mbind option_bind].
  assert (FX : with_args x (fold_right set_insert [] (map (notify_arg G) (g_args x))) = flip x).
  { unfold flip. do 2 f_equal. apply map_ext. intros a. unfold notify_arg. rewrite (notified_negative G C _ N). reflexivity. }
  rewrite FX. set (G1 := put i (flip x) G).
  assert (N1 : notified G1 ({[i]} ∪ C)).
  { constructor; try apply N. intros j. cbn [G1 put gs]. destruct (Z.eq_dec j i) as [->|J].
    - rewrite lookup_insert, bool_decide_true by set_solver. rewrite Ex. reflexivity.
    - rewrite lookup_insert_ne, (no_gs _ _ N) by auto. destruct (bool_decide_reflect (j ∈ C)) as [H|H].
      + rewrite bool_decide_true by set_solver. auto.
      + rewrite bool_decide_false by set_solver. auto. }
  assert (OK : args_ok (nxt G0) (g_args x)) by apply (proj2 W0 i x Ex).
  assert (E1 : gs G1 !! i = Some (flip x)) by (cbn; apply lookup_insert).
  pose proof (ORDER G1 i (flip x) E1) as PO.
  assert (HG : forall a, is_gate G1 a = true <-> is_Some (gs G0 !! Z.abs a)).
  { intros a. unfold is_gate. rewrite (no_gs _ _ N1). destruct (bool_decide _); destruct (gs G0 !! Z.abs a); cbn; split; try discriminate; eauto; intros [? ?]; discriminate. }
  assert (HO : forall a, In a (order G1 i) -> exists b, In b (g_args x) /\ Z.abs a = Z.abs b /\ is_Some (gs G0 !! Z.abs b)).
  { intros a I. apply (in_perm _ _ a PO) in I. apply List.filter_In in I as [I Q]. apply HG in Q. apply (flip_args x OK) in I as (b & Ib & ->). rewrite notify_abs in *. eauto. }
  assert (HO' : forall b, In b (g_args x) -> is_Some (gs G0 !! Z.abs b) -> exists a, In a (order G1 i) /\ Z.abs a = Z.abs b).
  { intros b Ib Sb. exists (notify_arg G0 b). rewrite notify_abs. split; [|auto]. apply (in_perm _ _ _ (Permutation_sym PO)), List.filter_In. split; [apply (flip_args x OK); eauto|]. apply HG. rewrite notify_abs. auto. }
  assert (LOOP : forall l G C, incl l (order G1 i) -> notified G C -> exists G' C', each (notify_parents order fuel) l G C = Some (G', C') /\ notified G' C' /\ C ⊆ C' /\ (forall a, In a l -> Z.abs a ∈ C') /\ closed C C').
  { induction l as [|a l IHl]; intros H D LL NH; cbn [each].
    - exists H, D. split; [auto|]. split; [auto|]. split; [auto|]. split; [intros a []|]. intros j y a J1 J2. contradiction.
    - destruct (HO a ltac:(apply LL; left; auto)) as (b & Ib & Eb & Sb). pose proof (RK i x b Ex Ib Sb) as LR.
      destruct (IH (Z.abs a) H D) as (H1 & D1 & E2 & NH1 & SD & ID & CD); [rewrite Eb; lia|rewrite Eb; auto|auto|]. rewrite E2. cbn [mbind option_bind].
      destruct (IHl H1 D1) as (H2 & D2 & E3 & NH2 & SD2 & ID2 & CD2); [intros c Ic; apply LL; right; auto|auto|]. exists H2, D2. split; [auto|]. split; [auto|]. split; [set_solver|]. split.
      + intros c [<-|Ic]; auto.
      + intros j y c J1 J2 Ey Ic Sc. destruct (decide (j ∈ D1)) as [J3|J3]; [apply SD2, (CD j y c); auto|apply (CD2 j y c); auto]. }
  destruct (LOOP (order G1 i) G1 ({[i]} ∪ C) ltac:(apply incl_refl) N1) as (G' & C' & E2 & N2 & SC & IC' & CC). exists G', C'. split; [auto|]. split; [auto|]. split; [set_solver|]. split; [set_solver|].
  intros j y a J1 J2 Ey Ia Sa. destruct (Z.eq_dec j i) as [->|J].
  - rewrite Ex in Ey. injection Ey as <-. destruct (HO' a Ia Sa) as (c & Ic & <-). auto.
  - apply (CC j y a); auto. set_solver.
Qed.
(** From the root of a graph without dead gates. *)
Lemma notify_root root fuel : is_Some (gs G0 !! root) -> (forall j, is_Some (gs G0 !! j) -> reach G0 root j) -> (r root < fuel)%nat ->
  exists G' C', notify_parents order fuel root G0 ∅ = Some (G', C') /\ nxt G' = nxt G0 /\ nulls G' = nulls G0 /\ reg G' = reg G0 /\ forall j, gs G' !! j = flip <$> gs G0 !! j.
Proof.
  intros SR LIVE LF. destruct (notify_parents_total fuel root G0 ∅ LF SR) as (G' & C' & E & N & _ & IR & CL); [constructor; auto; intros j; rewrite bool_decide_false by set_solver; auto|].
  exists G', C'. split; [auto|]. split; [apply N|]. split; [apply N|]. split; [apply N|].
  assert (ALL : forall j, reach G0 root j -> is_Some (gs G0 !! j) -> j ∈ C').
  { intros j RJ. induction RJ as [|k x a RC IH Ex Ia]; intros Sj; [auto|]. apply (CL k x a); [apply IH; eauto|set_solver|auto|auto|auto]. }
  intros j. rewrite (no_gs _ _ N). destruct (gs G0 !! j) as [x|] eqn:Ex; [|destruct (bool_decide _); auto]. rewrite bool_decide_true; [auto|]. apply ALL; [apply LIVE; eauto|eauto].
Qed.
End Notify.

(** ** The graph with the negation of negative gates left out *)
Definition positive (x : gate) : gate := Gate (positive_type (g_type x)) (g_min x) (g_args x).
Definition pos (G : graph) : graph := Graph (positive <$> gs G) (nxt G) (nulls G) (reg G).
Lemma pos_at G j : gs (pos G) !! j = positive <$> gs G !! j.
Proof. unfold pos. cbn [gs]. apply lookup_fmap. Qed.
Lemma wf_pos G : wf G -> wf (pos G).
Proof. intros [L W]. split; [auto|]. intros j x E. rewrite pos_at in E. destruct (gs G !! j) as [y|] eqn:Ey; [|discriminate]. injection E as <-. apply (W j y Ey). Qed.
Lemma pos_wf G : wf (pos G) -> wf G.
Proof. intros [L W]. split; [auto|]. intros j x E. apply (W j (positive x)). rewrite pos_at, E. reflexivity. Qed.
Lemma same_keeps G G' : wf G -> (forall j, gs G' !! j = gs G !! j) -> nxt G' = nxt G -> keeps G G'.
Proof. intros W E N. apply keeps_same; auto. apply map_eq. auto. Qed.

(** ** One gate *)
Definition fresh_ok (G : graph) (x : gate) (y : gate) : Prop := simple_type (g_type y) /\ full y.
(** The outcome of NormalizeGate for one gate after its arguments. *)
Record normal (full_ : bool) (G G' : graph) (i : Z) : Prop := {
  n_keeps : keeps (pos G) (pos G');
  n_nxt : nxt G <= nxt G';
  n_reg : reg G' = reg G;
  n_old : forall j, j <> i -> j < nxt G -> gs G' !! j = gs G !! j;
  n_self : exists x, gs G' !! i = Some x /\ full x /\ negative_type (g_type x) = false /\ (full_ = true -> simple_type (g_type x) \/ g_type x = kNull) /\
           (reg G = true -> g_type x = kNull -> In i (nulls G')) /\ (forall g, In g (nulls G') -> In g (nulls G) \/ g = i /\ g_type x = kNull);
  n_fresh : forall j x, nxt G <= j -> gs G' !! j = Some x -> j < nxt G' /\ full x /\ simple_type (g_type x);
  n_nulls : forall g, In g (nulls G) -> In g (nulls G') }.

Lemma normal_put full_ G G' i x x' : wf G -> gs G !! i = Some x -> gs G' = <[i := x']> (gs G) -> nxt G' = nxt G -> reg G' = reg G -> positive x' = positive x -> full x' ->
  negative_type (g_type x') = false -> (full_ = true -> simple_type (g_type x') \/ g_type x' = kNull) ->
  nulls G' = (if conn_eqb (g_type x') kNull && reg G then nulls G ++ [i] else nulls G) -> normal full_ G G' i.
Proof.
  intros W E HG HN HR P F NT FT HL. constructor; auto.
  - apply same_keeps; [apply wf_pos; auto| |auto]. intros j. rewrite !pos_at, HG. destruct (Z.eq_dec j i) as [->|J]; [rewrite lookup_insert, E; cbn; f_equal; auto|rewrite lookup_insert_ne; auto].
  - lia.
  - intros j J _. rewrite HG, lookup_insert_ne; auto.
  - exists x'. split; [rewrite HG; apply lookup_insert|]. split; [auto|]. split; [auto|]. split; [auto|]. split.
    + intros R T. rewrite HL, R, T. cbn. apply in_app_iff. right. left. auto.
    + intros g Ig. rewrite HL in Ig. destruct (conn_eqb (g_type x') kNull && reg G) eqn:Q; [|auto]. apply andb_true_iff in Q as [Q _]. apply in_app_iff in Ig as [Ig|[<-|[]]]; [auto|]. right. split; [auto|]. destruct (g_type x'); try discriminate; auto.
  - intros j y L Ey. exfalso. apply W in E. rewrite HG, lookup_insert_ne in Ey by lia. apply W in Ey. lia.
  - intros g Ig. rewrite HL. destruct (_ && _); [apply in_app_iff|]; auto.
Qed.

(** ** NormalizeXorGate and NormalizeAtleastGate do not stop *)
Section Total.
Context (G : graph).
Lemma state_add_arg H f n j y b : Full.state G H f n -> f j = Some y -> add_asserts y = true -> b <> 0 -> ~ In b (g_args y) -> ~ In (- b) (g_args y) ->
  exists H', add_arg j b H = Some H' /\ Full.state G H' (upd f j (with_args y (set_insert b (g_args y)))) n.
Proof.
  intros ST F AS B0 I1 I2. unfold add_arg. rewrite (st_gs _ _ _ _ ST), F. cbn [mbind option_bind]. rewrite AS. destruct (Z.eqb_spec b 0); [lia|]. cbn [negb orb]. rewrite (proj2 (has_false b _) I1), (proj2 (has_false (-b) _) I2). apply state_add; auto.
Qed.
Lemma state_share H f n i x j y b : Full.state G H f n -> f i = Some x -> constant x = false -> In b (g_args x) -> f j = Some y -> add_asserts y = true -> b <> 0 -> ~ In b (g_args y) -> ~ In (- b) (g_args y) ->
  exists H', share_arg i b j H = Some H' /\ Full.state G H' (upd f j (with_args y (set_insert b (g_args y)))) n.
Proof.
  intros ST F C I F2 AS B0 I1 I2. unfold share_arg. rewrite (st_gs _ _ _ _ ST), F. cbn [mbind option_bind]. rewrite C. apply has_In in I. rewrite I. cbn [orb negb]. apply state_add_arg; auto.
Qed.
Lemma state_negate H f n j y b : Full.state G H f n -> f j = Some y -> constant y = false -> In b (g_args y) -> ~ In (- b) (g_args y) ->
  exists H', negate_arg j b H = Some H' /\ Full.state G H' (upd f j (with_args y (set_insert (- b) (set_erase b (g_args y))))) n.
Proof.
  intros ST F C I I2. unfold negate_arg. rewrite (st_gs _ _ _ _ ST), F. cbn [mbind option_bind]. rewrite C. apply has_In in I. rewrite I. rewrite (proj2 (has_false (-b) _) I2). cbn [orb negb]. eexists. split; [reflexivity|]. apply state_put; auto.
Qed.
Lemma state_transfer_arg H f n i x j y b : Full.state G H f n -> i <> j -> f i = Some x -> constant x = false -> In b (g_args x) -> f j = Some y -> add_asserts y = true -> b <> 0 -> ~ In b (g_args y) -> ~ In (- b) (g_args y) ->
  exists H', transfer_arg i b j H = Some H' /\ Full.state G H' (upd (upd f i (with_args x (set_erase b (g_args x)))) j (with_args y (set_insert b (g_args y)))) n.
Proof.
  intros ST N F C I F2 AS B0 I1 I2. pose proof (st_gs _ _ _ _ ST i) as Q. rewrite F in Q. unfold transfer_arg. rewrite Q. cbn [mbind option_bind]. rewrite C, (erase_arg_eq i b H x Q I). cbn [mbind option_bind].
  apply state_add_arg; auto; [apply state_put; auto|]. unfold upd. destruct (Z.eqb_spec j i); [congruence|auto].
Qed.
End Total.
Ltac upds := unfold upd in *; repeat (match goal with
  | |- context [?u =? ?v] => destruct (Z.eqb_spec u v); try lia
  | H : context [?u =? ?v] |- _ => destruct (Z.eqb_spec u v); try lia end).
Ltac konst := cbn [with_args g_type g_min g_args]; apply arg_const; cbn [with_args g_type g_min g_args]; intros ? ?HI; repeat first [rewrite set_insert_In in HI|rewrite set_erase_In in HI]; cbn [In] in HI; intuition (subst; lia).
Ltac sett := cbn [with_args g_type g_min g_args]; repeat first [rewrite set_insert_In|rewrite set_erase_In]; cbn [In]; intuition lia.
Lemma and_asserts k l : 0 <= k -> constant (Gate kAnd k l) = false -> add_asserts (Gate kAnd k l) = true.
Proof. intros K C. apply plain_asserts; [repeat split; discriminate|auto|auto]. Qed.
Lemma or_asserts k l : 0 <= k -> constant (Gate kOr k l) = false -> add_asserts (Gate kOr k l) = true.
Proof. intros K C. apply plain_asserts; [repeat split; discriminate|auto|auto]. Qed.
Lemma full_arg G i x a : wf G -> gs G !! i = Some x -> full x -> g_type x <> kNull -> In a (g_args x) -> 1 < Z.abs a < nxt G /\ ~ In (- a) (g_args x).
Proof.
  intros W E F T I. destruct (proj2 (proj2 (proj2 W i x E)) a I) as (A0 & AN & NA). split; [|auto]. split; [|auto]. destruct (Z.eq_dec (Z.abs a) 1) as [Q|Q]; [|lia].
  destruct F as (C & _). specialize (C T). assert (constant x = true); [|congruence]. apply constant_In. assert (a = 1 \/ a = -1) as [-> | ->] by lia; auto.
Qed.

Lemma normalize_xor_total i G x : wf G -> gs G !! i = Some x -> full x -> g_type x = kXor ->
  exists G', normalize_xor i G = Some G' /\ nulls G' = nulls G /\ reg G' = reg G.
Proof.
  intros W E F T. pose proof F as (C & M & ND & S). rewrite T in C, S. specialize (C ltac:(discriminate)).
  destruct (proj2 W i x E) as [Hi _]. set (n := nxt G) in *.
  unfold normalize_xor. rewrite E. cbn [mbind option_bind].
  destruct x as [t m xs]. cbn [g_type g_min g_args] in *. subst t. destruct xs as [|a [|b [|]]]; unfold size in S; cbn [length] in S; try lia.
  destruct (full_arg G i _ a W E F ltac:(discriminate) ltac:(left; auto)) as [LA NA]. destruct (full_arg G i _ b W E F ltac:(discriminate) ltac:(right; left; auto)) as [LB NB]. fold n in LA, LB. cbn [g_args In] in NA, NB.
  assert (AB : a <> b) by (intros ->; inversion ND as [|? ? N1]; apply N1; left; auto).
  pose proof (state_start G) as ST. fold n in ST.
  destruct (state_new G _ _ _ kAnd ST) as (G1 & E1 & ST1). rewrite E1. clear ST.
  destruct (state_new G _ _ _ kAnd ST1) as (G2 & E2 & ST2). rewrite E2. clear ST1.
  edestruct (fun u => state_type G _ _ _ i u kOr ST2) as (G3 & E3 & ST3); [upds; exact E|discriminate|]. rewrite E3. cbn [mbind option_bind g_min g_args] in *. clear ST2.
  edestruct (fun u v => state_share G _ _ _ i u n v a ST3) as (G4 & E4 & ST4); [upds; reflexivity|konst|left; auto|upds; reflexivity|apply and_asserts; [cbn; lia|konst]|lia|sett|sett|]. rewrite E4. cbn [mbind option_bind with_args g_type g_min g_args] in *. clear ST3.
  edestruct (fun u v => state_share G _ _ _ i u (n + 1) v a ST4) as (G5 & E5 & ST5); [upds; reflexivity|konst|left; auto|upds; reflexivity|apply and_asserts; [cbn; lia|konst]|lia|sett|sett|]. rewrite E5. cbn [mbind option_bind with_args g_type g_min g_args] in *. clear ST4.
  edestruct (fun u => state_negate G _ _ _ (n + 1) u a ST5) as (G6 & E6 & ST6); [upds; reflexivity|konst|sett|sett|]. rewrite E6. cbn [mbind option_bind with_args g_type g_min g_args] in *. clear ST5.
  edestruct (fun u v => state_share G _ _ _ i u n v b ST6) as (G7 & E7 & ST7); [upds; reflexivity|konst|right; left; auto|upds; reflexivity|apply and_asserts; [cbn; lia|konst]|lia|sett|sett|]. rewrite E7. cbn [mbind option_bind with_args g_type g_min g_args] in *. clear ST6.
  edestruct (fun u => state_negate G _ _ _ n u b ST7) as (G8 & E8 & ST8); [upds; reflexivity|konst|sett|sett|]. rewrite E8. cbn [mbind option_bind with_args g_type g_min g_args] in *. clear ST7.
  edestruct (fun u v => state_share G _ _ _ i u (n + 1) v b ST8) as (G9 & E9 & ST9); [upds; reflexivity|konst|right; left; auto|upds; reflexivity|apply and_asserts; [cbn; lia|konst]|lia|sett|sett|]. rewrite E9. cbn [mbind option_bind with_args g_type g_min g_args] in *. clear ST8.
  edestruct (fun u => state_erases G _ _ _ i u ST9) as (H1 & F1 & SH1); [upds; reflexivity|]. rewrite F1. cbn [mbind option_bind with_args g_type g_min g_args] in *. clear ST9.
  edestruct (fun u => state_add_arg G _ _ _ i u n SH1) as (H2 & F2 & SH2); [upds; reflexivity|apply or_asserts; [cbn; lia|konst]|lia|sett|sett|]. rewrite F2. cbn [mbind option_bind with_args g_type g_min g_args] in *. clear SH1.
  edestruct (fun u => state_add_arg G _ _ _ i u (n + 1) SH2) as (H3 & F3 & SH3); [upds; reflexivity|apply or_asserts; [cbn; lia|konst]|lia|sett|sett|]. exists H3. rewrite F3. split; [auto|]. split; [apply SH3|apply SH3].
Qed.
Lemma atleast_asserts k l : 0 <= k -> constant (Gate kAtleast k l) = false -> add_asserts (Gate kAtleast k l) = true.
Proof. intros K C. apply plain_asserts; [repeat split; discriminate|auto|auto]. Qed.
Lemma share_all_total G i gr se : i <> gr -> i <> se -> gr <> se -> forall l H f n x k m ly lz, Full.state G H f n -> f i = Some x -> constant x = false -> incl l (g_args x) ->
  f gr = Some (Gate kAtleast k ly) -> f se = Some (Gate kAtleast m lz) -> 0 <= k -> 0 <= m -> List.NoDup l ->
  (forall b, In b l -> 1 < Z.abs b /\ ~ In (- b) l /\ ~ In b ly /\ ~ In (- b) ly /\ ~ In b lz /\ ~ In (- b) lz) ->
  (forall b, In b ly \/ In b lz -> 1 < Z.abs b) ->
  exists H' f', share_all i l gr se H = Some H' /\ Full.state G H' f' n /\ forall j, j <> gr -> j <> se -> f' j = f j.
Proof.
  intros N1 N2 N3. induction l as [|b l IH]; intros H f n x k m ly lz ST F C INC FY FZ K M ND B1 B2; cbn [share_all]; [exists H, f; auto|].
  destruct (B1 b ltac:(left; auto)) as (L & B3 & B4 & B5 & B6 & B7).
  assert (CC : forall t u l', (forall c, In c l' -> 1 < Z.abs c) -> constant (Gate t u l') = false) by (intros t u l' Q; apply arg_const; cbn [g_args]; intros c Ic; apply Q in Ic; lia).
  destruct (state_share G H f n i x gr _ b ST F C (INC b ltac:(left; auto)) FY) as (H1 & E1 & ST1); [apply atleast_asserts; auto|lia|auto|auto|]. rewrite E1. cbn [mbind option_bind with_args g_type g_min g_args] in *.
  destruct (state_share G H1 _ n i x se (Gate kAtleast m lz) b ST1) as (H2 & E2 & ST2); [unfold upd; destruct (Z.eqb_spec i gr); [lia|auto]|auto|apply INC; left; auto|unfold upd; destruct (Z.eqb_spec se gr); [lia|auto]|apply atleast_asserts; auto|lia|auto|auto|]. rewrite E2. cbn [mbind option_bind with_args g_type g_min g_args] in *.
  destruct (IH H2 _ n x k m (set_insert b ly) (set_insert b lz) ST2) as (H' & f' & E3 & ST3 & O3); auto.
  - unfold upd. destruct (Z.eqb_spec i se); [lia|]. destruct (Z.eqb_spec i gr); [lia|auto].
  - intros c Ic. apply INC. right. auto.
  - unfold upd. destruct (Z.eqb_spec gr se); [lia|]. rewrite Z.eqb_refl. auto.
  - unfold upd. rewrite Z.eqb_refl. auto.
  - inversion ND; auto.
  - intros c Ic. destruct (B1 c ltac:(right; auto)) as (L' & C3 & C4 & C5 & C6 & C7). inversion ND as [|? ? NB ND']; subst.
    assert (c <> b) by (intros ->; auto). assert (- c <> b) by (intros Q; apply C3; left; auto). rewrite !set_insert_In. split; [auto|]. split; [intros Q; apply C3; right; auto|]. intuition congruence.
  - intros c Ic. rewrite !set_insert_In in Ic. destruct Ic as [[-> | Ic]|[-> | Ic]]; auto.
  - exists H', f'. split; [auto|]. split; [auto|]. intros j J1 J2. rewrite O3 by auto. unfold upd. destruct (Z.eqb_spec j se); [lia|]. destruct (Z.eqb_spec j gr); [lia|auto].
Qed.
(** Requirements of NormalizeAtleastGate (preprocessor.cc:576-580). *)
Definition kn_gate (G : graph) (i : Z) (x : gate) : Prop :=
  gs G !! i = Some x /\ g_type x = kAtleast /\ 1 <= g_min x <= size (g_args x) /\ 2 <= size (g_args x) /\ constant x = false.
Lemma kn_arg G i x a : wf G -> kn_gate G i x -> In a (g_args x) -> 1 < Z.abs a < nxt G /\ ~ In (- a) (g_args x).
Proof.
  intros W (E & T & _ & _ & C) I. destruct (proj2 (proj2 (proj2 W i x E)) a I) as (A0 & AN & NA). split; [|auto]. split; [|auto]. destruct (Z.eq_dec (Z.abs a) 1) as [Q|Q]; [|lia].
  assert (constant x = true); [|congruence]. apply constant_In. assert (a = 1 \/ a = -1) as [-> | ->] by lia; auto.
Qed.
Lemma atleast_once_total i a G x : wf G -> kn_gate G i x -> 2 <= g_min x -> In a (g_args x) ->
  exists G' gr se, atleast_once i (g_min x) a G = Some (G', gr, se) /\ nulls G' = nulls G /\ reg G' = reg G.
Proof.
  intros W KN K2 I. pose proof KN as (E & T & K & S & C). destruct (proj2 W i x E) as [Hi [ND _]]. set (n := nxt G) in *. set (k := g_min x) in *.
  destruct (kn_arg G i x a W KN I) as [LA NA]. fold n in LA.
  assert (HA : forall b, In b (g_args x) -> 1 < Z.abs b < n /\ ~ In (- b) (g_args x)) by (intros b Ib; apply (kn_arg G i x b W KN Ib)).
  assert (CE : constant (with_args x (set_erase a (g_args x))) = false) by (apply constant_erase; auto).
  unfold atleast_once. pose proof (state_start G) as ST. fold n in ST.
  destruct (state_new G _ _ _ kAnd ST) as (G1 & E1 & ST1). rewrite E1. clear ST.
  edestruct (fun u v => state_transfer_arg G _ _ _ i u n v a ST1) as (G2 & E2 & ST2); [lia|upds; exact E|exact C|exact I|upds; reflexivity|reflexivity|lia|sett|sett|]. rewrite E2. cbn [mbind option_bind with_args g_type g_min g_args] in *. clear ST1.
  destruct (state_new G _ _ _ kAtleast ST2) as (G3 & E3 & ST3). rewrite E3. clear ST2.
  edestruct (fun u => state_add_arg G _ _ _ n u (n + 1) ST3) as (G4 & E4 & ST4); [upds; reflexivity|apply and_asserts; [cbn; lia|konst]|lia|sett|sett|]. rewrite E4. cbn [mbind option_bind with_args g_type g_min g_args] in *. clear ST3.
  edestruct (fun u => state_min G _ _ _ (n + 1) u (k - 1) ST4) as (G5 & E5 & ST5); [upds; reflexivity|]. rewrite E5. cbn [mbind option_bind with_args with_min g_type g_min g_args] in *. clear ST4.
  destruct (state_new G _ _ _ kAtleast ST5) as (G6 & E6 & ST6). rewrite E6. clear ST5.
  edestruct (fun u => state_min G _ _ _ (n + 1 + 1) u k ST6) as (G7 & E7 & ST7); [upds; reflexivity|]. rewrite E7. cbn [mbind option_bind with_args with_min g_type g_min g_args] in *. clear ST6.
  pose proof (st_gs _ _ _ _ ST7 i) as Q. assert (Q' : gs G7 !! i = Some (with_args x (set_erase a (g_args x)))) by (rewrite Q; upds; reflexivity). clear Q. rewrite Q'. cbn [mbind option_bind with_args g_args].
  edestruct (fun u v => share_all_total G i (n + 1) (n + 1 + 1) u v ltac:(lia) (set_erase a (g_args x)) G7 _ _ (with_args x (set_erase a (g_args x))) (k - 1) k [] [] ST7) as (G8 & f & E8 & ST8 & O8); [lia|lia|upds; reflexivity|exact CE|apply incl_refl|upds; reflexivity|upds; reflexivity|lia|lia|apply set_erase_NoDup; auto| |cbn; tauto|].
  { intros b Ib. apply set_erase_In in Ib as [Ib _]. destruct (HA b Ib) as [L Nb]. split; [lia|]. split; [rewrite set_erase_In; tauto|cbn; tauto]. }
  rewrite E8. cbn [mbind option_bind].
  assert (FI : f i = Some (with_args x (set_erase a (g_args x)))) by (rewrite O8 by lia; upds; reflexivity).
  destruct (state_type G _ _ _ i _ kOr ST8 FI ltac:(discriminate)) as (G9 & E9 & ST9). rewrite E9. cbn [mbind option_bind with_args g_type g_min g_args] in *. clear ST8.
  edestruct (fun u => state_erases G _ _ _ i u ST9) as (H1 & F1 & SH1); [upds; reflexivity|]. rewrite F1. cbn [mbind option_bind with_args g_type g_min g_args] in *. clear ST9.
  edestruct (fun u => state_add_arg G _ _ _ i u n SH1) as (H2 & F2 & SH2); [upds; reflexivity|apply or_asserts; [cbn; lia|konst]|lia|sett|sett|]. rewrite F2. cbn [mbind option_bind with_args g_type g_min g_args] in *. clear SH1.
  edestruct (fun u => state_add_arg G _ _ _ i u (n + 1 + 1) SH2) as (H3 & F3 & SH3); [upds; reflexivity|apply or_asserts; [cbn; lia|konst]|lia|sett|sett|]. rewrite F3. cbn [mbind option_bind]. eexists _, _, _. split; [reflexivity|]. split; apply SH3.
Qed.
Lemma positive_same x : negative_type (g_type x) = false -> positive x = x.
Proof. destruct x as [t m l]. unfold positive. cbn. destruct t; cbn; congruence. Qed.
Lemma xor_done_pos i G G' x : g_type x = kXor -> xor_done i G G' x -> xor_done i (pos G) (pos G') x.
Proof.
  intros T (a & b & l1 & l2 & l & Ea & P1 & P2 & P & N & Ei & En & Em & Ho). exists a, b, l1, l2, l. change (nxt (pos G)) with (nxt G). change (nxt (pos G')) with (nxt G'). rewrite !pos_at, Ei, En, Em. repeat (split; [auto|]). intros j J1 J2 J3. rewrite !pos_at, Ho; auto.
Qed.
Lemma atleast_done_pos i k a G G' gr se x : atleast_done i k a G G' gr se x -> atleast_done i k a (pos G) (pos G') gr se x.
Proof.
  intros (Ha & -> & -> & N & Ho & l & lf & l1 & l2 & Ei & P & Ef & Pf & Eg & Pg & Es & Ps). unfold atleast_done. change (nxt (pos G)) with (nxt G). change (nxt (pos G')) with (nxt G'). split; [auto|]. split; [auto|]. split; [auto|]. split; [auto|]. split; [intros j J J0 J1 J2; rewrite !pos_at, Ho; auto|].
  exists l, lf, l1, l2. rewrite !pos_at, Ei, Ef, Eg, Es. repeat (split; [auto|]). auto.
Qed.
Lemma normalize_atleast_total pick : (forall G i x, gs G !! i = Some x -> g_args x <> [] -> In (pick G i) (g_args x)) ->
  forall fuel i G x, wf G -> kn_gate G i x -> (length (g_args x) <= fuel)%nat ->
  exists G', normalize_atleast fuel pick i G = Some G' /\ nulls G' = nulls G /\ reg G' = reg G /\ keeps (pos G) (pos G') /\
    forall j y, j = i \/ nxt G <= j -> gs G' !! j = Some y -> 0 <= g_min y /\ forall b, In b (g_args y) -> 1 < Z.abs b.
Proof.
  intros PICK. induction fuel as [|fuel IH]; intros i G x W KN LF; pose proof KN as (E & T & K & S & C); [unfold size in S; lia|]. cbn [normalize_atleast]. rewrite E. cbn [mbind option_bind]. rewrite T. cbn [conn_eqb negb orb].
  destruct (Z.leb_spec (g_min x) 0); [lia|]. destruct (Z.leb_spec (size (g_args x)) 1); [lia|]. cbn [orb].
  assert (Ep : gs (pos G) !! i = Some x) by (rewrite pos_at, E; cbn; f_equal; apply positive_same; rewrite T; auto).
  destruct (proj2 W i x E) as [Hi [ND _]].
  assert (Done : forall t, t = kAnd \/ t = kOr -> (forall ν, gate_value ν (Gate t (g_min x) (g_args x)) = gate_value ν x) ->
    exists G', set_type i t G = Some G' /\ nulls G' = nulls G /\ reg G' = reg G /\ keeps (pos G) (pos G') /\ forall j y, j = i \/ nxt G <= j -> gs G' !! j = Some y -> 0 <= g_min y /\ forall b, In b (g_args y) -> 1 < Z.abs b).
  { intros t Tt Hv. eexists. split; [apply (set_type_eq i t G x E)|]. cbn [nulls reg gs]. split; [destruct Tt as [-> | ->]; auto|]. split; [auto|]. split.
    - eapply (set_type_keeps i t (pos G) _ x); [apply wf_pos; auto|exact Ep|exact Hv|]. rewrite (set_type_eq i t (pos G) x Ep). unfold pos. cbn [gs nxt nulls reg]. rewrite fmap_insert. f_equal. f_equal; destruct Tt as [-> | ->]; auto.
    - intros j y Hj Ey. destruct (Z.eq_dec j i) as [->|J].
      + rewrite lookup_insert in Ey. injection Ey as <-. cbn [g_min g_args]. split; [lia|]. intros b Ib. apply (kn_arg G i x b W KN Ib).
      + rewrite lookup_insert_ne in Ey by auto. destruct Hj as [|L]; [contradiction|]. apply W in Ey. lia. }
  destruct (Z.eqb_spec (size (g_args x)) (g_min x)) as [E1|E1].
  { apply (Done kAnd); [auto|]. intros ν. unfold gate_value. rewrite T. simpl. rewrite forallb_count. f_equal. rewrite map_length. unfold size in E1. lia. }
  destruct (Z.eqb_spec (g_min x) 1) as [E2|E2].
  { apply (Done kOr); [auto|]. intros ν. unfold gate_value. rewrite T. simpl. rewrite existsb_count. now rewrite E2. }
  assert (IP : In (pick G i) (g_args x)) by (apply (PICK G i x E); intros Q; rewrite Q in S; unfold size in S; cbn [length] in S; lia).
  destruct (atleast_once_total i (pick G i) G x W KN ltac:(lia) IP) as (G1 & gr & se & E3 & L1 & R1). rewrite E3. cbn [mbind option_bind].
  pose proof (atleast_once_spec _ _ _ _ _ _ _ _ W E E3) as SP. pose proof (atleast_done_keeps _ _ _ _ _ _ _ _ (wf_pos G W) Ep T eq_refl ltac:(lia) (atleast_done_pos _ _ _ _ _ _ _ _ SP)) as K1.
  destruct SP as (Ha & -> & -> & N1 & Ho & l & lf & l1 & l2 & Ei & P & Ef & Pf & Egr & Pg & Es & Ps).
  set (n := nxt G) in *. set (a := pick G i) in *. pose proof (pos_wf _ (k_wf _ _ K1)) as W1.
  assert (SZ : forall m, Permutation m (set_erase a (g_args x)) -> size m = size (g_args x) - 1 /\ Datatypes.S (length m) = length (g_args x)).
  { intros m Pm. pose proof (size_erase a (g_args x) ND Ha) as Q. unfold size in *. rewrite (Permutation_length Pm). lia. }
  assert (HB : forall m b, Permutation m (set_erase a (g_args x)) -> In b m -> 1 < Z.abs b).
  { intros m b Pm Ib. apply (in_perm _ _ _ Pm), set_erase_In in Ib as [Ib _]. apply (kn_arg G i x b W KN Ib). }
  assert (CN : forall t u m, Permutation m (set_erase a (g_args x)) -> constant (Gate t u m) = false) by (intros t u m Pm; apply arg_const; cbn [g_args]; intros b Ib; apply (HB m b Pm) in Ib; lia).
  destruct (SZ l1 Pg) as [S1 S1']. destruct (SZ l2 Ps) as [S2 S2'].
  destruct (IH (n + 1) G1 (Gate kAtleast (g_min x - 1) l1)) as (G2 & E4 & L2 & R2 & K2 & F2); [auto| |cbn [g_args]; lia|].
  { split; [auto|]. cbn [g_type g_min g_args]. split; [auto|]. split; [lia|]. split; [lia|auto]. }
  rewrite E4. cbn [mbind option_bind]. destruct (normalize_atleast_correct pick _ _ _ _ W1 E4) as (_ & O2 & _). pose proof (pos_wf _ (k_wf _ _ K2)) as W2. pose proof (k_nxt _ _ K2) as N2. cbn [pos nxt] in N2.
  destruct (IH (n + 2) G2 (Gate kAtleast (g_min x) l2)) as (G3 & E5 & L3 & R3 & K3 & F3); [auto| |cbn [g_args]; lia|].
  { split; [rewrite O2 by lia; auto|]. cbn [g_type g_min g_args]. split; [auto|]. split; [lia|]. split; [lia|auto]. }
  destruct (normalize_atleast_correct pick _ _ _ _ W2 E5) as (_ & O3 & _). pose proof (k_nxt _ _ K3) as N3. cbn [pos nxt] in N3.
  exists G3. split; [auto|]. split; [congruence|]. split; [congruence|]. split; [eapply keeps_trans; [exact K1|eapply keeps_trans; eauto]|].
  assert (In1 : 1 < n) by apply W.
  intros j y Hj Ey. destruct (Z.lt_ge_cases j (nxt G2)) as [Lj|Lj]; [|apply (F3 j); auto].
  destruct (Z.eq_dec j (n + 2)) as [->|J2]; [apply (F3 (n + 2)); auto|]. rewrite O3 in Ey by auto.
  destruct (Z.eq_dec j (n + 1)) as [->|J1]; [apply (F2 (n + 1)); auto|].
  destruct (Z.lt_ge_cases j (nxt G1)) as [Mj|Mj]; [|apply (F2 j); auto]. rewrite O2 in Ey by auto.
  destruct Hj as [->|Hj].
  - rewrite Ei in Ey. injection Ey as <-. cbn [g_min g_args]. split; [lia|]. intros b Ib. apply (in_perm _ _ _ P) in Ib. cbn in Ib. lia.
  - assert (j = n) as -> by lia. rewrite Ef in Ey. injection Ey as <-. cbn [g_min g_args]. split; [lia|]. intros b Ib. apply (in_perm _ _ _ Pf) in Ib. cbn in Ib. destruct Ib as [<-|[<-|[]]]; [|lia]. apply (kn_arg G i x a W KN Ha).
Qed.
(** preprocessor.cc:528-551 *)
Lemma normalize_type_total pick full_ i G x : (forall G i x, gs G !! i = Some x -> g_args x <> [] -> In (pick G i) (g_args x)) ->
  wf G -> gs G !! i = Some x -> full x -> g_type x <> kNull -> exists G', normalize_type pick full_ i G = Some G' /\ normal full_ G G' i.
Proof.
  intros PICK W E F NN. pose proof F as (C & M & ND & S). specialize (C NN). destruct (proj2 W i x E) as [Hi _]. unfold normalize_type. rewrite E. cbn [mbind option_bind].
  assert (PUT : forall t, positive_type t = positive_type (g_type x) -> negative_type t = false -> (full_ = true -> simple_type t \/ t = kNull) -> full (Gate t (g_min x) (g_args x)) -> exists G', set_type i t G = Some G' /\ normal full_ G G' i).
  { intros t PT NT FT FU. eexists. split; [apply (set_type_eq i t G x E)|]. eapply (normal_put full_ G _ i x (Gate t (g_min x) (g_args x)) W E); auto. unfold positive. cbn. f_equal; auto. }
  assert (STAY : negative_type (g_type x) = false -> (full_ = true -> simple_type (g_type x)) -> normal full_ G G i).
  { intros NT FT. eapply (normal_put full_ G G i x x W E); auto; [rewrite insert_id; auto|]. destruct (g_type x); auto. congruence. }
  assert (FULL : forall t, t <> kNull \/ size (g_args x) = 1 -> match t with kAnd | kOr => 2 <= size (g_args x) | kNull => size (g_args x) = 1 | _ => False end -> full (Gate t (g_min x) (g_args x))).
  { intros t _ Q. split; [intros _; exact C|]. split; [exact M|]. split; [exact ND|]. cbn. destruct t; auto; destruct Q. }
  destruct (g_type x) eqn:T; cbn [negative_type positive_type] in *; try congruence.
  - destruct (Z.leb_spec (size (g_args x)) 1); [lia|]. exists G. split; [auto|]. apply STAY; [auto|left; auto].
  - destruct (Z.leb_spec (size (g_args x)) 1); [lia|]. exists G. split; [auto|]. apply STAY; [auto|right; auto].
  - destruct (Z.leb_spec (size (g_args x)) 2); [lia|]. destruct (Z.leb_spec (g_min x) 1); [lia|]. cbn [orb]. destruct full_; [|exists G; split; [auto|]; apply STAY; [auto|discriminate]].
    destruct (normalize_atleast_total pick PICK (length (g_args x)) i G x W) as (G' & EA & NU & RE & KE & FR); [split; [auto|]; split; [auto|]; split; [lia|]; split; [lia|auto]|lia|].
    destruct (normalize_atleast_correct pick _ _ _ _ W EA) as (_ & OLD & SI). exists G'. split; [auto|]. pose proof (pos_wf _ (k_wf _ _ KE)) as W'. pose proof (k_nxt _ _ KE) as LN. cbn [pos nxt] in LN.
    assert (FF : forall j y, j = i \/ nxt G <= j -> gs G' !! j = Some y -> full y /\ simple_type (g_type y)).
    { intros j y Hj Ey. destruct (SI j y Hj Ey) as [ST SZ]. destruct (FR j y Hj Ey) as [M' HB]. split; [|auto]. split; [intros _; apply arg_const; intros b Ib; apply HB in Ib; lia|]. split; [auto|]. split; [apply (proj2 W' j y Ey)|]. destruct ST as [-> | ->]; lia. }
    assert (exists x', gs G' !! i = Some x') as [x' Ex'].
    { destruct (gs G' !! i) as [x'|] eqn:Q; [eauto|]. assert (Q2 : gs (pos G') !! i = None) by (rewrite pos_at, Q; auto). apply (k_vars _ _ KE) in Q2; [|cbn [pos nxt]; lia]. rewrite pos_at, E in Q2. discriminate. }
    destruct (FF i x' ltac:(auto) Ex') as [F1 S1]. constructor; auto.
    + exists x'. split; [auto|]. split; [auto|]. split; [destruct S1 as [-> | ->]; auto|]. split; [auto|]. split; [intros _ Q; destruct S1; congruence|]. intros g Ig. left. congruence.
    + intros j y L Ey. split; [apply W' in Ey; lia|]. apply (FF j y); auto.
    + intros g Ig. congruence.
  - rewrite S. cbn [negb Z.eqb]. change (2 =? 2) with true. cbn [negb]. destruct full_; [|exists G; split; [auto|]; apply STAY; [auto|discriminate]].
    destruct (normalize_xor_total i G x W E F T) as (G' & EX & NU & RE). pose proof (normalize_xor_spec _ _ _ _ W E EX) as SP.
    assert (Ep : gs (pos G) !! i = Some x) by (rewrite pos_at, E; cbn; f_equal; apply positive_same; rewrite T; auto).
    pose proof (xor_done_keeps i (pos G) (pos G') x (wf_pos G W) Ep T (xor_done_pos _ _ _ _ T SP)) as KE. exists G'. split; [auto|]. pose proof (pos_wf _ (k_wf _ _ KE)) as W'. pose proof (k_nxt _ _ KE) as LN. cbn [pos nxt] in LN.
    destruct SP as (a & b & l1 & l2 & l & Ea & P1 & P2 & P & N & Ei & En & Em & Ho).
    destruct (full_arg G i x a W E F ltac:(congruence) ltac:(rewrite Ea; left; auto)) as [LA _]. destruct (full_arg G i x b W E F ltac:(congruence) ltac:(rewrite Ea; right; left; auto)) as [LB _].
    assert (FF : forall j t m ll u v, gs G' !! j = Some (Gate t m ll) -> t = kAnd \/ t = kOr -> 0 <= m -> Permutation ll [u; v] -> 1 < Z.abs u -> 1 < Z.abs v -> full (Gate t m ll)).
    { intros j t m ll u v Ej Ht Hm Pl Lu Lv. split; [intros _; apply arg_const; cbn [g_args]; intros c Ic; apply (in_perm _ _ _ Pl) in Ic; destruct Ic as [<-|[<-|[]]]; lia|]. split; [auto|]. split; [apply (proj2 W' j _ Ej)|]. cbn. assert (size ll = 2) by (unfold size; rewrite (Permutation_length Pl); auto). destruct Ht as [-> | ->]; lia. }
    constructor; auto.
    + intros j J L. apply Ho; lia.
    + eexists. split; [exact Ei|]. split; [apply (FF i kOr (g_min x) l (nxt G) (nxt G + 1)); auto; lia|]. cbn. split; [auto|]. split; [left; right; auto|]. split; [discriminate|]. intros g Ig. left. congruence.
    + intros j y L Ey. destruct (Z.eq_dec j (nxt G)) as [->|J1]; [|destruct (Z.eq_dec j (nxt G + 1)) as [->|J2]].
      * rewrite En in Ey. injection Ey as <-. split; [lia|]. split; [|left; auto]. apply (FF (nxt G) kAnd 0 l1 a (- b)); auto; lia.
      * rewrite Em in Ey. injection Ey as <-. split; [lia|]. split; [|left; auto]. apply (FF (nxt G + 1) kAnd 0 l2 (- a) b); auto; lia.
      * rewrite Ho in Ey by lia. apply W in Ey. lia.
    + intros g Ig. congruence.
  - destruct (Z.eqb_spec (size (g_args x)) 1); [|lia]. cbn [negb]. apply PUT; auto.
  - destruct (Z.leb_spec (size (g_args x)) 1); [lia|]. apply PUT; auto. intros _. left. left. auto.
  - destruct (Z.leb_spec (size (g_args x)) 1); [lia|]. apply PUT; auto. intros _. left. right. auto.
Qed.

(** ** NormalizeGate *)
Section Walk.
Context (order : graph -> Z -> list Z) (ORDER : gate_order order) (pick : graph -> Z -> Z).
Context (PICK : forall G i x, gs G !! i = Some x -> g_args x <> [] -> In (pick G i) (g_args x)) (full_ : bool).
Context (G1 : graph) (W1 : wf G1) (r : Z -> nat) (RK : ranked G1 r) (F1 : forall j x, gs G1 !! j = Some x -> full x /\ g_type x <> kNull).
Record walk (G : graph) (C : gset Z) : Prop := {
  w_keeps : keeps (pos G1) (pos G);
  w_reg : reg G = true;
  w_full : forall j x, gs G !! j = Some x -> full x;
  w_old : forall j, j < nxt G1 -> j ∉ C -> gs G !! j = gs G1 !! j;
  w_null : forall g, In g (nulls G) -> exists y, gs G !! g = Some y /\ g_type y = kNull;
  w_regd : forall j y, gs G !! j = Some y -> g_type y = kNull -> In j (nulls G);
  w_marks : forall j, j ∈ C -> is_Some (gs G1 !! j);
  w_fresh : forall j x, nxt G1 <= j -> gs G !! j = Some x -> simple_type (g_type x) }.
Definition done (G : graph) (j : Z) : Prop :=
  exists x, gs G !! j = Some x /\ negative_type (g_type x) = false /\ (full_ = true -> simple_type (g_type x) \/ g_type x = kNull).
Definition advances (G : graph) (C : gset Z) (G' : graph) (C' : gset Z) : Prop :=
  walk G' C' /\ C ⊆ C' /\ (forall j, j ∈ C -> gs G' !! j = gs G !! j) /\ forall j, j ∈ C' -> j ∉ C -> done G' j /\ forall x a, gs G1 !! j = Some x -> In a (g_args x) -> is_Some (gs G1 !! Z.abs a) -> Z.abs a ∈ C'.
Lemma walk_wf G C : walk G C -> wf G. Proof. intros K. apply pos_wf, (w_keeps _ _ K). Qed.
Lemma walk_nxt G C : walk G C -> nxt G1 <= nxt G. Proof. intros K. apply (k_nxt _ _ (w_keeps _ _ K)). Qed.
Lemma walk_gates G C j : walk G C -> j < nxt G1 -> is_Some (gs G !! j) -> is_Some (gs G1 !! j).
Proof.
  intros K L [y E]. destruct (gs G1 !! j) as [x|] eqn:Q; [eauto|]. assert (J : 1 < j) by (apply (walk_wf _ _ K) in E; lia).
  assert (Q1 : gs (pos G1) !! j = None) by (rewrite pos_at, Q; auto). apply (k_vars _ _ (w_keeps _ _ K)) in Q1; [|cbn [pos nxt]; lia]. rewrite pos_at, E in Q1. discriminate.
Qed.
Lemma walk_gates' G C j : walk G C -> is_Some (gs G1 !! j) -> is_Some (gs G !! j).
Proof.
  intros K [y E]. destruct (gs G !! j) as [x|] eqn:Q; [eauto|]. assert (J : 1 < j < nxt G1) by (apply W1 in E; lia).
  assert (Q1 : gs (pos G) !! j = None) by (rewrite pos_at, Q; auto). apply (k_vars _ _ (w_keeps _ _ K)) in Q1; [|cbn [pos nxt]; lia]. rewrite pos_at, E in Q1. discriminate.
Qed.
Lemma walk_finish i x G C G' : walk G C -> i ∈ C -> i < nxt G1 -> gs G !! i = Some x -> g_type x <> kNull -> normal full_ G G' i -> walk G' C /\ done G' i /\ forall j, j < nxt G1 -> j <> i -> gs G' !! j = gs G !! j.
Proof.
  intros K IC LI E T NO. pose proof (walk_wf _ _ K) as W. pose proof (walk_nxt _ _ K) as LN. destruct (n_self _ _ _ _ NO) as (x' & E' & FX & NX & SX & RX & LX).
  assert (CASE : forall j y, gs G' !! j = Some y -> j = i /\ y = x' \/ gs G !! j = Some y /\ j < nxt G /\ j <> i \/ nxt G <= j /\ full y /\ simple_type (g_type y)).
  { intros j y Ey. destruct (Z.lt_ge_cases j (nxt G)) as [L|L]; [|right; right; split; [auto|apply (n_fresh _ _ _ _ NO j y L Ey)]]. destruct (Z.eq_dec j i) as [->|J]; [left; split; [auto|congruence]|]. right. left. rewrite (n_old _ _ _ _ NO) in Ey by auto. auto. }
  split; [|split].
  - constructor.
    + eapply keeps_trans; [apply K|apply NO].
    + rewrite (n_reg _ _ _ _ NO). apply K.
    + intros j y Ey. destruct (CASE j y Ey) as [[-> ->]|[(Q & _)|(_ & Q & _)]]; auto. apply (w_full _ _ K j y Q).
    + intros j L J. rewrite (n_old _ _ _ _ NO); [apply K; auto|intros ->; auto|lia].
    + intros g Ig. destruct (LX g Ig) as [Ig'|[-> Q]]; [|eauto]. destruct (w_null _ _ K g Ig') as (y & Ey & Ty). exists y. split; [|auto]. rewrite (n_old _ _ _ _ NO); [auto|intros ->; congruence|apply W in Ey; lia].
    + intros j y Ey Ty. destruct (CASE j y Ey) as [[-> ->]|[(Q & _)|(_ & _ & Q)]].
      * apply RX; [apply K|auto].
      * apply (n_nulls _ _ _ _ NO), (w_regd _ _ K j y Q Ty).
      * destruct Q; congruence.
    + apply K.
    + intros j y L Ey. destruct (CASE j y Ey) as [[-> ->]|[(Q & _)|(_ & _ & Q)]]; [lia| |auto]. apply (w_fresh _ _ K j y L Q).
  - exists x'. auto.
  - intros j L J. apply (n_old _ _ _ _ NO); [auto|lia].
Qed.
Lemma normalize_gate_total : forall fuel i G C, (r i < fuel)%nat -> is_Some (gs G1 !! i) -> walk G C ->
  exists G' C', normalize_gate order pick fuel full_ i G C = Some (G', C') /\ i ∈ C' /\ advances G C G' C'.
Proof.
  induction fuel as [|fuel IH]; intros i G C LF [x Ex] K; [lia|]. cbn [normalize_gate]. case_bool_decide as IC.
  { exists G, C. split; [auto|]. split; [auto|]. split; [auto|]. split; [auto|]. split; [auto|]. intros j J1 J2. contradiction. }
  assert (LI : 1 < i < nxt G1) by (apply W1 in Ex; lia).
  assert (E : gs G !! i = Some x) by (rewrite (w_old _ _ K) by (auto; lia); auto). rewrite E. cbn [mbind option_bind]. destruct (F1 i x Ex) as [FX TX]. pose proof FX as (CX & MX & NX & SX). rewrite (CX TX).
  assert (S0 : size (g_args x) <> 0) by (destruct (g_type x); lia). destruct (Z.eqb_spec (size (g_args x)) 0); [contradiction|]. cbn [orb].
  assert (K1 : walk G ({[i]} ∪ C)).
  { destruct K as [k1 k2 k3 k4 k5 k6 k7 k8]. constructor; auto; [intros j L J; apply k4; set_solver|]. intros j J. apply elem_of_union in J as [J|J]; [|auto]. apply elem_of_singleton in J. subst j. eauto. }
  pose proof (ORDER G i x E) as PO.
  assert (HO : forall a, In a (order G i) <-> In a (g_args x) /\ is_Some (gs G1 !! Z.abs a)).
  { intros a. etransitivity; [split; [apply (in_perm _ _ a PO)|apply (in_perm _ _ a (Permutation_sym PO))]|]. rewrite List.filter_In. split; intros [I Q]; (split; [exact I|]).
    - apply (walk_gates G C (Z.abs a) K); [apply (proj2 (proj2 (proj2 W1 i x Ex)) a I)|]. unfold is_gate in Q. destruct (gs G !! Z.abs a); [eauto|discriminate].
    - unfold is_gate. destruct (walk_gates' G C (Z.abs a) K Q) as [y ->]. auto. }
  assert (LOOP : forall l H D, incl l (order G i) -> walk H D -> exists H' D', each (normalize_gate order pick fuel full_) l H D = Some (H', D') /\ (forall a, In a l -> Z.abs a ∈ D') /\ advances H D H' D').
  { induction l as [|a l IHl]; intros H D LL KH; cbn [each].
    - exists H, D. split; [auto|]. split; [intros a []|]. split; [auto|]. split; [auto|]. split; [auto|]. intros j J1 J2. contradiction.
    - assert (Ia : In a (order G i)) by (apply LL; left; auto). apply HO in Ia as [Ia Sa]. pose proof (RK i x a Ex Ia Sa) as LR.
      destruct (IH (Z.abs a) H D ltac:(lia) Sa KH) as (H1 & D1 & E2 & ID & KH1 & SD & FD & DD). rewrite E2. cbn [mbind option_bind].
      destruct (IHl H1 D1) as (H2 & D2 & E3 & ID2 & KH2 & SD2 & FD2 & DD2); [intros c Ic; apply LL; right; auto|auto|]. exists H2, D2. split; [auto|]. split; [intros c [<-|Ic]; auto|]. split; [auto|]. split; [set_solver|]. split.
      + intros j J. rewrite FD2 by auto. auto.
      + intros j J1 J2. destruct (decide (j ∈ D1)) as [J3|J3]; [|auto]. destruct (DD j J3 J2) as [(y & Ey & Dy) CY]. split; [exists y; rewrite FD2; auto|]. intros z c Ez Ic Sc. apply SD2. apply (CY z c); auto. }
  destruct (LOOP (order G i) G ({[i]} ∪ C) ltac:(apply incl_refl) K1) as (G2 & C2 & E2 & IA & K2 & S2 & FR2 & D2). rewrite E2. cbn [mbind option_bind].
  assert (II : i ∈ C2) by set_solver.
  assert (Ei : gs G2 !! i = Some x) by (rewrite FR2 by set_solver; auto).
  destruct (normalize_type_total pick full_ i G2 x PICK (walk_wf _ _ K2) Ei FX TX) as (G3 & E3 & NO). rewrite E3. cbn [mbind option_bind].
  destruct (walk_finish i x G2 C2 G3 K2 II ltac:(lia) Ei TX NO) as (K3 & DI & OLD). exists G3, C2. split; [auto|]. split; [auto|]. split; [auto|]. split; [set_solver|]. split.
  - intros j J. rewrite OLD; [apply FR2; set_solver| |intros ->; auto]. destruct (w_marks _ _ K j J) as [y Ey]. apply W1 in Ey. lia.
  - intros j J1 J2. destruct (Z.eq_dec j i) as [->|J].
    + split; [auto|]. intros y a Ey Ia Sa. rewrite Ex in Ey. injection Ey as <-. apply IA, HO. auto.
    + destruct (D2 j J1 ltac:(set_solver)) as [(y & Ey & Dy) CY]. split; [|auto]. exists y. rewrite OLD; [auto| |auto]. destruct (w_marks _ _ K2 j J1) as [z Ez]. apply W1 in Ez. lia.
Qed.
Lemma normalize_root root fuel : nulls G1 = [] -> reg G1 = true -> is_Some (gs G1 !! root) -> (forall j, is_Some (gs G1 !! j) -> reach G1 root j) -> (r root < fuel)%nat ->
  exists G' C', normalize_gate order pick fuel full_ root G1 ∅ = Some (G', C') /\ walk G' C' /\ forall j x, gs G' !! j = Some x -> negative_type (g_type x) = false /\ (full_ = true -> simple_type (g_type x) \/ g_type x = kNull).
Proof.
  intros NU RE SR LIVE LF. assert (K0 : walk G1 ∅).
  { constructor.
    - apply keeps_refl, wf_pos; auto.
    - auto.
    - intros j x E. apply (F1 j x E).
    - auto.
    - rewrite NU. intros g [].
    - intros j y E T. destruct (F1 j y E). contradiction.
    - intros j J. set_solver.
    - intros j x L E. apply W1 in E. lia. }
  destruct (normalize_gate_total fuel root G1 ∅ LF SR K0) as (G' & C' & E & IR & K & _ & _ & D). exists G', C'. split; [auto|]. split; [auto|].
  assert (ALL : forall j, reach G1 root j -> is_Some (gs G1 !! j) -> j ∈ C').
  { intros j RJ. induction RJ as [|k x a RC IH Ex Ia]; intros Sj; [auto|]. apply (proj2 (D k (IH ltac:(eauto)) ltac:(set_solver)) x a); auto. }
  intros j x Ex. destruct (Z.lt_ge_cases j (nxt G1)) as [L|L].
  - assert (Sj : is_Some (gs G1 !! j)) by (apply (walk_gates G' C'); eauto). destruct (D j (ALL j (LIVE j Sj) Sj) ltac:(set_solver)) as [(y & Ey & Dy) _]. rewrite Ex in Ey. injection Ey as <-. auto.
  - pose proof (w_fresh _ _ K j x L Ex) as [-> | ->]; cbn; split; auto; intros _; left; [left|right]; auto.
Qed.
End Walk.

(** ** NormalizeGates up to RemoveNullGates *)
Lemma same_value G G' : (forall j, gs G' !! j = gs G !! j) -> nxt G' = nxt G -> forall σ j b, node_value G' σ j b <-> node_value G σ j b.
Proof. intros E N σ j b. assert (gs G' = gs G) by (apply map_eq; auto). unfold node_value, consistent. rewrite H, N. tauto. Qed.
Lemma reach_abs G H root j : (forall k x, gs G !! k = Some x -> exists y, gs H !! k = Some y /\ forall a, In a (g_args x) -> exists b, In b (g_args y) /\ Z.abs b = Z.abs a) -> reach G root j -> reach H root j.
Proof.
  intros Q. induction 1 as [|k x a RC IH E I]; [constructor|]. destruct (Q k x E) as (y & Ey & Hy). destruct (Hy a I) as (b & Ib & <-). eapply reach_arg; eauto.
Qed.
Theorem normalize_all_total order pick full_ root comp G :
  gate_order order -> (forall G i x, gs G !! i = Some x -> g_args x <> [] -> In (pick G i) (g_args x)) ->
  wf G -> acyclic G -> full_graph G -> (forall j x, gs G !! j = Some x -> g_type x <> kNull) -> nulls G = [] -> reg G = true ->
  is_Some (gs G !! root) -> (forall j, is_Some (gs G !! j) -> reach G root j) ->
  exists n, forall fuel, (n <= fuel)%nat -> exists G', normalize_all order pick fuel full_ root comp G = Some (G', xorb comp (negative_gate G root)) /\
    wf G' /\ acyclic G' /\ full_graph G' /\ reg G' = true /\ nxt G <= nxt G' /\
    (forall g, In g (nulls G') <-> exists y, gs G' !! g = Some y /\ g_type y = kNull) /\
    (forall j x, gs G' !! j = Some x -> negative_type (g_type x) = false /\ (full_ = true -> simple_type (g_type x) \/ g_type x = kNull)) /\
    (forall j, 1 < j < nxt G -> (gs G' !! j = None <-> gs G !! j = None)) /\
    (forall j, nxt G <= j < nxt G' -> is_Some (gs G' !! j)) /\
    (forall σ j b, 0 < j < nxt G -> (node_value G' σ j (xorb b (negative_gate G j)) <-> node_value G σ j b)).
Proof.
  intros OR PI W AC FG NN NU RE SR LIVE. pose proof AC as [r RK]. exists (S (r root)). intros fuel LF.
  destruct (notify_root order OR G W r RK root fuel SR LIVE ltac:(lia)) as (G1 & C1 & E1 & X1 & U1 & R1 & A1).
  assert (LA : forall j x, gs G !! j = Some x -> gs G1 !! j = Some (flip G x)) by (intros j x E; rewrite A1, E; auto).
  assert (LB : forall j y, gs G1 !! j = Some y -> exists x, gs G !! j = Some x /\ y = flip G x) by (intros j y E; rewrite A1 in E; destruct (gs G !! j) as [x|]; [|discriminate]; injection E as <-; eauto).
  assert (SOME : forall j, is_Some (gs G1 !! j) <-> is_Some (gs G !! j)) by (intros j; rewrite A1; destruct (gs G !! j); cbn; split; eauto; intros [? ?]; discriminate).
  assert (FA : forall j x a, gs G !! j = Some x -> (In a (g_args (flip G x)) <-> exists b, In b (g_args x) /\ a = notify_arg G b)) by (intros j x a E; apply (flip_args G x (proj2 (proj2 W j x E)))).
  assert (W1 : wf G1).
  { split; [rewrite X1; apply W|]. intros j y E. destruct (LB j y E) as (x & Ex & ->). rewrite X1. destruct (proj2 W j x Ex) as [L OK]. split; [auto|]. apply (notify_ok G _ _ OK). }
  assert (RK1 : ranked G1 r).
  { intros j y a E Ia Sa. destruct (LB j y E) as (x & Ex & ->). apply (FA j x a Ex) in Ia as (b & Ib & ->). rewrite notify_abs in *. apply (RK j x b Ex Ib). apply SOME. auto. }
  assert (F1 : forall j y, gs G1 !! j = Some y -> full y /\ g_type y <> kNull).
  { intros j y E. destruct (LB j y E) as (x & Ex & ->). pose proof (NN j x Ex) as T. split; [|auto]. destruct (proj2 FG j x Ex) as [_ FX]. pose proof FX as (CX & MX & NX & SX).
    split; [intros _; apply arg_const; intros a Ia; apply (FA j x a Ex) in Ia as (b & Ib & ->); rewrite notify_abs; destruct (full_arg G j x b W Ex FX T Ib); lia|]. split; [auto|]. destruct (notify_ok G _ _ (proj2 (proj2 W j x Ex))) as [OK P]. split; [apply OK|].
    assert (SZ : size (g_args (flip G x)) = size (g_args x)) by (unfold size; cbn; rewrite (Permutation_length P), map_length; auto). rewrite SZ. exact SX. }
  assert (LIVE1 : forall j, is_Some (gs G1 !! j) -> reach G1 root j).
  { intros j Sj. apply SOME in Sj. apply (reach_abs G); [|auto]. intros k x E. exists (flip G x). split; [auto|]. intros a Ia. exists (notify_arg G a). split; [apply (FA k x); eauto|apply notify_abs]. }
  destruct (normalize_root order OR pick PI full_ G1 W1 r RK1 F1 root fuel ltac:(congruence) ltac:(congruence) ltac:(apply SOME; auto) LIVE1 ltac:(lia)) as (G2 & C2 & E2 & K & TY).
  exists G2. unfold normalize_all. rewrite NU. destruct SR as [xr Er]. rewrite Er. cbn [mbind option_bind]. rewrite E1. cbn [mbind option_bind]. rewrite E2. cbn [mbind option_bind].
  split; [unfold negative_gate; rewrite Er; auto|].
  assert (P2 : forall j, gs (pos G2) !! j = gs G2 !! j).
  { intros j. rewrite pos_at. destruct (gs G2 !! j) as [x|] eqn:E; [|auto]. cbn. f_equal. apply positive_same. apply (TY j x E). }
  set (GN := fst (normalize_negative root comp G)).
  assert (PN : forall j, gs (pos G1) !! j = gs GN !! j).
  { intros j. rewrite pos_at, A1. unfold GN. rewrite neg_lookup. destruct (gs G !! j); auto. }
  assert (WN : wf (pos G1)) by (apply wf_pos; auto).
  assert (AN : acyclic (pos G1)).
  { exists r. intros j y a E Ia Sa. rewrite pos_at in E. destruct (gs G1 !! j) as [z|] eqn:Ez; [|discriminate]. injection E as <-. apply (RK1 j z a Ez Ia). rewrite pos_at in Sa. destruct (gs G1 !! Z.abs a); [eauto|destruct Sa; discriminate]. }
  pose proof (w_keeps _ _ _ K) as KE. pose proof (walk_wf _ _ _ K) as W2. pose proof (walk_nxt _ _ _ K) as L2. rewrite X1 in L2.
  split; [auto|]. split; [destruct (k_acyclic _ _ KE AN) as [q RQ]; exists q; intros j y a E Ia Sa; apply (RQ j y a); rewrite ?P2; auto|].
  split; [split; [apply W2|]; intros j x E; split; [apply W2 in E; lia|apply (w_full _ _ _ K j x E)]|].
  split; [apply K|]. split; [auto|]. split; [intros g; split; [apply K|intros (y & Ey & Ty); apply (w_regd _ _ _ K g y Ey Ty)]|]. split; [exact TY|]. split; [|split].
  - intros j L. rewrite <- P2. etransitivity; [apply (k_vars _ _ KE); cbn [pos nxt]; lia|]. rewrite pos_at, A1. destruct (gs G !! j); cbn; split; intros Q; congruence.
  - intros j L. rewrite <- P2. apply (k_fresh _ _ KE). cbn [pos nxt]. lia.
  - intros σ j b Lj. rewrite <- (neg_value G root comp W AC) with (j := j); [| |auto].
    + etransitivity; [symmetry; apply (same_value G2 (pos G2) P2 eq_refl)|]. etransitivity; [apply (keeps_value (pos G1) (pos G2) WN AN KE); cbn [pos nxt]; lia|]. apply same_value; [exact PN|cbn; auto].
    + intros k x E T. destruct (proj2 FG k x E) as [_ (_ & _ & _ & SX)]. rewrite T in SX. destruct (g_args x) as [|c [|]]; unfold size in SX; cbn [length] in SX; try lia. eauto.
Qed.
