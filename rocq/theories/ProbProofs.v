(** The traversals of Prob.v compute what their recursion equations say, whatever was shared and
    whatever the marks left by earlier traversals. *)
From stdpp Require Import gmap.
From Coq Require Import List ZArith Lia Bool.
Import ListNotations.
From Verif Require Import Prob.
From Verif Require Bdd.
Open Scope Z_scope.

Section Traverse.
Context {T : Type} (A : arith T).
Context (nodes : gmap Z Bdd.node) (mods : gmap Z Bdd.fn) (is_module : Z -> bool).
Notation terminal := Bdd.terminal.
Definition edge (v w : Z) : Prop := terminal v = false /\ exists n, nodes !! v = Some n /\
  (w = Bdd.n_high n \/ w = Bdd.n_low n \/ is_module (Bdd.n_index n) = true /\ exists f, mods !! Bdd.n_index n = Some f /\ w = f.2).
Definition reach : Z -> Z -> Prop := rtc edge.
(** The depth of the graph below a vertex is at most d; no vertex or module is missing. *)
Fixpoint height (d : nat) (v : Z) : Prop :=
  terminal v = true \/
  match d with
  | O => False
  | S d => exists n, nodes !! v = Some n /\ height d (Bdd.n_high n) /\ height d (Bdd.n_low n) /\
             (is_module (Bdd.n_index n) = true -> exists f, mods !! Bdd.n_index n = Some f /\ height d f.2)
  end.
Lemma height_S : forall d v, height d v -> height (S d) v.
Proof.
  induction d as [|d IH]; intros v H; [destruct H as [H|[]]; left; auto|]. destruct H as [H|(n & E & Hh & Hl & Hm)]; [left; auto|]. right. exists n.
  split; auto. split; [apply IH; auto|]. split; [apply IH; auto|]. intros M. destruct (Hm M) as (f & Ef & Hf). exists f. split; auto.
Qed.
Lemma height_le d d' v : (d <= d')%nat -> height d v -> height d' v.
Proof. induction 1 as [|d' L IH]; auto. intros H. apply height_S. auto. Qed.
Lemma height_edge d v w : height d v -> edge v w -> exists d', d = S d' /\ height d' w.
Proof.
  intros H [Tv (n & E & W)]. destruct d as [|d]; destruct H as [H|H]; try congruence; [destruct H|]. exists d. split; auto.
  destruct H as (n' & E' & Hh & Hl & Hm). rewrite E in E'. injection E' as <-. destruct W as [->|[->|(M & f & Ef & ->)]]; auto.
  destruct (Hm M) as (f' & Ef' & Hf). congruence.
Qed.
Lemma height_reach v w : reach v w -> forall d, height d v -> exists d', (d' <= d)%nat /\ height d' w.
Proof.
  induction 1 as [v|v u w E R IH]; intros d H; [eauto|]. destruct (height_edge d v u H E) as (d' & -> & H'). destruct (IH d' H') as (d2 & L & H2). exists d2. split; auto.
Qed.
Lemma acyclic d : forall v w, height d v -> edge v w -> reach w v -> False.
Proof.
  induction d as [d IH] using lt_wf_ind. intros v w H E R. destruct (height_edge d v w H E) as (d' & -> & H').
  inversion R as [|? u ? E' R']; subst; [apply (IH d' ltac:(lia) v v H' E); constructor|].
  apply (IH d' ltac:(lia) w u H' E'). eapply rtc_r; eauto.
Qed.
Lemma reach_terminal v w : terminal v = true -> reach v w -> w = v.
Proof. intros Tv R. inversion R as [|? u ? [E _] ?]; auto. congruence. Qed.
Lemma reach_edge v w u : edge v w -> reach w u -> reach v u. Proof. intros E R. eapply rtc_l; eauto. Qed.

Section Calculate.
Context (dom : Z -> Prop) (DOM : forall v w, dom v -> edge v w -> dom w).
Context (p_vars : Z -> T) (m : bool) (Val : Z -> T -> Prop).
Context (V1 : forall v, terminal v = true -> Val v (one A)).
Context (VN : forall v n pv h l, dom v -> terminal v = false -> nodes !! v = Some n ->
  (if is_module (Bdd.n_index n) then exists f x, mods !! Bdd.n_index n = Some f /\ Val f.2 x /\ pv = complement A f.1 x else pv = p_vars (Bdd.n_index n)) ->
  Val (Bdd.n_high n) h -> Val (Bdd.n_low n) l ->
  Val v (add A (mul A pv h) (mul A (sub A (one A) pv) (complement A (Bdd.n_ce n) l)))).
Definition good (a : attrs) (u : Z) : Prop := terminal u = false -> mark a u = m /\ Val u (p a u).
Definition all_good (a : attrs) (v : Z) : Prop := forall u, reach v u -> good a u.
Definition before (a : attrs) (v : Z) : Prop := forall w, reach v w -> terminal w = false -> mark a w = m -> all_good a w.
Definition evolves (a a' : attrs) : Prop := (forall u, (mark a' u = mark a u /\ p a' u = p a u) \/ all_good a' u) /\ factor a' = factor a.
Lemma evolves_refl a : evolves a a. Proof. split; auto. Qed.
Lemma all_good_evolves a a' w : evolves a a' -> all_good a w -> all_good a' w.
Proof.
  intros E H u R Tu. destruct (proj1 E u) as [[E1 E2]|G]; [rewrite E1, E2; apply (H u R Tu)|]. apply (G u); auto. constructor.
Qed.
Lemma evolves_trans a b c : evolves a b -> evolves b c -> evolves a c.
Proof.
  intros E1 E2. split; [|destruct E1, E2; congruence]. intros u. destruct (proj1 E2 u) as [[M2 P2]|G2]; auto.
  destruct (proj1 E1 u) as [[M1 P1]|G1]; [left; split; congruence|]. right. apply (all_good_evolves b c); auto.
Qed.
Lemma before_evolves a a' v : evolves a a' -> before a v -> before a' v.
Proof.
  intros E B w R Tw M. destruct (proj1 E w) as [[E1 E2]|G]; auto. apply (all_good_evolves a a'); auto. apply B; auto. congruence.
Qed.
Lemma before_sub a v w : before a v -> edge v w -> before a w.
Proof. intros B E u R. apply B. eapply reach_edge; eauto. Qed.
Lemma calculate_ok : forall d v fuel a, height d v -> (d < fuel)%nat -> dom v -> before a v ->
  exists x a', calculate A nodes mods is_module fuel p_vars v m a = Some (x, a') /\ Val v x /\ all_good a' v /\ evolves a a'.
Proof.
  induction d as [|d IH]; intros v fuel a H F D B; (destruct fuel as [|fuel]; [lia|]); cbn [calculate];
    (destruct (terminal v) eqn:Tv; [exists (one A), a; split; auto; split; auto; split; [|apply evolves_refl]; intros u R Tu; rewrite (reach_terminal v u Tv R) in Tu; congruence|]).
  { destruct H as [H|[]]; congruence. }
  pose proof H as H0. destruct H as [H|(n & En & Hh & Hl & Hm)]; [congruence|]. rewrite En. cbn [mbind option_bind].
  destruct (Bool.eqb (mark a v) m) eqn:Em.
  { apply eqb_prop in Em. assert (G : all_good a v) by (apply (B v); auto; constructor). exists (p a v), a. split; auto. split; [apply (G v); auto; constructor|]. split; auto. apply evolves_refl. }
  set (a0 := set_mark v m a).
  assert (NR : forall c, edge v c -> reach c v -> False) by (intros c; apply (acyclic (S d)); auto).
  assert (B0 : forall c, edge v c -> before a0 c).
  { intros c Ec w R Tw Mw. assert (NW : w <> v) by (intros ->; apply (NR c Ec R)).
    assert (Ma : mark a w = m). { unfold a0, set_mark, upd in Mw. cbn [mark] in Mw. destruct (Z.eqb_spec w v); congruence. }
    assert (G : all_good a w) by (apply (B w); auto; eapply reach_edge; eauto). intros u Ru Tu. destruct (G u Ru Tu) as [G1 G2].
    unfold a0, set_mark, upd. cbn [mark p]. split; auto. destruct (u =? v); auto. }
  assert (Ehigh : edge v (Bdd.n_high n)) by (split; eauto).
  assert (Elow : edge v (Bdd.n_low n)) by (split; eauto 7).
  assert (MOD : exists pv a1, (if is_module (Bdd.n_index n) then
                       res ← mods !! Bdd.n_index n;
                       '(x, a) ← calculate A nodes mods is_module fuel p_vars res.2 m a0;
                       Some (complement A res.1 x, a)
                     else Some (p_vars (Bdd.n_index n), a0)) = Some (pv, a1) /\ evolves a0 a1 /\
     (if is_module (Bdd.n_index n) then exists f x, mods !! Bdd.n_index n = Some f /\ Val f.2 x /\ pv = complement A f.1 x else pv = p_vars (Bdd.n_index n)) /\
     (forall f, is_module (Bdd.n_index n) = true -> mods !! Bdd.n_index n = Some f -> all_good a1 f.2)).
  { destruct (is_module (Bdd.n_index n)) eqn:M.
    - destruct (Hm eq_refl) as (f & Ef & Hf). rewrite Ef. cbn [mbind option_bind].
      assert (Em' : edge v f.2) by (split; eauto 10).
      destruct (IH f.2 fuel a0 Hf ltac:(lia) (DOM _ _ D Em') (B0 _ Em')) as (x & a1 & -> & Vx & G & E). cbn [mbind option_bind].
      eexists _, _. split; [reflexivity|]. split; auto. split; [eauto|]. intros f' _ [= <-]. auto.
    - eexists _, _. split; [reflexivity|]. split; [apply evolves_refl|]. split; auto. intros; discriminate. }
  destruct MOD as (pv & a1 & -> & E1 & PV & G1). cbn [mbind option_bind].
  destruct (IH (Bdd.n_high n) fuel a1 Hh ltac:(lia) (DOM _ _ D Ehigh)) as (h & a2 & -> & Vh & G2 & E2).
  { apply (before_evolves a0); auto. }
  cbn [mbind option_bind].
  destruct (IH (Bdd.n_low n) fuel a2 Hl ltac:(lia) (DOM _ _ D Elow)) as (l & a3 & -> & Vl & G3 & E3).
  { apply (before_evolves a1); auto. apply (before_evolves a0); auto. }
  cbn [mbind option_bind]. eexists _, _. split; [reflexivity|].
  pose proof (VN v n pv h l D Tv En PV Vh Vl) as VV. set (x := add A _ _) in *. split; auto.
  assert (E03 : evolves a0 a3) by (eapply evolves_trans; [exact E1|eapply evolves_trans; eauto]).
  assert (KEEP : forall u, mark a3 u = m /\ (terminal u = false -> Val u (p a3 u)) \/ u = v /\ mark a3 u = m -> good (set_p v x a3) u).
  { intros u K Tu. unfold set_p, upd. cbn [mark p]. destruct (Z.eqb_spec u v) as [->|NE]; [|destruct K as [[? K]|[? _]]; [auto|contradiction]].
    destruct K as [[? _]|[_ ?]]; auto. }
  assert (AG : forall w, all_good a3 w -> all_good (set_p v x a3) w).
  { intros w G u R Tu. destruct (G u R Tu). apply KEEP; auto. }
  assert (Mv : mark a3 v = m).
  { destruct (proj1 E03 v) as [[E _]|G]; [rewrite E; unfold a0, set_mark, upd; cbn [mark]; rewrite Z.eqb_refl; auto|apply (G v); auto; constructor]. }
  assert (GV : all_good (set_p v x a3) v).
  { intros u R. inversion R as [|? c ? Ec R']; subst; [apply KEEP; auto|]. revert u R' R.
    intros u R' _. destruct Ec as [_ (n' & En' & C)]. rewrite En in En'. injection En' as <-.
    destruct C as [->|[->|(M & f & Ef & ->)]].
    - apply (AG (Bdd.n_high n)); auto. apply (all_good_evolves a2); auto.
    - apply (AG (Bdd.n_low n)); auto.
    - apply (AG f.2); auto. apply (all_good_evolves a2); auto. apply (all_good_evolves a1); auto. }
  split; auto. split; [|apply E03]. intros u. destruct (Z.eq_dec u v) as [->|NE]; [right; auto|].
  destruct (proj1 E03 u) as [[M P]|G]; [left|right; apply AG; auto]. unfold set_p, upd. cbn [mark p]. destruct (Z.eqb_spec u v); [contradiction|].
  split; auto. rewrite M. unfold a0, set_mark, upd. cbn [mark]. destruct (Z.eqb_spec u v); [contradiction|auto].
Qed.
End Calculate.

(** The state between calls: all vertices of the graph have the mark of the analyzer. *)
Definition uniform (root : Z) (m : bool) (a : attrs (T := T)) : Prop := forall u, reach root u -> terminal u = false -> mark a u = m.
Definition probabilities (Val : Z -> T -> Prop) (root : Z) (a : attrs) : Prop := forall u, reach root u -> terminal u = false -> Val u (p a u).

Section Mif.
Context (dom : Z -> Prop) (DOM : forall v w, dom v -> edge v w -> dom w).
Context (p_vars : Z -> T) (m : bool) (order : Z) (Val ValF : Z -> T -> Prop).
Context (V1 : forall v, terminal v = true -> Val v (one A)).
Context (F1 : forall v, terminal v = true -> ValF v (zero A)).
Context (FN1 : forall v n, dom v -> terminal v = false -> nodes !! v = Some n -> order < Bdd.n_order n -> is_module (Bdd.n_index n) = false -> ValF v (zero A)).
Context (FN2 : forall v n f h l x, dom v -> terminal v = false -> nodes !! v = Some n -> order < Bdd.n_order n -> is_module (Bdd.n_index n) = true ->
  mods !! Bdd.n_index n = Some f -> Val (Bdd.n_high n) h -> Val (Bdd.n_low n) l -> ValF f.2 x ->
  ValF v (mul A (sub A h (complement A (Bdd.n_ce n) l)) (negate A f.1 x))).
Context (FN3 : forall v n h l, dom v -> terminal v = false -> nodes !! v = Some n -> Bdd.n_order n = order ->
  Val (Bdd.n_high n) h -> Val (Bdd.n_low n) l -> is_module (Bdd.n_index n) = false /\ ValF v (sub A h (complement A (Bdd.n_ce n) l))).
Context (FN4 : forall v n pv h l, dom v -> terminal v = false -> nodes !! v = Some n -> Bdd.n_order n < order ->
  (if is_module (Bdd.n_index n) then exists f x, mods !! Bdd.n_index n = Some f /\ Val f.2 x /\ pv = complement A f.1 x else pv = p_vars (Bdd.n_index n)) ->
  ValF (Bdd.n_high n) h -> ValF (Bdd.n_low n) l ->
  ValF v (add A (mul A pv h) (mul A (sub A (one A) pv) (negate A (Bdd.n_ce n) l)))).
Definition marked_path (a : attrs (T := T)) : Z -> Z -> Prop := rtc (fun v w => edge v w /\ (terminal w = false -> mark a w = m)).
Definition ready (a : attrs) (v : Z) : Prop :=
  (forall w, reach v w -> terminal w = false -> mark a w = m -> ValF w (factor a w)) /\ probabilities Val v a.
Definition moves (v : Z) (a a' : attrs) : Prop :=
  p a' = p a /\
  (forall u, mark a' u = mark a u /\ factor a' u = factor a u \/ mark a' u = m /\ ValF u (factor a' u)) /\
  (forall u, mark a' u = m -> mark a u = m \/ marked_path a' v u).
Lemma moves_mono v a a' u : moves v a a' -> mark a u = m -> mark a' u = m.
Proof. intros (_ & E & _) M. destruct (E u) as [[-> _]|[M' _]]; auto. Qed.
Lemma ready_moves c v a a' : moves c a a' -> ready a v -> ready a' v.
Proof.
  intros (P & E & _) [R1 R2]. split.
  - intros w R Tw M. destruct (E w) as [[E1 E2]|[_ V]]; auto. rewrite E2. apply R1; auto. congruence.
  - intros u R Tu. rewrite P. apply R2; auto.
Qed.
Lemma path_mono a a' v u : (forall w, mark a w = m -> mark a' w = m) -> marked_path a v u -> marked_path a' v u.
Proof. intros H. induction 1 as [|x y z [E M] R IH]; [constructor|]. eapply rtc_l; [|exact IH]. split; auto. Qed.
Lemma ready_sub a v w : ready a v -> edge v w -> ready a w.
Proof. intros [R1 R2] E. split; intros u R; [apply R1|apply R2]; eapply reach_edge; eauto. Qed.
Lemma retrieve_ok a v w : ready a v -> edge v w -> Val w (retrieve A w a).
Proof.
  intros [_ R] E. unfold retrieve. destruct (terminal w) eqn:Tw; auto. apply R; auto. eapply reach_edge; eauto. constructor.
Qed.
Lemma mif_ok : forall d v fuel a, height d v -> (d < fuel)%nat -> dom v -> ready a v ->
  exists x a', mif A nodes mods is_module fuel p_vars v order m a = Some (x, a') /\ ValF v x /\ (terminal v = false -> mark a' v = m) /\ moves v a a'.
Proof.
  induction d as [|d IH]; intros v fuel a H F D B; (destruct fuel as [|fuel]; [lia|]); cbn [mif];
    (destruct (terminal v) eqn:Tv; [exists (zero A), a; split; auto; split; auto; split; [discriminate|repeat split; auto]|]).
  { destruct H as [H|[]]; congruence. }
  pose proof H as H0. destruct H as [H|(n & En & Hh & Hl & Hm)]; [congruence|]. rewrite En. cbn [mbind option_bind].
  destruct (Bool.eqb (mark a v) m) eqn:Em.
  { apply eqb_prop in Em. exists (factor a v), a. split; auto. split; [apply B; auto; constructor|]. split; auto. repeat split; auto. }
  set (a0 := set_mark v m a).
  assert (NR : forall c, edge v c -> reach c v -> False) by (intros c; apply (acyclic (S d)); auto).
  assert (B0 : forall c, edge v c -> ready a0 c).
  { intros c Ec. destruct B as [B1 B2]. split; [|intros u R; apply B2; eapply reach_edge; eauto]. intros w R Tw Mw.
    assert (NW : w <> v) by (intros ->; apply (NR c Ec R)).
    unfold a0, set_mark, upd in *. cbn [mark factor] in *. destruct (Z.eqb_spec w v); [contradiction|]. apply B1; auto. eapply reach_edge; eauto. }
  assert (Ehigh : edge v (Bdd.n_high n)) by (split; eauto).
  assert (Elow : edge v (Bdd.n_low n)) by (split; eauto 7).
  assert (RET : forall c, edge v c -> Val c (retrieve A c a0)).
  { intros c Ec. exact (retrieve_ok a v c B Ec). }
  (* the final step: the factor of v is set after calls from its children *)
  assert (FIN : forall y a3, ValF v y -> p a3 = p a0 -> mark a3 v = m -> 
     (forall u, mark a3 u = mark a0 u /\ factor a3 u = factor a0 u \/ mark a3 u = m /\ ValF u (factor a3 u)) ->
     (forall u, mark a3 u = m -> mark a0 u = m \/ marked_path a3 v u) ->
     (false = false -> mark (set_factor v y a3) v = m) /\ moves v a (set_factor v y a3)).
  { intros y a3 Vy P3 M3 E3 C3. split; [auto|]. split; [exact P3|]. split.
    - intros u. unfold set_factor, upd. cbn [mark factor]. destruct (Z.eqb_spec u v) as [->|NE]; auto. destruct (E3 u) as [[E1 E2]|K]; auto. left. split; auto.
      rewrite E1. unfold a0, set_mark, upd. cbn [mark]. destruct (Z.eqb_spec u v); [contradiction|auto].
    - intros u Mu. destruct (Z.eq_dec u v) as [->|NE]; [right; constructor|]. destruct (C3 u Mu) as [K|K].
      + left. unfold a0, set_mark, upd in K. cbn [mark] in K. destruct (Z.eqb_spec u v); [contradiction|auto].
      + right. exact K. }
  assert (M0 : mark a0 v = m) by (unfold a0, set_mark, upd; cbn [mark]; rewrite Z.eqb_refl; auto).
  assert (LIFT : forall c a1 a2, edge v c -> moves c a1 a2 -> (terminal c = false -> mark a2 c = m) -> forall u, mark a2 u = m -> mark a1 u = m \/ marked_path a2 v u).
  { intros c a1 a2 Ec (_ & _ & C) Mc u Mu. destruct (C u Mu) as [K|K]; auto. right. eapply rtc_l; [|exact K]. split; auto. }
  destruct (Z.ltb_spec order (Bdd.n_order n)) as [LT|GE].
  - destruct (is_module (Bdd.n_index n)) eqn:M; cbn [negb].
    + destruct (Hm eq_refl) as (f & Ef & Hf). rewrite Ef. cbn [mbind option_bind].
      assert (Em' : edge v f.2) by (split; eauto 10).
      destruct (IH f.2 fuel a0 Hf ltac:(lia) (DOM _ _ D Em') (B0 _ Em')) as (x & a1 & -> & Vx & Mx & E). cbn [mbind option_bind].
      pose proof (FN2 v n f _ _ _ D Tv En LT M Ef (RET _ Ehigh) (RET _ Elow) Vx) as VV. set (y := mul A _ _) in *.
      eexists _, _. split; [reflexivity|]. split; auto. pose proof E as (P1 & E1 & C1). apply FIN; auto.
      * apply (moves_mono f.2 a0); auto.
      * apply (LIFT f.2 a0 a1); auto.
    + pose proof (FN1 v n D Tv En LT M). eexists _, _. split; [reflexivity|]. split; auto.
  - destruct (Z.eqb_spec (Bdd.n_order n) order) as [EQ|NE].
    + destruct (FN3 v n _ _ D Tv En EQ (RET _ Ehigh) (RET _ Elow)) as [M VV]. rewrite M. eexists _, _. split; [reflexivity|]. split; auto.
    + assert (PV : exists pv, (if is_module (Bdd.n_index n) then
                   res ← mods !! Bdd.n_index n; Some (complement A res.1 (retrieve A res.2 a0))
                 else Some (p_vars (Bdd.n_index n))) = Some pv /\
         (if is_module (Bdd.n_index n) then exists f x, mods !! Bdd.n_index n = Some f /\ Val f.2 x /\ pv = complement A f.1 x else pv = p_vars (Bdd.n_index n))).
      { destruct (is_module (Bdd.n_index n)) eqn:M; [|eauto]. destruct (Hm eq_refl) as (f & Ef & Hf). rewrite Ef. cbn [mbind option_bind].
        eexists. split; [reflexivity|]. exists f. eexists. split; auto. split; [|reflexivity]. apply RET. split; eauto 10. }
      destruct PV as (pv & -> & PV). cbn [mbind option_bind].
      destruct (IH (Bdd.n_high n) fuel a0 Hh ltac:(lia) (DOM _ _ D Ehigh) (B0 _ Ehigh)) as (h & a1 & -> & Vh & Mh & E1). cbn [mbind option_bind].
      destruct (IH (Bdd.n_low n) fuel a1 Hl ltac:(lia) (DOM _ _ D Elow)) as (l & a2 & -> & Vl & Ml & E2).
      { apply (ready_moves (Bdd.n_high n) _ a0); auto. }
      cbn [mbind option_bind]. pose proof (FN4 v n pv h l D Tv En ltac:(lia) PV Vh Vl) as VV. set (y := add A _ _) in *.
      eexists _, _. split; [reflexivity|]. split; auto.
      assert (MM : forall u, mark a1 u = m -> mark a2 u = m) by (intros u; apply (moves_mono (Bdd.n_low n)); auto).
      apply FIN; auto.
      * destruct E1 as [P1 _], E2 as [P2 _]. congruence.
      * apply MM. apply (moves_mono (Bdd.n_high n) a0); auto.
      * intros u. destruct E2 as (_ & E2 & _). destruct (E2 u) as [[K1 K2]|K]; auto. destruct E1 as (_ & E1 & _). destruct (E1 u) as [[K3 K4]|[K3 K4]]; [left; split; congruence|].
        right. rewrite K1, K2. auto.
      * intros u Mu. destruct (LIFT _ _ _ Elow E2 Ml u Mu) as [K|K]; auto. destruct (LIFT _ _ _ Ehigh E1 Mh u K) as [K'|K']; auto. right.
        apply (path_mono a1 a2); auto.
Qed.
End Mif.

Section Clear.
Context (m : bool).
Definition cleared (a a' : attrs (T := T)) : Prop :=
  p a' = p a /\ factor a' = factor a /\ (forall u, mark a u = m -> mark a' u = m) /\
  (forall u, terminal u = false -> mark a u <> m -> mark a' u = m -> forall c, edge u c -> terminal c = false -> mark a' c = m).
Lemma cleared_trans a b c : cleared a b -> cleared b c -> cleared a c.
Proof.
  intros (P1 & F1 & M1 & C1) (P2 & F2 & M2 & C2). split; [congruence|]. split; [congruence|]. split; [auto|].
  intros u Tu N M w E Tw. destruct (Bool.bool_dec (mark b u) m) as [Mb|Nb]; [apply M2, (C1 u); auto|apply (C2 u); auto].
Qed.
Lemma clear_ok : forall d v fuel a, height d v -> (d < fuel)%nat ->
  exists a', clear_marks nodes mods is_module fuel v m a = Some a' /\ (terminal v = false -> mark a' v = m) /\ cleared a a'.
Proof.
  assert (REFL : forall a, cleared a a) by (intros a; repeat split; auto; intros; congruence).
  induction d as [|d IH]; intros v fuel a H F; (destruct fuel as [|fuel]; [lia|]); cbn [clear_marks];
    (destruct (terminal v) eqn:Tv; [exists a; split; auto; split; [discriminate|auto]|]).
  { destruct H as [H|[]]; congruence. }
  pose proof H as H0. destruct H as [H|(n & En & Hh & Hl & Hm)]; [congruence|]. rewrite En. cbn [mbind option_bind].
  destruct (Bool.eqb (mark a v) m) eqn:Em.
  { apply eqb_prop in Em. exists a. split; auto. }
  set (a0 := set_mark v m a).
  assert (MOD : exists a1, (if is_module (Bdd.n_index n) then res ← mods !! Bdd.n_index n; clear_marks nodes mods is_module fuel res.2 m a0 else Some a0) = Some a1 /\
     cleared a0 a1 /\ forall f, is_module (Bdd.n_index n) = true -> mods !! Bdd.n_index n = Some f -> terminal f.2 = false -> mark a1 f.2 = m).
  { destruct (is_module (Bdd.n_index n)) eqn:M.
    - destruct (Hm eq_refl) as (f & Ef & Hf). rewrite Ef. cbn [mbind option_bind]. destruct (IH f.2 fuel a0 Hf ltac:(lia)) as (a1 & -> & Mv & C).
      exists a1. split; auto. split; auto. intros f' _ [= <-]. auto.
    - exists a0. split; auto. split; auto. intros; discriminate. }
  destruct MOD as (a1 & -> & C1 & Mf). cbn [mbind option_bind].
  destruct (IH (Bdd.n_high n) fuel a1 Hh ltac:(lia)) as (a2 & -> & Mh & C2). cbn [mbind option_bind].
  destruct (IH (Bdd.n_low n) fuel a2 Hl ltac:(lia)) as (a3 & -> & Ml & C3). exists a3. split; auto.
  assert (C03 : cleared a0 a3) by (eapply cleared_trans; [exact C1|eapply cleared_trans; eauto]).
  assert (Mv : mark a0 v = m) by (unfold a0, set_mark, upd; cbn [mark]; rewrite Z.eqb_refl; auto).
  destruct C03 as (P3 & F3 & M3 & K3). split; [intros _; auto|]. split; [exact P3|]. split; [exact F3|]. split.
  - intros u Mu. apply M3. unfold a0, set_mark, upd. cbn [mark]. destruct (u =? v); auto.
  - intros u Tu N M c E Tc. destruct (Z.eq_dec u v) as [->|NE].
    + destruct E as [_ (n' & En' & C)]. rewrite En in En'. injection En' as <-. destruct C as [->|[->|(Mo & f & Ef & ->)]]; auto.
      * apply C3; auto.
      * apply C3, C2. auto.
    + apply (K3 u); auto. unfold a0, set_mark, upd. cbn [mark]. destruct (Z.eqb_spec u v); [contradiction|auto].
Qed.
(** Everything with the other mark that is connected to v is reached. *)
Lemma clear_path v u a a' : cleared a a' -> (terminal v = false -> mark a' v = m) -> mark a v <> m -> marked_path (negb m) a v u ->
  terminal u = false -> mark a' u = m.
Proof.
  intros (_ & _ & M & C) Mv NV P. revert Mv NV. induction P as [|v w u [E Mw] P IH]; intros Mv NV Tu; auto.
  assert (Tv : terminal v = false) by apply E.
  destruct (terminal w) eqn:Tw.
  { assert (R : reach w u) by (clear -P; induction P as [|? ? ? [? _] ? ?]; [constructor|eapply rtc_l; eauto]). rewrite (reach_terminal w u Tw R) in Tu. congruence. }
  apply IH; auto.
  - intros _. apply (C v); auto.
  - rewrite Mw by auto. destruct m; discriminate.
Qed.
End Clear.
End Traverse.
