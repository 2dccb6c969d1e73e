(** C21: probabilities in binary64 arithmetic stay in [0, 1].
    Vocabulary: [double]: a binary64 number (Flocq's FLT format with 53 bits and minimal exponent
    -1074; nothing here comes near overflow: everything is at most 1 in absolute value, and the sum
    of the rare-event approximation at most the number of cut sets); rounding is to nearest, ties to
    even. [prepared], [analysis]: P_BddProducts.v, P_Prob.v. *)
From Coq Require Import List ZArith Lia Bool Permutation Reals Lra.
From Flocq Require Import Core.
From stdpp Require Import gmap.
Import ListNotations.
From Verif Require Import Pdag PdagProofs PdagSem ZbddGraph ZbddModules ZbddModulesProofs BddGraph BddModules P_BddProducts.
From Verif Require Import Prob ProbProofs P_Prob.
From Verif Require ProbGraph Bdd BddProofs.
Open Scope R_scope.

Notation b64 := (FLT_exp (-1074) 53).
Notation rnd := (round radix2 b64 ZnearestE).
Definition double (x : R) : Prop := generic_format radix2 b64 x.
(** The operations of double: the exact result, rounded; negation is exact. *)
Definition Farith : arith R := Arith 0 1 (fun x y => rnd (x + y)) (fun x y => rnd (x - y)) (fun x y => rnd (x * y)) Ropp.
Definition in01 (x : R) : Prop := double x /\ 0 <= x <= 1.
Definition in11 (x : R) : Prop := double x /\ -1 <= x <= 1.

Lemma prec : Prec_gt_0 53. Proof. unfold Prec_gt_0. lia. Qed.
Local Existing Instance prec.
Lemma double_rnd x : double (rnd x). Proof. apply generic_format_round; typeclasses eauto. Qed.
Lemma rnd_le x y : x <= y -> rnd x <= rnd y. Proof. apply round_le; typeclasses eauto. Qed.
Lemma rnd_id x : double x -> rnd x = x. Proof. apply round_generic; typeclasses eauto. Qed.
Lemma double_0 : double 0. Proof. apply generic_format_0. Qed.
Lemma double_1 : double 1. Proof. change 1 with (bpow radix2 0). apply generic_format_bpow. unfold FLT_exp. lia. Qed.
Lemma double_opp x : double x -> double (- x). Proof. apply generic_format_opp. Qed.
Lemma double_m1 : double (-1). Proof. apply (double_opp 1), double_1. Qed.
Lemma rnd_opp x : rnd (- x) = - rnd x. Proof. apply round_NE_opp. Qed.
Lemma rnd_above u x : double u -> u <= x -> u <= rnd x.
Proof. intros D L. rewrite <- (rnd_id u D). apply rnd_le. auto. Qed.
Lemma rnd_below u x : double u -> x <= u -> rnd x <= u.
Proof. intros D L. rewrite <- (rnd_id u D). apply rnd_le. auto. Qed.
Lemma in01_rnd x : 0 <= x <= 1 -> in01 (rnd x).
Proof.
  intros [A B]. split; [apply double_rnd|]. split; [apply rnd_above; auto; apply double_0|apply rnd_below; auto; apply double_1].
Qed.
Lemma in11_rnd x : -1 <= x <= 1 -> in11 (rnd x).
Proof.
  intros [A B]. split; [apply double_rnd|]. split; [apply rnd_above; auto; apply double_m1|apply rnd_below; auto; apply double_1].
Qed.
(** The sum of p and the rounded 1 - p rounds to at most 1. *)
Lemma halves p : in01 p -> rnd (p + rnd (1 - p)) <= 1.
Proof.
  intros [D [A B]]. destruct (Req_dec p 0) as [->|NZ].
  { rewrite Rminus_0_r, (rnd_id 1 double_1), Rplus_0_l, (rnd_id 1 double_1). lra. }
  assert (E : Rabs (rnd (1 - p) - (1 - p)) <= / 2 * bpow radix2 (-53)).
  { apply Rle_trans with (/ 2 * ulp radix2 b64 (1 - p)); [apply error_le_half_ulp; typeclasses eauto|]. apply Rmult_le_compat_l; [lra|].
    destruct (Req_dec (1 - p) 0) as [EZ|NZ'].
    - rewrite EZ, (ulp_FLT_0 radix2 (-1074) 53). apply bpow_le. lia.
    - rewrite ulp_neq_0 by auto. apply bpow_le. unfold cexp, FLT_exp. assert (M : (mag radix2 (1 - p) <= 0)%Z); [|lia].
      apply mag_le_bpow; auto. rewrite Rabs_pos_eq by lra. change (bpow radix2 0) with 1. lra. }
  apply Rabs_le_inv in E.
  apply (round_N_le_midp radix2 b64 (fun t => negb (Z.even t)) 1); [apply double_1|].
  assert (S : succ radix2 b64 1 = 1 + bpow radix2 (-52)).
  { rewrite succ_eq_pos by lra. f_equal. change 1 with (bpow radix2 0). rewrite ulp_bpow. reflexivity. }
  rewrite S. assert (bpow radix2 (-52) = 2 * bpow radix2 (-53)) by (change (-52)%Z with (1 + -53)%Z; rewrite bpow_plus; reflexivity).
  pose proof (bpow_gt_0 radix2 (-53)). lra.
Qed.
Lemma convex p h l : in01 p -> in11 h -> in11 l -> in11 (add Farith (mul Farith p h) (mul Farith (sub Farith (one Farith) p) l)).
Proof.
  intros Dp [Dh Rh] [Dl Rl]. pose proof Dp as [D R]. cbn [add mul sub one Farith].
  assert (Q : in01 (rnd (1 - p))) by (apply in01_rnd; lra). destruct Q as [DQ RQ]. set (q := rnd (1 - p)) in *.
  assert (X : forall u v, double u -> 0 <= u -> -1 <= v <= 1 -> - u <= rnd (u * v) <= u).
  { intros u v Du Pu Rv. split; [apply rnd_above|apply rnd_below]; auto; [apply double_opp; auto|nra|nra]. }
  pose proof (X p h D (proj1 R) Rh). pose proof (X q l DQ (proj1 RQ) Rl). pose proof (halves p Dp) as HH. fold q in HH.
  split; [apply double_rnd|]. split.
  - apply Rle_trans with (rnd (- (p + q))); [rewrite rnd_opp; lra|]. apply rnd_le. lra.
  - apply Rle_trans with (rnd (p + q)); [|lra]. apply rnd_le. lra.
Qed.
Lemma convex01 p h l : in01 p -> in01 h -> in01 l -> in01 (add Farith (mul Farith p h) (mul Farith (sub Farith (one Farith) p) l)).
Proof.
  intros Dp Dh Dl. assert (C : in11 (add Farith (mul Farith p h) (mul Farith (sub Farith (one Farith) p) l))).
  { apply convex; auto; [destruct Dh as [? ?]|destruct Dl as [? ?]]; split; auto; lra. }
  destruct C as [DC RC]. split; auto. split; [|lra]. cbn [add mul sub one Farith].
  assert (Q : in01 (rnd (1 - p))) by (apply in01_rnd; destruct Dp; lra).
  assert (X : forall u v, in01 u -> in01 v -> 0 <= rnd (u * v)).
  { intros u v [_ Ru] [_ Rv]. apply rnd_above; [apply double_0|nra]. }
  apply rnd_above; [apply double_0|]. pose proof (X p h Dp Dh). pose proof (X _ l Q Dl). lra.
Qed.
Lemma in01_complement c x : in01 x -> in01 (Prob.complement Farith c x).
Proof. intros H. unfold Prob.complement. destruct c; auto. cbn [sub one Farith]. apply in01_rnd. destruct H; lra. Qed.
Lemma in11_negate c x : in11 x -> in11 (Prob.negate Farith c x).
Proof. intros [D R]. unfold Prob.negate. destruct c; [|split; auto]. cbn [opp Farith]. split; [apply double_opp; auto|lra]. Qed.
Lemma in11_diff h l : in01 h -> in01 l -> in11 (sub Farith h l).
Proof. intros [_ A] [_ B]. cbn [sub Farith]. apply in11_rnd. lra. Qed.
Lemma in11_mul x y : in11 x -> in11 y -> in11 (mul Farith x y).
Proof. intros [_ A] [_ B]. cbn [mul Farith]. apply in11_rnd. nra. Qed.

Section Analysis.
Context (G : graph) (root : Z) (complement : bool).
Context (ord : Z -> Z) (top : Z) (hash : Bdd.ckey -> nat) (prime : nat -> nat) (module coherent : Z -> bool) (parents : Z -> nat)
  (arrange : list Bdd.fn -> list Bdd.fn).
Context (prime_pos : forall n, (0 < prime n)%nat) (ARR : forall l, Permutation (arrange l) l).
Context (P : prepared G root ord top module coherent).
Notation is_module := (ZbddModules.is_module G module).
Section Facts.
Context (r0 : Z -> nat) (RK : ranked G r0) (b : Bdd.bdd) (mods : gmap Z Bdd.fn) (f : Bdd.fn) (B : is_bdd G root complement ord hash module b mods f).
Context (vs : list Z) (VS : forall v, In v vs <-> ZbddModules.var G root v).
Notation nodes := (Bdd.nodes b).
Notation Depth := (ProbGraph.depth r0 b root f.2).
Notation dom := (ProbGraph.dom G module b mods root vs).
Definition H := root_height G root complement ord top hash module coherent P r0 RK b mods f B.
Definition RD := root_dom G root complement ord top hash module coherent P b mods f B vs VS.
Definition DE := DOM G root complement ord top hash module coherent P r0 RK b mods f B vs.
Notation Val := (fun (_ : Z) (x : R) => in01 x).
Notation ValF := (fun (_ : Z) (x : R) => in11 x).
Notation uniform := (ProbProofs.uniform nodes mods is_module f.2).
Notation probabilities := (ProbProofs.probabilities nodes mods is_module Val f.2).
Lemma in01_1 : in01 (one Farith). Proof. split; [apply double_1|simpl; lra]. Qed.
Lemma in11_0 : in11 (zero Farith). Proof. split; [apply double_0|simpl; lra]. Qed.
Lemma total_ok p steps s : (forall v, in01 (p v)) -> (Depth < steps)%nat -> uniform (current_mark s) (at_ s) ->
  exists x s', Prob.total Farith nodes mods is_module steps f p s = Some (x, s') /\ in01 x /\ uniform (current_mark s') (at_ s') /\ probabilities (at_ s').
Proof.
  intros PV L U. unfold Prob.total. set (m := negb (current_mark s)).
  destruct (calculate_ok Farith nodes mods is_module dom DE p m Val) with (d := Depth) (v := f.2) (fuel := steps) (a := at_ s) as (x & a' & E & V & AG & _); auto.
  - intros _ _. apply in01_1.
  - intros v n pv h l D T En Hp Hh Hl. apply convex01; auto; [|apply in01_complement; auto].
    destruct (is_module (Bdd.n_index n)); [|rewrite Hp; auto]. destruct Hp as (g & y & _ & Vy & ->). apply in01_complement. auto.
  - apply H.
  - apply RD.
  - intros w R T M. exfalso. rewrite (U w R T) in M. unfold m in M. destruct (current_mark s); discriminate.
  - rewrite E. cbn [mbind option_bind]. exists (Prob.complement Farith f.1 x), (Analyzer m a'). split; [|split; [|split]]; auto.
    + apply in01_complement. auto.
    + intros u R T. apply (AG u R T).
    + intros u R T. apply (AG u R T).
Qed.
Lemma marginal_ok p x steps s : (forall v, in01 (p v)) -> In x vs -> (Depth < steps)%nat -> uniform (current_mark s) (at_ s) -> probabilities (at_ s) ->
  exists y a', Prob.marginal Farith nodes mods is_module steps f p (ord x) (at_ s) = Some (y, a') /\ in11 y /\ uniform (current_mark s) a' /\ probabilities a'.
Proof.
  intros PV I L U PR. assert (NX : gs G !! x = None) by (apply VS in I; apply I).
  unfold Prob.marginal. destruct (Bdd.terminal f.2) eqn:T.
  { exists (zero Farith), (at_ s). split; auto. split; [apply in11_0|auto]. }
  assert (Mr : mark (at_ s) f.2 = current_mark s) by (apply U; auto; constructor).
  rewrite Mr.
  assert (FN4 : forall n pv, (if is_module (Bdd.n_index n) then exists g y, mods !! Bdd.n_index n = Some g /\ in01 y /\ pv = Prob.complement Farith g.1 y else pv = p (Bdd.n_index n)) -> in01 pv).
  { intros n pv Hp. destruct (is_module (Bdd.n_index n)); [|rewrite Hp; auto]. destruct Hp as (g & y & _ & Vy & ->). apply in01_complement. auto. }
  destruct (mif_ok Farith nodes mods is_module dom DE p (negb (current_mark s)) (ord x) Val ValF) with
    (d := Depth) (v := f.2) (fuel := steps) (a := at_ s) as (y & a1 & E & V & M1 & MV); auto.
  - intros _ _. apply in01_1.
  - intros _ _. apply in11_0.
  - intros. apply in11_0.
  - intros v n g h l z D Tv En Lo Im Eg Vh Vl Vz. apply in11_mul; [apply in11_diff; auto; apply in01_complement; auto|apply in11_negate; auto].
  - intros v n h l (g & SG & _ & Lv & _) Tv En Eo Vh Vl. split; [|apply in11_diff; auto; apply in01_complement; auto].
    pose proof (ProbGraph.lives_node ord hash (p_inj _ _ _ _ _ _ P) G module r0 RK b (i_wf _ _ _ _ _ _ _ _ _ B) g v n SG Lv En) as (_ & Eo' & _).
    rewrite Eo' in Eo. apply (p_inj _ _ _ _ _ _ P) in Eo. rewrite Eo. unfold ZbddModules.is_module, is_gate.
    assert (0 < x)%Z by (apply VS in I; destruct (var_not_constant G root ord top module coherent P root x (p_root _ _ _ _ _ _ P) I); lia).
    rewrite Z.abs_eq by lia. rewrite NX. auto.
  - intros v n pv h l D Tv En Lo Pv Vh Vl. apply convex; auto; [eapply FN4; eauto|apply in11_negate; auto].
  - apply H.
  - apply RD.
  - split; auto. intros w R Tw M. exfalso. rewrite (U w R Tw) in M. destruct (current_mark s); discriminate.
  - rewrite E. cbn [mbind option_bind].
    destruct (clear_ok nodes mods is_module (current_mark s) Depth f.2 steps a1 H L) as (a2 & E2 & M2 & C2).
    rewrite E2. cbn [mbind option_bind]. exists y, a2. split; auto. split; auto.
    destruct MV as (PP & MM & PA). split.
    + intros u R Tu. destruct (Bool.bool_dec (mark a1 u) (current_mark s)) as [M|N]; [apply C2; auto|].
      assert (M : mark a1 u = negb (current_mark s)) by (destruct (mark a1 u), (current_mark s); auto; congruence).
      destruct (PA u M) as [Q|Q].
      { rewrite (U u R Tu) in Q. destruct (current_mark s); discriminate. }
      apply (clear_path nodes mods is_module (current_mark s) f.2 u a1 a2); auto.
      rewrite M1 by auto. destruct (current_mark s); discriminate.
    + intros u R Tu. destruct C2 as (P2 & _). rewrite P2, PP. apply PR; auto.
Qed.
End Facts.
(** Every total probability is in [0, 1] and every marginal importance in [-1, 1], for any history
    of calls with probabilities in [0, 1]. *)
Definition fits (c : command R) (x : R) : Prop := match c with Total _ => in01 x | Mif _ => in11 x end.
Theorem C21_bdd used p cs : match used with Some (_, limit) => (0 <= limit)%Z | None => True end -> (forall v, in01 (p v)) ->
  (forall q, In (Total q) cs -> forall v, in01 (q v)) -> (forall x, In (Mif x) cs -> ZbddModules.var G root x) ->
  exists N, forall fuel, (N <= fuel)%nat -> exists M, forall steps, (M <= steps)%nat -> exists xs,
    analysis G root complement ord top hash prime module coherent parents arrange Farith used fuel steps p cs = Some xs /\ Forall2 fits (Total p :: cs) xs.
Proof.
  intros LIM PV QV MV. pose proof (p_acyclic _ _ _ _ _ _ P) as [r0 RK].
  exists (S (S (r0 root) + S (Z.to_nat (top + 1)))). intros fuel FU.
  destruct (bdd_ok G root complement ord top hash prime module coherent parents arrange prime_pos ARR P r0 RK used fuel LIM FU) as (f & b & mods & E & B).
  exists (S (ProbGraph.depth r0 b root f.2)). intros steps L. unfold analysis. rewrite E. cbn [mbind option_bind].
  (* the variables *)
  set (vs := List.filter (fun v => ZbddModulesProofs.varb G r0 root v) (map Z.of_nat (seq 0 (Z.to_nat (nxt G))))).
  assert (VS : forall v, In v vs <-> ZbddModules.var G root v).
  { intros v. unfold vs. rewrite filter_In, in_map_iff. split.
    - intros [(k & <- & _) V]. apply (varb_in G r0 RK root) in V; auto; [apply P|lia].
    - intros V. destruct (var_not_constant G root ord top module coherent P root v (p_root _ _ _ _ _ _ P) V) as [R _]. split; [|apply (varb_in G r0 RK root); auto; [apply P|lia]].
      exists (Z.to_nat v). split; [lia|]. apply in_seq. lia. }
  set (s0 := new_analyzer f (new_attrs Farith)).
  assert (U0 : ProbProofs.uniform (Bdd.nodes b) mods is_module f.2 (current_mark s0) (at_ s0)) by (intros u R T; simpl; destruct (Bdd.terminal f.2); auto).
  assert (SES : forall cs p s, (forall v, in01 (p v)) -> (forall q, In (Total q) cs -> forall v, in01 (q v)) -> (forall x, In (Mif x) cs -> In x vs) ->
    ProbProofs.uniform (Bdd.nodes b) mods is_module f.2 (current_mark s) (at_ s) -> ProbProofs.probabilities (Bdd.nodes b) mods is_module (fun _ x => in01 x) f.2 (at_ s) ->
    exists xs, session Farith ord (Bdd.nodes b) mods is_module steps f cs p s = Some xs /\ Forall2 fits cs xs).
  { clear cs p PV QV MV E s0 U0. induction cs as [|c cs IH]; intros p s PV QV MV U PR; [exists []; split; [reflexivity|constructor]|].
    assert (QV' : forall q, In (Total q) cs -> forall v, in01 (q v)) by (intros q Q; apply QV; right; auto).
    assert (MV' : forall x, In (Mif x) cs -> In x vs) by (intros x Q; apply MV; right; auto).
    destruct c as [q|x]; cbn [session].
    - destruct (total_ok r0 RK b mods f B vs VS q steps s (QV q (or_introl eq_refl)) L U) as (y & s' & E & Y & U' & PR'). rewrite E. cbn [mbind option_bind].
      destruct (IH q s') as (xs & E' & FX); auto; [apply QV; left; auto|]. rewrite E'. cbn [mbind option_bind]. exists (y :: xs). split; auto.
    - destruct (marginal_ok r0 RK b mods f B vs VS p x steps s PV (MV x (or_introl eq_refl)) L U PR) as (y & a' & E & Y & U' & PR'). rewrite E. cbn [mbind option_bind].
      destruct (IH p (Analyzer (current_mark s) a')) as (xs & E' & FX); auto. rewrite E'. cbn [mbind option_bind]. exists (y :: xs). split; auto. }
  cbn [session]. destruct (total_ok r0 RK b mods f B vs VS p steps s0 PV L U0) as (y & s' & E1 & Y & U' & PR'). rewrite E1. cbn [mbind option_bind].
  destruct (SES cs p s') as (xs & E' & FX); auto; [intros x Q; apply VS, MV; auto|]. rewrite E'. cbn [mbind option_bind]. exists (y :: xs). split; auto.
Qed.
End Analysis.

(** ** A root that passes one event, its complement or the constant through *)
Theorem C21_trivial G root ord top hash prime module coherent parents arrange g c : PdagProofs.wf G -> gs G !! root = Some g -> g_type g = kNull -> g_args g = [c] -> gs G !! Z.abs c = None ->
  (forall i j, ord i = ord j -> i = j) -> (forall n, (0 < prime n)%nat) -> (0 < ord (Z.abs c) <= top)%Z -> (coherent root = true -> (0 < c)%Z) ->
  forall used p cs, match used with Some (_, limit) => (0 <= limit)%Z | None => True end -> (forall v, in01 (p v)) ->
  (forall q, In (Total q) cs -> forall v, in01 (q v)) -> (forall x, In (Mif x) cs -> ZbddModules.var G root x) ->
  exists N, forall fuel, (N <= fuel)%nat -> exists M, forall steps, (M <= steps)%nat -> exists xs,
    analysis G root false ord top hash prime module coherent parents arrange Farith used fuel steps p cs = Some xs /\ Forall2 fits (Total p :: cs) xs.
Proof.
  intros W Eg Tg Ag Nc inj PP TOP CH used p cs LIM PV QV MV. exists (S (S (Z.to_nat (top + 1)))). intros fuel L.
  destruct (trivial_bdd G root ord top hash prime module coherent parents arrange g c W Eg Tg Ag Nc inj PP TOP CH used fuel LIM L) as (v & nodes & E & H).
  exists 2%nat. intros steps L2. unfold analysis. rewrite E. cbn [mbind option_bind]. clear E. destruct steps as [|[|steps]]; [lia|lia|].
  assert (QV' : forall q, In (Total q) (Total p :: cs) -> forall v, in01 (q v)) by (intros q [Q|Q]; [injection Q as <-; auto|auto]).
  assert (MV' : forall x, In (Mif x) (Total p :: cs) -> x = Z.abs c) by (intros x [X|X]; [discriminate|apply (trivial_var G root ord g c); auto]).
  set (s0 := new_analyzer ((c <? 0)%Z, v) (new_attrs Farith)).
  assert (U0 : Bdd.terminal v = false -> mark (at_ s0) v = current_mark s0) by (unfold s0; simpl; destruct (Bdd.terminal v); auto).
  clearbody s0. revert QV' MV'. generalize (Total p :: cs) as l. revert U0. generalize s0 as s. generalize p as q. clear p cs s0 PV QV MV.
  intros q s U l. revert q s U. induction l as [|[q'|x] l IH]; intros q s U QV MV; [exists []; split; [reflexivity|constructor]| |];
    assert (QV' : forall q, In (Total q) l -> forall v, in01 (q v)) by (intros q1 Q; apply QV; right; auto);
    assert (MV' : forall x, In (Mif x) l -> x = Z.abs c) by (intros x1 Q; apply MV; right; auto); cbn [session].
  - unfold total. cbn [calculate snd fst]. destruct (Z.abs c =? 1)%Z.
    + subst v. change (Bdd.terminal 1) with true. cbn iota. cbn [mbind option_bind].
      destruct (IH q' (Analyzer (negb (current_mark s)) (at_ s))) as (xs & E & FX); auto; [discriminate|]. rewrite E. cbn [mbind option_bind]. eexists. split; [reflexivity|]. constructor; auto. apply in01_complement, in01_1.
    + destruct H as [-> H]. change (Bdd.terminal 2) with false. cbn iota. rewrite H. cbn [mbind option_bind]. rewrite (U eq_refl).
      replace (Bool.eqb (current_mark s) (negb (current_mark s))) with false by (destruct (current_mark s); auto).
      cbn [Bdd.n_index Bdd.n_high Bdd.n_low Bdd.n_ce]. rewrite (trivial_module G module c Nc). cbn [mbind option_bind]. change (Bdd.terminal 1) with true. cbn iota. cbn [mbind option_bind].
      set (y := add Farith _ _).
      destruct (IH q' (Analyzer (negb (current_mark s)) (set_p 2 y (set_mark 2 (negb (current_mark s)) (at_ s))))) as (xs & E & FX); auto.
      rewrite E. cbn [mbind option_bind]. eexists. split; [reflexivity|]. constructor; auto. apply in01_complement. apply convex01; [apply QV; left; auto|apply in01_1|].
      apply in01_complement, in01_1.
  - unfold marginal. cbn [mif snd fst]. destruct (Bdd.terminal v) eqn:T.
    + destruct (IH q (Analyzer (current_mark s) (at_ s))) as (xs & E & FX); auto. cbn [mbind option_bind]. rewrite E. cbn [mbind option_bind].
      eexists. split; [reflexivity|]. constructor; auto. apply in11_0.
    + destruct (Z.abs c =? 1)%Z; [subst v; discriminate|]. destruct H as [-> H]. rewrite H. cbn [mbind option_bind]. rewrite (U eq_refl).
      replace (Bool.eqb (current_mark s) (negb (current_mark s))) with false by (destruct (current_mark s); auto).
      rewrite (MV x (or_introl eq_refl)).
      cbn [Bdd.n_index Bdd.n_high Bdd.n_low Bdd.n_ce Bdd.n_order]. rewrite Z.ltb_irrefl, Z.eqb_refl, (trivial_module G module c Nc). cbn [mbind option_bind].
      cbn [clear_marks]. rewrite T, H. cbn [mbind option_bind]. cbn [mark set_factor set_mark]. unfold upd at 1. rewrite Z.eqb_refl.
      replace (Bool.eqb (negb (current_mark s)) (current_mark s)) with false by (destruct (current_mark s); auto).
      cbn [Bdd.n_index Bdd.n_high Bdd.n_low Bdd.n_ce Bdd.n_order]. rewrite (trivial_module G module c Nc). cbn [mbind option_bind]. change (Bdd.terminal 1) with true. cbn iota. cbn [mbind option_bind].
      match goal with |- context[session _ _ _ _ _ _ _ l q ?t] => destruct (IH q t) as (xs & E & FX); auto end.
      rewrite E. cbn [mbind option_bind]. eexists. split; [reflexivity|]. constructor; auto. unfold retrieve. change (Bdd.terminal 1) with true.
      apply in11_diff; [apply in01_1|apply in01_complement, in01_1].
Qed.

(** ** The approximations on cut sets *)
Theorem C21_approximations p cs : (forall v, in01 (p v)) ->
  in01 (mcub Farith p cs) /\ in01 (rare_event Farith (fun x => if Rlt_dec 1 x then true else false) p cs) /\ forall c, In c cs -> in01 (cut_set_probability Farith p c).
Proof.
  intros PV.
  assert (MUL : forall x y, in01 x -> in01 y -> in01 (mul Farith x y)) by (intros x y [_ A] [_ B]; apply in01_rnd; nra).
  assert (C : forall c, in01 (cut_set_probability Farith p c)).
  { intros c. unfold cut_set_probability. generalize (one Farith), in01_1. induction c as [|i c IH]; intros x X; cbn [fold_left]; auto. }
  split; [|split; auto].
  - unfold mcub. cbn [sub]. apply in01_rnd.
    assert (M : in01 (fold_left (fun x c => mul Farith x (sub Farith (one Farith) (cut_set_probability Farith p c))) cs (one Farith))).
    { generalize (one Farith) at 2, in01_1. induction cs as [|c l IH]; intros x X; cbn [fold_left]; auto. apply IH, MUL; auto. apply in01_rnd. destruct (C c); simpl; lra. }
    destruct M. simpl in *. lra.
  - unfold rare_event. set (x := fold_left _ cs _).
    assert (X : double x /\ 0 <= x).
    { unfold x. assert (Z0 : double (zero Farith) /\ 0 <= zero Farith) by (split; [apply double_0|simpl; lra]). revert Z0. generalize (zero Farith) as z.
      clear x. induction cs as [|c l IH]; intros z Hz; cbn [fold_left]; auto. apply IH. split; [apply double_rnd|]. apply rnd_above; [apply double_0|]. destruct (C c), Hz. lra. }
    destruct (Rlt_dec 1 x); [apply in01_1|]. split; [apply X|]. destruct X. lra.
Qed.

(** ** The hypotheses are met: probabilities of 1/2 *)
Example ex_half : in01 (1 / 2).
Proof. split; [|lra]. replace (1 / 2) with (bpow radix2 (-1)) by (simpl; lra). apply generic_format_bpow. unfold FLT_exp. lia. Qed.
(* rounding up does happen: 1 - 2^-60 rounds to 1, and the sum of 2^-60 and 1 exceeds 1 before rounding *)
Example ex_rounding : in01 (bpow radix2 (-60)) /\ rnd (1 - bpow radix2 (-60)) = 1 /\ bpow radix2 (-60) + rnd (1 - bpow radix2 (-60)) > 1.
Proof.
  assert (E : rnd (1 - bpow radix2 (-60)) = 1).
  { apply Rle_antisym; [apply rnd_below; [apply double_1|pose proof (bpow_gt_0 radix2 (-60)); lra]|].
    apply (round_N_ge_midp radix2 b64 (fun t => negb (Z.even t)) 1); [apply double_1|].
    assert (PD : Ulp.pred radix2 b64 1 = 1 - bpow radix2 (-53)).
    { change 1 with (bpow radix2 0). rewrite pred_bpow. reflexivity. }
    rewrite PD. assert (bpow radix2 (-60) < bpow radix2 (-54)) by (apply bpow_lt; lia).
    assert (bpow radix2 (-53) = 2 * bpow radix2 (-54)) by (change (-53)%Z with (1 + -54)%Z; rewrite bpow_plus; reflexivity). lra. }
  pose proof (bpow_gt_0 radix2 (-60)). split; [|split; [auto|rewrite E; lra]]. split; [apply generic_format_bpow; unfold FLT_exp; lia|]. split; [lra|].
  change 1 with (bpow radix2 0). apply bpow_le. lia.
Qed.
Print Assumptions C21_bdd.
Print Assumptions C21_approximations.

