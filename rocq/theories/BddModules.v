(** ZBDDs with modules built from a BDD: src/zbdd.cc, the constructor from a Boolean function
    with its sub-modules, for minimal cut sets and for prime implicants. *)
From stdpp Require Import gmap.
From Coq Require Import List ZArith Lia Bool Permutation.
Import ListNotations.
From Verif Require Import Pdag PdagProofs PdagSem Zbdd ZbddProofs ZbddHistory ZbddSigned ZbddGraph ZbddModules ZbddModulesProofs.
From Verif Require Import BddGraph BddZbdd BddAssemble.
From Verif Require CacheTable Bdd BddProofs BddHistory.
Open Scope Z_scope.

Section Model.
(** Orders of variables and gates, the largest order; hash function and capacity policy of the
    BDD tables. *)
Context (ord : Z -> Z) (top : Z) (hash : Bdd.ckey -> nat) (prime : nat -> nat).
(** Settings::prime_implicants; the graph with the flags of its gates; Bdd::modules. *)
Context (pi : bool) (G : graph) (module coherent : Z -> bool) (funs : gmap Z Bdd.fn).
Notation is_module := (ZbddModules.is_module G module).
Notation counts := (BddZbdd.counts pi is_module coherent).
Notation zord := (BddZbdd.zord ord).

(** Zbdd::Zbdd(const Bdd::Function&, bool, Bdd*, const Settings&, int), zbdd.cc:113-150; every
    object has its own tables, the BDD manager is shared. [depth] is the fuel of ConvertBdd.
    Simplified: the order in which the sub-modules are visited. *)
Fixpoint build (depth fuel : nat) (f : Bdd.fn) (coh : bool) (limit : Z) (b : Bdd.bdd) : option (zbdd * Bdd.bdd) :=
  match fuel with
  | O => None
  | S fuel =>
      '(r, s) ← from_bdd hash prime pi coh is_module coherent depth f.2 f.1 limit (b, ∅);
      '(r, t) ← minimize zord top r start;
      '(_, subs) ← gather is_module counts coherent limit r 0 ∅;
      '(mods, b) ← (fix go (l : list (Z * (bool * Z))) (b : Bdd.bdd) : option (list (Z * zbdd) * Bdd.bdd) :=
                match l with
                | [] => Some ([], b)
                | (i, (c, o)) :: l =>
                    sub ← funs !! Z.abs i;
                    if Bdd.terminal sub.2 || (o <? 0) then None else
                    let coherence := c && (0 <? i) in
                    '(z, b) ← (if (o =? 0) && coherence then Some (Zb ZE [], b)
                               else build depth fuel (xorb sub.1 (i <? 0), sub.2) coherence o b);
                    '(zs, b) ← go l b;
                    Some ((i, z) :: zs, b)
                end) (map_to_list subs) s.1;
      if has_constant mods then
        '(r, _) ← eliminate_constants zord top counts limit (constant_module G module mods) r t;
        Some (Zb r mods, b)
      else Some (Zb r mods, b)
  end.
Definition build_all (depth fuel : nat) : list (Z * (bool * Z)) -> Bdd.bdd -> option (list (Z * zbdd) * Bdd.bdd) :=
  fix go (l : list (Z * (bool * Z))) (b : Bdd.bdd) : option (list (Z * zbdd) * Bdd.bdd) :=
                match l with
                | [] => Some ([], b)
                | (i, (c, o)) :: l =>
                    sub ← funs !! Z.abs i;
                    if Bdd.terminal sub.2 || (o <? 0) then None else
                    let coherence := c && (0 <? i) in
                    '(z, b) ← (if (o =? 0) && coherence then Some (Zb ZE [], b)
                               else build depth fuel (xorb sub.1 (i <? 0), sub.2) coherence o b);
                    '(zs, b) ← go l b;
                    Some ((i, z) :: zs, b)
                end.
Lemma build_all_cons depth fuel i c o l b : build_all depth fuel ((i, (c, o)) :: l) b =
  (sub ← funs !! Z.abs i;
   if Bdd.terminal sub.2 || (o <? 0) then None else
   '(z, b) ← (if (o =? 0) && (c && (0 <? i)) then Some (Zb ZE [], b)
              else build depth fuel (xorb sub.1 (i <? 0), sub.2) (c && (0 <? i)) o b);
   '(zs, b) ← build_all depth fuel l b;
   Some ((i, z) :: zs, b)).
Proof. reflexivity. Qed.
End Model.

(** ** Values of the nodes *)
Section Values.
Context (G : graph) (r0 : Z -> nat) (RK : ranked G r0).
Context (AO : forall i x, gs G !! i = Some x -> (g_type x = kAnd \/ g_type x = kOr) /\ (2 <= length (g_args x))%nat /\ constant x = false /\ forall a, In a (g_args x) -> a <> 0).
(** The value of gate i when the other gates with [stop] and the variables have the values σ *)
Fixpoint value (stop : Z -> bool) (n : nat) (σ : Z -> bool) (i : Z) : bool :=
  match n with
  | O => σ i
  | S n => match gs G !! i with
           | None => σ i
           | Some x => gate_value (fun a => if stop a then σ a else value stop n σ a) x
           end
  end.
Lemma value_fuel stop σ : forall n m i, (r0 i < n)%nat -> (r0 i < m)%nat -> value stop n σ i = value stop m σ i.
Proof.
  induction n as [|n IH]; intros m i N M; [lia|]. destruct m as [|m]; [lia|]. cbn [value].
  destruct (gs G !! i) as [x|] eqn:E; auto. apply gate_value_ext. intros a J. destruct (stop (Z.abs a)); auto.
  destruct (gs G !! Z.abs a) as [y|] eqn:Ey; [|destruct n, m; cbn [value]; rewrite ?Ey; auto].
  pose proof (RK i x a E J ltac:(eauto)). apply IH; lia.
Qed.
Definition val (a : Z) (ρ : Z -> bool) : bool := value (fun _ => false) (S (r0 a)) ρ a.
Lemma val_var a ρ : gs G !! a = None -> val a ρ = ρ a.
Proof. intros E. unfold val. cbn [value]. rewrite E. auto. Qed.
Lemma val_gate a x ρ : gs G !! a = Some x -> val a ρ = gate_value (fun i => val i ρ) x.
Proof.
  intros E. unfold val at 1. cbn [value]. rewrite E. apply gate_value_ext. intros j J.
  destruct (gs G !! Z.abs j) as [y|] eqn:Ey.
  - pose proof (RK a x j E J ltac:(eauto)). unfold val. apply value_fuel; lia.
  - rewrite val_var by auto. destruct (r0 a); cbn [value]; rewrite ?Ey; auto.
Qed.
Lemma val_under a ρ ρ' : (forall v, var G a v -> ρ v = ρ' v) -> val a ρ = val a ρ'.
Proof.
  enough (H : forall n a, (r0 a < n)%nat -> (forall v, var G a v -> ρ v = ρ' v) -> val a ρ = val a ρ') by (apply (H (S (r0 a))); lia).
  clear a. induction n as [|n IH]; intros a L H; [lia|]. destruct (gs G !! a) as [x|] eqn:E.
  - rewrite !(val_gate a x) by auto. apply gate_value_ext. intros j J.
    assert (U : forall v, var G (Z.abs j) v -> var G a v).
    { intros v [U N]. split; auto. clear -U E J. induction U as [|i y b U IH E' J']; [|apply (under_arg G a i y b); auto].
      apply (under_arg G a a x j); auto. constructor. }
    destruct (gs G !! Z.abs j) as [y|] eqn:Ey.
    + pose proof (RK a x j E J ltac:(eauto)). apply IH; auto. lia.
    + rewrite !val_var by auto. apply H, U. split; auto. constructor.
  - rewrite !val_var by auto. apply H. split; auto. constructor.
Qed.

(** Levels *)
Context (module coherent : Z -> bool).
Notation is_module := (ZbddModules.is_module G module).
Notation active := (ZbddGraph.active G module).
Notation leaf := (ZbddGraph.leaf G module).
Notation respects := (ZbddGraph.respects G module).
Lemma val_respects g ρ : respects g (fun a => val a ρ).
Proof. intros i x E _. apply val_gate; auto. Qed.
(** A labelling of the gates of a level that extends given values of its atoms *)
Definition level (g : Z) (σ : Z -> bool) (i : Z) : bool :=
  if is_gate G i && ((i =? g) || negb (module i)) then value module (S (r0 i)) σ i else σ i.
Lemma active_rank g i : active g i -> i = g \/ (r0 i < r0 g)%nat.
Proof. induction 1 as [|i x a A IH E J S M]; auto. right. pose proof (RK i x a E J S). destruct IH as [->|]; lia. Qed.
Lemma gate_pos i : is_Some (gs G !! i) -> forall g, active g i -> i = g \/ 0 <= i.
Proof. intros S g A. destruct A; auto. right. lia. Qed.
Context (GPOS : forall i, is_Some (gs G !! i) -> 0 < i).
Lemma is_gate_pos i : 0 <= i -> is_gate G i = true <-> is_Some (gs G !! i).
Proof. intros P. unfold is_gate. rewrite Z.abs_eq by auto. destruct (gs G !! i); split; eauto; [discriminate|]. intros [? ?]. discriminate. Qed.
Lemma level_respects g σ : respects g (level g σ).
Proof.
  intros i x E A. pose proof (GPOS i ltac:(eauto)) as P. unfold level at 1.
  assert (K : (i =? g) || negb (module i) = true).
  { destruct A as [|i y a A E' J S M]; [rewrite Z.eqb_refl; auto|]. rewrite M. apply orb_true_r. }
  assert (IG : is_gate G i = true) by (apply is_gate_pos; eauto; lia). rewrite IG, K. cbn [andb]. cbn [value]. rewrite E. apply gate_value_ext. intros j J.
  unfold level. destruct (gs G !! Z.abs j) as [y|] eqn:Ey.
  - pose proof (RK i x j E J ltac:(eauto)) as R. destruct (active_rank g i A) as [->|R'].
    + assert (N : Z.abs j =? g = false) by (apply Z.eqb_neq; intros <-; lia). rewrite N. cbn [orb].
      assert (IJ : is_gate G (Z.abs j) = true) by (apply is_gate_pos; [lia|rewrite Ey; eauto]). rewrite IJ. cbn [andb].
      destruct (module (Z.abs j)); cbn [negb]; auto. apply value_fuel; lia.
    + assert (N : Z.abs j =? g = false) by (apply Z.eqb_neq; intros <-; lia). rewrite N. cbn [orb].
      assert (IJ : is_gate G (Z.abs j) = true) by (apply is_gate_pos; [lia|rewrite Ey; eauto]). rewrite IJ. cbn [andb].
      destruct (module (Z.abs j)); cbn [negb]; auto. apply value_fuel; lia.
  - assert (IJ : is_gate G (Z.abs j) = false).
    { destruct (is_gate G (Z.abs j)) eqn:X; auto. apply is_gate_pos in X; [|lia]. rewrite Ey in X. destruct X. discriminate. }
    rewrite IJ. cbn [andb]. destruct (module (Z.abs j)); auto. destruct (r0 i); cbn [value]; rewrite ?Ey; auto.
Qed.
Lemma level_leaf g σ j : is_Some (gs G !! g) -> leaf g j -> level g σ (Z.abs j) = σ (Z.abs j).
Proof.
  intros SG (i & x & E & A & J & K). unfold level. destruct (is_gate G (Z.abs j)) eqn:IG; auto. apply is_gate_pos in IG; [|lia].
  destruct K as [K|K]; [rewrite K in IG; destruct IG; discriminate|]. rewrite K. pose proof (RK i x j E J IG) as R.
  assert (N : Z.abs j =? g = false) by (apply Z.eqb_neq; intros <-; destruct (active_rank _ i A) as [->|]; lia). rewrite N. auto.
Qed.

(** *** Coherence *)
Context (COH : forall i x a, gs G !! i = Some x -> coherent i = true -> In a (g_args x) -> 0 < a /\ (is_Some (gs G !! a) -> coherent a = true)).
Lemma gate_mono ν ν' x : (g_type x = kAnd \/ g_type x = kOr) -> (forall a, In a (g_args x) -> lit ν a = true -> lit ν' a = true) ->
  gate_value ν x = true -> gate_value ν' x = true.
Proof.
  intros T H. unfold gate_value. destruct T as [-> | ->]; simpl.
  - rewrite !forallb_forall. intros X b B. apply in_map_iff in B as (a & <- & A). apply H; auto. apply X. apply in_map. auto.
  - rewrite !existsb_exists. intros (b & B & ->). apply in_map_iff in B as (a & E & A). exists true. split; auto. rewrite <- (H a A E). apply in_map. auto.
Qed.
Lemma lit_pos' ν a : 0 < a -> lit ν a = ν a. Proof. intros. unfold lit. destruct (Z.ltb_spec a 0); [lia|auto]. Qed.
Lemma coherent_active g i : coherent g = true -> active g i -> coherent i = true.
Proof.
  intros C. induction 1 as [|i x a A IH E J S M]; auto. destruct (COH i x a E IH J) as [P H]. rewrite Z.abs_eq in * by lia. auto.
Qed.
Lemma level_mono g σ σ' : coherent g = true -> (forall a, (exists j, leaf g j /\ a = Z.abs j) -> σ a = true -> σ' a = true) ->
  level g σ g = true -> is_Some (gs G !! g) -> level g σ' g = true.
Proof.
  intros C H LG SG. pose proof (level_respects g σ) as R. pose proof (level_respects g σ') as R'. revert LG.
  enough (X : forall n i, (r0 i < n)%nat -> is_Some (gs G !! i) -> active g i -> level g σ i = true -> level g σ' i = true) by (apply (X (S (r0 g))); auto; constructor).
  induction n as [|n IH]; intros i L [x Ex] A V; [lia|]. rewrite (R i x Ex A) in V. rewrite (R' i x Ex A). revert V.
  apply gate_mono; [apply (AO i x Ex)|]. intros a J. destruct (COH i x a Ex (coherent_active g i C A) J) as [P HC]. rewrite !lit_pos' by auto.
  destruct (gs G !! a) as [y|] eqn:Ey; [destruct (module a) eqn:M|].
  - assert (LF : leaf g a) by (exists i, x; rewrite Z.abs_eq by lia; auto).
    rewrite <- (Z.abs_eq a) by lia. rewrite !level_leaf by auto. apply H. exists a. auto.
  - apply IH; eauto.
    + assert (r0 (Z.abs a) < r0 i)%nat by (apply (RK i x a); auto; rewrite Z.abs_eq by lia; eauto). rewrite Z.abs_eq in H0 by lia. lia.
    + rewrite <- (Z.abs_eq a) by lia. apply (active_arg G module g i x a); auto; rewrite Z.abs_eq by lia; eauto.
  - assert (LF : leaf g a) by (exists i, x; rewrite Z.abs_eq by lia; auto).
    rewrite <- (Z.abs_eq a) by lia. rewrite !level_leaf by auto. apply H. exists a. auto.
Qed.
Lemma coherent_zero g ρ : is_Some (gs G !! g) -> coherent g = true -> (forall v, var G g v -> ρ v = false) -> val g ρ = false.
Proof.
  enough (H : forall n g, (r0 g < n)%nat -> is_Some (gs G !! g) -> coherent g = true -> (forall v, var G g v -> ρ v = false) -> val g ρ = false) by (apply (H (S (r0 g))); lia).
  clear g. induction n as [|n IH]; intros g L [x Ex] C H; [lia|]. rewrite (val_gate g x) by auto. destruct (AO g x Ex) as (T & LA & _).
  destruct (gate_value (fun i => val i ρ) x) eqn:E; auto. exfalso.
  destruct (true_arg (fun i => val i ρ) x T LA E) as (a & J & V). destruct (COH g x a Ex C J) as [P HC]. rewrite lit_pos' in V by auto.
  assert (U : forall v, var G a v -> var G g v).
  { intros v [U N]. split; auto. clear -U Ex J P. induction U as [|i y b U IH E' J']; [|apply (under_arg G g i y b); auto].
    rewrite <- (Z.abs_eq a) by lia. apply (under_arg G g g x a); auto. constructor. }
  destruct (gs G !! a) as [y|] eqn:Ey.
  - assert (r0 (Z.abs a) < r0 g)%nat by (apply (RK g x a); auto; rewrite Z.abs_eq by lia; eauto). rewrite Z.abs_eq in H0 by lia.
    rewrite (IH a) in V; [discriminate|lia|eauto|auto|auto].
  - rewrite val_var in V by auto. rewrite H in V; [discriminate|]. apply U. split; auto. constructor.
Qed.

(** *** Atoms *)
Context (MOD : forall m, is_Some (gs G !! m) -> module m = true -> modular G m).
Notation atom := (ZbddModulesProofs.atom G module).
Notation bel := (ZbddModulesProofs.bel G module r0).
Notation varb := (ZbddModulesProofs.varb G r0).
Notation under := (ZbddModules.under G).
Notation var := (ZbddModules.var G).
Lemma arg_nz i x a : gs G !! i = Some x -> In a (g_args x) -> a <> 0. Proof. intros E. apply (AO i x E). Qed.
Lemma atom_pos g a : atom g a -> 0 < a.
Proof. intros (j & (i & x & E & _ & J & _) & ->). pose proof (arg_nz i x j E J). lia. Qed.
Lemma atom_kind g a : atom g a -> gs G !! a = None /\ is_module a = false \/ is_Some (gs G !! a) /\ module a = true /\ is_module a = true.
Proof.
  intros AT. pose proof (atom_pos g a AT) as P. destruct AT as (j & (i & x & E & A & J & K) & ->).
  unfold ZbddModules.is_module, is_gate. rewrite Z.abs_involutive. destruct (gs G !! Z.abs j) as [y|] eqn:Ey; [right|left; auto].
  destruct K as [K|K]; [discriminate|]. rewrite K. split; eauto.
Qed.
Lemma atom_under g a : atom g a -> under g a.
Proof. intros (j & L & ->). apply (leaf_under G module); auto. Qed.
Lemma atom_rank g a : atom g a -> is_Some (gs G !! a) -> (r0 a < r0 g)%nat.
Proof.
  intros (j & (i & x & E & A & J & _) & ->) S. pose proof (RK i x j E J S). destruct (active_rank g i A) as [->|]; lia.
Qed.
Lemma active_outside g m i : is_Some (gs G !! g) -> atom g m -> is_Some (gs G !! m) -> module m = true -> active g i -> ~ under m i.
Proof.
  intros SG AT S M A. pose proof (atom_rank g m AT S) as R. induction A as [|i x a A IH E J S' K]; intros U.
  - destruct (under_rank G r0 RK m g U SG) as [->|]; lia.
  - destruct (MOD m S M i x a E J U) as [X|X]; auto. congruence.
Qed.
Lemma atom_sep g a m : is_Some (gs G !! g) -> atom g a -> atom g m -> is_Some (gs G !! m) -> module m = true -> under m a -> a = m.
Proof.
  intros SG (j & (i & x & E & A & J & _) & ->) AM S M U. destruct (MOD m S M i x j E J U) as [X|X]; auto.
  elim (active_outside g m i SG AM S M A X).
Qed.
Lemma module_disjoint g a b v : is_Some (gs G !! g) -> atom g a -> atom g b -> is_Some (gs G !! a) -> module a = true -> is_Some (gs G !! b) -> module b = true ->
  under a v -> under b v -> a = b.
Proof.
  intros SG A B Sa Ma Sb Mb Ua Ub.
  assert (H : under b a \/ under a b).
  { revert Ua. induction Ub as [|i x c Ub IH E J]; intros Ua; auto. destruct (MOD a Sa Ma i x c E J Ua) as [X|X]; auto.
    left. rewrite <- X. apply (under_arg G b i x c); auto. }
  destruct H as [H|H]; [apply (atom_sep g a b); auto|symmetry; apply (atom_sep g b a); auto].
Qed.
Lemma bel_pos a v : 0 < a -> bel a v = true -> 0 <= v.
Proof.
  intros P. unfold ZbddModulesProofs.bel, ZbddModulesProofs.varb. destruct (is_module a).
  - intros H. apply andb_true_iff in H as [_ H]. apply existsb_exists in H as (c & _ & H). apply Z.eqb_eq in H. lia.
  - intros H. apply Z.eqb_eq in H. lia.
Qed.
Lemma bel_module a v : 0 < a -> is_module a = true -> is_Some (gs G !! a) -> bel a v = true <-> var a v.
Proof.
  intros P M S. split.
  - intros B. pose proof (bel_pos a v P B). unfold ZbddModulesProofs.bel in B. rewrite M in B. apply (varb_in G r0 RK); auto.
  - intros V. assert (0 <= v) by (apply (var_pos G a); auto). unfold ZbddModulesProofs.bel. rewrite M. apply (varb_in G r0 RK); auto.
Qed.
Lemma bel_disjoint g a b v : is_Some (gs G !! g) -> atom g a -> atom g b -> bel a v = true -> bel b v = true -> a = b.
Proof.
  intros SG A B Ha Hb. pose proof (atom_pos g a A) as Pa. pose proof (atom_pos g b B) as Pb.
  destruct (atom_kind g a A) as [[Na Ma]|(Sa & Ma & Ia)], (atom_kind g b B) as [[Nb Mb]|(Sb & Mb & Ib)].
  - unfold ZbddModulesProofs.bel in *. rewrite Ma in Ha. rewrite Mb in Hb. apply Z.eqb_eq in Ha. apply Z.eqb_eq in Hb. congruence.
  - apply bel_module in Hb; auto. unfold ZbddModulesProofs.bel in Ha. rewrite Ma in Ha. apply Z.eqb_eq in Ha. subst v.
    apply (atom_sep g a b); auto. apply Hb.
  - apply bel_module in Ha; auto. unfold ZbddModulesProofs.bel in Hb. rewrite Mb in Hb. apply Z.eqb_eq in Hb. subst v.
    symmetry. apply (atom_sep g b a); auto. apply Ha.
  - apply bel_module in Ha; auto. apply bel_module in Hb; auto. apply (module_disjoint g a b v); auto; [apply Ha|apply Hb].
Qed.
Lemma under_split g i : is_Some (gs G !! g) -> under g i -> (active g i /\ is_Some (gs G !! i)) \/ exists a, atom g a /\ under a i.
Proof.
  intros SG U. induction U as [|i x a U IH E J]; [left; split; [constructor|auto]|].
  destruct IH as [[A _]|(c & AC & UC)].
  - destruct (gs G !! Z.abs a) as [y|] eqn:Ey; [destruct (module (Z.abs a)) eqn:M|].
    + right. exists (Z.abs a). split; [|constructor]. exists a. split; auto. exists i, x. auto.
    + left. split; [|eauto]. apply (active_arg G module g i x a); eauto.
    + right. exists (Z.abs a). split; [|constructor]. exists a. split; auto. exists i, x. auto.
  - right. exists c. split; auto. apply (under_arg G c i x a); auto.
Qed.
Lemma under_none a i : gs G !! a = None -> under a i -> i = a.
Proof. intros N. induction 1 as [|i x b U IH E J]; auto. subst i. congruence. Qed.
Lemma bel_var g v : is_Some (gs G !! g) -> (exists a, atom g a /\ bel a v = true) <-> var g v.
Proof.
  intros SG. split.
  - intros (a & A & B). pose proof (atom_pos g a A) as P. destruct (atom_kind g a A) as [[N M]|(S & M & I)].
    + unfold ZbddModulesProofs.bel in B. rewrite M in B. apply Z.eqb_eq in B. subst v. split; auto. apply atom_under; auto.
    + apply bel_module in B as [U N]; auto. split; auto. apply (under_trans G g a v); auto. apply atom_under; auto.
  - intros [U N]. destruct (under_split g v SG U) as [[_ [y Y]]|(a & A & UA)]; [congruence|]. exists a. split; auto.
    pose proof (atom_pos g a A) as P. destruct (atom_kind g a A) as [[NA M]|(S & M & I)].
    + rewrite (under_none a v NA UA). unfold ZbddModulesProofs.bel. rewrite M. apply Z.eqb_refl.
    + apply bel_module; auto. split; auto.
Qed.
(** The variables of a gate *)
Definition vars (g : Z) : list Z := map Z.abs (List.filter (fun a => negb (is_gate G a)) (args_below G (fun _ => false) (S (r0 g)) g)).
Lemma vars_in g v : is_Some (gs G !! g) -> In v (vars g) <-> var g v.
Proof.
  intros SG. assert (E : In v (vars g) <-> 0 <= v /\ varb g v = true).
  { unfold vars, ZbddModulesProofs.varb. rewrite in_map_iff, andb_true_iff, existsb_exists. split.
    - intros (a & <- & J). apply filter_In in J as [J K]. split; [lia|]. split; [unfold is_gate in *; rewrite Z.abs_involutive; auto|]. exists a. rewrite Z.eqb_refl. auto.
    - intros (P & K & a & J & E). apply Z.eqb_eq in E. subst v. exists a. split; auto. apply filter_In. split; auto. unfold is_gate in *. rewrite Z.abs_involutive in K. auto. }
  rewrite E. split.
  - intros [P B]. apply (varb_in G r0 RK); auto.
  - intros V. assert (0 <= v) by (apply (var_pos G g); auto). split; auto. apply (varb_in G r0 RK); auto.
Qed.
End Values.

(** ** Correctness *)
Section Proofs.
Context (ord : Z -> Z) (top : Z) (hash : Bdd.ckey -> nat) (prime : nat -> nat).
Context (pi : bool) (G : graph) (module coherent : Z -> bool) (funs : gmap Z Bdd.fn).
Context (ord_inj : forall i j, ord i = ord j -> i = j) (prime_pos : forall n, (0 < prime n)%nat).
Context (r0 : Z -> nat) (RK : ranked G r0).
Context (AO : forall i x, gs G !! i = Some x -> (g_type x = kAnd \/ g_type x = kOr) /\ (2 <= length (g_args x))%nat /\ constant x = false /\ forall a, In a (g_args x) -> a <> 0).
Context (GPOS : forall i, is_Some (gs G !! i) -> 0 < i).
Context (COH : forall i x a, gs G !! i = Some x -> coherent i = true -> In a (g_args x) -> 0 < a /\ (is_Some (gs G !! a) -> coherent a = true)).
Context (MOD : forall m, is_Some (gs G !! m) -> module m = true -> modular G m).
Notation val := (val G r0).
Context (NONCONST : forall m b, is_Some (gs G !! m) -> module m = true -> exists ρ, val m ρ = b).
Context (TOP : forall g a, is_Some (gs G !! g) -> ZbddModulesProofs.atom G module g a -> 0 < ord a <= top).
Notation is_module := (ZbddModules.is_module G module).
Context (slack : Z) (SLACK : 0 <= slack <= 1).
Context (EXACT : slack = 0 -> pi = true \/ forall i, 0 < i -> is_module i = true -> coherent i = true).
Notation counts := (BddZbdd.counts pi is_module coherent).
Notation zord := (BddZbdd.zord ord).
Notation wf := (BddProofs.wf ord hash).
Notation ext := BddProofs.ext.
Notation feval b := (BddProofs.feval (Bdd.nodes b)).
Notation atom := (ZbddModulesProofs.atom G module).
Notation bel := (ZbddModulesProofs.bel G module r0).
Notation var := (ZbddModules.var G).
Notation exactf := (BddAssemble.exactf zord top G module pi slack).
Notation build := (BddModules.build ord top hash prime pi G module coherent funs).
Notation build_all := (BddModules.build_all ord top hash prime pi G module coherent funs).

Lemma ZORD : ordering zord. Proof. apply (BddZbdd.ORD ord ord_inj). Qed.

Lemma pfits_ext (V V' : Z -> Prop) P ρ : (forall v, V v <-> V' v) -> pfits pi V P ρ <-> pfits pi V' P ρ.
Proof. intros E. unfold pfits. split; intros [A B]; split; auto; intros Pi v Vv; apply B; auto; apply E; auto. Qed.
Lemma literals_ext (V V' : Z -> Prop) P : (forall v, V v <-> V' v) -> literals_of pi V P <-> literals_of pi V' P.
Proof. intros E. unfold literals_of. split; intros H j J; destruct (H j J) as (? & ? & ?); split; auto; split; auto; apply E; auto. Qed.
Lemma exactf_ext H H' V V' z k : (forall ρ, H ρ = H' ρ) -> (forall v, V v <-> V' v) -> exactf H V z k -> exactf H' V' z k.
Proof.
  intros EH EV [A1 A2 A3 A4 A5 A6 A7 A8 A9 A10]. constructor; auto.
  - intros P PR. apply (literals_ext V V' P EV). auto.
  - intros P ρ PR F. rewrite <- EH. apply (A4 P); auto. apply (pfits_ext V V' P ρ EV). auto.
  - intros X N C L S F. apply A5; auto; [apply (literals_ext V V' X EV); auto|]. intros ρ FX. rewrite EH. apply F. apply (pfits_ext V V' X ρ EV). auto.
Qed.

(** The functions of the modules are available. *)
Definition have (g : Z) : Prop := forall a, atom g a -> is_Some (gs G !! a) -> is_Some (funs !! a).
Context (CLOSED : forall m, is_Some (funs !! m) -> have m).
Definition funs_denote (b : Bdd.bdd) : Prop := forall m f, funs !! m = Some f -> denotes G module m b (fun ν => ν m) f.
Lemma funs_mono b b' : wf b -> wf b' -> ext b b' -> funs_denote b -> funs_denote b'.
Proof. intros W W' X H m f E. apply (denotes_mono ord hash G module m b b'); auto. Qed.

Lemma from_bdd_zero depth coh v c b r s : from_bdd hash prime pi coh is_module coherent depth v c 0 (b, ∅) = Some (r, s) -> terminal r = true.
Proof.
  destruct depth as [|depth]; [discriminate|]. cbn [from_bdd]. destruct (Bdd.terminal v); [intros E; injection E as <- _; destruct c; auto|].
  cbn [fst snd].
  match goal with |- match ?e with _ => _ end = _ -> _ => destruct e as [q|] eqn:EQ; [elim (lookup_empty_Some (M := gmap (Z * Z)) _ q EQ)|clear EQ] end.
  destruct (Bdd.nodes b !! v) as [n|]; [|discriminate]. cbn [mbind option_bind].
  assert (FIN : forall body : option (zt * conv_state), (forall r s, body = Some (r, s) -> terminal r = true) -> forall key,
     body ≫= (λ '(r, s), if within_limit counts r 0 then Some (r, (s.1, <[key := r]> s.2)) else None) = Some (r, s) -> terminal r = true).
  { intros body H key. destruct body as [[r' s']|]; [|discriminate]. cbn. destruct (within_limit counts r' 0); [|discriminate]. intros E. injection E as <- _. eauto. }
  apply FIN. clear r s FIN. intros r s.
  destruct (negb coh && pi || is_module (Bdd.n_index n) && negb (coherent (Bdd.n_index n))).
  - destruct (Bdd.consensus hash prime n c b) as [[b' f]|]; [|discriminate]. cbn [mbind option_bind].
    destruct (from_bdd _ _ _ _ _ _ _ _ _ _ _) as [[r' s']|]; [|discriminate]. cbn [mbind option_bind].
    change (0 =? 0) with true. cbv iota. destruct (terminal r') eqn:T; intros E; injection E as <- _; auto.
  - destruct (from_bdd _ _ _ _ _ _ _ _ _ _ _) as [[r' s']|]; [|discriminate]. cbn [mbind option_bind].
    change (0 =? 0) with true. cbv iota. destruct (terminal r') eqn:T; intros E; injection E as <- _; auto.
Qed.

Lemma exactf_empty g (c : bool) : is_Some (gs G !! g) -> module g = true -> coherent g = true ->
  exactf (fun ρ => val g ρ) (var g) (Zb ZE []) 0.
Proof.
  intros SG MG CG. assert (E : forall P, ~ produces G module (Zb ZE []) P) by (intros P H; inversion H; simpl in *; contradiction).
  constructor; try (intros; exfalso; eapply E; eauto; fail).
  - intros X N C L S H. exfalso. destruct X as [|v X]; [|simpl length in S; lia].
    destruct (flag pi) as [Pi|Pi].
    + destruct (NONCONST g false SG MG) as (ρ & V). rewrite H in V; [discriminate|]. split; [intros j []|]. congruence.
    + assert (V : val g (fun _ => false) = true) by (apply H; split; auto; intros j []).
      rewrite (coherent_zero G r0 RK AO coherent COH g (fun _ => false)) in V; auto. discriminate.
  - auto.
  - constructor; [simpl; auto|intros p q []|intros j z []|]. intros j (p & [] & _).
  - intros k' n _. constructor.
Qed.
Lemma lv_val ρ j : j <> 0 -> lv val ρ j = xorb (j <? 0) (val (Z.abs j) ρ).
Proof. intros N. unfold lv. rewrite lit_abs by auto. auto. Qed.

Lemma build_all_ok depth fuel g : is_Some (gs G !! g) -> have g ->
  (forall m f coh o b c, is_Some (gs G !! m) -> module m = true -> (r0 m < fuel)%nat -> wf b -> funs_denote b -> have m ->
     denotes G module m b (fun ν => xorb c (ν m)) f -> (coh = true -> c = false /\ coherent m = true) -> 0 <= o ->
     exists z b', build depth fuel f coh o b = Some (z, b') /\ wf b' /\ ext b b' /\ exactf (fun ρ => xorb c (val m ρ)) (var m) z o) ->
  (r0 g < S fuel)%nat -> forall l b, wf b -> funs_denote b ->
  (forall i c o, In (i, (c, o)) l -> c = coherent (Z.abs i) /\ 0 <= o /\ i <> 0 /\ atom g (Z.abs i) /\ is_module i = true) ->
  exists mods b', build_all depth fuel l b = Some (mods, b') /\ wf b' /\ ext b b' /\ map fst mods = map fst l /\
    (forall i c o, In (i, (c, o)) l -> exists z, In (i, z) mods /\ exactf (fun ρ => lv val ρ i) (fun v => bel (Z.abs i) v = true) z o) /\
    (forall i z, In (i, z) mods -> clean zord top G module z /\ exists c o, In (i, (c, o)) l /\ exactf (fun ρ => lv val ρ i) (fun v => bel (Z.abs i) v = true) z o).
Proof.
  intros SG HG B F l. induction l as [|[i [c o]] l IH]; intros b W FD H.
  - exists [], b. split; auto. split; auto. split; [apply BddProofs.ext_refl|]. split; auto. split; [intros i c o []|intros i z []].
  - destruct (H i c o (or_introl eq_refl)) as (Ec & Po & Nz & AT & M).
    destruct (atom_kind G AO module g _ AT) as [[_ X]|(S & MM & I)]; [rewrite is_module_abs in X; congruence|].
    destruct (HG _ AT S) as [sub Es]. pose proof (FD _ _ Es) as D. pose proof (atom_rank G r0 RK module g _ AT S) as R.
    assert (NT : Bdd.terminal sub.2 = false).
    { destruct (Bdd.terminal sub.2) eqn:T; auto. exfalso. destruct D as (V & EV & _).
      destruct (BddProofs.valid_cases ord _ _ (BddProofs.w_store _ _ _ W) V) as [[_ V1]|[T' _]]; [|congruence].
      destruct (NONCONST (Z.abs i) (sub.1) S MM) as (ρ & Hρ).
      pose proof (EV _ (val_respects G r0 RK module (Z.abs i) ρ)) as X. unfold BddProofs.feval in X. rewrite V1, (BddProofs.eval_one ord) in X by apply W.
      cbv beta in X. rewrite Hρ in X. destruct (sub.1); discriminate. }
    assert (PA : 0 < Z.abs i) by lia.
    assert (BV : forall v, var (Z.abs i) v <-> bel (Z.abs i) v = true) by (intros v; symmetry; apply bel_module; auto).
    assert (exists z b1, (if (o =? 0) && (c && (0 <? i)) then Some (Zb ZE [], b) else build depth fuel (xorb sub.1 (i <? 0), sub.2) (c && (0 <? i)) o b) = Some (z, b1) /\
       wf b1 /\ ext b b1 /\ exactf (fun ρ => lv val ρ i) (fun v => bel (Z.abs i) v = true) z o) as (z & b1 & Ez & W1 & X1 & XZ).
    { destruct ((o =? 0) && (c && (0 <? i))) eqn:E0.
      - apply andb_true_iff in E0 as [E0 E1]. apply Z.eqb_eq in E0. subst o. apply andb_true_iff in E1 as [E1 E2]. apply Z.ltb_lt in E2.
        exists (Zb ZE []), b. split; auto. split; auto. split; [apply BddProofs.ext_refl|].
        apply (exactf_ext (fun ρ => val (Z.abs i) ρ) _ (var (Z.abs i))); auto; [|apply exactf_empty; auto; congruence].
        intros ρ. rewrite lv_val by auto. destruct (Z.ltb_spec i 0); [lia|]. destruct (val (Z.abs i) ρ); auto.
      - destruct (B (Z.abs i) (xorb sub.1 (i <? 0), sub.2) (c && (0 <? i)) o b (i <? 0)) as (z & b1 & Ez & W1 & X1 & XZ); auto; try lia.
        + destruct D as (V & EV & SV).
          assert (FE : forall σ, feval b σ (xorb sub.1 (i <? 0), sub.2) = xorb (i <? 0) (feval b σ sub)).
          { intros σ. destruct sub as [cs vs]. unfold BddProofs.feval. simpl. destruct cs, (i <? 0), (BddProofs.eval (Bdd.nodes b) σ vs); auto. }
          split; [auto|]. split; [intros ν Rν; rewrite FE, EV; auto|]. intros σ σ' A. rewrite !FE. f_equal. auto.
        + intros CO. apply andb_true_iff in CO as [C1 C2]. apply Z.ltb_lt in C2. split; [apply Z.ltb_ge; lia|congruence].
        + exists z, b1. split; auto. split; auto. split; auto. apply (exactf_ext (fun ρ => xorb (i <? 0) (val (Z.abs i) ρ)) _ (var (Z.abs i))); auto.
          intros ρ. rewrite lv_val; auto. }
    destruct (IH b1 W1 (funs_mono b b1 W W1 X1 FD)) as (mods & b2 & E2 & W2 & X2 & EF & IN & CL); [intros; apply H; simpl; auto|].
    exists ((i, z) :: mods), b2. split.
    { assert (Es' : @lookup Z (bool * Z) (gmap Z Bdd.fn) _ (Z.abs i) funs = Some sub) by exact Es. rewrite build_all_cons, Es'. cbn [mbind option_bind]. rewrite NT. cbn [orb]. destruct (Z.ltb_spec o 0); [lia|]. rewrite Ez. cbn [mbind option_bind].
      rewrite E2. reflexivity. }
    split; auto. split; [eapply BddProofs.ext_trans; eauto|]. split; [simpl; congruence|]. split.
    + intros i' c' o' [E'|I'].
      * injection E' as <- _ <-. exists z. simpl; auto.
      * destruct (IN i' c' o' I') as (z' & Iz & Xz). exists z'. simpl; auto.
    + intros i' z' [E'|I'].
      * injection E' as <- <-. split; [apply (e_clean _ _ _ _ _ _ _ _ _ _ XZ)|]. exists c, o. simpl; auto.
      * destruct (CL i' z' I') as (C1 & c' & o' & Il & Xz). split; auto. exists c', o'. simpl; auto.
Qed.

Lemma build_ok depth : (Z.to_nat (top + 1) < depth)%nat -> forall fuel g f coh limit b c, is_Some (gs G !! g) -> (r0 g < fuel)%nat -> wf b -> funs_denote b -> have g ->
  denotes G module g b (fun ν => xorb c (ν g)) f -> (coh = true -> c = false /\ coherent g = true) -> 0 <= limit ->
  exists z b', build depth fuel f coh limit b = Some (z, b') /\ wf b' /\ ext b b' /\ exactf (fun ρ => xorb c (val g ρ)) (var g) z limit.
Proof.
  intros DEP. induction fuel as [|fuel IH]; intros g f coh limit b c SG F W FD HG D CO LIM; [lia|]. cbn [BddModules.build].
  set (A := atoms G module r0 g).
  assert (AI : forall a, In a A <-> atom g a) by (intros a; apply atoms_in; auto).
  set (bo := BddZbdd.both pi coh is_module coherent).
  pose proof D as (VF & EF & SF).
  assert (OV : BddZbdd.over (fun a => In a A) b f.2).
  { intros σ σ' H. assert (X : feval b σ f = feval b σ' f) by (apply SF; intros a AT; apply H, AI; exact AT).
    unfold BddProofs.feval in X. destruct (f.1), (BddProofs.eval (Bdd.nodes b) σ f.2), (BddProofs.eval (Bdd.nodes b) σ' f.2); simpl in X; auto; discriminate. }
  assert (DPOS : forall a, In a A -> 0 < a) by (intros a J; apply AI in J; apply (atom_pos G AO module g a J)).
  assert (DTOP : forall a, In a A -> ord a <= top) by (intros a J; apply AI in J; apply (TOP g a SG J)).
  assert (COUNTED : slack = 0 -> forall i, In i A -> bo i = true -> counts i = true /\ counts (- i) = true).
  { intros S0 i Pi0 Bi. unfold bo, BddZbdd.both in Bi. destruct (EXACT S0) as [Pi|AC].
    - unfold BddZbdd.counts. rewrite Pi. auto.
    - destruct (flag pi) as [Pi|Pi]; [unfold BddZbdd.counts; rewrite Pi; auto|]. exfalso. rewrite Pi, andb_false_r in Bi. cbn [orb] in Bi.
      apply andb_true_iff in Bi as [B1 B2]. rewrite (AC i (DPOS i Pi0) B1) in B2. discriminate. }
  assert (LE : low_enough top b depth f.2).
  { unfold low_enough. destruct (Bdd.nodes b !! f.2) as [n|] eqn:En; [|lia].
    pose proof (BddZbdd.node_in ord hash (fun a => In a A) (fun i => in_dec Z.eq_dec i A) top ord_inj b W f.2 n En OV) as Dn.
    destruct (BddProofs.w_store _ _ _ W f.2 n En) as (_ & -> & _). apply AI in Dn. pose proof (TOP g _ SG Dn). lia. }
  destruct (from_bdd_ok ord hash prime pi coh is_module coherent (fun a => In a A) (fun i => in_dec Z.eq_dec i A) DPOS top DTOP slack (proj1 SLACK) COUNTED ord_inj prime_pos
     depth f.2 f.1 limit b ∅ W VF OV LIM) as (q & b1 & m1 & E1 & W1 & X1 & _ & RQ & _); [|auto|].
  { intros s k r E. elim (lookup_empty_Some (M := gmap (Z * Z)) _ _ E). }
  rewrite E1. cbn [mbind option_bind].
  destruct RQ as [Wq Lq Sq Oq Cq].
  destruct (minimize_ok zord top counts ZORD q start (inv_start zord top counts) Wq) as (r & t & E2 & I2 & Wr & Mr).
  rewrite E2. cbn [mbind option_bind].
  assert (Rq : forall p, In p (fam r) -> In p (fam q)) by (intros p P; apply Mr in P; tauto).
  assert (LITS : forall p, In p (fam r) -> lproper A bo p) by (intros p P; apply (Lq p (Rq p P))).
  assert (SIZE : forall p, In p (fam r) -> Zbdd.size counts p <= limit) by (intros p P; apply Sq; auto).
  assert (AR : antichain r) by (intros p p' P P' I; apply Mr in P' as [_ P']; apply P'; auto).
  destruct (gather_ok zord top is_module counts coherent limit (fun i => i <> 0 /\ atom g (Z.abs i) /\ is_module i = true) r 0 ∅ Wr) as (mn & subs & E3 & _ & _ & _ & MO & _ & EN); [lia|auto| | |].
  { intros j (p & P & J) M. destruct (LITS p P j J) as [Ij _]. pose proof (DPOS _ Ij). split; [lia|]. split; auto. apply AI. auto. }
  { intros j bb o X. elim (lookup_empty_Some (M := gmap Z) j (bb, o) X). }
  rewrite E3. cbn [mbind option_bind].
  destruct (build_all_ok depth fuel g SG HG) with (l := map_to_list subs) (b := b1) as (mods & b2 & E4 & W4 & X4 & EFST & IN & CL); auto.
  { apply (funs_mono b b1); auto. }
  { intros i c' o Ii. apply elem_of_list_In, elem_of_map_to_list in Ii. apply EN in Ii. tauto. }
  cbn [fst]. unfold BddModules.build_all in E4. rewrite E4. cbn [mbind option_bind].
  assert (ND : NoDup (map fst mods)) by (rewrite EFST; apply NoDup_ListNoDup; apply NoDup_fst_map_to_list).
  assert (TQ : limit = 0 -> terminal r = true).
  { intros ->. apply from_bdd_zero in E1. destruct q; [| |discriminate]; simpl in E2; injection E2 as <- _; auto. }
  (* the diagram after the removal of constant modules *)
  assert (FIN : forall r', left zord top (constant_module G module mods) r r' -> (limit = 0 -> terminal r' = true) -> exactf (fun ρ => xorb c (val g ρ)) (var g) (Zb r' mods) limit).
  { intros r' LF TR.
    apply (exactf_ext (fun ρ => feval b (fun a => val a ρ) f) _ (fun v => In v (vars G r0 g))).
    { intros ρ. rewrite EF; auto. apply (val_respects G r0 RK module). }
    { intros v. apply vars_in; auto. }
    apply (assemble zord top ZORD G module pi slack SLACK val bel A (vars G r0 g) bo counts DPOS) with (F := fun σ => feval b σ f) (r := r); auto.
    - intros a ρ ρ' J H. apply AI in J. pose proof (atom_pos G AO module g a J) as P. apply (val_under G r0 RK). intros v V. apply H.
      destruct (atom_kind G AO module g a J) as [[N M]|(S & M & I)].
      + destruct V as [U _]. rewrite (under_none G a v N U). unfold ZbddModulesProofs.bel. rewrite M. apply Z.eqb_refl.
      + apply bel_module; auto.
    - intros a a' v J J' B B'. apply AI in J, J'. apply (bel_disjoint G r0 RK AO module MOD g a a' v); auto.
    - intros a J M. apply AI in J. destruct (atom_kind G AO module g a J) as [[N _]|(_ & _ & X)]; [|congruence]. split.
      + intros ρ. apply val_var; auto.
      + intros v. unfold ZbddModulesProofs.bel. rewrite M. apply Z.eqb_eq.
    - intros a v J B. apply AI in J. assert (Vg : var g v) by (apply (bel_var G r0 RK AO module g v SG); eauto).
      assert (AV : forall w, ZbddModules.under G g w -> w = g \/ 0 < w).
      { intros w U. destruct U as [|i x e U E J']; auto. right. pose proof (arg_nz G AO i x e E J'). lia. }
      destruct Vg as [U N]. destruct (AV v U) as [->|]; auto.
    - intros v. rewrite (vars_in G r0 RK) by auto. rewrite <- (bel_var G r0 RK AO module g v SG). split; intros (a & J & B); exists a; split; auto; apply AI; auto.
    - intros _ a bb J. apply AI in J. destruct (atom_kind G AO module g a J) as [[N _]|(S & M & _)]; [|auto]. exists (fun _ => bb). apply val_var; auto.
    - intros Pi a ρ J Ba H. apply AI in J. pose proof (atom_pos G AO module g a J) as P. destruct (atom_kind G AO module g a J) as [[N M]|(S & M & I)].
      + rewrite val_var by auto. apply H. unfold ZbddModulesProofs.bel. rewrite M. apply Z.eqb_refl.
      + unfold bo, BddZbdd.both in Ba. apply orb_false_iff in Ba as [_ Ba]. rewrite I in Ba. cbn [andb] in Ba.
        apply (coherent_zero G r0 RK AO coherent COH); auto; [destruct (coherent a); auto; discriminate|]. intros v V. apply H. apply bel_module; auto.
    - intros Pi a Ba. unfold bo, BddZbdd.both in Ba. rewrite Pi, andb_false_r in Ba. cbn [orb] in Ba. apply andb_true_iff in Ba. tauto.
    - intros Pi j Cj. unfold BddZbdd.counts in Cj. rewrite Pi in Cj. cbn [orb] in Cj. apply andb_true_iff in Cj as [C1 C2]. apply Z.ltb_lt in C1. split; auto. intros _.
      rewrite Z.abs_eq in C2 by lia. unfold bo, BddZbdd.both. rewrite Pi, andb_false_r. cbn [orb]. destruct (is_module j), (coherent j); auto; discriminate.
    - intros σ σ' H. apply SF. intros a AT. apply H, AI. exact AT.
    - intros Pi σ σ' H1 H2 T. destruct coh.
      + destruct (CO eq_refl) as [-> CG].
        assert (EQ : forall τ, feval b τ f = level G r0 module g τ g).
        { intros τ. pose proof (EF (level G r0 module g τ)) as X. rewrite xorb_false_l in X. rewrite <- X by (apply level_respects; auto). apply SF. intros a AT. destruct AT as (j & L & ->). symmetry. apply level_leaf; auto. }
        rewrite EQ in *. apply (level_mono G r0 RK AO module coherent GPOS COH g σ); auto.
        intros a AT. assert (J : In a A) by (apply AI; exact AT). apply H2; auto.
        unfold bo, BddZbdd.both. cbn [negb andb orb]. destruct (atom_kind G AO module g a AT) as [[_ ->]|(S & M & I)]; auto.
        destruct AT as (j & (i & x & E & Ai & J' & K) & ->).
        destruct (COH i x j E (coherent_active G module coherent COH g i CG Ai) J') as [Pj Hc]. rewrite Z.abs_eq in * by lia. rewrite Hc, andb_false_r; auto.
      + rewrite <- T. apply SF. intros a AT. symmetry. apply H1; [apply AI; exact AT|]. unfold bo, BddZbdd.both. rewrite Pi. auto.
    - intros p σ P FT. rewrite (surjective_pairing f). apply (Oq p σ (Rq p P) FT).
    - intros x N C P S H. apply (covers_ev top counts). apply (covers_min zord (fam q) (fam r)).
      + intros p P'. apply (sorted_fam zord top counts q Wq p P').
      + intros p. rewrite Mr. unfold minimal_in. tauto.
      + apply (covers_ev top counts). apply Cq; auto.
    - intros j z J. apply (CL j z J).
    - intros j z Fz. apply find_some in Fz. destruct (CL j z Fz) as (_ & c' & o & Il & XZ). apply elem_of_list_In, elem_of_map_to_list in Il.
      apply EN in Il as (_ & Po & _ & AT & _). split; [apply AI; auto|]. exists o. auto.
    - intros p j P J M. destruct (MO p j P J M) as (c' & o & Eo & Lo). destruct (IN j c' o) as (z & Iz & Xz); [apply elem_of_list_In, elem_of_map_to_list; auto|].
      exists z, o. split; [apply (find_in 0 (fun _ => O)); auto|]. split; auto. lia. }
  assert (X02 : ext b b2) by (eapply BddProofs.ext_trans; eauto).
  destruct (has_constant mods) eqn:HC.
  - destruct (eliminate_signed zord top counts ZORD limit (constant_module G module mods) r t I2 Wr) as (r' & t' & E5 & _ & LF).
    { intros p P. pose proof (remaining_size counts (constant_module G module mods) p). specialize (SIZE p P). lia. }
    rewrite E5. cbn [mbind option_bind]. exists (Zb r' mods), b2. split; auto. split; auto. split; auto. apply FIN; auto.
    intros Z0. specialize (TQ Z0). destruct r; [| |discriminate]; simpl in E5; injection E5 as <- _; auto.
  - exists (Zb r mods), b2. split; auto. split; auto. split; auto. apply FIN; auto. apply (left_id zord top); auto.
    intros i. unfold constant_module. destruct (is_module i); auto. destruct (find_module i mods) as [[rr l]|] eqn:FI; auto.
    apply find_some in FI. unfold has_constant in HC.
    assert (terminal rr = false). { destruct (terminal rr) eqn:T; auto. rewrite <- HC. symmetry. apply existsb_exists. exists (i, Zb rr l). auto. }
    destruct rr; auto; discriminate.
Qed.
End Proofs.
