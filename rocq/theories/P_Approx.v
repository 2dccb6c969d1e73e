(** C20 (approximations on cut sets), C22 (the factors derived from the marginal importance and
    the occurrence counts).
    Vocabulary: [prob p vs F] (Expect.v): the sum over the sets of events among vs that make F true
    of the probability that exactly they occur. *)
From stdpp Require Import gmap.
From Coq Require Import List ZArith Lia Bool Reals Lra.
Import ListNotations.
From Verif Require Import Pdag PdagProofs PdagSem ZbddGraph ZbddModules ZbddModulesProofs BddModules P_BddProducts.
From Verif Require Import Expect Prob ProbGraph P_Prob.
Open Scope R_scope.

(** Comparisons of double on the reals. *)
Definition gtR (x y : R) : bool := if Rlt_dec y x then true else false.
Definition eqR (x y : R) : bool := if Req_EM_T x y then true else false.

(** ** C20 *)
Section CutSets.
Context (p : Z -> R) (vs : list Z) (ND : NoDup vs) (PR : forall v, In v vs -> 0 <= p v <= 1).
(** All the events of some cut set occur. *)
Definition occur (c : list Z) (ρ : Z -> bool) : bool := forallb ρ c.
Definition union (cs : list (list Z)) (ρ : Z -> bool) : bool := existsb (fun c => occur c ρ) cs.
Notation E F := (expect p vs F).
Notation csp := (cut_set_probability Rarith p).
Lemma csp_fold l : forall x, fold_left (fun x i => mul Rarith x (p i)) l x = x * fold_right (fun i y => p i * y) 1 l.
Proof. induction l as [|i l IH]; intros x; simpl; [ring|]. rewrite IH. ring. Qed.
Lemma csp_cons i l : csp (i :: l) = p i * csp l.
Proof. unfold cut_set_probability. cbn [fold_left]. rewrite !csp_fold. simpl. ring. Qed.
Lemma csp_range c : incl c vs -> 0 <= csp c <= 1.
Proof.
  induction c as [|i c IH]; intros I; [unfold cut_set_probability; simpl; lra|]. rewrite csp_cons.
  assert (H : 0 <= csp c <= 1) by (apply IH; intros x X; apply I; right; auto). pose proof (PR i (I i (or_introl eq_refl))). nra.
Qed.
Lemma csp_expect c : incl c vs -> NoDup c -> csp c = E (fun ρ => b2r (occur c ρ)).
Proof.
  induction c as [|i c IH]; intros I N.
  - unfold cut_set_probability. symmetry. exact (expect_const p 1 vs).
  - inversion N as [|? ? NI N']; subst. rewrite csp_cons, IH; [|intros x X; apply I; right; auto|auto].
    rewrite (expect_ext p vs (fun ρ => b2r (occur (i :: c) ρ)) (fun ρ => b2r (ρ i) * b2r (occur c ρ))) by (intros ρ; change (occur (i :: c) ρ) with (ρ i && occur c ρ); destruct (ρ i), (occur c ρ); simpl; ring).
    rewrite (expect_indep p (fun v => if Z.eq_dec v i then true else false)).
    + rewrite (expect_var p i vs); auto. apply I. left; auto.
    + intros ρ ρ' H. rewrite (H i); auto. destruct (Z.eq_dec i i); [auto|contradiction].
    + intros ρ ρ' H. f_equal. unfold occur. clear -NI H. induction c as [|x c IH]; auto. simpl. rewrite IH by (intros X; apply NI; right; auto). rewrite (H x); auto.
      destruct (Z.eq_dec x i) as [->|]; auto. elim NI. left; auto.
Qed.
Lemma mcub_fold l : forall x, fold_left (fun x c => mul Rarith x (sub Rarith (one Rarith) (csp c))) l x = x * fold_right (fun c y => (1 - csp c) * y) 1 l.
Proof. induction l as [|i l IH]; intros x; simpl; [ring|]. rewrite IH. ring. Qed.
Lemma rare_fold l : forall x, fold_left (fun x c => add Rarith x (csp c)) l x = x + fold_right (fun c y => csp c + y) 0 l.
Proof. induction l as [|i l IH]; intros x; simpl; [ring|]. rewrite IH. ring. Qed.
Lemma miss_decreasing cs : decreasing (fun ρ => b2r (negb (union cs ρ))).
Proof.
  intros ρ ρ' H. assert (K : union cs ρ = true -> union cs ρ' = true).
  { unfold union. rewrite !existsb_exists. intros (c & C & O). exists c. split; auto. unfold occur in *. rewrite forallb_forall in *. intros x X. apply H. auto. }
  destruct (union cs ρ), (union cs ρ'); simpl; try lra.
Qed.
Theorem C20_bounds cs : (forall c, In c cs -> incl c vs /\ NoDup c) ->
  prob p vs (union cs) <= mcub Rarith p cs /\ mcub Rarith p cs <= rare_event Rarith (fun x => gtR x 1) p cs /\
  0 <= mcub Rarith p cs <= 1 /\ 0 <= rare_event Rarith (fun x => gtR x 1) p cs <= 1.
Proof.
  intros OK.
  assert (X : extensional (union cs)).
  { intros ρ ρ' H. unfold union, occur. induction cs as [|c l IH]; auto. simpl. rewrite IH by (intros; apply OK; right; auto). f_equal. clear -H. induction c as [|x c IH]; auto. simpl. rewrite IH, H. auto. }
  set (M := fold_right (fun c y => (1 - csp c) * y) 1 cs). set (S := fold_right (fun c y => csp c + y) 0 cs).
  assert (EM : mcub Rarith p cs = 1 - M) by (unfold mcub; rewrite mcub_fold; simpl; unfold M; ring).
  assert (ES : rare_event Rarith (fun x => gtR x 1) p cs = if Rlt_dec 1 S then 1 else S).
  { unfold rare_event, gtR. rewrite rare_fold. cbn [zero Rarith]. rewrite Rplus_0_l. fold S. destruct (Rlt_dec 1 S); auto. }
  assert (MR : 0 <= M <= 1 /\ 1 - S <= M /\ 0 <= S).
  { unfold M, S. clear EM ES X M S. induction cs as [|c l IH]; simpl; [lra|]. destruct IH as (A & B & C); [intros; apply OK; right; auto|].
    pose proof (csp_range c (proj1 (OK c (or_introl eq_refl)))). nra. }
  assert (HM : M <= E (fun ρ => b2r (negb (union cs ρ)))).
  { unfold M. clear EM ES MR X M S. induction cs as [|c l IH].
    - simpl. rewrite expect_const. lra.
    - cbn [fold_right]. assert (IH' : fold_right (fun c y => (1 - csp c) * y) 1 l <= E (fun ρ => b2r (negb (union l ρ)))) by (apply IH; intros; apply OK; right; auto).
      destruct (OK c (or_introl eq_refl)) as [I N]. pose proof (csp_range c I) as R. 
      pose proof (harris p vs PR (fun ρ => b2r (negb (union [c] ρ))) (fun ρ => b2r (negb (union l ρ))) (miss_decreasing _) (miss_decreasing _)) as HH.
      rewrite (expect_ext p vs (fun ρ => b2r (negb (union [c] ρ))) (fun ρ => b2r (negb (occur c ρ)))) in HH by (intros ρ; unfold union; simpl; rewrite orb_false_r; auto).
      rewrite (expect_neg p vs (occur c)), <- csp_expect in HH by auto.
      rewrite (expect_ext p vs (fun ρ => b2r (negb (union (c :: l) ρ))) (fun ρ => b2r (negb (union [c] ρ)) * b2r (negb (union l ρ)))).
      2:{ intros ρ. change (union (c :: l) ρ) with (occur c ρ || union l ρ). change (union [c] ρ) with (occur c ρ || false). destruct (occur c ρ), (union l ρ); simpl; ring. }
      apply Rle_trans with ((1 - csp c) * E (fun ρ => b2r (negb (union l ρ)))); auto. apply Rmult_le_compat_l; auto; lra. }
  rewrite (expect_neg p vs (union cs)) in HM. rewrite (prob_expect p vs _ ND X), EM, ES.
  pose proof (expect_range p vs (union cs) PR). destruct (Rlt_dec 1 S); lra.
Qed.
End CutSets.

(** ** C22: factors *)
(** The factors of event x: conditional probabilities P1 and P0 of the failure given that x occurs
    or does not. *)
Theorem C22_factors p vs F x : NoDup vs -> In x vs -> extensional F ->
  let P := prob p vs F in let P1 := prob (given p x 1) vs F in let P0 := prob (given p x 0) vs F in
  P = p x * P1 + (1 - p x) * P0 /\
  importance Rarith Rdiv eqR P (p x) (P1 - P0) =
    (if eqR P 0 then Factors (P1 - P0) 0 0 0 0
     else Factors (P1 - P0) ((P - P0) / P) (p x * (P1 / P)) (P1 / P) (if eqR P0 0 then 0 else P / P0)).
Proof.
  intros ND I X P P1 P0.
  assert (EQ : forall c, prob (given p x (b2r c)) vs F = expect p vs (fun ρ => b2r (F (set ρ x c)))).
  { intros c. rewrite (prob_expect _ vs F ND X). unfold given.
    rewrite <- (expect_fix p vs x ND I c (fun ρ => b2r (F ρ))); auto. intros ρ ρ' H. f_equal. apply X. auto. }
  assert (T : P = p x * P1 + (1 - p x) * P0).
  { unfold P, P1, P0. change 1 with (b2r true) at 1. change 0 with (b2r false). rewrite !EQ, (prob_expect p vs F ND X).
    exact (expect_total p vs x F ND I X). }
  split; [exact T|]. clearbody P P1 P0. unfold importance. cbn [zero one add sub mul opp Rarith]. unfold eqR at 1 3. destruct (Req_EM_T P 0) as [EP|NP]; auto.
  f_equal.
  - replace (p x * (P1 - P0)) with (P - P0) by (rewrite T; ring). auto.
  - replace (1 + (1 - p x) * (P1 - P0) / P) with (P1 / P); auto. replace P1 with (P + (1 - p x) * (P1 - P0)) at 1 by (rewrite T; ring). field. auto.
  - replace P1 with (P + (1 - p x) * (P1 - P0)) at 2 by (rewrite T; ring). field. auto.
  - replace (P - p x * (P1 - P0)) with P0 by (rewrite T; ring). unfold eqR. destruct (Req_EM_T P (p x * (P1 - P0))) as [A|A], (Req_EM_T P0 0) as [B|B]; auto.
    + elim B. rewrite T in A. lra.
    + elim A. rewrite T, B. ring.
Qed.

(** ** C22: marginal importance with the approximations *)
(** The product of the probabilities of the events of c; the cut sets with event i, and without. *)
Definition all_of (p : Z -> R) (c : list Z) : R := fold_right Rmult 1 (map p c).
Definition has (i : Z) (c : list Z) : bool := existsb (Z.eqb i) c.
Definition without (i : Z) (c : list Z) : list Z := List.filter (fun j => negb (Z.eqb i j)) c.
Lemma csp_all p c : cut_set_probability Rarith p c = all_of p c.
Proof. unfold cut_set_probability. rewrite csp_fold. cbn [one Rarith]. rewrite Rmult_1_l. unfold all_of. induction c as [|i c IH]; simpl; congruence. Qed.
Lemma all_ext p q c : (forall v, In v c -> p v = q v) -> all_of p c = all_of q c.
Proof. intros H. unfold all_of. f_equal. apply map_ext_in. auto. Qed.
Lemma all_given p i b c : NoDup c -> all_of (given p i b) c = if has i c then b * all_of p (without i c) else all_of p c.
Proof.
  unfold all_of, given. induction c as [|j c IH]; intros ND; [reflexivity|]. inversion ND as [|? ? NI N]; subst. cbn [map fold_right has existsb without List.filter].
  destruct (Z.eqb_spec i j) as [->|D]; cbn [orb negb].
  - destruct (Z.eq_dec j j) as [_|]; [|contradiction]. f_equal. rewrite IH by auto.
    destruct (has j c) eqn:E. { unfold has in E. apply existsb_exists in E as (y & Y & E). apply Z.eqb_eq in E. subst. contradiction. }
    fold (without j c). replace (without j c) with c; auto. symmetry. clear -NI. unfold without. induction c as [|y c IH]; auto. cbn [List.filter].
    destruct (Z.eqb_spec j y) as [->|]; [elim NI; left; auto|]. cbn [negb]. f_equal. apply IH. intros X. apply NI. right; auto.
  - destruct (Z.eq_dec j i) as [E|_]; [congruence|]. rewrite IH by auto. fold (has i c). fold (without i c). destruct (has i c); cbn [map fold_right]; ring.
Qed.
Lemma marginals_ok (calc : (Z -> R) -> R) : (forall p q, (forall v, p v = q v) -> calc p = calc q) -> forall is p,
  marginals_of Rarith calc is p = map (fun i => calc (given p i 1) - calc (given p i 0)) is.
Proof.
  intros X. induction is as [|i is IH]; intros p; [reflexivity|]. cbn [marginals_of marginal_of map]. cbn [sub one zero Rarith]. f_equal.
  - apply (f_equal2 Rminus); apply X; intros v; unfold upd, given; destruct (Z.eqb_spec v i), (Z.eq_dec v i); auto; contradiction.
  - rewrite IH. apply map_ext. intros j. apply (f_equal2 Rminus); apply X; intros v; unfold given, upd; destruct (Z.eq_dec v j); auto; destruct (Z.eqb_spec v i); congruence.
Qed.
Lemma mcub_all p cs : mcub Rarith p cs = 1 - fold_right Rmult 1 (map (fun c => 1 - all_of p c) cs).
Proof. unfold mcub. rewrite mcub_fold. cbn [one sub Rarith]. f_equal. rewrite Rmult_1_l. induction cs as [|c cs IH]; simpl; auto. rewrite IH, csp_all. auto. Qed.
Lemma rare_all p cs : rare_event Rarith (fun x => gtR x 1) p cs = if Rlt_dec 1 (fold_right Rplus 0 (map (all_of p) cs)) then 1 else fold_right Rplus 0 (map (all_of p) cs).
Proof.
  unfold rare_event, gtR. rewrite rare_fold. cbn [zero one Rarith]. rewrite Rplus_0_l.
  replace (fold_right (fun c y => cut_set_probability Rarith p c + y) 0 cs) with (fold_right Rplus 0 (map (all_of p) cs)) by (induction cs as [|c cs IH]; simpl; auto; rewrite IH, csp_all; auto).
  destruct (Rlt_dec 1 (fold_right Rplus 0 (map (all_of p) cs))); auto.
Qed.
(** The marginal importances reported for events is, in that order, with the events' probabilities
    p: those of one event after the other, none changing the probabilities the next ones use. With
    MCUB it is the bound's change between the event failed and working; with the rare-event
    approximation the total of the cut sets of the event, without the event, while the sum is not
    above 1. *)
Theorem C22_approximate p is cs i : (forall c, In c cs -> NoDup c) ->
  marginals_of Rarith (fun q => mcub Rarith q cs) is p = map (fun i => mcub Rarith (given p i 1) cs - mcub Rarith (given p i 0) cs) is /\
  marginals_of Rarith (fun q => rare_event Rarith (fun x => gtR x 1) q cs) is p =
    map (fun i => rare_event Rarith (fun x => gtR x 1) (given p i 1) cs - rare_event Rarith (fun x => gtR x 1) (given p i 0) cs) is /\
  mcub Rarith (given p i 1) cs - mcub Rarith (given p i 0) cs =
    fold_right Rmult 1 (map (fun c => 1 - all_of p c) (List.filter (fun c => negb (has i c)) cs)) *
    (1 - fold_right Rmult 1 (map (fun c => 1 - all_of p (without i c)) (List.filter (has i) cs))) /\
  ((forall v c, In c cs -> In v c -> 0 <= p v) -> fold_right Rplus 0 (map (all_of (given p i 1)) cs) <= 1 ->
   rare_event Rarith (fun x => gtR x 1) (given p i 1) cs - rare_event Rarith (fun x => gtR x 1) (given p i 0) cs =
     fold_right Rplus 0 (map (fun c => all_of p (without i c)) (List.filter (has i) cs))).
Proof.
  intros ND. split; [|split; [|split]].
  - apply (marginals_ok (fun q => mcub Rarith q cs)). intros q r H. rewrite !mcub_all. do 2 f_equal. apply map_ext. intros c. f_equal. apply all_ext. auto.
  - apply (marginals_ok (fun q => rare_event Rarith (fun x => gtR x 1) q cs)). intros q r H. rewrite !rare_all. replace (map (all_of q) cs) with (map (all_of r) cs); auto. apply map_ext. intros c. apply all_ext. auto.
  - rewrite !mcub_all. induction cs as [|c cs IH]; [simpl; ring|].
    pose proof (all_given p i 1 c (ND c (or_introl eq_refl))) as E1. pose proof (all_given p i 0 c (ND c (or_introl eq_refl))) as E0.
    assert (Q0 : forall l, (forall c, In c l -> NoDup c) -> fold_right Rmult 1 (map (fun c => 1 - all_of (given p i 0) c) l) = fold_right Rmult 1 (map (fun c => 1 - all_of p c) (List.filter (fun c => negb (has i c)) l))).
    { induction l as [|d l IHl]; intros N; [reflexivity|]. cbn [map fold_right List.filter]. rewrite IHl by (intros; apply N; right; auto). rewrite (all_given p i 0 d (N d (or_introl eq_refl))).
      destruct (has i d); cbn [negb map fold_right]; [rewrite Rmult_0_l; ring|auto]. }
    specialize (IH (fun c C => ND c (or_intror C))). cbn [map fold_right List.filter]. rewrite E1, E0. rewrite Q0 in * by (intros; apply ND; right; auto).
    set (X1 := fold_right Rmult 1 (map (fun c => 1 - all_of (given p i 1) c) cs)) in *. set (X0 := fold_right Rmult 1 (map (fun c => 1 - all_of p c) (List.filter (fun c => negb (has i c)) cs))) in *.
    destruct (has i c); cbn [negb map fold_right]; fold X0; set (Y := fold_right Rmult 1 (map (fun c => 1 - all_of p (without i c)) (List.filter (has i) cs))) in *.
    + replace X1 with (X0 * Y) by lra. ring.
    + replace X1 with (X0 * Y) by lra. ring.
  - intros NN LE. rewrite !rare_all. 
    assert (S : fold_right Rplus 0 (map (all_of (given p i 1)) cs) = fold_right Rplus 0 (map (all_of (given p i 0)) cs) + fold_right Rplus 0 (map (fun c => all_of p (without i c)) (List.filter (has i) cs)) /\
                0 <= fold_right Rplus 0 (map (fun c => all_of p (without i c)) (List.filter (has i) cs))).
    { clear LE. induction cs as [|c cs IH]; [simpl; lra|]. cbn [map fold_right List.filter]. destruct IH as [IH POS]; [intros; apply ND; right; auto|intros v d D; apply NN; right; auto|].
      rewrite IH, (all_given p i 1 c), (all_given p i 0 c) by (apply ND; left; auto).
      assert (0 <= all_of p (without i c)).
      { assert (H : forall v, In v (without i c) -> 0 <= p v) by (intros v V; apply (NN v c); [left; auto|apply filter_In in V; tauto]).
        unfold all_of. revert H. induction (without i c) as [|v l IHl]; intros H; simpl; [lra|]. pose proof (H v (or_introl eq_refl)). assert (0 <= fold_right Rmult 1 (map p l)) by (apply IHl; intros; apply H; right; auto). nra. }
      destruct (has i c); cbn [map fold_right]; lra. }
    destruct S as [S POS]. destruct (Rlt_dec 1 (fold_right Rplus 0 (map (all_of (given p i 1)) cs))); [lra|]. destruct (Rlt_dec 1 (fold_right Rplus 0 (map (all_of (given p i 0)) cs))); [lra|]. rewrite S. ring.
Qed.
Example ex_approximate : let p := fun _ => 1 / 2 in let cs := [[2; 3]; [3; 4]]%Z in
  marginals_of Rarith (fun q => mcub Rarith q cs) [3; 2]%Z p = [3 / 4; 3 / 8] /\ fold_right Rplus 0 (map (all_of (given p 3 1)) cs) <= 1.
Proof.
  cbv zeta. split; [|unfold all_of, given; simpl; lra]. unfold marginals_of, marginal_of, mcub, cut_set_probability, upd. simpl.
  repeat (f_equal; try field).
Qed.

(** ** C22: occurrence counts *)
(** The number of products that hold event i or its complement. *)
Definition count (i : Z) (products : list (list Z)) : nat := length (List.filter (fun c => existsb (fun j => Z.eqb (Z.abs j) i) c) products).
Theorem C22_occurrences products i : (forall c, In c products -> NoDup (map Z.abs c)) -> default O (occurrences products !! i) = count i products.
Proof.
  intros ND. unfold occurrences, count.
  assert (H : forall c (m : gmap Z nat), NoDup (map Z.abs c) -> default O (fold_left (fun m j => <[Z.abs j := S (default O (m !! Z.abs j))]> m) c m !! i) =
    (default O (m !! i) + if existsb (fun j => Z.eqb (Z.abs j) i) c then 1 else 0)%nat).
  { induction c as [|j c IH]; intros m N; [simpl; lia|]. cbn [map] in N. inversion N as [|? ? NI N']; subst. cbn [fold_left existsb]. rewrite IH by auto. destruct (Z.eqb_spec (Z.abs j) i) as [<-|D].
    - rewrite lookup_insert. replace (existsb (fun k => Z.eqb (Z.abs k) (Z.abs j)) c) with false; [simpl; lia|]. symmetry. apply not_true_iff_false.
      rewrite existsb_exists. intros (k & K & E). apply Z.eqb_eq in E. apply NI. rewrite <- E. apply in_map. auto.
    - rewrite lookup_insert_ne by auto. auto. }
  enough (G : forall l (m : gmap Z nat), (forall c, In c l -> NoDup (map Z.abs c)) ->
    default O (fold_left (fun m c => fold_left (fun m i => <[Z.abs i := S (default O (m !! Z.abs i))]> m) c m) l m !! i) =
    (default O (m !! i) + length (List.filter (fun c => existsb (fun j => Z.eqb (Z.abs j) i) c) l))%nat).
  { rewrite G by auto. rewrite lookup_empty. auto. }
  induction l as [|c l IH]; intros m N; [simpl; lia|]. cbn [fold_left List.filter]. rewrite IH, H by (intros; apply N; simpl; auto).
  destruct (existsb (fun j => Z.eqb (Z.abs j) i) c); simpl; lia.
Qed.

(** ** C20, C22 for a graph *)
Section Graph.
Context (G : graph) (root : Z) (ord : Z -> Z) (top : Z) (hash : Bdd.ckey -> nat) (prime : nat -> nat) (module coherent : Z -> bool) (parents : Z -> nat)
  (arrange : list Bdd.fn -> list Bdd.fn).
Context (prime_pos : forall n, (0 < prime n)%nat) (ARR : forall l, Permutation.Permutation (arrange l) l).
Context (P : prepared G root ord top module coherent) (CR : coherent root = true).
Notation fails := (P_BddProducts.fails G root false).
Notation cut_set := (P_BddProducts.cut_set G root false).
Notation events := (P_BddProducts.events G root).
Notation minimal_cut_set := (P_BddProducts.minimal_cut_set G root false).
Context (vs : list Z) (F : (Z -> bool) -> bool) (ND : NoDup vs) (VS : forall v, In v vs <-> ZbddModules.var G root v) (HF : forall ρ, F ρ = true <-> fails ρ).
(** The factors of an event of a graph without complements: total probability and marginal
    importance from the BDD, the rest from them. *)
Theorem C22_coherent used p x : match used with Some (_, limit) => (0 <= limit)%Z | None => True end -> ordered G root ord module -> In x vs ->
  let T := prob p vs F in let P1 := prob (given p x 1) vs F in let P0 := prob (given p x 0) vs F in
  exists N, forall fuel, (N <= fuel)%nat -> exists M, forall steps, (M <= steps)%nat -> exists t m,
    analysis G root false ord top hash prime module coherent parents arrange Rarith used fuel steps p [Mif x] = Some [t; m] /\
    importance Rarith Rdiv eqR t (p x) m =
      (if eqR T 0 then Factors (P1 - P0) 0 0 0 0
       else Factors (P1 - P0) ((T - P0) / T) (p x * (P1 / T)) (P1 / T) (if eqR P0 0 then 0 else T / P0)).
Proof.
  intros LIM O I T P1 P0. pose proof (p_acyclic _ _ _ _ _ _ P) as [r0 RK].
  destruct (C22_mif G root false ord top hash prime module coherent parents arrange prime_pos ARR P used p [Mif x] vs F LIM O ND VS HF) as (N & H).
  { intros y [E|[]]. injection E as <-. auto. }
  exists N. intros fuel L. destruct (H fuel L) as (s & M & _ & S & A). rewrite (S eq_refl CR) in A. exists M. intros steps LS.
  exists T, (P1 - P0). split.
  - rewrite (A steps LS). cbn [answers]. rewrite Rmult_1_l. auto.
  - apply (C22_factors p vs F x ND I). apply (F_ext G root false ord top module coherent P r0 RK F HF).
Qed.
(** Both approximations on the minimal cut sets of a graph without complements are bounds. *)
Lemma F_mono ρ ρ' : le_rho ρ ρ' -> F ρ = true -> F ρ' = true.
Proof.
  pose proof (p_acyclic _ _ _ _ _ _ P) as [r0 RK]. intros LE. rewrite !(F_val G root false ord top module coherent P r0 RK F HF). cbn [xorb].
  enough (X : forall n g, (r0 g < n)%nat -> is_Some (gs G !! g) -> coherent g = true -> val G r0 g ρ = true -> val G r0 g ρ' = true).
  { pose proof (X (S (r0 root)) root (Nat.lt_succ_diag_r _) (p_root _ _ _ _ _ _ P) CR) as Y. destruct (val G r0 root ρ), (val G r0 root ρ'); auto. }
  induction n as [|n IH]; intros g L [x E] C V; [lia|].
  pose proof (val_gate G r0 RK g x ρ E) as E1. pose proof (val_gate G r0 RK g x ρ' E) as E2. rewrite E2. rewrite E1 in V. revert V.
  apply gate_mono; [apply (gates_ok G root ord top module coherent P g x E)|]. intros a J. destruct (p_coherent _ _ _ _ _ _ P g x a E C J) as [Pa Ca]. rewrite !lit_pos' by auto.
  destruct (gs G !! a) as [y|] eqn:Ea.
  - apply IH; eauto. assert (K : (r0 (Z.abs a) < r0 g)%nat) by (apply (RK g x a); auto; rewrite Z.abs_eq by lia; eauto). rewrite Z.abs_eq in K by lia. lia.
  - rewrite !val_var by auto. apply LE.
Qed.
Lemma minimal_exists : forall n X, (length X <= n)%nat -> events X -> cut_set X -> exists Y, incl Y X /\ minimal_cut_set Y.
Proof.
  induction n as [|n IH]; intros X L EX CX.
  - exists X. split; [apply incl_refl|]. split; auto. split; auto. destruct X; [|simpl in L; lia]. intros Y _ _ _ v [].
  - assert (D : (exists Y, events Y /\ incl Y X /\ cut_set Y /\ (length Y < length X)%nat) \/ forall v, In v X -> ~ cut_set (remove Z.eq_dec v X)).
    { assert (DEC : forall Y, {cut_set Y} + {~ cut_set Y}).
      { intros Y. unfold P_BddProducts.cut_set. destruct (F (fun v => if in_dec Z.eq_dec v Y then true else false)) eqn:E; [left; apply HF; auto|right; intros K; apply HF in K; congruence]. }
      assert (ER : forall v, events (remove Z.eq_dec v X)).
      { intros v. destruct EX as [N V]. split; [|intros u U; apply in_remove in U; apply V; tauto].
        clear -N. induction N as [|a l NI N IH]; simpl; [constructor|]. destruct (Z.eq_dec v a); auto. constructor; auto. intros U. apply in_remove in U. tauto. }
      destruct (Exists_dec (fun v => cut_set (remove Z.eq_dec v X)) X (fun v => DEC _)) as [E|E].
      - left. apply Exists_exists in E as (v & V & C). exists (remove Z.eq_dec v X). split; auto. split; [intros u U; apply in_remove in U; tauto|]. split; auto.
        apply remove_length_lt. auto.
      - right. intros v V C. apply E. apply Exists_exists. eauto. }
    destruct D as [(Y & EY & IY & CY & LY)|D].
    + destruct (IH Y) as (Z0 & I0 & M0); auto; [lia|]. exists Z0. split; auto. intros v V. auto.
    + exists X. split; [apply incl_refl|]. split; auto. split; auto. intros Y EY IY CY v V. destruct (in_dec Z.eq_dec v Y) as [|NI]; auto. exfalso.
      apply (D v V). apply HF. apply HF in CY. revert CY. apply F_mono. intros u. destruct (in_dec Z.eq_dec u Y) as [U|]; [|discriminate]. intros _.
      destruct (in_dec Z.eq_dec u (remove Z.eq_dec v X)) as [|NR]; auto. elim NR. apply in_in_remove; auto. intros ->. auto.
Qed.
Theorem C20_graph p L : (forall v, In v vs -> 0 <= p v <= 1) ->
  (forall X, In X L -> minimal_cut_set X) -> (forall X, minimal_cut_set X -> exists Y, In Y L /\ forall v, In v Y <-> In v X) ->
  prob p vs F <= mcub Rarith p L /\ mcub Rarith p L <= rare_event Rarith (fun x => gtR x 1) p L <= 1.
Proof.
  intros PR SOUND COMPLETE.
  destruct (C20_bounds p vs ND PR L) as (A & B & C & D).
  { intros X I. destruct (SOUND X I) as ((N & V) & _). split; auto. intros v J. apply VS. auto. }
  replace (prob p vs F) with (prob p vs (union L)); [tauto|]. unfold prob. f_equal. apply map_ext_in. intros X0 _.
  replace (union L (occurs X0)) with (F (occurs X0)); auto. generalize (occurs X0) as ρ. intros ρ. apply eq_true_iff_eq. split.
  - intros FR. set (X := List.filter ρ vs).
    assert (EX : events X) by (split; [apply List.NoDup_filter; auto|intros v V; apply filter_In in V as [V _]; apply VS; auto]).
    assert (CX : cut_set X).
    { apply HF. pose proof (p_acyclic _ _ _ _ _ _ P) as [r0 RK]. transitivity (F ρ); [|auto]. rewrite !(F_val G root false ord top module coherent P r0 RK F HF). f_equal.
      apply (val_under G r0 RK). intros v V. destruct (in_dec Z.eq_dec v X) as [J|NJ]; [apply filter_In in J as [_ J]; rewrite J; auto|].
      destruct (ρ v) eqn:E; auto. elim NJ. apply filter_In. split; auto. apply VS. auto. }
    destruct (minimal_exists (length X) X (le_n _) EX CX) as (Y & IY & MY). destruct (COMPLETE Y MY) as (Q & IQ & EQ).
    apply existsb_exists. exists Q. split; auto. apply forallb_forall. intros v V. apply EQ, IY, filter_In in V. tauto.
  - intros U. apply existsb_exists in U as (Q & IQ & OQ). unfold occur in OQ. rewrite forallb_forall in OQ. destruct (SOUND Q IQ) as (_ & CQ & _). apply HF in CQ. revert CQ.
    apply F_mono. intros v. destruct (in_dec Z.eq_dec v Q); auto. discriminate.
Qed.
End Graph.

(** ** The hypotheses are met by non-trivial cases *)
(* 2 and 3, 3 and 4, with probabilities 1/2: exact 3/8, MCUB 7/16, rare-event 1/2 *)
Example ex_cut_sets : let p := fun _ => 1 / 2 in let cs := [[2; 3]; [3; 4]]%Z in
  prob p [2; 3; 4]%Z (union cs) = 3 / 8 /\ mcub Rarith p cs = 7 / 16 /\ rare_event Rarith (fun x => gtR x 1) p cs = 1 / 2.
Proof.
  cbv zeta. split; [|split].
  - unfold prob, sum, weight. simpl. field.
  - unfold mcub, cut_set_probability. simpl. field.
  - unfold rare_event, cut_set_probability, gtR. simpl. destruct (Rlt_dec 1 (0 + 1 * (1 / 2) * (1 / 2) + 1 * (1 / 2) * (1 / 2))); lra.
Qed.
(* the event 3 above *)
Example ex_factors : let p := fun _ => 1 / 2 in let F := union [[2; 3]; [3; 4]]%Z in
  prob p [2; 3; 4]%Z F = 3 / 8 /\ prob (given p 3 1) [2; 3; 4]%Z F = 3 / 4 /\ prob (given p 3 0) [2; 3; 4]%Z F = 0 /\
  prob (given p 2 1) [2; 3; 4]%Z F = 1 / 2 /\ prob (given p 2 0) [2; 3; 4]%Z F = 1 / 4.
Proof. cbv zeta. repeat split; unfold prob, sum, weight, given; simpl; field. Qed.
Example ex_occurrences : occurrences [[2; -3]; [3; 4]; [-3]]%Z !! 3%Z = Some 3%nat /\ occurrences [[2; -3]; [3; 4]; [-3]]%Z !! 5%Z = None.
Proof. split; vm_compute; reflexivity. Qed.
Open Scope Z_scope.
(* a coherent graph with a module: 6 = 2 or 5, 5 = 3 and 4 *)
Definition co_g : graph := Graph {[5 := Gate kAnd 0 [3; 4]; 6 := Gate kOr 0 [2; 5]]} 7 [] true.
Lemma co_gates i x : gs co_g !! i = Some x -> (i = 5 /\ x = Gate kAnd 0 [3; 4]) \/ (i = 6 /\ x = Gate kOr 0 [2; 5]).
Proof. unfold co_g. cbn [gs]. intros E. gate_cases E. Qed.
Example co_prepared : prepared co_g 6 (fun i => i) 20 (Z.eqb 5) (fun _ => true) /\ ordered co_g 6 (fun i => i) (Z.eqb 5).
Proof.
  assert (U : forall i, ZbddModules.under co_g 5 i -> i = 5 \/ i = 3 \/ i = 4).
  { induction 1 as [|i x a U IH E J]; auto. destruct (co_gates i x E) as [[-> ->]|[-> ->]]; simpl in J; lia. }
  split; split.
  - split; [simpl; lia|]. intros i x E. destruct (co_gates i x E) as [[-> ->]|[-> ->]]; (split; [simpl; lia|]); (split; [simpl; repeat constructor; simpl; intuition lia|]);
      intros a Ha; simpl in Ha; simpl; intuition (subst; simpl; lia).
  - exists (fun j => if j =? 6 then 1%nat else 0%nat). intros i x a E Ha [y Hy].
    destruct (co_gates i x E) as [[-> ->]|[-> ->]]; destruct (co_gates _ y Hy) as [[Ey _]|[Ey _]]; simpl in Ha; rewrite Ey; simpl; lia.
  - vm_compute. eauto.
  - intros i x E. destruct (co_gates i x E) as [[-> ->]|[-> ->]]; simpl; auto.
  - intros m S M. apply Z.eqb_eq in M. subst m. intros i x a E J Ua. apply U in Ua. destruct (co_gates i x E) as [[-> ->]|[-> ->]]; simpl in J; try (left; lia); right; constructor.
  - intros m b S M. apply Z.eqb_eq in M. subst m. set (ν := fun i => (i =? 1) || (b && ((i =? 3) || (i =? 4) || (i =? 5) || (i =? 6)))). exists ν, ν. split; [|split; auto].
    + split; [reflexivity|]. intros i x E. destruct (co_gates i x E) as [[-> ->]|[-> ->]]; destruct b; reflexivity.
    + destruct b; reflexivity.
  - intros i x a E _ J. split; auto. destruct (co_gates i x E) as [[-> ->]|[-> ->]]; simpl in J; lia.
  - auto.
  - intros i. simpl. lia.
  - intros m v _ _ M V N. apply Z.eqb_eq in M. subst m. apply U in V. lia.
  - intros m v u _ _ M _ V N L. apply Z.eqb_eq in M. subst m. apply U in V.
    assert (u <> 3 /\ u <> 4 /\ u <> 5); [|lia].
    split; [|split]; intros ->; apply N; [apply (under_arg co_g 5 5 (Gate kAnd 0 [3; 4]) 3)|apply (under_arg co_g 5 5 (Gate kAnd 0 [3; 4]) 4)|constructor];
      solve [constructor|reflexivity|simpl; auto].
Qed.
Example co_run : analysis co_g 6 false (fun i => i) 20 (fun _ => 0%nat) S (Z.eqb 5) (fun _ => true) (fun _ => 1%nat) (fun l => l) Zarith (Some (false, 10)) 30 30
  (fun i => if i =? 2 then 0 else 1) [Mif 2; Mif 3; Mif 4] = Some [1; 0; 1; 1].
Proof. vm_compute. reflexivity. Qed.
Print Assumptions C20_bounds.
Print Assumptions C20_graph.
Print Assumptions C22_factors.
Print Assumptions C22_approximate.
Print Assumptions C22_coherent.
Print Assumptions C22_occurrences.
