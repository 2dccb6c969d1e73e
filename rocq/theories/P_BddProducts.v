(** C14, C15, C16 for the BDD algorithm: the products reported through the BDD of a graph with
    modules and complements anywhere are its minimal cut sets or its prime implicants, each of
    them once.
    Vocabulary: [graph], [node_value] (Pdag.v): the graph and the value of a node when the
    variables have given values; [var G g v]: v is a variable below gate g; [lit ρ j]: the value
    of the literal j (negative for the complement of variable |j|) under ρ. *)
From stdpp Require Import gmap.
From Coq Require Import List ZArith Lia Bool Permutation.
Import ListNotations.
From Verif Require Import Pdag PdagProofs PdagSem.
From Verif Require Import Zbdd ZbddProofs ZbddHistory ZbddSigned ZbddGraph ZbddModules ZbddModulesProofs ZbddIter.
From Verif Require Import BddGraph BddZbdd BddAssemble BddModules.
From Verif Require CacheTable Bdd BddProofs BddHistory.
Open Scope Z_scope.

Section Products.
(** The graph: its root and the complement flag on it. *)
Context (G : graph) (root : Z) (complement : bool).
Definition fails (ρ : Z -> bool) : Prop := node_value G ρ root (negb complement).
(** Minimal cut sets: sets of events that are enough to fail the root when nothing else fails. *)
Definition events (X : list Z) : Prop := NoDup X /\ forall v, In v X -> var G root v.
Definition cut_set (X : list Z) : Prop := fails (fun v => if in_dec Z.eq_dec v X then true else false).
Definition minimal_cut_set (X : list Z) : Prop :=
  events X /\ cut_set X /\ forall Y, events Y -> incl Y X -> cut_set Y -> incl X Y.
(** Prime implicants: sets of literals that imply the failure whatever the other variables are. *)
Definition literals (X : list Z) : Prop :=
  NoDup X /\ (forall j, In j X -> j <> 0 /\ var G root (Z.abs j)) /\ (forall j, In j X -> ~ In (- j) X).
Definition implicant (X : list Z) : Prop := forall ρ, (forall j, In j X -> lit ρ j = true) -> fails ρ.
Definition prime_implicant (X : list Z) : Prop :=
  literals X /\ implicant X /\ forall Y, literals Y -> incl Y X -> implicant Y -> incl X Y.

(** What the preprocessor leaves for the BDD: AND and OR gates of at least two arguments, no
    constants, complements anywhere; the gates marked as modules are entered only through their
    root and are not constant; a gate marked as coherent has no complement below; orders of
    variables and gates are positive, bounded and differ. *)
Record prepared (ord : Z -> Z) (top : Z) (module coherent : Z -> bool) : Prop := {
  p_wf : PdagProofs.wf G;
  p_acyclic : acyclic G;
  p_root : is_Some (gs G !! root);
  p_gates : forall i x, gs G !! i = Some x -> (g_type x = kAnd \/ g_type x = kOr) /\ (2 <= length (g_args x))%nat /\ constant x = false;
  p_modules : forall m, is_Some (gs G !! m) -> module m = true -> modular G m;
  p_values : forall m b, is_Some (gs G !! m) -> module m = true -> exists ρ, node_value G ρ m b;
  p_coherent : forall i x a, gs G !! i = Some x -> coherent i = true -> In a (g_args x) -> 0 < a /\ (is_Some (gs G !! a) -> coherent a = true);
  p_inj : forall i j, ord i = ord j -> i = j;
  p_top : forall i, 0 < i < nxt G -> 0 < ord i <= top }.

Context (ord : Z -> Z) (top : Z) (hash : Bdd.ckey -> nat) (prime : nat -> nat) (module coherent : Z -> bool) (parents : Z -> nat)
  (arrange : list Bdd.fn -> list Bdd.fn).
(** The analysis: Bdd::Bdd and Bdd::Analyze (bdd.cc:41-91) with Zbdd::Zbdd(Bdd*, Settings) and
    Zbdd::Analyze (zbdd.cc:62-65, 87-102), then the iteration over the products. The graph is
    coherent when its root is and carries no complement (preprocessor.cc:129-165). *)
Definition diagram (pi : bool) (fuel : nat) (limit : Z) : option zbdd :=
  '(f, s) ← BddGraph.of_graph ord hash prime G module parents arrange fuel root complement;
  '(z, _) ← build ord top hash prime pi G module coherent (c_mods s) fuel fuel f (negb complement && coherent root) limit (c_bdd s);
  analyze (BddZbdd.zord ord) top z.
Definition products (pi : bool) (fuel steps : nat) (limit : Z) : option (list (list Z)) :=
  z ← diagram pi fuel limit; iterate G module limit steps z.

Section Facts.
Context (P : prepared ord top module coherent).
Lemma arg_range i x a : gs G !! i = Some x -> In a (g_args x) -> a <> 0 /\ 1 < Z.abs a < nxt G.
Proof.
  intros E J. destruct (p_gates _ _ _ _ P i x E) as (_ & _ & C). pose proof E as Ew. apply (p_wf _ _ _ _ P) in Ew as (_ & _ & H). destruct (H a J) as (NZ & L & _).
  split; auto. assert (Z.abs a <> 1); [|lia]. intros A. unfold constant, has in C. apply orb_false_iff in C as [H1 H2].
  assert (HH : existsb (Z.eqb 1) (g_args x) = true \/ existsb (Z.eqb (-1)) (g_args x) = true).
  { destruct (Z.le_gt_cases 0 a); [left|right]; apply existsb_exists; exists a; split; auto; apply Z.eqb_eq; lia. }
  destruct HH; congruence.
Qed.
Lemma var_not_constant g v : is_Some (gs G !! g) -> var G g v -> 1 < v < nxt G /\ gs G !! v = None.
Proof.
  intros [y Ey] [U N]. split; auto. destruct U as [|i x a U E J]; [congruence|]. destruct (arg_range i x a E J) as [NZ B]. lia.
Qed.
Lemma gates_ok : forall i x, gs G !! i = Some x -> (g_type x = kAnd \/ g_type x = kOr) /\ (2 <= length (g_args x))%nat /\ constant x = false /\ forall a, In a (g_args x) -> a <> 0.
Proof. intros i x E. destruct (p_gates _ _ _ _ P i x E) as (A & B & C). repeat (split; auto). intros a J. apply (arg_range i x a E J). Qed.
Lemma constant_none : gs G !! 1 = None.
Proof. destruct (gs G !! 1) as [x|] eqn:E; auto. apply (p_wf _ _ _ _ P) in E. lia. Qed.
Context (r0 : Z -> nat) (RK : ranked G r0).
Lemma val_node ρ i b : is_Some (gs G !! i) -> node_value G ρ i b <-> val G r0 i ρ = b.
Proof.
  intros SI.
  set (ρ' := fun v => if v =? 1 then true else ρ v).
  assert (C : Pdag.consistent G (fun i => val G r0 i ρ')).
  { split; [rewrite val_var by apply constant_none; reflexivity|]. intros j x E. apply val_gate; auto. }
  assert (V : forall j, 1 < j < nxt G -> gs G !! j = None -> val G r0 j ρ' = ρ j).
  { intros j B N. rewrite val_var by auto. unfold ρ'. destruct (Z.eqb_spec j 1); [lia|auto]. }
  assert (E : val G r0 i ρ' = val G r0 i ρ).
  { apply val_under; auto. intros v U. destruct (var_not_constant i v SI U) as [B _]. unfold ρ'. destruct (Z.eqb_spec v 1) as [->|]; auto. lia. }
  rewrite <- E. split.
  - intros NV. destruct SI as [x Ex]. apply (node_value_unique G ρ i b (val G r0 i ρ') (p_wf _ _ _ _ P) (p_acyclic _ _ _ _ P)); auto.
    + apply (p_wf _ _ _ _ P) in Ex. lia.
    + exists (fun i => val G r0 i ρ'). auto.
  - intros <-. exists (fun i => val G r0 i ρ'). auto.
Qed.
Lemma fails_val ρ : fails ρ <-> xorb complement (val G r0 root ρ) = true.
Proof.
  unfold fails. rewrite (val_node ρ root) by apply (p_root _ _ _ _ P). destruct complement, (val G r0 root ρ); simpl; split; congruence.
Qed.
Context (prime_pos : forall n, (0 < prime n)%nat) (ARR : forall l, Permutation (arrange l) l).
Lemma run_ok pi slack limit : 0 <= limit -> 0 <= slack <= 1 -> (slack = 0 -> pi = true \/ forall i, is_Some (gs G !! i) -> module i = true -> coherent i = true) ->
  forall fuel, (S (S (r0 root) + S (Z.to_nat (top + 1))) <= fuel)%nat -> exists z, diagram pi fuel limit = Some z /\
    (exists M, forall steps, (M <= steps)%nat -> products pi fuel steps limit = Some (walk G module limit z 0)) /\
    exactf (BddZbdd.zord ord) top G module pi slack (fun ρ => xorb complement (val G r0 root ρ)) (var G root) z limit.
Proof.
  intros LIM SL EX fuel F.
  assert (NORM : forall g, is_Some (gs G !! g) -> normal G module g).
  { intros g _ i x E _. apply (gates_ok i x E). }
  assert (OK : conv_ok ord hash G module parents (Conv (Bdd.empty_bdd prime) ∅ ∅)).
  { split; [apply BddProofs.empty_wf; auto|]. split; intros g r; [intros c E|intros E]; simpl in E.
    - elim (lookup_empty_Some (M := gmap Z) g (r, c) E).
    - elim (lookup_empty_Some (M := gmap Z) g r E). }
  assert (CL : closed G module (Conv (Bdd.empty_bdd prime) ∅ ∅)).
  { split; [intros g [r E]|intros g r c E]; simpl in E; [elim (lookup_empty_Some (M := gmap Z) g r E)|elim (lookup_empty_Some (M := gmap Z) g (r, c) E)]. }
  destruct (p_root _ _ _ _ P) as [x Ex].
  destruct (convert_ok ord hash prime G module parents arrange (p_inj _ _ _ _ P) prime_pos ARR NORM r0 RK fuel root (Conv (Bdd.empty_bdd prime) ∅ ∅) OK CL) as (r & s & E & OK' & X & D & K & CL' & RG); [eauto|lia|].
  assert (EG : BddGraph.of_graph ord hash prime G module parents arrange fuel root complement =
    Some ((xorb r.1 complement, r.2), Conv (Bdd.clear_tables (c_bdd s)) (c_memo s) (c_mods s))).
  { unfold BddGraph.of_graph. rewrite Ex. cbn [mbind option_bind]. destruct (gates_ok root x Ex) as (T & _).
    replace (conn_eqb (g_type x) kNull) with false by (destruct T as [-> | ->]; auto). rewrite E. reflexivity. }
  pose proof OK' as (WB & _ & DM).
  assert (WC : BddProofs.wf ord hash (Bdd.clear_tables (c_bdd s))) by (apply BddProofs.wf_clear; auto).
  assert (DC : forall g F f, denotes G module g (c_bdd s) F f -> denotes G module g (Bdd.clear_tables (c_bdd s)) F f) by (intros g F' f H; exact H).
  destruct (BddModules.build_ok ord top hash prime pi G module coherent (c_mods s) (p_inj _ _ _ _ P) prime_pos r0 RK gates_ok) with
    (slack := slack) (depth := fuel) (fuel := fuel) (g := root) (f := (xorb r.1 complement, r.2)) (coh := negb complement && coherent root)
    (limit := limit) (b := Bdd.clear_tables (c_bdd s)) (c := complement) as (z & b' & EB & WB' & XB & XZ); auto; try lia.
  - intros i [y Ey]. apply (p_wf _ _ _ _ P) in Ey. lia.
  - apply (p_coherent _ _ _ _ P).
  - apply (p_modules _ _ _ _ P).
  - intros m b Sm Mm. destruct (p_values _ _ _ _ P m b Sm Mm) as (ρ & NV). exists ρ. apply (val_node ρ m b Sm); auto.
  - intros g a _ (j & (i & y & Ey & _ & J & _) & ->). destruct (arg_range i y j Ey J) as [NZ B]. apply (p_top _ _ _ _ P). lia.
  - intros S0. destruct (EX S0) as [Pi|AC]; auto. right. intros i Pi M. unfold ZbddModules.is_module, is_gate in M. rewrite Z.abs_eq in M by lia.
    apply andb_true_iff in M as [M1 M2]. apply AC; auto. destruct (gs G !! i); eauto. discriminate.
  - intros m Sm a (j & L & ->) Sa. destruct CL' as [CL1 _]. apply (proj2 (CL1 m Sm) j L Sa).
  - intros m f Em. apply DC. apply (DM m f Em).
  - intros a (j & L & ->) Sa. apply (proj2 RG j L Sa).
  - apply DC. destruct D as (V & EV & SV). 
    assert (FE : forall σ, BddProofs.feval (Bdd.nodes (c_bdd s)) σ (xorb r.1 complement, r.2) = xorb complement (BddProofs.feval (Bdd.nodes (c_bdd s)) σ r)).
    { intros σ. destruct r as [cs vs]. unfold BddProofs.feval. simpl. destruct cs, complement, (BddProofs.eval (Bdd.nodes (c_bdd s)) σ vs); auto. }
    split; [auto|]. split; [intros ν Rν; rewrite FE, EV; auto|]. intros σ σ' A. rewrite !FE. f_equal. auto.
  - intros CO. apply andb_true_iff in CO as [C1 C2]. destruct complement; [discriminate|]. auto.
  - pose proof (e_clean _ _ _ _ _ _ _ _ _ _ XZ) as C.
    assert (ED : diagram pi fuel limit = Some z).
    { unfold diagram. rewrite EG. cbn [mbind option_bind c_mods c_bdd]. rewrite EB. cbn [mbind option_bind].
      apply (analyze_id (BddZbdd.zord ord) top (BddZbdd.ORD ord (p_inj _ _ _ _ P)) G module coherent parents z C). }
    destruct (iterate_ok G module limit (BddZbdd.zord ord) top z C LIM) as (M & IT). exists z. split; auto. split; auto.
    exists M. intros n Ln. unfold products. rewrite ED. cbn [mbind option_bind]. apply IT; auto.
Qed.
End Facts.

Lemma mem_dec X v : mem X v = if in_dec Z.eq_dec v X then true else false.
Proof. destruct (in_dec Z.eq_dec v X) as [I|I]; [apply mem_In; auto|]. destruct (mem X v) eqn:E; auto. apply mem_In in E. contradiction. Qed.

(** From the diagram to the products. *)
Section Finish.
Context (H : (Z -> bool) -> bool) (HF : forall ρ, fails ρ <-> H ρ = true) (HD : forall ρ ρ', (forall v, var G root v -> ρ v = ρ' v) -> H ρ = H ρ').
Context (VP : forall v, var G root v -> 0 < v) (limit : Z) (LIM : 0 <= limit) (z : zbdd).
Notation exact pi slack := (exactf (BddZbdd.zord ord) top G module pi slack H (var G root) z limit).
Lemma finish_cut_sets (CM : Prop) : exact false 1 -> (CM -> exact false 0) ->
  let L := walk G module limit z 0 in
  (forall P, In P L -> minimal_cut_set P /\ Z.of_nat (length P) <= limit) /\
  (forall X, minimal_cut_set X -> Z.of_nat (length X) < limit \/ Z.of_nat (length X) <= limit /\ CM -> exists P, In P L /\ forall v, In v P <-> In v X) /\
  NoDup L /\ (forall P Q, In P L -> In Q L -> incl P Q -> P = Q).
Proof.
  intros X X0. cbv zeta. pose proof (e_clean _ _ _ _ _ _ _ _ _ _ X) as C.
  destruct (walk_ok (BddZbdd.zord ord) top G module coherent parents limit z C) as [_ WK]. specialize (WK 0).
  assert (DEP : forall X ρ, pfits false (var G root) X ρ -> (forall j, In j X -> 0 < j) -> H ρ = H (fun v => if in_dec Z.eq_dec v X then true else false)).
  { intros Y ρ [A B] Pj. apply HD. intros v V. destruct (in_dec Z.eq_dec v Y) as [I|I]; [|apply B; auto].
    specialize (A v I). specialize (Pj v I). unfold lit in A. destruct (Z.ltb_spec v 0); [lia|auto]. }
  assert (FIT : forall X, (forall j, In j X -> 0 < j) -> pfits false (var G root) X (fun v => if in_dec Z.eq_dec v X then true else false)).
  { intros Y Pj. split.
    - intros j J. specialize (Pj j J). unfold lit. destruct (Z.ltb_spec j 0); [lia|]. destruct (in_dec Z.eq_dec j Y); auto.
    - intros _ v _ NI. destruct (in_dec Z.eq_dec v Y); tauto. }
  assert (EV : forall Q, produces G module z Q -> events Q).
  { intros Q PQ. split; [apply (e_nodup _ _ _ _ _ _ _ _ _ _ X Q PQ)|]. intros v V. destruct (e_lits _ _ _ _ _ _ _ _ _ _ X Q PQ v V) as (_ & U & Pv).
    specialize (Pv eq_refl). rewrite Z.abs_eq in U by lia. auto. }
  assert (POS : forall Y, events Y -> forall j, In j Y -> 0 < j) by (intros Y [_ EY] j J; auto).
  assert (CUT : forall Q, produces G module z Q -> cut_set Q).
  { intros Q PQ. apply HF. apply (e_sound _ _ _ _ _ _ _ _ _ _ X Q); auto. apply FIT, POS. auto. }
  assert (COV : forall sl Y, exact false sl -> events Y -> Z.of_nat (length Y) + sl <= limit -> cut_set Y -> exists Q, produces G module z Q /\ incl Q Y).
  { intros sl Y XS EY LY CY. apply (e_complete _ _ _ _ _ _ _ _ _ _ XS Y); auto.
    - apply EY.
    - intros j J I. pose proof (POS Y EY j J). pose proof (POS Y EY _ I). lia.
    - intros j J. pose proof (POS Y EY j J). split; [lia|]. split; auto. rewrite Z.abs_eq by lia. apply EY; auto.
    - intros ρ FR. rewrite (DEP Y ρ FR (POS Y EY)). apply HF. auto. }
  split; [|split; [|split]].
  - intros Q IQ. apply WK in IQ as [PQ SQ]; [|lia]. split; [|lia]. split; [auto|]. split; [auto|]. intros Y EY IY CY.
    destruct (le_lt_dec (length Q) (length Y)) as [LY|LY].
    { apply NoDup_length_incl; [apply EY|lia|auto]. }
    destruct (COV 1 Y X EY) as (R & PR & IR); auto; [lia|].
    rewrite <- (e_anti _ _ _ _ _ _ _ _ _ _ X R Q PR PQ); auto. intros v V. auto.
  - intros Y (EY & CY & MY) LY.
    assert (exists Q, produces G module z Q /\ incl Q Y) as (Q & PQ & IQ).
    { destruct LY as [LY|[LY CC]]; [apply (COV 1 Y X EY)|apply (COV 0 Y (X0 CC) EY)]; auto; lia. }
    exists Q. split.
    + apply WK; [lia|]. split; auto. pose proof (NoDup_incl_length (proj1 (EV Q PQ)) IQ). lia.
    + intros v. split; [apply IQ|apply (MY Q); auto].
  - apply (e_walk _ _ _ _ _ _ _ _ _ _ X limit 0). auto.
  - intros Q R IQ IR I. apply WK in IQ as [PQ _]; [|lia]. apply WK in IR as [PR _]; [|lia]. apply (e_anti _ _ _ _ _ _ _ _ _ _ X Q R PQ PR I).
Qed.
Lemma finish_implicants : exact true 0 ->
  let L := walk G module limit z 0 in
  (forall P, In P L -> prime_implicant P /\ Z.of_nat (length P) <= limit) /\
  (forall X, prime_implicant X -> Z.of_nat (length X) <= limit -> exists P, In P L /\ forall j, In j P <-> In j X) /\
  NoDup L /\ (forall P Q, In P L -> In Q L -> incl P Q -> P = Q).
Proof.
  intros X. cbv zeta. pose proof (e_clean _ _ _ _ _ _ _ _ _ _ X) as C.
  destruct (walk_ok (BddZbdd.zord ord) top G module coherent parents limit z C) as [_ WK]. specialize (WK 0).
  assert (LT : forall Q, produces G module z Q -> literals Q).
  { intros Q PQ. split; [apply (e_nodup _ _ _ _ _ _ _ _ _ _ X Q PQ)|]. split; [|apply (e_cons _ _ _ _ _ _ _ _ _ _ X Q PQ)].
    intros j J. destruct (e_lits _ _ _ _ _ _ _ _ _ _ X Q PQ j J) as (A & B & _). auto. }
  assert (IMP : forall Q, produces G module z Q -> implicant Q).
  { intros Q PQ ρ HQ. apply HF. apply (e_sound _ _ _ _ _ _ _ _ _ _ X Q); auto. split; auto. discriminate. }
  assert (COV : forall Y, literals Y -> Z.of_nat (length Y) <= limit -> implicant Y -> exists Q, produces G module z Q /\ incl Q Y).
  { intros Y (NY & VY & CY) LY IY. apply (e_complete _ _ _ _ _ _ _ _ _ _ X Y); auto; [|lia|].
    - intros j J. destruct (VY j J). split; auto. split; auto. discriminate.
    - intros ρ [FR _]. apply HF. apply IY; auto. }
  split; [|split; [|split]].
  - intros Q IQ. apply WK in IQ as [PQ SQ]; [|lia]. split; [|lia]. split; [auto|]. split; [auto|]. intros Y LY IY CY.
    destruct (COV Y LY) as (R & PR & IR); auto; [pose proof (NoDup_incl_length (proj1 LY) IY); lia|].
    rewrite <- (e_anti _ _ _ _ _ _ _ _ _ _ X R Q PR PQ); auto. intros v V. auto.
  - intros Y (EY & CY & MY) LY. destruct (COV Y EY LY CY) as (Q & PQ & IQ). exists Q. split.
    + apply WK; [lia|]. split; auto. pose proof (NoDup_incl_length (proj1 (LT Q PQ)) IQ). lia.
    + intros v. split; [apply IQ|apply (MY Q); auto].
  - apply (e_walk _ _ _ _ _ _ _ _ _ _ X limit 0). auto.
  - intros Q R IQ IR I. apply WK in IQ as [PQ _]; [|lia]. apply WK in IR as [PR _]; [|lia]. apply (e_anti _ _ _ _ _ _ _ _ _ _ X Q R PQ PR I).
Qed.
End Finish.

(** ** C14, C16: minimal cut sets *)
(** All gates marked as modules are coherent. *)
Definition coherent_modules : Prop := forall i, is_Some (gs G !! i) -> module i = true -> coherent i = true.
Theorem C14_bdd limit : prepared ord top module coherent -> (forall n, (0 < prime n)%nat) -> (forall l, Permutation (arrange l) l) -> 0 <= limit ->
  exists N, forall fuel, (N <= fuel)%nat -> exists M L, (forall steps, (M <= steps)%nat -> products false fuel steps limit = Some L) /\
    (* every reported product is a minimal cut set within the limit, written without repetition *)
    (forall P, In P L -> minimal_cut_set P /\ Z.of_nat (length P) <= limit) /\
    (* every minimal cut set of fewer literals than the limit is reported; also those of as many
       literals as the limit when the modules are coherent *)
    (forall X, minimal_cut_set X -> Z.of_nat (length X) < limit \/ Z.of_nat (length X) <= limit /\ coherent_modules -> exists P, In P L /\ forall v, In v P <-> In v X) /\
    (* no product is reported twice *)
    NoDup L /\ (forall P Q, In P L -> In Q L -> incl P Q -> P = Q).
Proof.
  intros P PP ARR LIM. pose proof (p_acyclic _ _ _ _ P) as [r0 RK].
  exists (S (S (r0 root) + S (Z.to_nat (top + 1)))). intros fuel F.
  destruct (run_ok P r0 RK PP ARR false 1 limit LIM ltac:(lia) ltac:(lia) fuel F) as (z & ED & (M & IT) & X).
  exists M, (walk G module limit z 0). split; auto.
  apply (finish_cut_sets (fun ρ => xorb complement (val G r0 root ρ))); auto.
  - apply (fails_val P r0 RK).
  - intros ρ ρ' E. f_equal. apply val_under; auto.
  - intros v V. destruct (var_not_constant P root v (p_root _ _ _ _ P) V). lia.
  - intros CM. destruct (run_ok P r0 RK PP ARR false 0 limit LIM ltac:(lia) ltac:(auto) fuel F) as (z' & ED' & _ & X'). congruence.
Qed.

(** ** C15: prime implicants *)
Theorem C15_bdd limit : prepared ord top module coherent -> (forall n, (0 < prime n)%nat) -> (forall l, Permutation (arrange l) l) -> 0 <= limit ->
  exists N, forall fuel, (N <= fuel)%nat -> exists M L, (forall steps, (M <= steps)%nat -> products true fuel steps limit = Some L) /\
    (* every reported product is a prime implicant within the limit, written without repetition *)
    (forall P, In P L -> prime_implicant P /\ Z.of_nat (length P) <= limit) /\
    (* every prime implicant within the limit is reported *)
    (forall X, prime_implicant X -> Z.of_nat (length X) <= limit -> exists P, In P L /\ forall j, In j P <-> In j X) /\
    (* no product is reported twice *)
    NoDup L /\ (forall P Q, In P L -> In Q L -> incl P Q -> P = Q).
Proof.
  intros P PP ARR LIM. pose proof (p_acyclic _ _ _ _ P) as [r0 RK].
  exists (S (S (r0 root) + S (Z.to_nat (top + 1)))). intros fuel F.
  destruct (run_ok P r0 RK PP ARR true 0 limit LIM ltac:(lia) ltac:(auto) fuel F) as (z & ED & (M & IT) & X).
  exists M, (walk G module limit z 0). split; auto.
  apply (finish_implicants (fun ρ => xorb complement (val G r0 root ρ))); auto. apply (fails_val P r0 RK).
Qed.

(** ** C16: the limit *)
Theorem C16_bdd pi limit limit' : prepared ord top module coherent -> (forall n, (0 < prime n)%nat) -> (forall l, Permutation (arrange l) l) -> 0 <= limit <= limit' ->
  pi = true \/ coherent_modules ->
  exists N, forall fuel, (N <= fuel)%nat -> exists M L L', (forall steps, (M <= steps)%nat -> products pi fuel steps limit = Some L /\ products pi fuel steps limit' = Some L') /\
    (forall P, In P L -> Z.of_nat (length P) <= limit /\ exists P', In P' L' /\ Permutation P P') /\
    (forall P', In P' L' -> Z.of_nat (length P') <= limit -> exists P, In P L /\ Permutation P P').
Proof.
  intros P PP ARR [L0 L1] K. destruct pi.
  - destruct (C15_bdd limit P PP ARR L0) as (N & H). destruct (C15_bdd limit' P PP ARR) as (N' & H'); [lia|].
    exists (Nat.max N N'). intros fuel F. destruct (H fuel) as (M & L & E & S1 & C1 & _); [lia|]. destruct (H' fuel) as (M' & L' & E' & S2 & C2 & _); [lia|].
    exists (Nat.max M M'), L, L'. split; [intros n Ln; split; [apply E|apply E']; lia|]. split.
    + intros Q IQ. destruct (S1 Q IQ) as [MQ LQ]. split; auto. destruct (C2 Q MQ) as (Q' & IQ' & EQ); [lia|]. exists Q'. split; auto.
      apply NoDup_Permutation; [apply MQ|apply (S2 Q' IQ')|]. intros v. rewrite EQ. tauto.
    + intros Q IQ LQ. destruct (S2 Q IQ) as [MQ _]. destruct (C1 Q MQ LQ) as (Q' & IQ' & EQ). exists Q'. split; auto.
      apply NoDup_Permutation; [apply (S1 Q' IQ')|apply MQ|]. intros v. apply EQ.
  - destruct K as [K|K]; [discriminate|]. destruct (C14_bdd limit P PP ARR L0) as (N & H). destruct (C14_bdd limit' P PP ARR) as (N' & H'); [lia|].
    exists (Nat.max N N'). intros fuel F. destruct (H fuel) as (M & L & E & S1 & C1 & _); [lia|]. destruct (H' fuel) as (M' & L' & E' & S2 & C2 & _); [lia|].
    exists (Nat.max M M'), L, L'. split; [intros n Ln; split; [apply E|apply E']; lia|]. split.
    + intros Q IQ. destruct (S1 Q IQ) as [MQ LQ]. split; auto. destruct (C2 Q MQ) as (Q' & IQ' & EQ); [right; split; auto; lia|]. exists Q'. split; auto.
      apply NoDup_Permutation; [apply MQ|apply (S2 Q' IQ')|]. intros v. rewrite EQ. tauto.
    + intros Q IQ LQ. destruct (S2 Q IQ) as [MQ _]. destruct (C1 Q MQ) as (Q' & IQ' & EQ); auto. exists Q'. split; auto.
      apply NoDup_Permutation; [apply (S1 Q' IQ')|apply MQ|]. intros v. apply EQ.
Qed.

(** ** Trivial graphs: the root passes one event, its complement, or the constant through *)
Section Trivial.
Context (x : gate) (c : Z) (W : PdagProofs.wf G) (AC : acyclic G) (Ex : gs G !! root = Some x) (Tx : g_type x = kNull) (Ax : g_args x = [c]) (Nc : gs G !! Z.abs c = None).
Context (inj : forall i j, ord i = ord j -> i = j) (prime_pos : forall n, (0 < prime n)%nat) (TOP : 0 < ord (Z.abs c) <= top).
Context (CP : complement = false) (CH : coherent root = true -> 0 < c).
Definition passes (σ : Z -> bool) : bool := if Z.abs c =? 1 then 0 <? c else lit σ c.
Lemma c_range : c <> 0 /\ Z.abs c < nxt G.
Proof. pose proof Ex as Ew. apply W in Ew as (_ & _ & H). destruct (H c) as (? & ? & _); [rewrite Ax; simpl; auto|]. lia. Qed.
Lemma trivial_var v : var G root v <-> v = Z.abs c.
Proof.
  split.
  - intros [U N]. induction U as [|i y a U IH E J]; [congruence|]. destruct U as [|i' y' a' U E' J'].
    + rewrite Ex in E. injection E as <-. rewrite Ax in J. destruct J as [<-|[]]. auto.
    + exfalso. clear IH N. revert y E J. remember (Z.abs a') as w eqn:Ew. intros y E J.
      assert (KK : forall k, under G root k -> is_Some (gs G !! k) -> k = root).
      { induction 1 as [|k t b U0 IH0 E0 J0]; auto. intros S0. assert (k = root) by (apply IH0; eauto). subst k. rewrite Ex in E0. injection E0 as <-.
        rewrite Ax in J0. destruct J0 as [<-|[]]. rewrite Nc in S0. destruct S0; discriminate. }
      assert (w = root) by (apply KK; [subst w; apply (under_arg G root i' y' a'); auto|eauto]).
      assert (i' = root) by (apply KK; eauto). subst i'. rewrite Ex in E'. injection E' as <-. rewrite Ax in J'. destruct J' as [<-|[]]. congruence.
  - intros ->. split; auto. apply (under_arg G root root x c); auto; [constructor|rewrite Ax; simpl; auto].
Qed.
Lemma trivial_fails ρ : fails ρ <-> passes ρ = true.
Proof.
  destruct c_range as [C0 C1]. destruct AC as [r0 RK]. destruct (labelling_exists G r0 ρ W RK) as (ν & C & H).
  assert (V : ν root = passes ρ).
  { rewrite (proj2 C _ _ Ex). unfold gate_value. rewrite Tx, Ax. cbn [map conn_value]. unfold passes. rewrite !lit_abs by auto. destruct (Z.eqb_spec (Z.abs c) 1) as [E|E].
    - rewrite E, (proj1 C). destruct (Z.ltb_spec c 0), (Z.ltb_spec 0 c); auto; lia.
    - rewrite H by (auto; lia). auto. }
  unfold fails. rewrite CP. cbn [negb]. rewrite <- V. split.
  - intros NV. apply (node_value_unique G ρ root true (ν root) W AC); auto; [apply W in Ex; lia|]. exists ν. auto.
  - intros E. exists ν. auto.
Qed.
Lemma trivial_module : ZbddModules.is_module G module (Z.abs c) = false.
Proof. unfold ZbddModules.is_module, is_gate. rewrite Z.abs_involutive, Nc. auto. Qed.

Lemma trivial_run pi limit : 0 <= limit -> forall fuel, (S (Z.to_nat (top + 1)) < fuel)%nat -> exists z, diagram pi fuel limit = Some z /\
  (exists M, forall steps, (M <= steps)%nat -> products pi fuel steps limit = Some (walk G module limit z 0)) /\
  exactf (BddZbdd.zord ord) top G module pi 0 passes (var G root) z limit /\
  exists f b z1 b1, BddGraph.of_graph ord hash prime G module parents arrange fuel root complement = Some (f, Conv b ∅ ∅) /\
    build ord top hash prime pi G module coherent ∅ fuel fuel f (negb complement && coherent root) limit b = Some (z1, b1) /\ BddProofs.ext b b1.
Proof.
  intros LIM fuel F. destruct c_range as [C0 C1]. pose proof trivial_module as NM.
  pose proof (BddZbdd.ORD ord inj) as ZORD.
  set (is_module := ZbddModules.is_module G module) in *. set (coh := negb complement && coherent root).
  set (counts := BddZbdd.counts pi is_module coherent). set (bo := BddZbdd.both pi coh is_module coherent). set (D := [Z.abs c]).
  (* the BDD *)
  assert (exists f b, BddGraph.of_graph ord hash prime G module parents arrange fuel root complement = Some (f, Conv b ∅ ∅) /\ BddProofs.wf ord hash b /\
    BddProofs.valid (Bdd.nodes b) f.2 /\ forall σ, BddProofs.feval (Bdd.nodes b) σ f = passes σ) as (f & b & EG & WB & VF & EF).
  { unfold BddGraph.of_graph. rewrite Ex. cbn [mbind option_bind]. rewrite Tx, Ax. cbn [conn_eqb]. unfold is_gate. rewrite Nc.
    assert (WE : BddProofs.wf ord hash (Bdd.empty_bdd prime)) by (apply BddProofs.empty_wf; auto).
    assert (UN : constant x = (Z.abs c =? 1)).
    { unfold constant, has. rewrite Ax. cbn [existsb]. rewrite !orb_false_r. apply eq_true_iff_eq. rewrite orb_true_iff, !Z.eqb_eq. lia. }
    rewrite UN. unfold passes. destruct (Z.eqb_spec (Z.abs c) 1) as [E|E].
    - eexists _, _. split; [reflexivity|]. split; auto. split; [left; auto|]. intros σ. unfold BddProofs.feval. simpl fst. simpl snd.
      rewrite (BddProofs.eval_one ord) by apply WE. destruct (Z.ltb_spec c 0), (Z.ltb_spec 0 c); auto; lia.
    - cbn [c_bdd]. destruct (BddGraph.literal ord c (Bdd.empty_bdd prime)) as [b f] eqn:EL.
      destruct (literal_ok ord hash c _ b f WE EL) as (Wb & _ & V & EV). exists f, b. split; auto. split; auto. split; auto.
      intros σ. rewrite EV, lit_abs; auto. }
  assert (PD : forall σ σ', σ (Z.abs c) = σ' (Z.abs c) -> passes σ = passes σ').
  { intros σ σ' E. unfold passes. destruct (Z.abs c =? 1); auto. rewrite !lit_abs by auto. rewrite E. auto. }
  assert (OV : BddZbdd.over (fun a => In a D) b f.2).
  { intros σ σ' H. assert (X : BddProofs.feval (Bdd.nodes b) σ f = BddProofs.feval (Bdd.nodes b) σ' f) by (rewrite !EF; apply PD, H; simpl; auto).
    unfold BddProofs.feval in X. destruct (f.1), (BddProofs.eval (Bdd.nodes b) σ f.2), (BddProofs.eval (Bdd.nodes b) σ' f.2); simpl in X; auto; discriminate. }
  assert (DPOS : forall a, In a D -> 0 < a) by (intros a [<-|[]]; lia).
  assert (DTOP : forall a, In a D -> ord a <= top) by (intros a [<-|[]]; lia).
  assert (COUNTED : 0 = 0 -> forall i, In i D -> bo i = true -> counts i = true /\ counts (- i) = true).
  { intros _ i [<-|[]] B. unfold bo, BddZbdd.both in B. rewrite NM in B. rewrite orb_false_r in B. apply andb_true_iff in B as [_ B].
    unfold counts, BddZbdd.counts. rewrite B. auto. }
  assert (LE : low_enough top b fuel f.2).
  { unfold low_enough. destruct (Bdd.nodes b !! f.2) as [n|] eqn:En; [|lia].
    pose proof (BddZbdd.node_in ord hash (fun a => In a D) (fun i => in_dec Z.eq_dec i D) top inj b WB f.2 n En OV) as Dn.
    destruct (BddProofs.w_store _ _ _ WB f.2 n En) as (_ & -> & _). destruct Dn as [<-|[]]. lia. }
  destruct (from_bdd_ok ord hash prime pi coh is_module coherent (fun a => In a D) (fun i => in_dec Z.eq_dec i D) DPOS top DTOP 0 (Z.le_refl 0) COUNTED inj prime_pos
     fuel f.2 f.1 limit b ∅ WB VF OV LIM) as (q & b1 & m1 & E1 & W1 & X1 & _ & RQ & _); [|auto|].
  { intros s k r E. elim (lookup_empty_Some (M := gmap (Z * Z)) _ _ E). }
  destruct RQ as [Wq Lq Sq Oq Cq].
  destruct (minimize_ok (BddZbdd.zord ord) top counts ZORD q start (inv_start (BddZbdd.zord ord) top counts) Wq) as (r & t & E2 & I2 & Wr & Mr).
  assert (Rq : forall p, In p (fam r) -> In p (fam q)) by (intros p P; apply Mr in P; tauto).
  assert (LITS : forall p, In p (fam r) -> lproper D bo p) by (intros p P; apply (Lq p (Rq p P))).
  assert (SIZE : forall p, In p (fam r) -> Zbdd.size counts p <= limit) by (intros p P; apply Sq; auto).
  assert (AR : antichain r) by (intros p p' P P' I; apply Mr in P' as [_ P']; apply P'; auto).
  assert (NML : forall p j, In p (fam r) -> In j p -> is_module j = false).
  { intros p j P J. destruct (LITS p P j J) as [[E|[]] _]. unfold is_module. rewrite <- is_module_abs, <- E. exact NM. }
  destruct (gather_ok (BddZbdd.zord ord) top is_module counts coherent limit (fun _ => False) r 0 ∅ Wr) as (mn & subs & E3 & _ & _ & _ & _ & _ & EN); [lia|auto| | |].
  { intros j (p & P & J) M. rewrite (NML p j P J) in M. discriminate. }
  { intros j bb o X. elim (lookup_empty_Some (M := gmap Z) j (bb, o) X). }
  assert (subs = ∅) as ->.
  { apply map_empty. intros i. destruct (subs !! i) as [[bb o]|] eqn:X; auto. apply EN in X. tauto. }
  assert (EB : build ord top hash prime pi G module coherent ∅ fuel fuel f coh limit b = Some (Zb r [], b1)).
  { destruct fuel as [|fu]; [lia|]. cbn [build]. fold is_module. rewrite E1. cbn [mbind option_bind]. rewrite E2. cbn [mbind option_bind].
    fold counts. rewrite E3. cbn [mbind option_bind]. rewrite map_to_list_empty. reflexivity. }
  assert (TQ : limit = 0 -> terminal r = true).
  { intros ->. apply from_bdd_zero in E1. destruct q; [| |discriminate]; simpl in E2; injection E2 as <- _; auto. }
  assert (XZ : exactf (BddZbdd.zord ord) top G module pi 0 passes (var G root) (Zb r []) limit).
  { apply (exactf_ext ord top pi G module 0 (fun ρ => BddProofs.feval (Bdd.nodes b) (fun a => ρ a) f) _ (fun v => In v D)).
    { intros ρ. apply EF. }
    { intros v. rewrite trivial_var. simpl. intuition. }
    apply (assemble (BddZbdd.zord ord) top ZORD G module pi 0 ltac:(lia) (fun a ρ => ρ a) Z.eqb D D bo counts DPOS) with (F := fun σ => BddProofs.feval (Bdd.nodes b) σ f) (r := r); auto.
    - intros a ρ ρ' _ H. apply H, Z.eqb_refl.
    - intros a a' v _ _ B B'. apply Z.eqb_eq in B, B'. congruence.
    - intros a _ _. split; auto. intros v. rewrite Z.eqb_eq. intuition.
    - intros a v J B. apply Z.eqb_eq in B. subst v. auto.
    - intros v. split; [intros J; exists v; split; auto; apply Z.eqb_refl|]. intros (a & J & B). apply Z.eqb_eq in B. subst. auto.
    - intros _ a bb _. exists (fun _ => bb). auto.
    - intros _ a ρ _ _ H. apply H, Z.eqb_refl.
    - intros Pi a Ba. unfold bo, BddZbdd.both in Ba. rewrite Pi, andb_false_r in Ba. cbn [orb] in Ba. apply andb_true_iff in Ba. tauto.
    - intros Pi j Cj. unfold counts, BddZbdd.counts in Cj. rewrite Pi in Cj. cbn [orb] in Cj. apply andb_true_iff in Cj as [C2 C3]. apply Z.ltb_lt in C2. split; auto.
      intros [<-|[]]. unfold bo, BddZbdd.both. rewrite Pi, andb_false_r, NM. auto.
    - intros σ σ' H. rewrite !EF. apply PD, H. simpl; auto.
    - intros Pi σ σ' H1 H2 T. rewrite EF in *. destruct (bo (Z.abs c)) eqn:B.
      + rewrite <- T. apply PD. symmetry. apply H1; simpl; auto.
      + unfold bo, BddZbdd.both in B. rewrite Pi, NM, andb_true_r, orb_false_r in B. apply negb_false_iff in B. unfold coh in B. apply andb_true_iff in B as [_ B].
        specialize (CH B). revert T. unfold passes. destruct (Z.abs c =? 1); auto. unfold lit. destruct (Z.ltb_spec c 0); [lia|]. intros T.
        specialize (H2 (Z.abs c) (or_introl eq_refl)). rewrite Z.abs_eq in H2 by lia. apply H2; auto. unfold bo, BddZbdd.both. rewrite Z.abs_eq in NM by lia. rewrite NM. unfold coh. rewrite B, CP. auto.
    - intros p σ P FT. rewrite (surjective_pairing f). apply (Oq p σ (Rq p P) FT).
    - intros y N C P S H. apply (covers_ev top counts). apply (covers_min (BddZbdd.zord ord) (fam q) (fam r)).
      + intros p P'. apply (sorted_fam (BddZbdd.zord ord) top counts q Wq p P').
      + intros p. rewrite Mr. auto.
      + apply (covers_ev top counts). apply Cq; auto.
    - apply (left_id (BddZbdd.zord ord) top); auto. intros i. unfold constant_module. destruct (ZbddModules.is_module G module i); auto.
    - intros j z [].
    - intros j z X. discriminate.
    - intros p j P J M. unfold is_module in NML. rewrite (NML p j P J) in M. discriminate. }
  pose proof (e_clean _ _ _ _ _ _ _ _ _ _ XZ) as C.
  assert (ED : diagram pi fuel limit = Some (Zb r [])).
  { unfold diagram. rewrite EG. cbn [mbind option_bind c_mods c_bdd]. fold coh. rewrite EB. cbn [mbind option_bind].
    apply (analyze_id (BddZbdd.zord ord) top ZORD G module coherent parents (Zb r []) C). }
  destruct (iterate_ok G module limit (BddZbdd.zord ord) top (Zb r []) C LIM) as (M & IT). exists (Zb r []). split; auto. split.
  { exists M. intros n Ln. unfold products. rewrite ED. cbn [mbind option_bind]. apply IT; auto. }
  split; auto. exists f, b, (Zb r []), b1. auto.
Qed.

Theorem C14_bdd_trivial limit : 0 <= limit -> exists N, forall fuel, (N <= fuel)%nat -> exists M L, (forall steps, (M <= steps)%nat -> products false fuel steps limit = Some L) /\
    (forall P, In P L -> minimal_cut_set P /\ Z.of_nat (length P) <= limit) /\
    (forall X, minimal_cut_set X -> Z.of_nat (length X) <= limit -> exists P, In P L /\ forall v, In v P <-> In v X) /\ NoDup L.
Proof.
  intros LIM. exists (S (S (Z.to_nat (top + 1)))). intros fuel F. destruct (trivial_run false limit LIM fuel F) as (z & ED & (M & IT) & X & _).
  exists M, (walk G module limit z 0). split; auto.
  destruct (finish_cut_sets passes) with (limit := limit) (z := z) (CM := True) as (A & B & C & _); auto.
  - apply trivial_fails.
  - intros ρ ρ' E. unfold passes. destruct (Z.abs c =? 1); auto. rewrite !lit_abs by apply c_range. rewrite (E (Z.abs c)); auto. apply trivial_var. auto.
  - intros v V. apply trivial_var in V. destruct c_range. lia.
  - destruct X. constructor; auto. intros Y N C L S HY. apply e_complete; auto. lia.
  - split; [auto|]. split; [|auto]. intros Y MY LY. apply B; auto.
Qed.
Theorem C15_bdd_trivial limit : 0 <= limit -> exists N, forall fuel, (N <= fuel)%nat -> exists M L, (forall steps, (M <= steps)%nat -> products true fuel steps limit = Some L) /\
    (forall P, In P L -> prime_implicant P /\ Z.of_nat (length P) <= limit) /\
    (forall X, prime_implicant X -> Z.of_nat (length X) <= limit -> exists P, In P L /\ forall j, In j P <-> In j X) /\ NoDup L.
Proof.
  intros LIM. exists (S (S (Z.to_nat (top + 1)))). intros fuel F. destruct (trivial_run true limit LIM fuel F) as (z & ED & (M & IT) & X & _).
  exists M, (walk G module limit z 0). split; auto.
  destruct (finish_implicants passes) with (limit := limit) (z := z) as (A & B & C & _); auto. apply trivial_fails.
Qed.
End Trivial.
End Products.

(** ** The hypotheses are met by non-trivial cases *)
Definition ex_run (g : graph) (root : Z) (c : bool) (module coherent : Z -> bool) (pi : bool) (limit : Z) :=
  products g root c (fun i => i) 20 (fun _ => 0%nat) S module coherent (fun _ => 1%nat) (fun l => l) pi 30 60 limit.
Ltac gate_cases E :=
  repeat (apply lookup_insert_Some in E as [[<- <-]|[_ E]]; [auto 20|]); apply lookup_singleton_Some in E as [<- <-]; auto 20.
(* 11 = 2 and not 9, 9 = 5 or 8, module 8 = 3 and not 4 *)
Definition ex_g : graph := Graph {[8 := Gate kAnd 0 [-4; 3]; 9 := Gate kOr 0 [5; 8]; 11 := Gate kAnd 0 [-9; 2]]} 12 [] true.
Lemma ex_gates i x : gs ex_g !! i = Some x -> (i = 8 /\ x = Gate kAnd 0 [-4; 3]) \/ (i = 9 /\ x = Gate kOr 0 [5; 8]) \/ (i = 11 /\ x = Gate kAnd 0 [-9; 2]).
Proof. unfold ex_g. cbn [gs]. intros E. gate_cases E. Qed.
Example ex_prepared : prepared ex_g 11 (fun i => i) 20 (Z.eqb 8) (fun _ => false).
Proof.
  split.
  - split; [simpl; lia|]. intros i x E. destruct (ex_gates i x E) as [[-> ->]|[[-> ->]|[-> ->]]]; (split; [simpl; lia|]); (split; [simpl; repeat constructor; simpl; intuition lia|]);
      intros a Ha; simpl in Ha; simpl; intuition (subst; simpl; lia).
  - exists (fun j => if j =? 11 then 2%nat else if j =? 9 then 1%nat else 0%nat). intros i x a E Ha [y Hy].
    destruct (ex_gates i x E) as [[-> ->]|[[-> ->]|[-> ->]]]; destruct (ex_gates _ y Hy) as [[Ey _]|[[Ey _]|[Ey _]]]; simpl in Ha; rewrite Ey; simpl; lia.
  - vm_compute. eauto.
  - intros i x E. destruct (ex_gates i x E) as [[-> ->]|[[-> ->]|[-> ->]]]; simpl; auto.
  - intros m S M. apply Z.eqb_eq in M. subst m. assert (U : forall i, under ex_g 8 i -> i = 8 \/ i = 3 \/ i = 4).
    { induction 1 as [|i x a U IH E J]; auto. destruct (ex_gates i x E) as [[-> ->]|[[-> ->]|[-> ->]]]; simpl in J; lia. }
    intros i x a E J Ua. apply U in Ua. destruct (ex_gates i x E) as [[-> ->]|[[-> ->]|[-> ->]]]; simpl in J; try (left; lia); right; constructor.
  - intros m b S M. apply Z.eqb_eq in M. subst m. set (ν := fun i => (i =? 1) || (b && ((i =? 3) || (i =? 8) || (i =? 9)))). exists ν, ν. split; [|split; auto].
    + split; [reflexivity|]. intros i x E. destruct (ex_gates i x E) as [[-> ->]|[[-> ->]|[-> ->]]]; destruct b; reflexivity.
    + destruct b; reflexivity.
  - discriminate.
  - auto.
  - intros i. simpl. lia.
Qed.
Example ex_prime_implicants : ex_run ex_g 11 false (Z.eqb 8) (fun _ => false) true 10 = Some [[2; -5; -3]; [2; -5; 4]].
Proof. vm_compute. reflexivity. Qed.
Example ex_complement : ex_run ex_g 11 true (Z.eqb 8) (fun _ => false) true 10 = Some [[-2]; [5]; [3; -4]].
Proof. vm_compute. reflexivity. Qed.
Example ex_cut_sets : ex_run ex_g 11 false (Z.eqb 8) (fun _ => false) false 10 = Some [[2]].
Proof. vm_compute. reflexivity. Qed.
Example ex_trivial : ex_run (Graph {[3 := Gate kNull 0 [-2]]} 4 [] true) 3 false (fun _ => false) (fun _ => false) true 1 = Some [[-2]] /\
  ex_run (Graph {[3 := Gate kNull 0 [-2]]} 4 [] true) 3 false (fun _ => false) (fun _ => false) false 1 = Some [[]].
Proof. split; vm_compute; reflexivity. Qed.

(** ** The limit is not exact for minimal cut sets with modules that are not coherent *)
(* 8 = 6 and 7, module 6 = 2 or 3, module 7 = not 4 or not 5: the minimal cut sets are {2} and
   {3}, because 7 holds when nothing else fails. With the limit 1 they are lost: the positive
   literal of 6 uses the limit up, and with the limit 0 the conversion keeps a product of the
   rest only if it is constant, but the proxy of module 7 is a literal. *)
Definition loss_g : graph := Graph {[6 := Gate kOr 0 [2; 3]; 7 := Gate kOr 0 [-5; -4]; 8 := Gate kAnd 0 [6; 7]]} 9 [] true.
Definition loss_module (g : Z) : bool := (g =? 6) || (g =? 7).
Lemma loss_gates i x : gs loss_g !! i = Some x -> (i = 6 /\ x = Gate kOr 0 [2; 3]) \/ (i = 7 /\ x = Gate kOr 0 [-5; -4]) \/ (i = 8 /\ x = Gate kAnd 0 [6; 7]).
Proof. unfold loss_g. cbn [gs]. intros E. gate_cases E. Qed.
Lemma loss_prepared : prepared loss_g 8 (fun i => i) 20 loss_module (Z.eqb 6).
Proof.
  split.
  - split; [simpl; lia|]. intros i x E. destruct (loss_gates i x E) as [[-> ->]|[[-> ->]|[-> ->]]]; (split; [simpl; lia|]); (split; [simpl; repeat constructor; simpl; intuition lia|]);
      intros a Ha; simpl in Ha; simpl; intuition (subst; simpl; lia).
  - exists (fun j => if j =? 8 then 1%nat else 0%nat). intros i x a E Ha [y Hy].
    destruct (loss_gates i x E) as [[-> ->]|[[-> ->]|[-> ->]]]; destruct (loss_gates _ y Hy) as [[Ey _]|[[Ey _]|[Ey _]]]; simpl in Ha; rewrite Ey; simpl; lia.
  - vm_compute. eauto.
  - intros i x E. destruct (loss_gates i x E) as [[-> ->]|[[-> ->]|[-> ->]]]; simpl; auto.
  - intros m S M. unfold loss_module in M.
    assert (U6 : forall i, under loss_g 6 i -> i = 6 \/ i = 2 \/ i = 3).
    { induction 1 as [|i x a U IH E J]; auto. destruct (loss_gates i x E) as [[-> ->]|[[-> ->]|[-> ->]]]; simpl in J; lia. }
    assert (U7 : forall i, under loss_g 7 i -> i = 7 \/ i = 5 \/ i = 4).
    { induction 1 as [|i x a U IH E J]; auto. destruct (loss_gates i x E) as [[-> ->]|[[-> ->]|[-> ->]]]; simpl in J; lia. }
    apply orb_true_iff in M as [M|M]; apply Z.eqb_eq in M; subst m; intros i x a E J Ua; [apply U6 in Ua|apply U7 in Ua];
      (destruct (loss_gates i x E) as [[-> ->]|[[-> ->]|[-> ->]]]; simpl in J; try (left; lia); right; constructor).
  - intros m b S M. unfold loss_module in M. apply orb_true_iff in M as [M|M]; apply Z.eqb_eq in M; subst m.
    + set (ν := fun i => (i =? 1) || (i =? 7) || (b && ((i =? 2) || (i =? 6) || (i =? 8)))). exists ν, ν. split; [|split; [auto|destruct b; reflexivity]].
      split; [reflexivity|]. intros i x E. destruct (loss_gates i x E) as [[-> ->]|[[-> ->]|[-> ->]]]; destruct b; reflexivity.
    + set (ν := fun i => (i =? 1) || (if b then i =? 7 else (i =? 4) || (i =? 5))). exists ν, ν. split; [|split; [auto|destruct b; reflexivity]].
      split; [reflexivity|]. intros i x E. destruct (loss_gates i x E) as [[-> ->]|[[-> ->]|[-> ->]]]; destruct b; reflexivity.
  - intros i x a E C J. apply Z.eqb_eq in C. subst i. destruct (loss_gates 6 x E) as [[_ ->]|[[? _]|[? _]]]; try lia. simpl in J. split; [lia|].
    intros [y Ey]. destruct (loss_gates a y Ey) as [[? _]|[[? _]|[? _]]]; lia.
  - auto.
  - intros i. simpl. lia.
Qed.
Theorem C16_bdd_refuted : prepared loss_g 8 (fun i => i) 20 loss_module (Z.eqb 6) /\
  ex_run loss_g 8 false loss_module (Z.eqb 6) false 2 = Some [[2]; [3]] /\
  ex_run loss_g 8 false loss_module (Z.eqb 6) false 1 = Some [] /\
  minimal_cut_set loss_g 8 false [2].
Proof.
  split; [apply loss_prepared|]. split; [vm_compute; reflexivity|]. split; [vm_compute; reflexivity|].
  assert (V : var loss_g 8 2). { split; [|reflexivity]. apply (under_arg loss_g 8 6 (Gate kOr 0 [2; 3]) 2); simpl; auto. apply (under_arg loss_g 8 8 (Gate kAnd 0 [6; 7]) 6); simpl; auto. constructor. }
  split; [split; [repeat constructor; auto|intros v [<-|[]]; auto]|]. split.
  - exists (fun i => (i =? 1) || (i =? 2) || (i =? 6) || (i =? 7) || (i =? 8)). split; [|split; [|reflexivity]].
    + split; [reflexivity|]. intros i x E. destruct (loss_gates i x E) as [[-> ->]|[[-> ->]|[-> ->]]]; reflexivity.
    + intros j [B1 B2] N. simpl in B2. assert (j = 2 \/ j = 3 \/ j = 4 \/ j = 5 \/ j = 6 \/ j = 7 \/ j = 8) as H by lia.
      destruct H as [->|[->|[->|[->|[->|[->| ->]]]]]]; try reflexivity; discriminate.
  - intros Y [NY EY] IY CY v [<-|[]]. destruct Y as [|w Y]; [|rewrite <- (match IY w (or_introl eq_refl) with or_introl e => e | or_intror f => match f with end end); simpl; auto].
    exfalso. destruct CY as (ν & [_ C] & H & T). rewrite (C 8 (Gate kAnd 0 [6; 7]) eq_refl) in T. unfold gate_value in T. simpl in T.
    unfold lit in T. simpl in T. rewrite (C 6 (Gate kOr 0 [2; 3]) eq_refl) in T. unfold gate_value in T. simpl in T. unfold lit in T. simpl in T.
    rewrite (H 2), (H 3) in T by (simpl; auto; lia). simpl in T. discriminate.
Qed.

(** A module whose function is constant trips the assertion on terminal vertices (zbdd.cc:132). *)
(* 8 = 2 and 7, module 7 = not 3 and (3 or 4) and (3 or not 4), which is never true *)
Definition constant_g : graph := Graph {[5 := Gate kOr 0 [3; 4]; 6 := Gate kOr 0 [-4; 3]; 7 := Gate kAnd 0 [-3; 5; 6]; 8 := Gate kAnd 0 [2; 7]]} 9 [] true.
Theorem C15_constant_module_refuted : forall pi, ex_run constant_g 8 false (Z.eqb 7) (fun _ => false) pi 10 = None.
Proof. intros []; vm_compute; reflexivity. Qed.

Print Assumptions C14_bdd.
Print Assumptions C15_bdd.
Print Assumptions C16_bdd.
Print Assumptions C14_bdd_trivial.
Print Assumptions C15_bdd_trivial.
Print Assumptions C16_bdd_refuted.
