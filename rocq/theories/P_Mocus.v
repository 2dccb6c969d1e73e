(** C17: MOCUS.  Vocabulary: [graph], [node_value] (Pdag.v); [minimal_cut_set], [prepared],
    [products] (P_Products.v): the minimal cut sets of the root, what the preprocessor leaves, the
    run of the ZBDD algorithm; [under] (ZbddModules.v). *)
From stdpp Require Import gmap.
From Coq Require Import List ZArith Lia Bool Permutation Sorting.Sorted.
Import ListNotations.
From Verif Require Import Pdag PdagProofs PdagSem.
From Verif Require Import Zbdd ZbddProofs ZbddGraph ZbddModules ZbddModulesProofs ZbddIter P_Products.
From Verif Require Import Order P_Order Mocus MocusProofs InvertOrder.
Open Scope Z_scope.
Notation prepared := P_Products.prepared.

Section Theorems.
Context (G : graph) (root : Z).
Notation under := (ZbddModules.under G).
(** What MOCUS needs beyond: gates are numbered above the variables; a gate that is no module
    comes before its arguments, and before all variables and modules. *)
Record mocus_ready (ord : Z -> Z) (module : Z -> bool) (bound : Z) : Prop := {
  q_root : module root = true;
  q_gates : forall i, is_Some (gs G !! i) -> bound < i;
  q_variables : forall i x a, gs G !! i = Some x -> In a (g_args x) -> gs G !! Z.abs a = None -> Z.abs a <= bound;
  q_before : forall i x a, gs G !! i = Some x -> under root i -> module i = false -> In a (g_args x) -> is_Some (gs G !! a) -> module a = false -> ord i < ord a;
  q_first : forall i j, is_Some (gs G !! i) -> under root i -> module i = false -> under root (Z.abs j) -> gs G !! Z.abs j = None \/ module (Z.abs j) = true -> ord i < ord j }.
Context (module coherent : Z -> bool) (arrange : list zt -> list zt) (ARR : forall l, Permutation (arrange l) l) (parents : Z -> nat).

Lemma mocus_from r ord top bound limit : prepared G root ord top module coherent -> mocus_ready ord module bound -> ranked G r -> 0 <= limit ->
  forall fuel, (S (r root) <= fuel)%nat -> exists M L,
    (forall steps, (M <= steps)%nat -> mocus_products ord top G module coherent limit bound arrange parents fuel steps root = Some L) /\
    (forall P, In P L -> minimal_cut_set G root P /\ Z.of_nat (length P) <= limit) /\
    (forall X, minimal_cut_set G root X -> Z.of_nat (length X) <= limit -> exists P, In P L /\ forall v, In v P <-> In v X) /\
    NoDup L /\ (forall P Q, In P L -> In Q L -> incl P Q -> P = Q).
Proof.
  intros P Q0 RK LIM fuel F. assert (AC : acyclic G) by (exists r; auto). destruct Q0 as [MR BG BV O1 O2].
  destruct (analyze_module_ok ord top (p_ord _ _ _ _ _ _ P) G module coherent limit bound LIM arrange ARR parents r RK root) with (fuel := fuel) (g := root)
    as (z & E & X); auto.
  { intros g [S M]. apply (p_gates _ _ _ _ _ _ P g S M). }
  { intros g [S M]. apply (p_coherent _ _ _ _ _ _ P g S M). }
  { apply (p_modules _ _ _ _ _ _ P). }
  { split; [apply (p_root _ _ _ _ _ _ P)|auto]. }
  { constructor. }
  pose proof (x_clean _ _ _ _ _ _ _ X) as C.
  destruct (iterate_ok G module limit ord top z C LIM) as (M & IT). exists M, (walk G module limit z 0).
  destruct (walk_ok ord top G module coherent parents limit z C) as [_ WK]. specialize (WK 0).
  destruct (p_root _ _ _ _ _ _ P) as [x Ex]. pose proof (p_gates _ _ _ _ _ _ P root (ex_intro _ x Ex) (or_intror eq_refl) root x Ex (active_root G module root)) as (TY & _).
  split.
  { intros n Ln. unfold mocus_products, mocus. rewrite Ex. cbn [mbind option_bind].
    replace (conn_eqb (g_type x) kNull) with false by (destruct TY as [->| ->]; auto). rewrite E. cbn [mbind option_bind].
    rewrite (analyze_id ord top (p_ord _ _ _ _ _ _ P) G module coherent parents z C). cbn [mbind option_bind]. apply IT; auto. }
  assert (EV : forall Q, produces G module z Q -> events G root Q).
  { intros Q PQ. split; [apply (x_nodup _ _ _ _ _ _ _ X Q PQ)|]. intros v V. apply (x_var _ _ _ _ _ _ _ X Q v PQ V). }
  assert (LAB : forall Y, exists ν, Pdag.consistent G ν /\ forall v, var G root v -> ν v = mem Y v).
  { intros Y. destruct (labelling_exists G r (mem Y) (P_Products.p_wf _ _ _ _ _ _ P) RK) as (ν & Cν & H). exists ν. split; auto.
    intros v V. destruct (var_not_constant G root ord top module coherent v P V) as [B N]. apply H; auto. }
  assert (CUT : forall Q, produces G module z Q -> cut_set G root Q).
  { intros Q PQ. destruct (LAB Q) as (ν & Cν & H). apply (cut_label G root ord top module coherent Q ν P Cν H AC). apply (x_sound _ _ _ _ _ _ _ X Q ν PQ); auto. exact (proj2 Cν). }
  assert (COV : forall Y, NoDup Y -> Z.of_nat (length Y) <= limit -> cut_set G root Y -> exists Q, produces G module z Q /\ incl Q Y).
  { intros Y N LY CY. destruct (LAB Y) as (ν & Cν & H). apply (x_complete _ _ _ _ _ _ _ X Y ν); auto; [exact (proj2 Cν)|]. apply (cut_label G root ord top module coherent Y ν P Cν H AC); auto. }
  split; [|split; [|split]].
  - intros Q IQ. apply WK in IQ as [PQ SQ]; [|lia]. split; [|lia]. split; [auto|]. split; [auto|]. intros Y EY IY CY.
    destruct (COV Y (proj1 EY)) as (R & PR & IR); auto.
    { pose proof (NoDup_incl_length (proj1 EY) IY). lia. }
    rewrite <- (x_anti _ _ _ _ _ _ _ X R Q PR PQ); auto. intros v V. auto.
  - intros Y (EY & CY & MY) LY. destruct (COV Y (proj1 EY) LY CY) as (Q & PQ & IQ). exists Q. split.
    + apply WK; [lia|]. split; auto. pose proof (NoDup_incl_length (proj1 (EV Q PQ)) IQ). lia.
    + intros v. split; [apply IQ|apply (MY Q); auto].
  - apply (x_walk _ _ _ _ _ _ _ X limit 0). auto.
  - intros Q R IQ IR I. apply WK in IQ as [PQ _]; [|lia]. apply WK in IR as [PR _]; [|lia]. apply (x_anti _ _ _ _ _ _ _ X Q R PQ PR I).
Qed.
(** The expansion ends, and reports exactly the minimal cut sets up to the limit, each once. *)
Theorem C17_mocus ord top bound limit : prepared G root ord top module coherent -> mocus_ready ord module bound -> acyclic G -> 0 <= limit ->
  exists N, forall fuel, (N <= fuel)%nat -> exists M L,
    (forall steps, (M <= steps)%nat -> mocus_products ord top G module coherent limit bound arrange parents fuel steps root = Some L) /\
    (forall P, In P L -> minimal_cut_set G root P /\ Z.of_nat (length P) <= limit) /\
    (forall X, minimal_cut_set G root X -> Z.of_nat (length X) <= limit -> exists P, In P L /\ forall v, In v P <-> In v X) /\
    NoDup L /\ (forall P Q, In P L -> In Q L -> incl P Q -> P = Q).
Proof. intros P Q [r RK] LIM. exists (S (r root)). intros fuel F. apply (mocus_from r ord top bound limit P Q RK LIM fuel F). Qed.

(** MOCUS and the ZBDD algorithm report the same sets, whatever the orders each of them uses. *)
Theorem C17_same ord top bound ord' top' arrange' limit : prepared G root ord top module coherent -> mocus_ready ord module bound ->
  prepared G root ord' top' module coherent -> (forall l, Permutation (arrange' l) l) -> acyclic G -> 0 <= limit ->
  exists N, forall fuel, (N <= fuel)%nat -> exists M L L', (forall steps, (M <= steps)%nat ->
      mocus_products ord top G module coherent limit bound arrange parents fuel steps root = Some L /\
      products G root ord' top' module coherent parents arrange' fuel steps limit = Some L') /\
    length L = length L' /\ (forall P, In P L -> exists P', In P' L' /\ Permutation P P') /\ (forall P', In P' L' -> exists P, In P L /\ Permutation P' P).
Proof.
  intros P Q P' ARR' AC LIM. destruct (C17_mocus ord top bound limit P Q AC LIM) as (N1 & H1).
  destruct (C14_zbdd G root ord' top' module coherent parents arrange' limit P' AC ARR' LIM) as (N2 & H2).
  exists (Nat.max N1 N2). intros fuel F. destruct (H1 fuel) as (M1 & L1 & E1 & S1 & C1 & D1 & A1); [lia|]. destruct (H2 fuel) as (M2 & L2 & E2 & S2 & C2 & D2 & A2); [lia|].
  exists (Nat.max M1 M2), L1, L2. split; [intros n Ln; split; [apply E1|apply E2]; lia|].
  assert (SUB : forall A B : list (list Z), (forall P, In P A -> minimal_cut_set G root P /\ Z.of_nat (length P) <= limit) ->
    (forall P, In P B -> minimal_cut_set G root P /\ Z.of_nat (length P) <= limit) ->
    (forall X, minimal_cut_set G root X -> Z.of_nat (length X) <= limit -> exists P, In P B /\ forall v, In v P <-> In v X) ->
    forall P, In P A -> exists P', In P' B /\ Permutation P P').
  { intros A B SA SB CB p Ip. destruct (SA p Ip) as [MP LP]. destruct (CB p MP LP) as (q & Iq & Eq). exists q. split; auto.
    apply NoDup_Permutation; [apply MP|apply (SB q Iq)|]. intros v. rewrite Eq. tauto. }
  assert (LE : forall A B : list (list Z), NoDup A -> (forall P Q, In P A -> In Q A -> incl P Q -> P = Q) ->
    (forall P, In P A -> exists P', In P' B /\ Permutation P P') -> (length A <= length B)%nat).
  { intros A. induction A as [|a A IH]; intros B NA AA H; [simpl; lia|]. destruct (H a (or_introl eq_refl)) as (b & Ib & Pb). apply in_split in Ib as (B1 & B2 & ->).
    rewrite app_length. simpl. inversion NA; subst. assert (length A <= length (B1 ++ B2))%nat; [|rewrite app_length in *; lia].
    apply IH; auto; [intros p q Ip Iq; apply AA; simpl; auto|]. intros p Ip. destruct (H p (or_intror Ip)) as (q & Iq & Pq). exists q. split; auto.
    apply in_app_iff in Iq as [|[<-|]]; try (apply in_app_iff; auto). exfalso. assert (p = a); [|subst; auto]. apply AA; simpl; auto. intros v V.
    apply (Permutation_in v (Permutation_sym Pb)). apply (Permutation_in v Pq). auto. }
  pose proof (SUB L1 L2 S1 S2 C2) as H12. pose proof (SUB L2 L1 S2 S1 C1) as H21. split; [|auto].
  pose proof (LE L1 L2 D1 A1 H12). pose proof (LE L2 L1 D2 A2 H21). lia.
Qed.

(** The orders come from the topological numbering and its inversion: nothing is assumed about them. *)
Theorem C17_order sort_args sort : (forall l, Permutation (sort_args l) l) ->
  PdagProofs.wf G -> acyclic G -> is_Some (gs G !! root) ->
  (forall i x, gs G !! i = Some x -> constant x = false) -> (forall order, sorts_by order (sort order)) ->
  exists N, forall fuel, (N <= fuel)%nat -> exists s new last, topological_order G sort_args fuel root = Some s /\
    invert_order G module (sort s.1) fuel root s.1 = Some new /\
    let ord := literal_order new last in
    ordering ord /\ (forall j, Z.abs j < nxt G -> ord j <= last + nxt G) /\
    (forall i x a, gs G !! i = Some x -> under root i -> module i = false -> In a (g_args x) -> is_Some (gs G !! a) -> module a = false -> ord i < ord a) /\
    (forall i j, is_Some (gs G !! i) -> under root i -> module i = false -> under root (Z.abs j) -> gs G !! Z.abs j = None \/ module (Z.abs j) = true -> ord i < ord j).
Proof.
  intros ARG W AC SR NC SO. destruct (C07_order G root AC SR NC sort_args ARG) as (f0 & s & T & DOM & RG & SJ & INJ & LT & BL).
  pose proof AC as [r RK]. exists (Nat.max f0 (S (r root))). intros fuel F.
  destruct (invert_ok G module r RK root (sort s.1) s SR (SO s.1) DOM RG INJ LT fuel) as (new & sh & E & PS & [V1 V2 V3 V4] & V5); [lia|].
  exists s, new, (sh + s.2). split; [apply T; lia|]. split; auto. cbv zeta.
  assert (POS : forall i, under root i -> 0 < i).
  { intros i U. apply (under_below G root i W SR U). }
  assert (VAL : forall j, under root (Z.abs j) -> exists k, literal_order new (sh + s.2) j = k /\ new !! Z.abs j = Some k /\ 1 <= k <= sh + s.2).
  { intros j U. destruct (V1 _ U) as (k & K & R). exists k. unfold literal_order. rewrite K. auto. }
  split; [|split; [|split]].
  - intros i j Ni Nj. split; [|intros [-> | ->]; auto; unfold literal_order; rewrite Z.abs_opp; auto].
    unfold literal_order. destruct (new !! Z.abs i) as [k|] eqn:Ki, (new !! Z.abs j) as [k'|] eqn:Kj.
    + intros <-. assert (Z.abs i = Z.abs j) by (apply (V2 (Z.abs i) (Z.abs j) k); eauto). lia.
    + intros ->. destruct (V1 (Z.abs i)) as (k1 & K1 & R1); [apply V5; eauto|]. rewrite Ki in K1. injection K1 as <-. lia.
    + intros <-. destruct (V1 (Z.abs j)) as (k1 & K1 & R1); [apply V5; eauto|]. rewrite Kj in K1. injection K1 as <-. lia.
    + intros H. lia.
  - intros j B. unfold literal_order. destruct (new !! Z.abs j) as [k|] eqn:K; [|lia]. destruct (V1 (Z.abs j)) as (k1 & K1 & R1); [apply V5; eauto|].
    rewrite K in K1. injection K1 as <-. lia.
  - intros i x a Ex U M J SA MA. pose proof (POS i U) as Pi. assert (Ua : under root (Z.abs a)) by (apply (under_arg G root i x a); auto).
    destruct (VAL a Ua) as (k & -> & Ka & _). destruct (VAL i) as (k1 & -> & K1 & _); [rewrite Z.abs_eq by lia; auto|]. rewrite Z.abs_eq in K1 by lia.
    apply (V3 i x a k1 k U Ex M J K1 Ka).
  - intros i j SI U M Uj C. pose proof (POS i U) as Pi. destruct (VAL j Uj) as (k & -> & Kj & _). destruct (VAL i) as (k1 & -> & K1 & _); [rewrite Z.abs_eq by lia; auto|].
    rewrite Z.abs_eq in K1 by lia. apply (V4 i (Z.abs j) k1 k U SI M Uj C K1 Kj).
Qed.

(** From a normalised graph with its modules to the products: numbering, inversion, expansion. *)
Theorem C17_pipeline sort_args sort bound limit :
  (forall l, Permutation (sort_args l) l) -> (forall order, sorts_by order (sort order)) -> 0 <= limit ->
  PdagProofs.wf G -> acyclic G -> is_Some (gs G !! root) ->
  (* AND/OR gates of two or more arguments, complements only on variables, no constants *)
  (forall i x, gs G !! i = Some x -> (g_type x = kAnd \/ g_type x = kOr) /\ (2 <= length (g_args x))%nat /\ constant x = false /\
     forall a, In a (g_args x) -> is_Some (gs G !! Z.abs a) -> 0 < a) ->
  (* modules *)
  (forall m, is_Some (gs G !! m) -> module m = true -> modular G m) -> module root = true ->
  (* coherence flags *)
  (forall i x a, gs G !! i = Some x -> coherent i = true -> In a (g_args x) -> 0 < a /\ (is_Some (gs G !! a) -> coherent a = true)) ->
  (* gates are numbered above the variables *)
  (forall i, is_Some (gs G !! i) -> bound < i) -> (forall i x a, gs G !! i = Some x -> In a (g_args x) -> gs G !! Z.abs a = None -> Z.abs a <= bound) ->
  exists N, forall fuel, (N <= fuel)%nat -> exists s new last M L, topological_order G sort_args fuel root = Some s /\
    invert_order G module (sort s.1) fuel root s.1 = Some new /\
    (forall steps, (M <= steps)%nat -> mocus_products (literal_order new last) (last + nxt G) G module coherent limit bound arrange parents fuel steps root = Some L) /\
    (forall P, In P L -> minimal_cut_set G root P /\ Z.of_nat (length P) <= limit) /\
    (forall X, minimal_cut_set G root X -> Z.of_nat (length X) <= limit -> exists P, In P L /\ forall v, In v P <-> In v X) /\
    NoDup L /\ (forall P Q, In P L -> In Q L -> incl P Q -> P = Q).
Proof.
  intros ARG SO LIM W AC SR TY MOD MR COH BG BV.
  destruct (C17_order sort_args sort ARG W AC SR) as (N1 & H1); auto; [intros i x E; apply (TY i x E)|]. pose proof AC as [r RK].
  exists (Nat.max N1 (S (r root))). intros fuel F. destruct (H1 fuel) as (s & new & last & T & I & ORD & TOP & B1 & B2); [lia|].
  assert (NN : forall g, nnf (literal_order new last) (last + nxt G) G module g).
  { intros g i x E _. destruct (TY i x E) as (A & B & C & D). split; auto. split; auto. split; auto. intros a J. pose proof E as E'. apply W in E' as (_ & _ & HW). destruct (HW a J) as (NZ & RGa & _). split; auto. }
  assert (P : prepared G root (literal_order new last) (last + nxt G) module coherent).
  { split; auto. intros g [x Ex] _ C j (i & y & E & A & J & K).
    assert (CI : coherent i = true).
    { clear -A C COH TY. induction A as [|i x a A IH E J S M]; auto. destruct (TY i x E) as (_ & _ & _ & D). pose proof (D a J S) as Pa. rewrite Z.abs_eq in * by lia. apply (COH i x a E IH J); auto. }
    destruct (COH i y j E CI J) as [Pj CJ]. split; auto. intros IM. unfold ZbddModules.is_module, is_gate in IM. rewrite Z.abs_eq in IM by lia.
    destruct (gs G !! j) eqn:Ej; [apply CJ; eauto|discriminate]. }
  assert (Q : mocus_ready (literal_order new last) module bound) by (split; auto).
  destruct (mocus_from r _ _ bound limit P Q RK LIM fuel) as (M & L & HL); [lia|]. exists s, new, last, M, L. auto.
Qed.

(** A root that passes a single event or constant on. *)
Theorem C17_trivial ord top bound limit x c : PdagProofs.wf G -> acyclic G -> gs G !! root = Some x -> g_type x = kNull -> g_args x = [c] -> gs G !! Z.abs c = None ->
  ordering ord -> ord c <= top -> 0 <= limit ->
  exists L, (forall fuel steps, (0 < fuel)%nat -> (6 < steps)%nat -> mocus_products ord top G module coherent limit bound arrange parents fuel steps root = Some L) /\
    (forall P, In P L -> minimal_cut_set G root P /\ Z.of_nat (length P) <= limit) /\
    (forall X, minimal_cut_set G root X -> Z.of_nat (length X) <= limit -> exists P, In P L /\ forall v, In v P <-> In v X) /\ NoDup L.
Proof.
  intros W AC Ex Tx Ax Nc ORD TC LIM. destruct (C14_trivial G root ord top module coherent parents arrange limit x c W AC Ex Tx Ax Nc ORD TC LIM) as (L & E & R).
  exists L. split; auto. intros fuel steps F S. rewrite <- (E fuel steps F S). unfold mocus_products, mocus, products. rewrite Ex. cbn [mbind option_bind]. rewrite Tx. cbn [conn_eqb].
  assert (UN : constant x = (c =? 1) || (c =? -1)).
  { unfold constant, has. rewrite Ax. cbn [existsb]. rewrite !orb_false_r, (Z.eqb_sym 1), (Z.eqb_sym (-1)). auto. }
  assert (C0 : c <> 0) by (pose proof Ex as Ew; apply W in Ew as (_ & _ & H); apply (H c); rewrite Ax; simpl; auto).
  replace (of_graph ord top G module coherent parents arrange fuel root limit)
    with (Some (Zb (if (c =? 1) || (c =? -1) then if c <? 0 then ZE else ZB else if c <? 0 then ZB else ZN c ZB ZE) [])).
  2:{ destruct fuel as [|fuel]; [lia|]. unfold of_graph. cbn [build]. rewrite Ex. simpl. rewrite UN, Tx, orb_true_r. simpl. rewrite Ax. simpl.
    replace (is_gate G c) with false by (unfold is_gate; rewrite Nc; auto). destruct ((c =? 1) || (c =? -1)); auto. destruct (c <? 0); auto. }
  set (t := if (c =? 1) || (c =? -1) then if c <? 0 then ZE else ZB else if c <? 0 then ZB else ZN c ZB ZE).
  assert (ET : exists s, minimize ord top t start = Some (t, s)).
  { apply (minimize_id ord top ORD G module coherent); auto; unfold t.
    - destruct ((c =? 1) || (c =? -1)), (c <? 0); simpl; auto. repeat split; auto; discriminate.
    - destruct ((c =? 1) || (c =? -1)), (c <? 0); intros p q; simpl; intuition congruence. }
  destruct ET as (s & ET). simpl. rewrite ET. reflexivity.
Qed.
End Theorems.

(** ** The hypotheses are met by a non-trivial case *)
(* 12 = 10 + 11, 10 = 9 & 5, 11 = 9 & ¬6, 9 = 2 + 8 shared, module 8 = 3 & 4 *)
Definition m_g : graph := Graph {[8 := Gate kAnd 0 [3; 4]; 9 := Gate kOr 0 [2; 8]; 10 := Gate kAnd 0 [9; 5]; 11 := Gate kAnd 0 [-6; 9]; 12 := Gate kOr 0 [10; 11]]} 13 [] true.
Definition m_module (i : Z) : bool := (i =? 8) || (i =? 12).
Definition m_coherent (i : Z) : bool := (i =? 8) || (i =? 9) || (i =? 10).
Lemma m_gates i x : gs m_g !! i = Some x ->
  (i = 8 /\ x = Gate kAnd 0 [3; 4]) \/ (i = 9 /\ x = Gate kOr 0 [2; 8]) \/ (i = 10 /\ x = Gate kAnd 0 [9; 5]) \/ (i = 11 /\ x = Gate kAnd 0 [-6; 9]) \/ (i = 12 /\ x = Gate kOr 0 [10; 11]).
Proof.
  intros E. unfold m_g in E. cbn [gs] in E.
  do 4 (apply lookup_insert_Some in E as [[<- <-]|[_ E]]; [auto 10|]). apply lookup_singleton_Some in E as [<- <-]. auto 10.
Qed.
Ltac m_cases E := destruct (m_gates _ _ E) as [[-> ->]|[[-> ->]|[[-> ->]|[[-> ->]|[-> ->]]]]].
Ltac m_gate E := let X := fresh in destruct (m_gates _ _ E) as [[X _]|[[X _]|[[X _]|[[X _]|[X _]]]]].
Example m_hypotheses : PdagProofs.wf m_g /\ acyclic m_g /\ is_Some (gs m_g !! 12) /\
  (forall i x, gs m_g !! i = Some x -> (g_type x = kAnd \/ g_type x = kOr) /\ (2 <= length (g_args x))%nat /\ constant x = false /\
     forall a, In a (g_args x) -> is_Some (gs m_g !! Z.abs a) -> 0 < a) /\
  (forall m, is_Some (gs m_g !! m) -> m_module m = true -> modular m_g m) /\ m_module 12 = true /\
  (forall i x a, gs m_g !! i = Some x -> m_coherent i = true -> In a (g_args x) -> 0 < a /\ (is_Some (gs m_g !! a) -> m_coherent a = true)) /\
  (forall i, is_Some (gs m_g !! i) -> 7 < i) /\ (forall i x a, gs m_g !! i = Some x -> In a (g_args x) -> gs m_g !! Z.abs a = None -> Z.abs a <= 7).
Proof.
  split; [|split; [|split; [|split; [|split; [|split; [|split; [|split]]]]]]].
  - split; [simpl; lia|]. intros i x E. m_cases E; cbn [g_args nxt m_g]; (split; [lia|]); (split; [repeat (constructor; simpl; [lia|]); constructor|simpl; intros a Ha; lia]).
  - exists (fun j => if j =? 12 then 3%nat else if j =? 11 then 2%nat else if j =? 10 then 2%nat else if j =? 9 then 1%nat else 0%nat). intros i x a E Ha [y Hy].
    m_cases E; simpl in Ha; m_gate Hy; rewrite H; simpl; lia.
  - eexists. reflexivity.
  - intros i x E. m_cases E; cbn [g_args g_type]; (split; [auto|]; split; [simpl; lia|]; split; [reflexivity|]); intros a Ha; simpl in Ha; intros [y Hy]; m_gate Hy; lia.
  - intros m S M. unfold m_module in M. apply orb_true_iff in M as [M|M]; apply Z.eqb_eq in M; subst m.
    + assert (U : forall i, ZbddModules.under m_g 8 i -> i = 8 \/ i = 3 \/ i = 4).
      { induction 1 as [|i x a U IH E J]; auto. m_cases E; simpl in J; lia. }
      intros i x a E J Ua. apply U in Ua. m_cases E; simpl in J; try (left; lia); right; constructor.
    + intros i x a E J Ua. right. assert (U12 : ZbddModules.under m_g 12 12) by constructor.
      assert (U10 : ZbddModules.under m_g 12 10) by (apply (under_arg m_g 12 12 (Gate kOr 0 [10; 11]) 10); simpl; auto).
      assert (U11 : ZbddModules.under m_g 12 11) by (apply (under_arg m_g 12 12 (Gate kOr 0 [10; 11]) 11); simpl; auto).
      assert (U9 : ZbddModules.under m_g 12 9) by (apply (under_arg m_g 12 10 (Gate kAnd 0 [9; 5]) 9); simpl; auto).
      assert (U8 : ZbddModules.under m_g 12 8) by (apply (under_arg m_g 12 9 (Gate kOr 0 [2; 8]) 8); simpl; auto).
      m_cases E; auto.
  - reflexivity.
  - intros i x a E C J. m_cases E; simpl in J; try discriminate C; (split; [lia|]); intros [y Hy]; m_gate Hy; try lia; subst a; reflexivity.
  - intros i [y Hy]. m_gate Hy; lia.
  - intros i x a E J N. m_cases E; simpl in J; destruct (Z.eq_dec (Z.abs a) 8) as [K|K]; try (rewrite K in N; discriminate N);
    destruct (Z.eq_dec (Z.abs a) 9) as [K9|K9]; try (rewrite K9 in N; discriminate N); destruct (Z.eq_dec (Z.abs a) 10) as [K0|K0]; try (rewrite K0 in N; discriminate N);
    destruct (Z.eq_dec (Z.abs a) 11) as [K1|K1]; try (rewrite K1 in N; discriminate N); lia.
Qed.
(* a sort *)
Definition place (order : gmap Z Z) (i : Z) := fix go (l : list Z) : list Z :=
  match l with [] => [i] | j :: l' => if default 0 (order !! i) <=? default 0 (order !! j) then i :: l else j :: go l' end.
Definition insertion (order : gmap Z Z) : list Z -> list Z := fold_right (place order) [].
Example insertion_sorts order : sorts_by order (insertion order).
Proof.
  intros l. induction l as [|i l [P S]]; [split; constructor|]. simpl. set (m := insertion order l) in *. clearbody m.
  assert (PP : forall m, Permutation (place order i m) (i :: m)).
  { clear. induction m as [|j m IH]; simpl; auto. destruct (_ <=? _); auto. rewrite IH. constructor. }
  split; [rewrite PP; auto|]. clear P. induction S as [|j m S IH HF]; simpl; [repeat constructor|].
  destruct (Z.leb_spec (default 0 (order !! i)) (default 0 (order !! j))).
  - constructor; [constructor; auto|]. constructor; auto. revert HF. apply List.Forall_impl. intros; lia.
  - constructor; auto. rewrite PP. constructor; [lia|auto].
Qed.
Definition m_order : option (gmap Z Z * gmap Z Z) :=
  s ← topological_order m_g (fun l => l) 10 12; new ← invert_order m_g m_module (insertion s.1) 10 12 s.1; Some (s.1, new).
(* the inner gates 11, 10, 9 come first, each before its arguments *)
Example m_run : match m_order with Some (old, new) => (map (fun i => old !! i) [2; 3; 4; 5; 6; 8; 9; 10; 11; 12], map (fun i => new !! i) [2; 3; 4; 5; 6; 8; 9; 10; 11; 12]) =
    ([Some 4; Some 1; Some 2; Some 6; Some 8; Some 3; Some 5; Some 7; Some 9; Some 10], [Some 7; Some 4; Some 5; Some 9; Some 11; Some 6; Some 3; Some 2; Some 1; Some 13]) | None => False end.
Proof. vm_compute. reflexivity. Qed.
Example m_products limit : limit = 10 \/ limit = 1 ->
  match m_order with Some (old, new) => mocus_products (literal_order new 20) 40 m_g m_module m_coherent limit 7 (fun l => l) (fun _ => 1%nat) 10 100 12 | None => None end =
  Some (if limit =? 10 then [[3; 4]; [2]] else [[2]]).
Proof. intros [-> | ->]; vm_compute; reflexivity. Qed.
Print Assumptions C17_mocus.
Print Assumptions C17_same.
Print Assumptions C17_order.
Print Assumptions C17_pipeline.
Print Assumptions C17_trivial.
