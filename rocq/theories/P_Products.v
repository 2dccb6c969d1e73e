(** C14, C16, C18 for the ZBDD algorithm: the products reported for a normalised graph with
    modules are its minimal cut sets up to the limit, each of them once.
    Vocabulary: [graph], [node_value] (Pdag.v): the graph and the value of a node when the
    variables have given values; [var G g v]: v is a variable below gate g. *)
From stdpp Require Import gmap.
From Coq Require Import List ZArith Lia Bool Permutation.
Import ListNotations.
From Verif Require Import Pdag PdagProofs PdagSem.
From Verif Require Import Zbdd ZbddProofs ZbddGraph ZbddModules ZbddModulesProofs ZbddIter.
Open Scope Z_scope.

Section Products.
Context (G : graph) (root : Z).
(** A set of events below the root, without repetition. *)
Definition events (X : list Z) : Prop := NoDup X /\ forall v, In v X -> var G root v.
(** The root fails when exactly the events of X have failed. *)
Definition cut_set (X : list Z) : Prop := node_value G (fun v => if in_dec Z.eq_dec v X then true else false) root true.
Definition minimal_cut_set (X : list Z) : Prop :=
  events X /\ cut_set X /\ forall Y, events Y -> incl Y X -> cut_set Y -> incl X Y.

(** What the preprocessor leaves: an acyclic graph; below the root and below every module, up to
    the next modules, AND and OR gates of at least two arguments, complements only on
    variables; the gates marked as modules are entered only through their root; a gate marked as
    coherent has no complement below; orders of variables and gates differ. *)
Record prepared (ord : Z -> Z) (top : Z) (module coherent : Z -> bool) : Prop := {
  p_wf : PdagProofs.wf G;
  p_ord : ordering ord;
  p_root : is_Some (gs G !! root);
  p_gates : forall g, is_Some (gs G !! g) -> module g = true \/ g = root -> nnf ord top G module g;
  p_modules : forall m, is_Some (gs G !! m) -> module m = true -> modular G m;
  p_coherent : forall g, is_Some (gs G !! g) -> module g = true \/ g = root -> coherent g = true ->
    forall j, leaf G module g j -> 0 < j /\ (is_module G module j = true -> coherent j = true) }.

Context (ord : Z -> Z) (top : Z) (module coherent : Z -> bool) (parents : Z -> nat) (arrange : list zt -> list zt).
(** The run of the algorithm and the iteration over its result. *)
Definition products (fuel steps : nat) (limit : Z) : option (list (list Z)) :=
  z ← of_graph ord top G module coherent parents arrange fuel root limit;
  z ← analyze ord top z;
  iterate G module limit steps z.

Lemma under_below i : PdagProofs.wf G -> is_Some (gs G !! root) -> under G root i -> 0 < i < nxt G.
Proof.
  intros W [x Ex]. induction 1 as [|i y a U IH E J]; [apply W in Ex; lia|].
  apply W in E as (_ & _ & H). destruct (H a J) as (? & ? & _). lia.
Qed.
Lemma mem_dec X v : mem X v = if in_dec Z.eq_dec v X then true else false.
Proof. destruct (in_dec Z.eq_dec v X) as [I|I]; [apply mem_In; auto|]. destruct (mem X v) eqn:E; auto. apply mem_In in E. contradiction. Qed.

(** The variables below the root are not the constant. *)
Lemma var_not_constant v : prepared ord top module coherent -> var G root v -> 1 < v < nxt G /\ gs G !! v = None.
Proof.
  intros P [U N]. assert (1 <> v).
  { intros <-. inversion U as [E|i x a U' Ex J E].
    - destruct (p_root _ _ _ _ P) as [x Ex]. congruence.
    - assert (H : constant x = false).
      { clear -P U' Ex.
        assert (H : forall i, under G root i -> forall x, gs G !! i = Some x -> exists g, is_Some (gs G !! g) /\ (module g = true \/ g = root) /\ active G module g i).
        { intros k U. induction U as [|k y b U IH E J]; intros w Ew.
          - exists root. split; [eauto|]. split; auto. constructor.
          - destruct (module (Z.abs b)) eqn:M; [exists (Z.abs b); split; [eauto|]; split; auto; constructor|].
            destruct (IH y E) as (g & S & MG & A). exists g. split; auto. split; auto. apply (active_arg G module g k y b); eauto. }
        destruct (H i U' x Ex) as (g & S & MG & A). apply (p_gates _ _ _ _ P g S MG i x Ex A). }
      unfold constant, has in H. apply orb_false_iff in H as [H1 H2].
      assert (HH : existsb (Z.eqb 1) (g_args x) = true \/ existsb (Z.eqb (-1)) (g_args x) = true).
      { destruct (Z.le_gt_cases 0 a); [left|right]; apply existsb_exists; exists a; split; auto; apply Z.eqb_eq; lia. }
      destruct HH; congruence. }
  split; auto. pose proof (under_below v (p_wf _ _ _ _ P) (p_root _ _ _ _ P) U). lia.
Qed.
Lemma cut_label X ν : prepared ord top module coherent -> Pdag.consistent G ν -> (forall v, var G root v -> ν v = mem X v) -> acyclic G ->
  (cut_set X <-> ν root = true).
Proof.
  intros P C H [r R]. split.
  - intros (ν' & C' & H' & T). rewrite <- T.
    assert (E : forall n i, (r i < n)%nat -> under G root i -> ν i = ν' i).
    { induction n as [|n IH]; intros i L U; [lia|]. destruct (gs G !! i) as [x|] eqn:Ex.
      - rewrite (proj2 C _ _ Ex), (proj2 C' _ _ Ex). apply gate_value_ext. intros a Ia.
        destruct (gs G !! Z.abs a) as [y|] eqn:Ey.
        + apply IH; [pose proof (R i x a Ex Ia (ex_intro _ y Ey)); lia|]. apply (under_arg G root i x a); auto.
        + assert (V : var G root (Z.abs a)) by (split; auto; apply (under_arg G root i x a); auto).
          destruct (var_not_constant _ P V) as [B _]. rewrite H by auto. rewrite H' by auto. apply mem_dec.
      - assert (V : var G root i) by (split; auto). destruct (var_not_constant _ P V) as [B _]. rewrite H by auto. rewrite H' by auto. apply mem_dec. }
    apply (E (S (r root))); [lia|constructor].
  - intros T.
    destruct (labelling_exists G r (fun v => if in_dec Z.eq_dec v X then true else false) (p_wf _ _ _ _ P) R) as (ν' & C' & H').
    exists ν'. split; auto. split; auto. rewrite <- T. symmetry.
    assert (E : forall n i, (r i < n)%nat -> under G root i -> ν i = ν' i).
    { induction n as [|n IH]; intros i L U; [lia|]. destruct (gs G !! i) as [x|] eqn:Ex.
      - rewrite (proj2 C _ _ Ex), (proj2 C' _ _ Ex). apply gate_value_ext. intros a Ia.
        destruct (gs G !! Z.abs a) as [y|] eqn:Ey.
        + apply IH; [pose proof (R i x a Ex Ia (ex_intro _ y Ey)); lia|]. apply (under_arg G root i x a); auto.
        + assert (V : var G root (Z.abs a)) by (split; auto; apply (under_arg G root i x a); auto).
          destruct (var_not_constant _ P V) as [B _]. rewrite H by auto. rewrite H' by auto. apply mem_dec.
      - assert (V : var G root i) by (split; auto). destruct (var_not_constant _ P V) as [B _]. rewrite H by auto. rewrite H' by auto. apply mem_dec. }
    apply (E (S (r root))); [lia|constructor].
Qed.

(** ** C14, C16, C18 *)
Theorem C14_zbdd limit : prepared ord top module coherent -> acyclic G -> (forall l, Permutation (arrange l) l) -> 0 <= limit ->
  exists N, forall fuel, (N <= fuel)%nat -> exists M L, (forall steps, (M <= steps)%nat -> products fuel steps limit = Some L) /\
    (* every reported product is a minimal cut set within the limit, written without repetition *)
    (forall P, In P L -> minimal_cut_set P /\ Z.of_nat (length P) <= limit) /\
    (* every minimal cut set within the limit is reported *)
    (forall X, minimal_cut_set X -> Z.of_nat (length X) <= limit -> exists P, In P L /\ forall v, In v P <-> In v X) /\
    (* no product is reported twice *)
    NoDup L /\ (forall P Q, In P L -> In Q L -> incl P Q -> P = Q).
Proof.
  intros P AC ARR LIM. pose proof AC as [r RK]. exists (S (r root)). intros fuel F.
  destruct (build_ok ord top (p_ord _ _ _ _ P) G module coherent parents arrange ARR r RK root) with (fuel := fuel) (g := root) (limit := limit)
    as (z & E & X); auto.
  { intros g [S M]. apply (p_gates _ _ _ _ P g S M). }
  { intros g [S M]. apply (p_coherent _ _ _ _ P g S M). }
  { apply (p_modules _ _ _ _ P). }
  { split; [apply (p_root _ _ _ _ P)|auto]. }
  pose proof (x_clean _ _ _ _ _ _ _ X) as C.
  destruct (iterate_ok G module limit ord top z C LIM) as (M & IT). exists M, (walk G module limit z 0).
  destruct (walk_ok ord top G module coherent parents limit z C) as [_ WK]. specialize (WK 0).
  destruct (p_root _ _ _ _ P) as [x Ex]. pose proof (p_gates _ _ _ _ P root (ex_intro _ x Ex) (or_intror eq_refl) root x Ex (active_root G module root)) as (TY & _).
  split.
  { intros n Ln. unfold products, of_graph. rewrite E. simpl. rewrite Ex. simpl.
    replace (conn_eqb (g_type x) kNull) with false by (destruct TY as [->| ->]; auto). simpl.
    rewrite (analyze_id ord top (p_ord _ _ _ _ P) G module coherent parents z C). simpl. apply IT; auto. }
  assert (EV : forall Q, produces G module z Q -> events Q).
  { intros Q PQ. split; [apply (x_nodup _ _ _ _ _ _ _ X Q PQ)|]. intros v V. apply (x_var _ _ _ _ _ _ _ X Q v PQ V). }
  assert (LAB : forall Y, exists ν, Pdag.consistent G ν /\ forall v, var G root v -> ν v = mem Y v).
  { intros Y. destruct (labelling_exists G r (mem Y) (p_wf _ _ _ _ P) RK) as (ν & Cν & H). exists ν. split; auto.
    intros v V. destruct (var_not_constant v P V) as [B N]. apply H; auto. }
  assert (CUT : forall Q, produces G module z Q -> cut_set Q).
  { intros Q PQ. destruct (LAB Q) as (ν & Cν & H). apply (cut_label Q ν P Cν H AC). apply (x_sound _ _ _ _ _ _ _ X Q ν PQ); auto. exact (proj2 Cν). }
  assert (COV : forall Y, NoDup Y -> Z.of_nat (length Y) <= limit -> cut_set Y -> exists Q, produces G module z Q /\ incl Q Y).
  { intros Y N LY CY. destruct (LAB Y) as (ν & Cν & H). apply (x_complete _ _ _ _ _ _ _ X Y ν); auto; [exact (proj2 Cν)|]. apply (cut_label Y ν P Cν H AC); auto. }
  split; [|split; [|split]].
  - intros Q IQ. apply WK in IQ as [PQ SQ]; [|lia]. split; [|lia]. split; [auto|]. split; [auto|]. intros Y EY IY CY.
    destruct (COV Y (proj1 EY)) as (R & PR & IR); auto.
    { pose proof (NoDup_incl_length (proj1 EY) IY). lia. }
    rewrite <- (x_anti _ _ _ _ _ _ _ X R Q PR PQ); auto. intros v V. auto.
  - intros Y (EY & CY & MY) LY. destruct (COV Y (proj1 EY) LY CY) as (Q & PQ & IQ). exists Q. split.
    + apply WK; [lia|]. split; auto. pose proof (NoDup_incl_length (proj1 (EV Q PQ)) IQ). lia.
    + intros v. split; [apply IQ|apply (MY Q); auto].
  - apply (x_walk _ _ _ _ _ _ _ X limit 0). auto.
  - intros Q R IQ IR I. apply WK in IQ as [PQ _]; [|lia]. apply WK in IR as [PR _]; [|lia]. apply (x_anti _ _ _ _ _ _ _ X Q R PQ PR I).
Qed.

(** The limit is exact: the products found with a limit are those found with a larger one that
    have at most that many literals. *)
Theorem C16_zbdd limit limit' : prepared ord top module coherent -> acyclic G -> (forall l, Permutation (arrange l) l) -> 0 <= limit <= limit' ->
  exists N, forall fuel, (N <= fuel)%nat -> exists M L L', (forall steps, (M <= steps)%nat -> products fuel steps limit = Some L /\ products fuel steps limit' = Some L') /\
    (forall P, In P L -> Z.of_nat (length P) <= limit /\ exists P', In P' L' /\ Permutation P P') /\
    (forall P', In P' L' -> Z.of_nat (length P') <= limit -> exists P, In P L /\ Permutation P P').
Proof.
  intros P AC ARR [L0 L1]. destruct (C14_zbdd limit P AC ARR L0) as (N & H). destruct (C14_zbdd limit' P AC ARR) as (N' & H'); [lia|].
  exists (Nat.max N N'). intros fuel F. destruct (H fuel) as (M & L & E & S1 & C1 & _); [lia|]. destruct (H' fuel) as (M' & L' & E' & S2 & C2 & _); [lia|].
  exists (Nat.max M M'), L, L'. split; [intros n Ln; split; [apply E|apply E']; lia|]. split.
  - intros Q IQ. destruct (S1 Q IQ) as [MQ LQ]. split; auto. destruct (C2 Q MQ) as (Q' & IQ' & EQ); [lia|]. exists Q'. split; auto.
    apply NoDup_Permutation; [apply MQ|apply (S2 Q' IQ')|]. intros v. rewrite EQ. tauto.
  - intros Q IQ LQ. destruct (S2 Q IQ) as [MQ _]. destruct (C1 Q MQ LQ) as (Q' & IQ' & EQ). exists Q'. split; auto.
    apply NoDup_Permutation; [apply (S1 Q' IQ')|apply MQ|]. intros v. apply EQ.
Qed.

(** Trivial graphs: the root passes one event or the constant through. *)
Theorem C14_trivial limit x c : PdagProofs.wf G -> acyclic G -> gs G !! root = Some x -> g_type x = kNull -> g_args x = [c] -> gs G !! Z.abs c = None ->
  ordering ord -> ord c <= top -> 0 <= limit ->
  exists L, (forall fuel steps, (0 < fuel)%nat -> (6 < steps)%nat -> products fuel steps limit = Some L) /\
    (forall P, In P L -> minimal_cut_set P /\ Z.of_nat (length P) <= limit) /\
    (forall X, minimal_cut_set X -> Z.of_nat (length X) <= limit -> exists P, In P L /\ forall v, In v P <-> In v X) /\ NoDup L.
Proof.
  intros W AC Ex Tx Ax Nc ORD TC LIM.
  assert (VAL : forall X, cut_set X <-> (if c <? 0 then negb (Z.eqb c (-1)) && negb (mem X (- c)) else (c =? 1) || mem X c) = true).
  { assert (C0 : c <> 0 /\ Z.abs c < nxt G).
    { pose proof Ex as Ew. apply W in Ew as (_ & _ & H). destruct (H c) as (? & ? & _); [rewrite Ax; simpl; auto|]. lia. }
    intros X. destruct AC as [r R]. destruct (labelling_exists G r (fun v => if in_dec Z.eq_dec v X then true else false) W R) as (ν & C & H).
    assert (V : ν root = if c <? 0 then negb (Z.eqb c (-1)) && negb (mem X (- c)) else (c =? 1) || mem X c).
    { rewrite (proj2 C _ _ Ex). unfold gate_value. rewrite Tx, Ax. simpl. unfold lit. destruct (Z.ltb_spec c 0).
      - destruct (Z.eqb_spec c (-1)) as [->|]; [change (- -1) with 1; rewrite (proj1 C); auto|]. cbn [negb andb]. rewrite H by (try rewrite Z.abs_neq in Nc by lia; auto; lia). rewrite mem_dec. auto.
      - destruct (Z.eqb_spec c 1) as [->|]; [apply (proj1 C)|]. cbn [orb]. rewrite H by (try rewrite Z.abs_eq in Nc by lia; auto; lia). rewrite mem_dec. auto. }
    rewrite <- V. split.
    - intros CS. destruct (node_value_unique G (fun v => if in_dec Z.eq_dec v X then true else false) root true (ν root)); auto.
      + exists r; auto.
      + apply W in Ex. lia.
      + exists ν. auto.
    - intros T. exists ν. auto. }
  assert (UN : constant x = (c =? 1) || (c =? -1)).
  { unfold constant, has. rewrite Ax. cbn [existsb]. rewrite !orb_false_r, (Z.eqb_sym 1), (Z.eqb_sym (-1)). auto. }
  assert (C0 : c <> 0) by (pose proof Ex as Ew; apply W in Ew as (_ & _ & H); apply (H c); rewrite Ax; simpl; auto).
  assert (VR : 0 < c -> c <> 1 -> var G root c).
  { intros Pc _. rewrite Z.abs_eq in Nc by lia. split; auto. rewrite <- (Z.abs_eq c) by lia. apply (under_arg G root root x c); auto; [constructor|rewrite Ax; simpl; auto]. }
  assert (RUN : forall t fuel steps, (0 < fuel)%nat -> (6 < steps)%nat -> of_graph ord top G module coherent parents arrange fuel root limit = Some (Zb t []) ->
    (t = ZE \/ t = ZB \/ t = ZN c ZB ZE /\ 0 < c) -> products fuel steps limit =
      Some (match t with ZE => [] | ZB => [[]] | ZN i _ _ => if limit <=? 0 then [] else [[i]] end)).
  { intros t fuel steps F S E T. unfold products. rewrite E. simpl.
    assert (ET : exists s, minimize ord top t start = Some (t, s)).
    { apply (minimize_id ord top ORD G module coherent); auto.
      - destruct T as [->|[->|[-> _]]]; simpl; auto. repeat split; auto; discriminate.
      - destruct T as [->|[->|[-> _]]]; intros p q; simpl; intuition congruence. }
    destruct ET as (s & ET). rewrite ET. simpl. unfold iterate.
    do 7 (destruct steps as [|steps]; [lia|]).
    destruct T as [->|[->|[-> Pc]]]; [reflexivity|reflexivity|].
    assert (NM : ZbddModules.is_module G module c = false).
    { unfold ZbddModules.is_module, is_gate. rewrite Nc. auto. }
    cbn -[Z.leb Z.of_nat ZbddModules.is_module]. change (Z.of_nat 0) with 0.
    destruct (Z.leb_spec limit 0); [reflexivity|]. rewrite NM. cbn -[Z.leb Z.of_nat ZbddModules.is_module]. reflexivity. }
  assert (OF : forall fuel, (0 < fuel)%nat -> of_graph ord top G module coherent parents arrange fuel root limit =
    Some (Zb (if (c =? 1) || (c =? -1) then if c <? 0 then ZE else ZB else if c <? 0 then ZB else ZN c ZB ZE) [])).
  { intros fuel F. destruct fuel as [|fuel]; [lia|]. unfold of_graph. cbn [build]. rewrite Ex. simpl. rewrite UN, Tx, orb_true_r. simpl. rewrite Ax. simpl.
    replace (is_gate G c) with false by (unfold is_gate; rewrite Nc; auto). destruct ((c =? 1) || (c =? -1)); auto. destruct (c <? 0); auto. }
  assert (NONE : (forall X, ~ cut_set X) -> forall L, L = [] -> (forall P, In P L -> minimal_cut_set P /\ Z.of_nat (length P) <= limit) /\
    (forall X, minimal_cut_set X -> Z.of_nat (length X) <= limit -> exists P, In P L /\ forall v, In v P <-> In v X) /\ NoDup L).
  { intros H L ->. split; [intros Q []|]. split; [|constructor]. intros X (_ & CX & _). elim (H X CX). }
  assert (UNIT : cut_set [] -> forall L, L = [[]] -> (forall P, In P L -> minimal_cut_set P /\ Z.of_nat (length P) <= limit) /\
    (forall X, minimal_cut_set X -> Z.of_nat (length X) <= limit -> exists P, In P L /\ forall v, In v P <-> In v X) /\ NoDup L).
  { assert (EN : events []) by (split; [constructor|intros v []]).
    intros H L ->. split; [|split].
    - intros Q [<-|[]]. split; [|simpl; lia]. split; auto. split; auto. intros Y _ I _ v V. elim V.
    - intros X (_ & _ & MX) _. exists []. split; [simpl; auto|]. intros v. split; [intros []|]. apply (MX []); auto. intros w [].
    - constructor; [intros []|constructor]. }
  destruct ((c =? 1) || (c =? -1)) eqn:EC.
  - destruct (Z.ltb_spec c 0) as [Lc|Lc].
    + exists []. split; [intros fuel steps F S; rewrite (RUN ZE fuel steps F S); auto|]. apply NONE; auto. intros X H. apply VAL in H.
      apply orb_true_iff in EC as [EC|EC]; apply Z.eqb_eq in EC; [lia|]. subst c. discriminate.
    + exists [[]]. split; [intros fuel steps F S; rewrite (RUN ZB fuel steps F S); auto|]. apply UNIT; auto. apply VAL.
      apply orb_true_iff in EC as [EC|EC]; apply Z.eqb_eq in EC; [|lia]. subst c. auto.
  - apply orb_false_iff in EC as [E1 E2]. destruct (Z.ltb_spec c 0) as [Lc|Lc].
    + exists [[]]. split; [intros fuel steps F S; rewrite (RUN ZB fuel steps F S); auto|]. apply UNIT; auto. apply VAL. rewrite E2. auto.
    + exists (if limit <=? 0 then [] else [[c]]). split; [intros fuel steps F S; rewrite (RUN (ZN c ZB ZE) fuel steps F S); auto; right; right; split; auto; lia|].
      apply Z.eqb_neq in E1. assert (CS : forall X, cut_set X <-> In c X).
      { intros X. rewrite VAL. destruct (Z.eqb_spec c 1); [lia|]. simpl. apply mem_In. }
      assert (VC : var G root c) by (apply VR; lia).
      split; [|split].
      * intros Q IQ. destruct (Z.leb_spec limit 0); [destruct IQ|]. destruct IQ as [<-|[]]. split; [|simpl; lia].
        split; [split; [repeat constructor; intros []|intros v [<-|[]]; auto]|]. split; [apply CS; simpl; auto|].
        intros Y _ _ CY v [<-|[]]. apply CS; auto.
      * intros X (EX & CX & MX) LX. apply CS in CX. assert (I : incl X [c]).
        { apply (MX [c]); [split; [repeat constructor; intros []|intros v [<-|[]]; auto]|intros v [<-|[]]; auto|apply CS; simpl; auto]. }
        destruct (Z.leb_spec limit 0) as [LL|LL]; [destruct X; [destruct CX|simpl length in LX; lia]|].
        exists [c]. split; [simpl; auto|]. intros v. split; [intros [<-|[]]; auto|apply I].
      * destruct (limit <=? 0); repeat constructor. intros [].
Qed.
End Products.

(** The iterator, for every diagram with nested modules: it ends, and goes through the expanded
    products within the limit and nothing else. *)
Theorem C18_iteration G module ord top limit z : clean ord top G module z -> 0 <= limit ->
  exists M L, (forall steps, (M <= steps)%nat -> iterate G module limit steps z = Some L) /\
    forall P, In P L <-> produces G module z P /\ Z.of_nat (length P) <= limit.
Proof.
  intros C L0. destruct (iterate_ok G module limit ord top z C L0) as (M & H). exists M, (walk G module limit z 0). split; auto.
  intros P. destruct (walk_ok ord top G module (fun _ => true) (fun _ => O) limit z C) as [_ W]. rewrite (W 0 P L0). split; intros [A B]; split; auto; lia.
Qed.
(** Size, distribution by order and events of the reported products. *)
Theorem C18_container (L : list (list Z)) :
  c_size (store L) = Z.of_nat (length L) /\
  (forall n, (0 < n)%nat -> nth n (c_distribution (store L)) 0 = Z.of_nat (length (List.filter (fun p => Nat.eqb (length p) (S n)) L))) /\
  nth 0 (c_distribution (store L)) 0 = Z.of_nat (length (List.filter (fun p => Nat.leb (length p) 1) L)) /\
  NoDup (c_events (store L)) /\ forall v, In v (c_events (store L)) <-> exists p, In p L /\ (exists i, In i p /\ v = Z.abs i).
Proof.
  destruct (store_from L (Container 0 [] [])) as (S & D & N & E); [constructor|]. unfold store.
  split; [rewrite S; simpl; lia|]. split; [|split; [|split; auto]].
  - intros n P. rewrite D. cbn [c_distribution]. assert (H : nth n [] 0 = 0) by (destruct n; auto). rewrite H, Z.add_0_l. do 2 f_equal. apply List.filter_ext.
    intros p. unfold order_index. destruct p as [|a p]; simpl; [destruct n; [lia|auto]|]. rewrite Nat.sub_0_r, Nat.eqb_sym. auto.
  - rewrite D. cbn [c_distribution nth]. rewrite Z.add_0_l. do 2 f_equal. apply List.filter_ext. intros [|a [|b p]]; auto.
  - intros v. rewrite E. simpl. split; [intros [[]|(p & i & P & I & ->)]; eauto|]. intros (p & P & i & I & ->). right. eauto.
Qed.
(** CountProducts agrees with the iteration without a limit. *)
Theorem C18_count G module ord top z : clean ord top G module z ->
  exists K, forall limit n, n + K <= limit -> 0 <= n -> Z.of_nat (length (walk G module limit z n)) = count_products G module true z.
Proof.
  intros C.
  enough (exists K, 0 <= K /\ forall limit n, n + K <= limit -> 0 <= n -> Z.of_nat (length (walk G module limit z n)) = count_products G module true z /\
    forall Q, In Q (walk G module limit z n) -> Z.of_nat (length Q) <= K) as (K & _ & H) by (exists K; intros limit n A B; apply (H limit n A B)).
  revert z C. fix IH 2. intros z [r mods W A CM PX]. setoid_rewrite walk_eq.
  assert (MK : forall i, lits r i -> is_module G module i = true -> exists z, find_module i mods = Some z /\ exists K, 0 <= K /\
     forall limit n, n + K <= limit -> 0 <= n -> Z.of_nat (length (walk G module limit z n)) = count_products G module true z /\
    forall Q, In Q (walk G module limit z n) -> Z.of_nat (length Q) <= K).
  { intros i L M. destruct (PX i L M) as (z' & F & _). exists z'. split; auto. apply IH. apply (CM i z'). apply find_some; auto. }
  cbn [count_products]. clear PX CM A. revert W MK.
  induction r as [| |i h IHh l IHl]; intros W MK.
  - exists 0. split; [lia|]. intros limit n _ _. split; auto. intros Q [].
  - exists 0. split; [lia|]. intros limit n _ _. split; auto. intros Q [<-|[]]. simpl. lia.
  - destruct IHh as (Kh & Ph & Hh); [apply (wf_high ord top (fun _ => true) _ _ _ W)|intros j J; apply MK, lits_high; auto|].
    destruct IHl as (Kl & Pl & Hl); [apply (wf_low ord top (fun _ => true) _ _ _ W)|intros j J; apply MK, lits_low; auto|].
    destruct (is_module G module i) eqn:M.
    + destruct (MK i) as (z' & F & K & PK & HK); auto.
      { destruct (nonempty ord top h) as (p & P); [apply (wf_high ord top (fun _ => true) _ _ _ W)|apply W|]. exists (i :: p). split; [apply in_fam; eauto|simpl; auto]. }
      exists (1 + K + Kh + Kl). split; [lia|]. intros limit n Ln Pn. cbn [walk_at]. destruct (Z.leb_spec limit n); [lia|]. rewrite M, F. change (true && true) with true. cbv iota.
      assert (FC : match List.find (fun e => i =? fst e) (map (fun e : Z * zbdd => (fst e, count_products G module true (snd e))) mods) with Some (_, c) => c | None => 0 end = count_products G module true z').
      { clear -F. induction mods as [|[j y] q IHq]; simpl in *; [discriminate|]. destruct (i =? j); auto. congruence. }
      rewrite FC. destruct (HK limit n) as [C1 B1]; [lia|lia|]. rewrite <- C1. split.
      * rewrite app_length, Nat2Z.inj_add. f_equal; [|apply Hl; lia]. revert B1. generalize (walk G module limit z' n) as Qs. clear C1.
        induction Qs as [|Q Qs IHQ]; intros B1; auto. cbn [flat_map length]. rewrite app_length, map_length, Nat2Z.inj_add, IHQ by (intros; apply B1; simpl; auto).
        destruct (Hh limit (n + Z.of_nat (length Q))) as [-> _]; [specialize (B1 Q (or_introl eq_refl)); lia|lia|]. rewrite Nat2Z.inj_succ. ring.
      * intros Q IQ. apply in_app_iff in IQ as [IQ|IQ].
        -- apply in_flat_map in IQ as (Q1 & I1 & I2). apply in_map_iff in I2 as (Q2 & <- & I2). rewrite app_length, Nat2Z.inj_add. specialize (B1 Q1 I1).
           destruct (Hh limit (n + Z.of_nat (length Q1))) as [_ B2]; [lia|lia|]. specialize (B2 Q2 I2). lia.
        -- destruct (Hl limit n) as [_ B2]; [lia|lia|]. specialize (B2 Q IQ). lia.
    + exists (1 + Kh + Kl). split; [lia|]. intros limit n Ln Pn. cbn [walk_at]. destruct (Z.leb_spec limit n); [lia|]. rewrite M. change (true && false) with false. cbv iota.
      destruct (Hh limit (n + 1)) as [Ch Bh]; [lia|lia|]. destruct (Hl limit n) as [Cl Bl]; [lia|lia|]. split.
      * rewrite app_length, map_length, Nat2Z.inj_add, Ch, Cl. lia.
      * intros Q IQ. apply in_app_iff in IQ as [IQ|IQ]; [|specialize (Bl Q IQ); lia]. apply in_map_iff in IQ as (Q' & <- & IQ). specialize (Bh Q' IQ). simpl length. lia.
Qed.

(** ** The hypotheses are met by a non-trivial case *)
(* 11 = 9 + 10, 9 = 2 & 8, 10 = 5 & ¬6, module 8 = 3 + 4 *)
Definition ex_g : graph := Graph {[8 := Gate kOr 0 [3; 4]; 9 := Gate kAnd 0 [2; 8]; 10 := Gate kAnd 0 [-6; 5]; 11 := Gate kOr 0 [9; 10]]} 12 [] true.
Definition ex_module (i : Z) : bool := i =? 8.
Definition ex_coherent (i : Z) : bool := (i =? 8) || (i =? 9).
Lemma ex_gates i x : gs ex_g !! i = Some x ->
  (i = 8 /\ x = Gate kOr 0 [3; 4]) \/ (i = 9 /\ x = Gate kAnd 0 [2; 8]) \/ (i = 10 /\ x = Gate kAnd 0 [-6; 5]) \/ (i = 11 /\ x = Gate kOr 0 [9; 10]).
Proof.
  intros E. unfold ex_g in E. cbn [gs] in E.
  do 3 (apply lookup_insert_Some in E as [[<- <-]|[_ E]]; [auto 10|]). apply lookup_singleton_Some in E as [<- <-]. auto 10.
Qed.
Example ex_prepared : prepared ex_g 11 Z.abs 20 ex_module ex_coherent /\ acyclic ex_g.
Proof.
  split; [split|].
  - split; [simpl; lia|]. intros i x E. destruct (ex_gates i x E) as [[-> ->]|[[-> ->]|[[-> ->]|[-> ->]]]]; cbn [g_args nxt ex_g]; (split; [lia|]);
    (split; [repeat (constructor; simpl; [lia|]); constructor|simpl; intros a Ha; lia]).
  - intros i j _ _. lia.
  - eexists. reflexivity.
  - intros g S M i x E A. destruct (ex_gates i x E) as [[-> ->]|[[-> ->]|[[-> ->]|[-> ->]]]]; cbn [g_args g_type]; (split; [auto|]; split; [simpl; lia|]; split; [reflexivity|]);
    intros a Ha; simpl in Ha; (split; [lia|]; split; [lia|]); intros [y Hy]; destruct (ex_gates _ y Hy) as [[Ey _]|[[Ey _]|[[Ey _]|[Ey _]]]]; lia.
  - intros m S M. assert (m = 8) by (unfold ex_module in M; apply Z.eqb_eq in M; auto). subst m.
    assert (U : forall i, under ex_g 8 i -> i = 8 \/ i = 3 \/ i = 4).
    { induction 1 as [|i x a U IH E J]; auto. destruct (ex_gates i x E) as [[-> ->]|[[-> ->]|[[-> ->]|[-> ->]]]]; simpl in J; lia. }
    intros i x a E J Ua. apply U in Ua. destruct (ex_gates i x E) as [[-> ->]|[[-> ->]|[[-> ->]|[-> ->]]]]; simpl in J; try (left; lia); right; constructor.
  - intros g S M C j (i & x & E & A & J & K).
    assert (g = 8) by (unfold ex_module, ex_coherent in *; destruct M as [M|M]; [apply Z.eqb_eq in M; auto|subst g; discriminate]). subst g.
    assert (i = 8).
    { clear -A. induction A as [|i y a A IH E J S M]; auto. subst i. vm_compute in E. injection E as <-. simpl in J. destruct S as [y Ey].
      destruct (ex_gates _ y Ey) as [[X _]|[[X _]|[[X _]|[X _]]]]; lia. }
    subst i. destruct (ex_gates 8 x E) as [[_ ->]|[[X _]|[[X _]|[X _]]]]; try lia. simpl in J. split; [lia|]. intros IM.
    destruct J as [<-|[<-|[]]]; vm_compute in IM; discriminate.
  - exists (fun j => if j =? 11 then 2%nat else if j =? 9 then 1%nat else 0%nat). intros i x a E Ha [y Hy].
    destruct (ex_gates i x E) as [[-> ->]|[[-> ->]|[[-> ->]|[-> ->]]]]; destruct (ex_gates _ y Hy) as [[Ey _]|[[Ey _]|[[Ey _]|[Ey _]]]]; simpl in Ha; rewrite Ey; simpl; lia.
Qed.
Example ex_products : products ex_g 11 Z.abs 20 ex_module ex_coherent (fun _ => 1%nat) (fun l => l) 5 50 10 = Some [[2; 3]; [2; 4]; [5]].
Proof. vm_compute. reflexivity. Qed.
Example ex_products_limit : products ex_g 11 Z.abs 20 ex_module ex_coherent (fun _ => 1%nat) (fun l => l) 5 50 1 = Some [[5]].
Proof. vm_compute. reflexivity. Qed.
(* a single complemented event *)
Example ex_trivial : products (Graph {[3 := Gate kNull 0 [-2]]} 4 [] true) 3 Z.abs 20 ex_module ex_coherent (fun _ => 1%nat) (fun l => l) 5 50 1 = Some [[]].
Proof. vm_compute. reflexivity. Qed.

Print Assumptions C14_zbdd.
Print Assumptions C14_trivial.
Print Assumptions C16_zbdd.
Print Assumptions C18_iteration.
Print Assumptions C18_container.
Print Assumptions C18_count.
