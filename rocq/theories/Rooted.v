(** Rewriting seen from the root: graphs with the same function at the root, and edits that change the
    value of gates the root does not see.  Used for the optimizations that are not local. *)
From stdpp Require Import gmap.
From Coq Require Import Lia Permutation List.
From Verif Require Import Pdag PdagProofs PdagAdd PdagSem PdagKeeps.
Import ListNotations.
Open Scope Z_scope.

(** The graph with root [root'] has the function of the graph with root [root]; the variables are the same. *)
Record same_function (root : Z) (G : graph) (root' : Z) (G' : graph) : Prop := {
  f_wf : wf G';
  f_acyclic : acyclic G';
  f_nxt : nxt G <= nxt G';
  f_root : is_Some (gs G' !! root');
  f_vars : forall j, 1 < j < nxt G' -> (gs G' !! j = None <-> j < nxt G /\ gs G !! j = None);
  f_value : forall σ b, node_value G' σ root' b <-> node_value G σ root b }.

Lemma same_refl root G : wf G -> acyclic G -> is_Some (gs G !! root) -> same_function root G root G.
Proof. intros W A H. constructor; [auto|auto|lia|auto| |intros; tauto]. intros j L. split; [intros N; split; [lia|auto]|tauto]. Qed.
Lemma same_trans r1 G1 r2 G2 r3 G3 : wf G1 -> same_function r1 G1 r2 G2 -> same_function r2 G2 r3 G3 -> same_function r1 G1 r3 G3.
Proof.
  intros W A B. pose proof (f_nxt _ _ _ _ A). pose proof (f_nxt _ _ _ _ B). constructor; try apply B; [lia| |].
  - intros j L. rewrite (f_vars _ _ _ _ B) by auto. split; intros [L1 N].
    + apply (f_vars _ _ _ _ A) in N; auto. lia.
    + split; [lia|]. apply (f_vars _ _ _ _ A); [lia|auto].
  - intros σ b. rewrite (f_value _ _ _ _ B). apply A.
Qed.
Lemma keeps_vars G G' : keeps G G' -> forall j, 1 < j < nxt G' -> (gs G' !! j = None <-> j < nxt G /\ gs G !! j = None).
Proof.
  intros K j L. destruct (Z.lt_ge_cases j (nxt G)) as [L1|L1]; [rewrite (k_vars _ _ K) by lia; tauto|]. destruct (k_fresh _ _ K j ltac:(lia)) as [x E]. split; [congruence|lia].
Qed.
Lemma keeps_same_function root G G' : wf G -> acyclic G -> is_Some (gs G !! root) -> keeps G G' -> same_function root G root G'.
Proof.
  intros W A [x E] K. assert (L : 1 < root < nxt G) by (apply W in E; lia). constructor; [apply K|apply K; auto|apply K| | |].
  - destruct (gs G' !! root) as [y|] eqn:Q; [now exists y|]. apply (k_vars _ _ K) in Q; auto. congruence.
  - apply keeps_vars. auto.
  - intros σ b. apply keeps_value; auto. lia.
Qed.

(** It is enough to compare labellings that agree on the variables. *)
Lemma same_intro root G root' G' : wf G -> acyclic G -> wf G' -> acyclic G' -> nxt G <= nxt G' -> is_Some (gs G !! root) -> is_Some (gs G' !! root') ->
  (forall j, 1 < j < nxt G' -> (gs G' !! j = None <-> j < nxt G /\ gs G !! j = None)) ->
  (forall ν μ, consistent G ν -> consistent G' μ -> (forall j, 1 < j < nxt G -> gs G !! j = None -> μ j = ν j) -> μ root' = ν root) ->
  same_function root G root' G'.
Proof.
  intros W A W' A' LN Sr Sr' HV H. constructor; auto. assert (LR : 0 < root < nxt G) by (destruct Sr as [x E]; apply W in E; lia). assert (LR' : 0 < root' < nxt G') by (destruct Sr' as [x E]; apply W' in E; lia).
  assert (F : forall σ b, node_value G σ root b -> node_value G' σ root' b).
  { intros σ b (ν & Cν & Vν & Rν). destruct A' as [r' R']. destruct (labelling_exists G' r' σ W' R') as (μ & Cμ & Vμ). exists μ. split; [auto|]. split; [auto|]. rewrite <- Rν. apply H; auto.
    intros j L N. rewrite Vν by auto. apply Vμ; [lia|]. apply HV; [lia|]. split; [lia|auto]. }
  intros σ b. split; [|apply F]. intros H1. destruct (node_value_total G σ root W A) as (b0 & H0). pose proof (F σ b0 H0) as H2. rewrite (node_value_unique G' σ root' _ _ W' A' LR' H2 H1). auto.
Qed.

(** ** Reachability *)
Inductive reach (G : graph) (i : Z) : Z -> Prop :=
| reach_refl : reach G i i
| reach_arg j x a : reach G i j -> gs G !! j = Some x -> In a (g_args x) -> reach G i (Z.abs a).
Lemma reach_trans G i j k : reach G i j -> reach G j k -> reach G i k.
Proof. intros A. induction 1 as [|k x a H1 IH H2 H3]; auto. eapply reach_arg; eauto. Qed.
Lemma reach_rank G r i j : ranked G r -> reach G i j -> is_Some (gs G !! j) -> i = j \/ (r j < r i)%nat.
Proof. intros R. induction 1 as [|k x a H1 IH H2 H3]; intros H; auto. right. pose proof (R k x a H2 H3 H). destruct IH as [->|]; eauto; lia. Qed.

(** Edits of one gate without fresh gates. *)
Definition edits (G G' : graph) (i : Z) (x : gate) (P : (Z -> bool) -> bool) : Prop :=
  exists x', gs G' = <[i := x']> (gs G) /\ nxt G' = nxt G /\ args_ok (nxt G) (g_args x') /\
    (forall b, In b (g_args x') -> In b (g_args x) \/ Z.abs b = 1) /\ forall ν, ν 1 = true -> P ν = gate_value ν x'.
Lemma edits_intro G G' i x x' P : gs G' = <[i := x']> (gs G) -> nxt G' = nxt G -> args_ok (nxt G) (g_args x') ->
  (forall b, In b (g_args x') -> In b (g_args x) \/ Z.abs b = 1) -> (forall ν, ν 1 = true -> P ν = gate_value ν x') -> edits G G' i x P.
Proof. intros. exists x'. auto. Qed.
Lemma make_constant_edits i (s : bool) G G' x P : wf G -> make_constant i s G = Some G' ->
  (forall ν, ν 1 = true -> P ν = s) -> edits G G' i x P.
Proof.
  intros W H HP. apply make_constant_spec in H as (y & E & _ & HG & Hn).
  eapply edits_intro; eauto; simpl.
  - destruct W as [W0 _]. destruct s; apply args_ok_single; lia.
  - intros b [<-|[]]. right. destruct s; reflexivity.
  - intros ν H1. etransitivity; [now apply HP|]. unfold gate_value; simpl. symmetry. now apply const_value.
Qed.
Lemma set_type_edits i t G G' x P : wf G -> set_type i t G = Some G' -> gs G !! i = Some x ->
  (forall ν, ν 1 = true -> P ν = conn_value t (g_min x) (map (lit ν) (g_args x))) -> edits G G' i x P.
Proof.
  intros W H Ex HP. apply set_type_spec in H as (y & E & HG & Hn). rewrite E in Ex. injection Ex as ->.
  eapply edits_intro; eauto; simpl; auto. apply W in E. apply E.
Qed.
Lemma reduce_logic_edits i t m G G' x P : wf G -> reduce_logic i t m G = Some G' -> gs G !! i = Some x ->
  (forall ν, ν 1 = true -> P ν = gate_value ν x) ->
  (size (g_args x) = m -> forall ν, ν 1 = true -> P ν = conn_value t (g_min x) (map (lit ν) (g_args x))) -> edits G G' i x P.
Proof.
  intros W H Ex H1 H2. unfold reduce_logic in H. rewrite Ex in H. cbn [mbind option_bind] in H.
  destruct (g_args x) eqn:Ea; [discriminate|]. rewrite <- Ea in *.
  destruct (Z.eqb_spec (size (g_args x)) m) as [Em|_].
  - eapply set_type_edits; eauto.
  - injection H as <-. eapply edits_intro with (x' := x); auto; [now rewrite insert_id|]. apply W in Ex. apply Ex.
Qed.
Lemma add_constant_edits i (s : bool) G G' x : wf G -> gs G !! i = Some x ->
  (g_type x = kNot \/ g_type x = kNull -> g_args x = []) ->
  add_constant_arg i s G = Some G' -> edits G G' i x (plus x (if s then 1 else -1)).
Proof.
  intros W Ex H0 H. unfold add_constant_arg in H. rewrite Ex in H. cbn [mbind option_bind] in H.
  unfold plus.
  destruct s.
  - destruct (g_type x) eqn:Et.
    + eapply reduce_logic_edits; eauto.
      * intros ν H1. unfold gate_value. rewrite Et. cst H1.
      * intros Hs ν H1. apply size1 in Hs as (b & ->). cst H1.
    + eapply make_constant_edits; eauto; intros ν H1; cst H1.
    + destruct ((size (g_args x) <? 2) || (g_min x <=? 0)) eqn:Eg; [discriminate|].
      unfold set_min in H. rewrite Ex in H. cbn [mbind option_bind] in H.
      assert (HP : forall ν, ν 1 = true -> conn_value kAtleast (g_min x) (lit ν 1 :: map (lit ν) (g_args x))
                  = conn_value kAtleast (g_min x - 1) (map (lit ν) (g_args x))).
      { intros ν H1. cst H1. rewrite count_cons. vbool. }
      assert (Ha : args_ok (nxt G) (g_args x)) by (apply W in Ex; apply Ex).
      destruct (Z.eqb_spec (g_min x - 1) 1) as [Em|Em].
      * apply set_type_spec in H as (y & E & HG & Hn). simpl in E, HG. rewrite lookup_insert in E.
        injection E as <-. simpl in HG. rewrite insert_insert in HG.
        eapply edits_intro; eauto; simpl; auto. intros ν H1. etransitivity; [now apply HP|].
        unfold gate_value; simpl. rewrite existsb_count, Em. reflexivity.
      * injection H as <-. eapply edits_intro with (x' := with_min x (g_min x - 1)); [reflexivity|reflexivity|exact Ha|simpl; auto|].
        intros ν H1. etransitivity; [now apply HP|]. unfold gate_value; simpl. now rewrite Et.
    + destruct (Z.eqb_spec (size (g_args x)) 1) as [Hs|]; [|discriminate].
      eapply set_type_edits; eauto. intros ν H1. apply size1 in Hs as (b & ->). cst H1.
      unfold count; simpl. now destruct (lit ν b).
    + rewrite H0 by auto. eapply make_constant_edits; eauto; intros ν H1; cst H1.
    + eapply reduce_logic_edits; eauto.
      * intros ν H1. unfold gate_value. rewrite Et. cst H1.
      * intros Hs ν H1. apply size1 in Hs as (b & ->). cst H1.
    + eapply make_constant_edits; eauto; intros ν H1; cst H1.
    + rewrite H0 by auto. eapply make_constant_edits; eauto; intros ν H1; cst H1.
  - destruct (g_type x) eqn:Et.
    + eapply make_constant_edits; eauto; intros ν H1; cst H1.
    + eapply reduce_logic_edits; eauto.
      * intros ν H1. unfold gate_value. rewrite Et. cst H1.
      * intros Hs ν H1. apply size1 in Hs as (b & ->). cst H1.
    + destruct (size (g_args x) <? 2) eqn:Eg; [discriminate|].
      assert (HP : forall ν, ν 1 = true -> conn_value kAtleast (g_min x) (lit ν (-1) :: map (lit ν) (g_args x))
                  = conn_value kAtleast (g_min x) (map (lit ν) (g_args x))).
      { intros ν H1. cst H1. }
      eapply reduce_logic_edits; eauto.
      * intros ν H1. etransitivity; [now apply HP|]. unfold gate_value. now rewrite Et.
      * intros Hs ν H1. etransitivity; [now apply HP|]. simpl. rewrite forallb_count, size_map, Hs. reflexivity.
    + destruct (Z.eqb_spec (size (g_args x)) 1) as [Hs|]; [|discriminate].
      eapply set_type_edits; eauto. intros ν H1. apply size1 in Hs as (b & ->). cst H1.
      unfold count; simpl. now destruct (lit ν b).
    + rewrite H0 by auto. eapply make_constant_edits; eauto; intros ν H1; cst H1.
    + eapply make_constant_edits; eauto; intros ν H1; cst H1.
    + eapply reduce_logic_edits; eauto.
      * intros ν H1. unfold gate_value. rewrite Et. cst H1.
      * intros Hs ν H1. apply size1 in Hs as (b & ->). cst H1.
    + rewrite H0 by auto. eapply make_constant_edits; eauto; intros ν H1; cst H1.
Qed.


(** ProcessConstantArg: the gate reads the node as the constant. *)
Definition fixed (ν : Z -> bool) (n : Z) (s : bool) : Z -> bool := fun j => if j =? n then s else ν j.
Lemma constant_edits i n s G G' x : wf G -> gs G !! i = Some x -> 1 < n -> (In n (g_args x) \/ In (- n) (g_args x)) ->
  (g_type x = kNot \/ g_type x = kNull -> length (g_args x) <= 1)%nat ->
  process_constant_arg i n s G = Some G' ->
  exists x', gs G' = <[i := x']> (gs G) /\ nxt G' = nxt G /\ args_ok (nxt G) (g_args x') /\
    (forall b, In b (g_args x') -> (In b (g_args x) /\ Z.abs b <> n) \/ Z.abs b = 1) /\ forall ν, ν 1 = true -> gate_value ν x' = gate_value (fixed ν n s) x.
Proof.
  intros W Ex Hn Hin Har H. unfold process_constant_arg in H. rewrite Ex in H. cbn [mbind option_bind] in H.
  set (a := if has n (g_args x) then n else - n) in *.
  assert (Ha : In a (g_args x) /\ (a = n \/ a = - n)).
  { unfold a. destruct (has n (g_args x)) eqn:E; [apply has_In in E; auto|].
    apply has_false in E. destruct Hin as [|]; [contradiction|auto]. }
  destruct Ha as [Hia Hag]. set (s' := if a <? 0 then negb s else s) in *.
  apply bind_inv in H as (G1 & E1 & H). apply erase_arg_inv in E1 as (x0 & Ex0 & _ & HG1 & N1).
  rewrite Ex in Ex0. injection Ex0 as <-.
  assert (Hok : args_ok (nxt G) (g_args x)) by (now apply W in Ex).
  set (x1 := with_args x (set_erase a (g_args x))) in *.
  assert (Hperm : Permutation (g_args x) (a :: g_args x1)) by (apply set_erase_perm; auto; apply Hok).
  assert (Hlen : length (g_args x) = S (length (g_args x1))) by (rewrite (Permutation_length Hperm); auto).
  assert (W1 : wf G1).
  { split; [destruct W; lia|]. intros j z Ez. rewrite HG1 in Ez. rewrite N1. destruct (Z.eq_dec j i) as [->|J].
    - rewrite lookup_insert in Ez. injection Ez as <-. split; [now apply W in Ex|]. now apply args_ok_erase.
    - rewrite lookup_insert_ne in Ez by auto. now apply W. }
  assert (C : edits G1 G' i x1 (plus x1 (if s' then 1 else -1))).
  { apply add_constant_edits; auto; [now rewrite HG1, lookup_insert|].
    intros T. specialize (Har T). destruct (g_args x1); [auto|simpl in Hlen; lia]. }
  assert (Other : forall c, In c (g_args x1) -> In c (g_args x) /\ Z.abs c <> n).
  { intros c Hc. apply set_erase_In in Hc as [Hc Hca]. split; [auto|]. intros E. destruct (proj2 Hok c Hc) as (_ & _ & Hno). apply Hno. replace (- c) with a by lia. auto. }
  destruct C as (x' & C1 & C2 & C3 & C4 & C5). exists x'. rewrite HG1, insert_insert in C1. rewrite N1 in *. split; [auto|]. split; [auto|]. split; [auto|]. split.
  - intros b Hb. destruct (C4 b Hb) as [|]; auto.
  - intros ν H1. rewrite <- C5 by auto. unfold plus, gate_value. cbn [g_type g_min with_args x1].
    rewrite (value_perm _ (g_type x) _ _ _ Hperm). cbn [map]. f_equal. f_equal.
    + rewrite const_value by auto. unfold s', lit, fixed. destruct (Z.ltb_spec a 0).
      * destruct (Z.eqb_spec (- a) n); [auto|lia].
      * destruct (Z.eqb_spec a n); [auto|lia].
    + apply map_ext_in. intros c Hc'. destruct (Other c Hc') as [_ N]. rewrite !lit_abs. unfold fixed.
      destruct (Z.eqb_spec (Z.abs c) n) as [E|]; auto. contradiction.
Qed.

(** NOT and NULL gates have at most one argument; kept. *)
Definition arity (x : gate) : Prop := (g_type x = kNot \/ g_type x = kNull -> length (g_args x) <= 1)%nat.
Lemma set_type_arity i t G G' x x' : gs G !! i = Some x -> set_type i t G = Some G' -> gs G' !! i = Some x' ->
  ((t = kNot \/ t = kNull) -> size (g_args x) <= 1) -> arity x'.
Proof. intros E H E' A. apply set_type_spec in H as (y & Ey & HG & _). rewrite HG, lookup_insert in E'. injection E' as <-. rewrite E in Ey. injection Ey as <-. intros T. cbn in *. apply A in T. unfold size in T. lia. Qed.
Lemma make_constant_arity i s G G' x' : make_constant i s G = Some G' -> gs G' !! i = Some x' -> arity x'.
Proof. intros H E'. apply make_constant_spec in H as (y & Ey & _ & HG & _). rewrite HG, lookup_insert in E'. injection E' as <-. intros _. cbn. lia. Qed.
Lemma reduce_logic_arity i t m G G' x x' : gs G !! i = Some x -> arity x -> reduce_logic i t m G = Some G' -> gs G' !! i = Some x' ->
  ((t = kNot \/ t = kNull) -> m <= 1) -> arity x'.
Proof.
  intros E A H E' T. unfold reduce_logic in H. rewrite E in H. cbn [mbind option_bind] in H. destruct (g_args x) eqn:Ea; [discriminate|]. rewrite <- Ea in *.
  destruct (Z.eqb_spec (size (g_args x)) m) as [Em|_]; [|injection H as <-; rewrite E in E'; injection E' as <-; auto]. eapply set_type_arity; [exact E|exact H|exact E'|]. intros Q. apply T in Q. lia.
Qed.
Lemma add_constant_arity i s G G' x x' : gs G !! i = Some x -> arity x -> add_constant_arg i s G = Some G' -> gs G' !! i = Some x' -> arity x'.
Proof.
  intros E A H E'. unfold add_constant_arg in H. rewrite E in H. cbn [mbind option_bind] in H.
  assert (Q : forall t, t <> kNot -> t <> kNull -> (t = kNot \/ t = kNull) -> forall m, m <= 1) by (intros t ? ? [|]; contradiction).
  destruct s; destruct (g_type x) eqn:T; try (eapply make_constant_arity; now eauto); try (eapply reduce_logic_arity; [exact E|exact A|exact H|exact E'|intros _; lia]).
  - destruct (_ || _); [discriminate|]. unfold set_min in H. rewrite E in H. cbn [mbind option_bind] in H. destruct (_ =? 1).
    + eapply set_type_arity; [|exact H|exact E'|intros [?|?]; discriminate]. cbn. apply lookup_insert.
    + injection H as <-. cbn in E'. rewrite lookup_insert in E'. injection E' as <-. unfold arity. cbn. rewrite T. intros [?|?]; discriminate.
  - destruct (Z.eqb_spec (size (g_args x)) 1); [|discriminate]. eapply set_type_arity; [exact E|exact H|exact E'|intros _; lia].
  - destruct (_ <? 2); [discriminate|]. eapply reduce_logic_arity; [exact E|exact A|exact H|exact E'|intros [?|?]; discriminate].
  - destruct (Z.eqb_spec (size (g_args x)) 1); [|discriminate]. eapply set_type_arity; [exact E|exact H|exact E'|intros _; lia].
Qed.
Lemma process_constant_arity i n s G G' x x' : gs G !! i = Some x -> arity x -> process_constant_arg i n s G = Some G' -> gs G' !! i = Some x' -> arity x'.
Proof.
  intros E A H E'. unfold process_constant_arg in H. rewrite E in H. cbn [mbind option_bind] in H. apply bind_inv in H as (G1 & E1 & H). apply erase_arg_inv in E1 as (x0 & Ex0 & _ & HG1 & N1). rewrite E in Ex0. injection Ex0 as <-.
  eapply add_constant_arity; [rewrite HG1; apply lookup_insert| |exact H|exact E']. intros T. cbn in *. specialize (A T). etransitivity; [|exact A]. generalize (if has n (g_args x) then n else - n). clear. intros c0. unfold set_erase. induction (g_args x) as [|c l IH]; cbn; [lia|]. destruct (negb _); cbn; lia.
Qed.

(** ** Decomposition: a node is fixed below a gate that it controls *)
Inductive reach_avoid (G : graph) (P i : Z) : Z -> Prop :=
| avoid_refl : i <> P -> reach_avoid G P i i
| avoid_arg j x a : reach_avoid G P i j -> gs G !! j = Some x -> In a (g_args x) -> Z.abs a <> P -> reach_avoid G P i (Z.abs a).
(** Every path from [root] to [y] meets [P]. *)
Definition dominates (G : graph) (root P y : Z) : Prop := ~ reach_avoid G P root y.
(** If the node does not have the value [s], the gate has the same value whatever its other arguments are. *)
Definition controls (x : gate) (n : Z) (s : bool) : Prop :=
  (g_type x = kAnd \/ g_type x = kNand) /\ In (if s then n else - n) (g_args x) \/
  (g_type x = kOr \/ g_type x = kNor) /\ In (if s then - n else n) (g_args x).
Lemma controls_value x n s ν μ : controls x n s -> 0 < n -> ν n = negb s -> μ n = negb s -> gate_value ν x = gate_value μ x.
Proof.
  intros C L A B.
  assert (L1 : forall f : Z -> bool, f n = negb s -> lit f (if s then n else - n) = false /\ lit f (if s then - n else n) = true).
  { intros f E. destruct s; unfold lit; destruct (Z.ltb_spec n 0); try lia; destruct (Z.ltb_spec (- n) 0); try lia; rewrite ?Z.opp_involutive, E; auto. }
  assert (FA : forall f (l : list bool), In false l -> f = forallb (fun b : bool => b) l -> f = false) by (intros f l I ->; apply not_true_iff_false; rewrite forallb_forall; intros Q; discriminate (Q false I)).
  assert (EX : forall f (l : list bool), In true l -> f = existsb (fun b : bool => b) l -> f = true) by (intros f l I ->; apply existsb_exists; eauto).
  assert (IM : forall f : Z -> bool, f n = negb s -> forall b, In b (g_args x) -> In (lit f b) (map (lit f) (g_args x))) by (intros; now apply in_map).
  destruct (L1 ν A) as [V1 V2]. destruct (L1 μ B) as [M1 M2]. pose proof (IM ν A) as I1. pose proof (IM μ B) as I2. unfold gate_value.
  destruct C as [[[-> | ->] I]|[[-> | ->] I]]; specialize (I1 _ I); specialize (I2 _ I); rewrite ?V1, ?V2, ?M1, ?M2 in *; cbn [conn_value].
  - rewrite (FA _ _ I1 eq_refl), (FA _ _ I2 eq_refl). auto.
  - rewrite (FA _ _ I1 eq_refl), (FA _ _ I2 eq_refl). auto.
  - rewrite (EX _ _ I1 eq_refl), (EX _ _ I2 eq_refl). auto.
  - rewrite (EX _ _ I1 eq_refl), (EX _ _ I2 eq_refl). auto.
Qed.

(** A gate edited in place: well-formedness. *)
Lemma put_wf G G' i x x' : wf G -> gs G !! i = Some x -> gs G' = <[i := x']> (gs G) -> nxt G' = nxt G -> args_ok (nxt G) (g_args x') -> wf G'.
Proof.
  intros W E HG N A. split; [rewrite N; apply W|]. intros j y Ey. rewrite N. rewrite HG in Ey. destruct (decide (i = j)) as [<-|J]; [rewrite lookup_insert in Ey; injection Ey as <-; split; auto; now apply W in E|].
  rewrite lookup_insert_ne in Ey by auto. apply W. auto.
Qed.
Lemma put_gates G G' (i : Z) (x x' : gate) : gs G !! i = Some x -> gs G' = <[i := x']> (gs G) -> forall j, is_Some (gs G' !! j) <-> is_Some (gs G !! j).
Proof. intros E HG j. rewrite HG. destruct (decide (i = j)) as [<-|J]; [rewrite lookup_insert, E; split; eauto|rewrite lookup_insert_ne by auto; tauto]. Qed.
Lemma put_ranked G G' i x x' r : wf G -> gs G !! i = Some x -> gs G' = <[i := x']> (gs G) -> (forall b, In b (g_args x') -> In b (g_args x) \/ Z.abs b = 1) -> ranked G r -> ranked G' r.
Proof.
  intros W E HG S R j y a Ey Ia Sa. pose proof (proj1 (put_gates G G' i x x' E HG _) Sa) as Sa'. rewrite HG in Ey. destruct (decide (i = j)) as [<-|J]; [|rewrite lookup_insert_ne in Ey by auto; eapply R; eauto].
  rewrite lookup_insert in Ey. injection Ey as <-. destruct (S a Ia) as [I|I]; [eapply R; eauto|]. rewrite I in Sa'. destruct Sa' as [z Ez]. apply W in Ez. lia.
Qed.
Lemma node_apart G r j n y : ranked G r -> gs G !! j = Some y -> (In n (g_args y) \/ In (- n) (g_args y)) -> 0 < n -> ~ reach G n j.
Proof.
  intros R E I L H. destruct (gs G !! n) as [z|] eqn:Ez.
  - assert (r n < r j)%nat by (destruct I as [I|I]; [replace n with (Z.abs n) by lia; eapply R; eauto; rewrite Z.abs_eq by lia; eauto|replace n with (Z.abs (- n)) by lia; eapply R; eauto; rewrite Z.abs_neq by lia; rewrite Z.opp_involutive; eauto]).
    destruct (reach_rank G r n j R H ltac:(eauto)) as [->|]; lia.
  - assert (X : forall k, reach G n k -> k = n) by (induction 1 as [|k x a H1 IH H2 H3]; auto; subst k; congruence). apply X in H. subst j. congruence.
Qed.

Lemma decompose_step root G P xP n s Y y G' : wf G -> acyclic G -> is_Some (gs G !! root) -> gs G !! P = Some xP -> controls xP n s ->
  gs G !! Y = Some y -> Y <> P -> 1 < n -> (In n (g_args y) \/ In (- n) (g_args y)) -> arity y -> dominates G root P Y ->
  process_constant_arg Y n s G = Some G' -> same_function root G root G'.
Proof.
  intros W [r R] Sr EP CP EY NP Ln In_ Ay D H. destruct (constant_edits Y n s G G' y W EY Ln In_ Ay H) as (y' & HG & HN & OK & SUB & SEM). clear H.
  assert (SM := put_gates G G' Y y y' EY HG). assert (SUB' : forall b, In b (g_args y') -> In b (g_args y) \/ Z.abs b = 1) by (intros b Hb; destruct (SUB b Hb) as [[? _]|]; auto).
  assert (R' : ranked G' r) by (eapply put_ranked; eauto).
  apply same_intro; auto; [exists r; auto|eapply put_wf; eauto|exists r; auto|lia|apply SM; auto| |].
  { intros j L. rewrite HN in L. split; [intros Q; split; [lia|]|intros [_ Q]]; apply eq_None_not_Some; intros S; apply SM in S; rewrite Q in S; destruct S; discriminate. }
  intros ν μ [N1 Cν] [M1 Cμ] V.
  assert (VAR : forall i x a, gs G !! i = Some x -> In a (g_args x) -> gs G !! Z.abs a = None -> μ (Z.abs a) = ν (Z.abs a)).
  { intros i x a E Ia Na. destruct (proj2 W i x E) as [_ [_ Q]]. destruct (Q a Ia) as (Q1 & Q2 & _). destruct (Z.eq_dec (Z.abs a) 1) as [->|]; [congruence|]. apply V; auto. lia. }
  (* nodes that do not depend on Y *)
  assert (I1 : forall k j, (r j < k)%nat -> ~ reach G j Y -> is_Some (gs G !! j) -> μ j = ν j).
  { induction k as [|k IH]; intros j L NR [x E]; [lia|]. rewrite (Cν j x E). assert (NY : j <> Y) by (intros ->; apply NR; constructor). rewrite (Cμ j x) by (rewrite HG, lookup_insert_ne; auto). apply gate_value_ext. intros a Ia.
    destruct (gs G !! Z.abs a) as [z|] eqn:Ea; [|eapply VAR; eauto]. apply IH; eauto; [assert (r (Z.abs a) < r j)%nat by (eapply R; eauto); lia|]. intros Q. apply NR. eapply reach_trans; [eapply reach_arg; [constructor|eauto|eauto]|auto]. }
  assert (Nn : ~ reach G n Y) by (eapply node_apart; eauto; lia).
  assert (VN : μ n = ν n).
  { destruct (gs G !! n) as [z|] eqn:Ez; [eapply I1; eauto|]. destruct In_ as [Q|Q]; [pose proof (VAR Y y n EY Q) as X|pose proof (VAR Y y (- n) EY Q) as X; rewrite Z.abs_opp in X]; rewrite Z.abs_eq in X by lia; auto. }
  destruct (bool_dec (ν n) s) as [Q|Q].
  - (* the node has the value: nothing changes *)
    assert (I2 : forall k j, (r j < k)%nat -> is_Some (gs G !! j) -> μ j = ν j).
    { induction k as [|k IH]; intros j L [x E]; [lia|]. rewrite (Cν j x E). assert (AR : forall a, In a (g_args x) -> μ (Z.abs a) = ν (Z.abs a)) by (intros a Ia; destruct (gs G !! Z.abs a) as [z|] eqn:Ea; [apply IH; eauto; assert (r (Z.abs a) < r j)%nat by (eapply R; eauto); lia|eapply VAR; eauto]).
      destruct (decide (Y = j)) as [<-|NY]; [|rewrite (Cμ j x) by (rewrite HG, lookup_insert_ne; auto); apply gate_value_ext; auto]. rewrite (Cμ Y y') by (rewrite HG; apply lookup_insert). rewrite EY in E. injection E as <-. rewrite SEM by auto. apply gate_value_ext. intros a Ia. unfold fixed. destruct (Z.eqb_spec (Z.abs a) n) as [->|]; auto. }
    destruct Sr as [x E]. apply (I2 (S (r root))); eauto.
  - (* P has its value from the node alone *)
    assert (VP : μ P = ν P) by (rewrite (Cν P xP EP), (Cμ P xP) by (rewrite HG, lookup_insert_ne; auto); apply (controls_value xP n s); auto; [lia| |]; [rewrite VN|]; destruct (ν n), s; try discriminate; auto; contradiction).
    assert (I3 : forall k j, (r j < k)%nat -> j = P \/ reach_avoid G P root j -> is_Some (gs G !! j) -> μ j = ν j).
    { induction k as [|k IH]; intros j L [->|RA] [x E]; [lia|lia|auto|]. rewrite (Cν j x E). assert (NY : Y <> j) by (intros <-; auto). rewrite (Cμ j x) by (rewrite HG, lookup_insert_ne; auto). apply gate_value_ext. intros a Ia.
      destruct (gs G !! Z.abs a) as [z|] eqn:Ea; [|eapply VAR; eauto]. apply IH; eauto; [assert (r (Z.abs a) < r j)%nat by (eapply R; eauto); lia|]. destruct (Z.eq_dec (Z.abs a) P); auto. right. eapply avoid_arg; eauto. }
    destruct Sr as [x E]. apply (I3 (S (r root))); eauto. destruct (Z.eq_dec root P); auto. right. constructor. auto.
Qed.
(** Dominance is kept when arguments go. *)
Lemma dominates_mono G G' root P y : (forall j x a, gs G' !! j = Some x -> In a (g_args x) -> 1 < Z.abs a -> exists x0, gs G !! j = Some x0 /\ In a (g_args x0)) ->
  1 < y -> dominates G root P y -> wf G' -> dominates G' root P y.
Proof.
  intros S Ly D W' H. apply D. clear D. induction H as [|j x a H IH E Ia N]; [constructor; auto|]. destruct (S j x a E Ia Ly) as (x0 & E0 & I0). eapply avoid_arg; eauto. apply IH. apply W' in E. lia.
Qed.
