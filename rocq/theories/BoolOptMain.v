(** Boolean optimization: the graph built and its function. *)
From stdpp Require Import gmap.
From Coq Require Import Lia Permutation List.
From Verif Require Import Pdag PdagProofs PdagAdd PdagSem PdagKeeps Preproc Decompose Rooted BoolOpt BoolOptProofs BoolOptEdits.
Import ListNotations.
Open Scope Z_scope.

(** The forced value: the destination is true (false) if the node is true. *)
Definition force (v : Z) (node b : bool) : bool := if v =? 1 then node || b else negb node && b.
Lemma arg_in_abs (x : gate) a : In a (g_args x) -> arg_in (Z.abs a) x.
Proof. intros I. unfold arg_in. destruct (Z.abs_eq_or_opp a) as [E|E]; rewrite E; auto. right. now rewrite Z.opp_involutive. Qed.
Section Built.
Context (G : graph) (root n : Z) (V : optis) (r : Z -> nat) (Rd : list Z).
Context (W : wf G) (RK : ranked G r) (Ln : 1 < n < nxt G).

Definition view (ρ : gmap Z Z) (i : Z) (f : Z -> bool) (k : Z) : bool := if (k =? n) && has i Rd then false else f (default k (ρ !! k)).
Definition adj (Ru : gset Z) (i : Z) (f : Z -> bool) (b : bool) : bool := if decide (i ∈ Ru) then force (opt V i) (f n) b else b.
Record built (Ru : gset Z) (ρ : gmap Z Z) (H : graph) : Prop := {
  b_wf : wf H;
  b_nxt : nxt G <= nxt H;
  b_vars : forall j, 1 < j < nxt H -> (gs H !! j = None <-> j < nxt G /\ gs G !! j = None);
  b_gate : forall i x, gs G !! i = Some x -> exists y, gs H !! i = Some y /\ tidy y /\
    (reach G root i -> forall f, f 1 = true -> gate_value f y = adj Ru i f (gate_value (view ρ i f) x));
  b_rho : forall d m, ρ !! d = Some m -> nxt G <= m < nxt H /\ d <> n /\ is_Some (gs G !! d) /\
    exists y, gs H !! m = Some y /\ (forall b, In b (g_args y) -> Z.abs b = n \/ b = d) /\ forall f, gate_value f y = force (opt V d) (f n) (f d);
  b_new : forall m, nxt G <= m < nxt H -> exists d, ρ !! d = Some m;
  b_rank : exists rr, ranked H rr /\ (forall j, j < nxt G -> rr j = (2 * r j)%nat) /\ forall d m, ρ !! d = Some m -> (rr m = 2 * r d + 1)%nat }.

Lemma built_start H : List.NoDup Rd -> (forall p, In p Rd -> exists x, gs G !! p = Some x /\ arg_in n x /\ arity x) -> (forall j x, gs G !! j = Some x -> tidy x) ->
  fix_redundants n Rd G = Some H -> built ∅ ∅ H.
Proof.
  intros ND HP TD E. destruct (fix_ok n ltac:(lia) Rd G H W ND ltac:(intros p I; destruct (HP p I) as (x & ? & ? & ?); exists x; eauto) E) as (a & b & c & d & e).
  assert (SAME : forall i, is_Some (gs H !! i) <-> is_Some (gs G !! i)).
  { intros i. destruct (in_dec Z.eq_dec i Rd) as [I|I]; [|rewrite d by auto; tauto]. destruct (HP i I) as (x & Ex & _). destruct (e i x I Ex) as (y & Ey & _). rewrite Ey, Ex. split; eauto. }
  constructor; auto; [lia| | | | |].
  - intros j L. assert (Q : gs H !! j = None <-> gs G !! j = None) by (rewrite !eq_None_not_Some, SAME; tauto). rewrite Q. split; [intros; split; [lia|auto]|tauto].
  - intros i x Ex. destruct (in_dec Z.eq_dec i Rd) as [I|I].
    + destruct (e i x I Ex) as (y & Ey & Ty & Sy). exists y. split; [auto|]. split; [auto|]. intros _ f F1. rewrite Sy by auto. unfold adj. destruct (decide (i ∈ ∅)) as [Q|_]; [set_solver|]. apply gate_value_ext. intros k Ik. unfold view, fixed. rewrite (proj2 (has_In i Rd) I), andb_true_r, lookup_empty. reflexivity.
    + exists x. rewrite d by auto. split; [auto|]. split; [eauto|]. intros _ f F1. unfold adj. destruct (decide (i ∈ ∅)) as [Q|_]; [set_solver|]. apply gate_value_ext. intros k Ik. unfold view. rewrite (proj2 (has_false i Rd) I), andb_false_r, lookup_empty. reflexivity.
  - intros d0 m Q. rewrite lookup_empty in Q. discriminate.
  - intros m L. lia.
  - exists (fun j => 2 * r j)%nat. split; [|split; [auto|intros d0 m Q; rewrite lookup_empty in Q; discriminate]]. intros i x k Ex Ik Sk. pose proof (c r RK i x k Ex Ik Sk). lia.
Qed.

Lemma signed_force v f : v = 1 \/ v = -1 -> forall b (t : conn), t = target_type v -> forall vs, gate_value f (Gate t 0 vs) = b -> plus (Gate t 0 vs) (signed_node n v) f = force v (f n) b.
Proof.
  intros Hv b t -> vs <-. unfold plus, force, signed_node, target_type, gate_value. destruct Hv as [-> | ->]; cbn [Z.ltb Z.compare Z.eqb Pos.eqb g_type g_min g_args conn_value existsb forallb].
  - unfold lit at 1. destruct (Z.ltb_spec n 0); [lia|reflexivity].
  - unfold lit at 1. destruct (Z.ltb_spec (- n) 0); [rewrite Z.opp_involutive; reflexivity|lia].
Qed.
Lemma plus_force v f y : v = 1 \/ v = -1 -> g_type y = target_type v -> plus y (signed_node n v) f = force v (f n) (gate_value f y).
Proof.
  intros Hv T. rewrite <- (signed_force v f Hv (gate_value f y) (target_type v) eq_refl (g_args y)).
  - unfold plus. rewrite T. unfold target_type. destruct (v =? 1); reflexivity.
  - unfold gate_value. rewrite T. unfold target_type. destruct (v =? 1); reflexivity.
Qed.
Lemma signed_abs v : Z.abs (signed_node n v) = n.
Proof. unfold signed_node. destruct (v <? 0); lia. Qed.
Lemma rank_below d : is_Some (gs G !! d) -> reach G d n -> d <> n -> is_Some (gs G !! n) -> (r n < r d)%nat.
Proof. intros Sd R N Sn. destruct (reach_rank G r d n RK R Sn); [contradiction|auto]. Qed.
Lemma built_old Ru ρ H i y : built Ru ρ H -> gs H !! i = Some y -> i < nxt G -> is_Some (gs G !! i).
Proof. intros B E L. assert (L1 : 1 < i < nxt H) by (apply (b_wf _ _ _ B) in E; lia). destruct (gs G !! i) eqn:Q; [eauto|]. assert (N : gs H !! i = None) by (apply (b_vars _ _ _ B); auto). congruence. Qed.

(** An existing gate is the destination. *)
Lemma built_reuse Ru ρ H d y H' : built Ru ρ H -> d ∉ Ru -> is_Some (gs G !! d) -> opt V d = 1 \/ opt V d = -1 -> reach G d n -> d <> n ->
  gs H !! d = Some y -> g_type y = target_type (opt V d) -> constant y = false -> add_arg d (signed_node n (opt V d)) H = Some H' -> built ({[d]} ∪ Ru) ρ H'.
Proof.
  intros B ND Sd Hv RD N Ey Ty NC E.
  destruct (add_logic d (signed_node n (opt V d)) H H' y (b_wf _ _ _ B) Ey NC) as (y' & HG & HN & OK & TD & SUB & SEM); [rewrite Ty; unfold target_type; destruct (_ =? 1); auto|rewrite signed_abs; pose proof (b_nxt _ _ _ B); lia|exact E|].
  assert (LD : d < nxt G) by (destruct Sd as [z Ez]; apply W in Ez; lia).
  destruct B as [Bw Bn Bv Bg Br Bm Bk]. constructor; [eapply put_wf; eauto|lia| | | | |].
  - intros j L. rewrite <- Bv by lia. assert (Q := put_gates H H' d y y' Ey HG j). rewrite !eq_None_not_Some. tauto.
  - intros i x Ex. destruct (Bg i x Ex) as (z & Ez & Tz & Sz). destruct (decide (d = i)) as [<-|NE].
    + exists y'. rewrite HG, lookup_insert. split; [auto|]. split; [auto|]. intros RA f F1. rewrite SEM by auto. rewrite plus_force by auto. rewrite Ey in Ez. injection Ez as <-. rewrite Sz by auto. unfold adj. destruct (decide (d ∈ Ru)); [contradiction|]. destruct (decide (d ∈ {[d]} ∪ Ru)); [reflexivity|set_solver].
    + exists z. rewrite HG, lookup_insert_ne by auto. split; [auto|]. split; [auto|]. intros RA f F1. rewrite Sz by auto. unfold adj. destruct (decide (i ∈ Ru)), (decide (i ∈ {[d]} ∪ Ru)); auto; set_solver.
  - intros e m Em. destruct (Br e m Em) as (L & Ne & Se & z & Ez & A & Z). rewrite HN. split; [auto|]. split; [auto|]. split; [auto|]. exists z. rewrite HG, lookup_insert_ne by lia. auto.
  - intros m L. apply Bm. lia.
  - destruct Bk as (rr & R1 & R2 & R3). exists rr. split; [|auto]. intros i x b Ex Ib Sb. apply (put_gates H H' d y y' Ey HG) in Sb. rewrite HG in Ex. destruct (decide (d = i)) as [<-|NE]; [|rewrite lookup_insert_ne in Ex by auto; eapply R1; eauto].
    rewrite lookup_insert in Ex. injection Ex as <-. destruct (SUB b Ib) as [I|[->|I]]; [eapply R1; eauto| |rewrite I in Sb; destruct Sb as [z Ez]; apply Bw in Ez; lia].
    rewrite signed_abs in *. rewrite !R2 by lia. assert (Sn : is_Some (gs G !! n)) by (destruct Sb as [z Ez]; eapply built_old; [constructor; eauto; exists rr; eauto|eauto|lia]). pose proof (rank_below d Sd RD N Sn). lia.
Qed.

(** A new gate above the destination. *)
Section NewGate.
Context (users : graph -> Z -> list Z).
Context (USERS : forall G d p, In p (users G d) <-> exists x, gs G !! p = Some x /\ arg_in d x).
Context (USERS_ND : forall G d, List.NoDup (users G d)).

Lemma built_new Ru ρ H d H' root1 root2 : built Ru ρ H -> ρ !! d = None -> is_Some (gs G !! d) -> opt V d = 1 \/ opt V d = -1 -> reach G d n -> d <> n ->
  root1 = default root (ρ !! root) ->
  (let '(G1, m) := new_gate (target_type (opt V d)) H in
   G1 ← add_arg m (signed_node n (opt V d)) G1;
   '(root2, G2) ← (if d =? root1 then Some (m, G1) else G2 ← replace_all (users G1 d) d m G1; Some (root1, G2));
   G3 ← add_arg m d G2;
   Some (root2, G3)) = Some (root2, H') ->
  built Ru (<[d := nxt H]> ρ) H' /\ root2 = default root (<[d := nxt H]> ρ !! root).
Proof.
  intros B ND Sd Hv RD N -> E. destruct B as [Bw Bn Bv Bg Br Bm Bk] eqn:Beq. clear Beq. cbn [new_gate] in E. set (t := target_type (opt V d)) in *. set (m := nxt H) in *. set (a := signed_node n (opt V d)) in *.
  assert (Ea : Z.abs a = n) by apply signed_abs. assert (LD : 1 < d < nxt G) by (destruct Sd as [z Ez]; apply W in Ez; lia).
  set (H0 := Graph _ _ _ _) in E. apply bind_inv in E as (H1 & E1 & E).
  assert (A1 : gs H1 = <[m := Gate t 0 [a]]> (gs H) /\ nxt H1 = m + 1).
  { unfold add_arg in E1. assert (L0 : gs H0 !! m = Some (Gate t 0 [])) by (cbn; apply lookup_insert). rewrite L0 in E1. cbn [mbind option_bind] in E1. destruct (negb _ || _); [discriminate|]. cbn [g_args has existsb] in E1. apply add_new_inv in E1 as (x & Ex & _ & _ & HG & HN). rewrite L0 in Ex. injection Ex as <-. cbn in HG, HN. rewrite insert_insert in HG. auto. }
  clear E1. destruct A1 as [HG1 HN1]. apply bind_inv in E as ([root3 H2] & E2 & E). apply bind_inv in E as (H3 & E3 & E). injection E as <- <-.
  assert (W1 : wf H1).
  { split; [rewrite HN1; pose proof (proj1 Bw); lia|]. intros j y Ey. rewrite HN1. rewrite HG1 in Ey. destruct (decide (m = j)) as [<-|Nj]; [rewrite lookup_insert in Ey; injection Ey as <-; split; [pose proof (proj1 Bw); lia|apply args_ok_single; lia]|]. rewrite lookup_insert_ne in Ey by auto. destruct (proj2 Bw j y Ey) as [Lj OK]. split; [lia|]. eapply args_ok_mono; [exact OK|lia]. }
  assert (FR : forall j y b, gs H !! j = Some y -> In b (g_args y) -> Z.abs b < m) by (intros j y b Ey Ib; apply (proj2 Bw j y Ey); auto).
  assert (OLDU : forall p y, gs H1 !! p = Some y -> arg_in d y -> p < nxt G /\ gs H !! p = Some y).
  { intros p y Ey Ad. rewrite HG1 in Ey. destruct (decide (m = p)) as [<-|Np]; [rewrite lookup_insert in Ey; injection Ey as <-; unfold arg_in in Ad; cbn in Ad; lia|]. rewrite lookup_insert_ne in Ey by auto. split; [|auto]. destruct (Z.lt_ge_cases p (nxt G)); [auto|]. exfalso.
    assert (Lp : p < m) by (apply Bw in Ey; lia). destruct (Bm p ltac:(lia)) as [e Ee]. destruct (Br e p Ee) as (_ & _ & [z Ez] & z' & Ez' & Az & _). rewrite Ey in Ez'. injection Ez' as <-. apply W in Ez. destruct Ad as [Ad|Ad]; apply Az in Ad as [Ad|Ad]; try lia. subst e. congruence. }
  (* the parents *)
  assert (SWAP : wf H2 /\ nxt H2 = m + 1 /\ gs H2 !! m = Some (Gate t 0 [a]) /\ root3 = default root (<[d := m]> ρ !! root) /\
    (forall i, i <> m -> (is_Some (gs H2 !! i) <-> is_Some (gs H !! i))) /\
    (forall i y, nxt G <= i < m -> gs H !! i = Some y -> gs H2 !! i = Some y) /\
    (forall i y, i < nxt G -> gs H !! i = Some y -> exists y', gs H2 !! i = Some y' /\ (tidy y -> tidy y') /\ (forall b, In b (g_args y') -> In b (g_args y) \/ (Z.abs b = m /\ arg_in d y)) /\
       forall x f, gs G !! i = Some x -> f 1 = true -> reach G root i -> gate_value f y' = adj Ru i f (gate_value (view (<[d := m]> ρ) i f) x))).
  { destruct (Z.eqb_spec d (default root (ρ !! root))) as [ER|NR].
    - (* the root *)
      injection E2 as <- <-. assert (Er : d = root). { destruct (ρ !! root) as [m0|] eqn:Q; cbn in ER; [|auto]. destruct (Br _ _ Q) as (? & _). lia. }
      split; [auto|]. split; [auto|]. split; [rewrite HG1; apply lookup_insert|]. split; [rewrite <- Er, lookup_insert; auto|]. split; [intros i Ni; rewrite HG1, lookup_insert_ne by auto; tauto|]. split; [intros i y Li Ey; rewrite HG1, lookup_insert_ne by lia; auto|].
      intros i y Li Ey. exists y. rewrite HG1, lookup_insert_ne by lia. split; [auto|]. split; [auto|]. split; [auto|]. intros x f Ex F1 RA. destruct (Bg i x Ex) as (z & Ez & _ & Sz). rewrite Ey in Ez. injection Ez as <-. rewrite Sz by auto. f_equal. apply gate_value_ext. intros b Ib. unfold view. destruct (_ && _); [auto|]. destruct (Z.eq_dec d (Z.abs b)) as [Eb|Nb]; [|rewrite lookup_insert_ne by auto; auto].
      exfalso. assert (Q : (r d < r i)%nat) by (rewrite Eb; apply (RK i x b Ex Ib); rewrite <- Eb; auto). rewrite Er in Q. destruct (reach_rank G r root i RK RA ltac:(eauto)) as [<-|]; lia.
    - apply bind_inv in E2 as (H2' & E2 & E4). injection E4 as <- <-.
      destruct (replace_all_ok d m ltac:(lia) ltac:(lia) ltac:(lia) (users H1 d) H1 H2' W1 ltac:(lia) (USERS_ND H1 d)) as (a1 & a2 & a3 & a4); [|exact E2|].
      { intros p Ip. apply USERS in Ip as (y & Ey & Ad). exists y. split; [auto|]. split; [auto|]. destruct (OLDU p y Ey Ad) as [_ Ey']. intros b Ib. pose proof (FR p y b Ey' Ib). lia. }
      assert (NU : ~ In m (users H1 d)) by (intros Q; apply USERS in Q as (y & Ey & Ad); destruct (OLDU m y Ey Ad) as [Q _]; lia).
      split; [auto|]. split; [lia|]. split; [rewrite a3 by auto; rewrite HG1; apply lookup_insert|]. split; [rewrite lookup_insert_ne; auto; intros Q; subst d; rewrite ND in NR; cbn in NR; contradiction|].
      assert (AT : forall i y, gs H !! i = Some y -> gs H1 !! i = Some y) by (intros i y Ey; rewrite HG1, lookup_insert_ne; auto; intros Q; apply Bw in Ey; lia).
      split; [|split].
      + intros i Ni. destruct (in_dec Z.eq_dec i (users H1 d)) as [I|I]; [|rewrite a3 by auto; rewrite HG1, lookup_insert_ne by auto; tauto]. apply USERS in I as Q. destruct Q as (y & Ey & Ad). destruct (OLDU i y Ey Ad) as [_ Q]. destruct (a4 i y I Ey) as (y' & Ey' & _). rewrite Ey', Q. split; eauto.
      + intros i y Li Ey. rewrite a3; [auto|]. intros Q. apply USERS in Q as (z & Ez & Ad). destruct (OLDU i z Ez Ad). lia.
      + intros i y Li Ey. pose proof (AT i y Ey) as Ey1.
        assert (SW : forall x f, gs G !! i = Some x -> f 1 = true -> reach G root i -> gate_value (swapped f d m) y = adj Ru i f (gate_value (view (<[d := m]> ρ) i f) x)).
        { intros x f Ex F1 RA. destruct (Bg i x Ex) as (z & Ez & _ & Sz). rewrite Ey in Ez. injection Ez as <-. assert (F1' : swapped f d m 1 = true) by (unfold swapped; destruct (Z.eqb_spec 1 d); [lia|exact F1]). rewrite (Sz RA _ F1').
          assert (Fn : swapped f d m n = f n) by (unfold swapped; destruct (Z.eqb_spec n d); [congruence|auto]). unfold adj. rewrite Fn.
          assert (GV : gate_value (view ρ i (swapped f d m)) x = gate_value (view (<[d := m]> ρ) i f) x); [|rewrite GV; auto].
          apply gate_value_ext. intros b Ib. unfold view. destruct (_ && _); [auto|]. unfold swapped. destruct (Z.eq_dec d (Z.abs b)) as [Eb|Nb].
          - rewrite <- Eb, lookup_insert, ND. cbn. now rewrite Z.eqb_refl.
          - rewrite lookup_insert_ne by auto. destruct (ρ !! Z.abs b) as [m0|] eqn:Q; cbn.
            + destruct (Br _ _ Q) as (L0 & _). destruct (Z.eqb_spec m0 d); [lia|auto].
            + destruct (Z.eqb_spec (Z.abs b) d); [congruence|auto]. }
        destruct (in_dec Z.eq_dec i (users H1 d)) as [I|I].
        * destruct (a4 i y I Ey1) as (y' & Ey' & T' & S' & Z'). exists y'. split; [auto|]. split; [auto|]. split.
          -- intros b Ib. destruct (S' b Ib) as [[? _]|]; [auto|right]. split; [auto|]. apply USERS in I as (y2 & Ey2 & Ad). congruence.
          -- intros x f Ex F1 RA. rewrite Z'. auto.
        * exists y. rewrite a3 by auto. split; [auto|]. split; [auto|]. split; [auto|]. intros x f Ex F1 RA. rewrite <- (SW x f Ex F1 RA). apply gate_value_ext. intros b Ib. unfold swapped. destruct (Z.eqb_spec (Z.abs b) d) as [Q|]; [|auto]. exfalso. apply I. apply USERS. exists y. split; [auto|]. rewrite <- Q. apply arg_in_abs. auto. }
  clear E2. destruct SWAP as (W2 & N2 & Em & ER & S2 & O2 & G2).
  assert (A3 : gs H3 = <[m := Gate t 0 (set_insert d [a])]> (gs H2) /\ nxt H3 = m + 1).
  { unfold add_arg in E3. rewrite Em in E3. cbn [mbind option_bind g_args] in E3. destruct (negb _ || _); [discriminate|]. rewrite (proj2 (has_false d [a])) in E3 by (intros [Q|[]]; lia). rewrite (proj2 (has_false (- d) [a])) in E3 by (intros [Q|[]]; lia). apply add_new_inv in E3 as (x & Ex & _ & _ & HG & HN). rewrite Em in Ex. injection Ex as <-. split; [exact HG|lia]. }
  clear E3. destruct A3 as [HG3 HN3].
  assert (SI : forall b, In b (set_insert d [a]) <-> b = d \/ b = a) by (intros b; rewrite set_insert_In; split; [intros [Q|[Q|[]]]; auto|intros [Q|Q]; [auto|right; left; auto]]).
  assert (NI : ~ In d [a]) by (intros [Q|[]]; lia).
  assert (OKm : args_ok (m + 1) (set_insert d [a])) by (apply args_ok_insert; [apply args_ok_single; lia|lia|lia|auto|intros [Q|[]]; lia]).
  split; [|exact ER]. constructor.
  - eapply put_wf; [exact W2|exact Em|exact HG3|lia|]. rewrite N2. exact OKm.
  - lia.
  - intros j L. rewrite HN3 in L. destruct (Z.eq_dec j m) as [->|Nj]; [rewrite HG3, lookup_insert; split; [discriminate|intros [Q _]; lia]|]. rewrite HG3, lookup_insert_ne by auto. rewrite <- (Bv j) by lia. specialize (S2 j Nj). rewrite !eq_None_not_Some. tauto.
  - intros i x Ex. assert (Li : i < nxt G) by (apply W in Ex; lia). destruct (Bg i x Ex) as (y & Ey & Ty & _). destruct (G2 i y Li Ey) as (y' & Ey' & T' & _ & Z'). exists y'. rewrite HG3, lookup_insert_ne by lia. split; [auto|]. split; [auto|]. intros RA f F1. auto.
  - intros e k Ek. destruct (Z.eq_dec d e) as [<-|Ne].
    + rewrite lookup_insert in Ek. injection Ek as <-. split; [lia|]. split; [auto|]. split; [auto|]. eexists. rewrite HG3, lookup_insert. split; [reflexivity|]. cbn [g_args]. split; [intros b Ib; apply SI in Ib as [-> | ->]; auto|].
      intros f. unfold gate_value. cbn [g_type g_min g_args]. rewrite (value_perm f _ _ _ _ (set_insert_perm d _ NI)). rewrite (value_perm f _ _ _ _ (perm_swap a d [])).
      change (plus (Gate t 0 [d]) a f = force (opt V d) (f n) (f d)). apply signed_force; auto. unfold gate_value. cbn [g_type g_min g_args map]. assert (LT : lit f d = f d) by (unfold lit; destruct (Z.ltb_spec d 0); [lia|auto]). rewrite LT. unfold t, target_type. destruct (_ =? 1); cbn; destruct (f d); auto.
    + rewrite lookup_insert_ne in Ek by auto. destruct (Br e k Ek) as (L & Nn & Se & y & Ey & Ay & Zy). split; [lia|]. split; [auto|]. split; [auto|]. exists y. rewrite HG3, lookup_insert_ne by lia. rewrite (O2 k y) by (auto; lia). auto.
  - intros k L. destruct (Z.eq_dec k m) as [->|Nk]; [exists d; apply lookup_insert|]. destruct (Bm k ltac:(lia)) as [e Ee]. exists e. rewrite lookup_insert_ne; auto. intros ->. congruence.
  - destruct Bk as (rr & R1 & R2 & R3). exists (fun j => if j =? m then (2 * r d + 1)%nat else rr j). split; [|split].
    + intros i x b Ex Ib Sb. destruct (Z.eqb_spec i m) as [->|Ni].
      * rewrite HG3, lookup_insert in Ex. injection Ex as <-. cbn [g_args] in Ib. apply SI in Ib as [-> | ->].
        -- rewrite Z.abs_eq by lia. destruct (Z.eqb_spec d m); [lia|]. rewrite R2 by lia. lia.
        -- rewrite Ea in *. destruct (Z.eqb_spec n m); [lia|]. rewrite R2 by lia. rewrite HG3, lookup_insert_ne in Sb by lia. apply S2 in Sb; [|lia]. assert (Sn : is_Some (gs G !! n)) by (destruct Sb as [z Ez]; eapply built_old; [exact B|exact Ez|lia]). pose proof (rank_below d Sd RD N Sn). lia.
      * rewrite HG3, lookup_insert_ne in Ex by auto. destruct (proj1 (S2 i Ni) ltac:(eauto)) as [y Ey]. assert (Li : i < m) by (apply Bw in Ey; lia).
        assert (RB : Z.abs b <> m -> In b (g_args y) -> (rr (Z.abs b) < rr i)%nat) by (intros Nb I; apply (R1 i y b Ey I); apply S2; auto; rewrite HG3, lookup_insert_ne in Sb by auto; auto).
        destruct (Z.lt_ge_cases i (nxt G)) as [L|L].
        -- destruct (G2 i y L Ey) as (y' & Ey' & _ & SB & _). rewrite Ex in Ey'. injection Ey' as <-. destruct (SB b Ib) as [I|[I Ad]].
           ++ pose proof (FR i y b Ey I). destruct (Z.eqb_spec (Z.abs b) m); [lia|]. apply RB; auto.
           ++ rewrite I, Z.eqb_refl. assert (Q : (rr d < rr i)%nat).
              { assert (SD : is_Some (gs H !! d)) by (destruct Sd as [z Ez]; destruct (Bg d z Ez) as (z' & Ez' & _); eauto). destruct Ad as [Ad|Ad]; [pose proof (R1 i y d Ey Ad) as Q|pose proof (R1 i y (- d) Ey Ad) as Q; rewrite Z.abs_opp in Q]; rewrite Z.abs_eq in Q by lia; apply Q; auto. }
              rewrite !R2 in * by lia. lia.
        -- rewrite (O2 i y) in Ex by (auto; lia). injection Ex as <-. pose proof (FR i y b Ey Ib). destruct (Z.eqb_spec (Z.abs b) m); [lia|]. apply RB; auto.
    + intros j L. destruct (Z.eqb_spec j m); [lia|auto].
    + intros e k Ek. destruct (Z.eq_dec d e) as [<-|Ne]; [rewrite lookup_insert in Ek; injection Ek as <-; rewrite Z.eqb_refl; auto|]. rewrite lookup_insert_ne in Ek by auto. destruct (Br e k Ek) as (L & _). destruct (Z.eqb_spec k m); [lia|]. auto.
Qed.
End NewGate.
End Built.
