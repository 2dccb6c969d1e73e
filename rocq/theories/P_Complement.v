(** C05: propagation of complements keeps the value of the graph and yields negation normal form. *)
From stdpp Require Import gmap.
From Coq Require Import Lia Permutation List.
From Verif Require Import Pdag PdagProofs PdagAdd PdagSem PdagKeeps Complement ComplementProofs.
Import ListNotations.
Open Scope Z_scope.

(** Below the root: [in_memory root G ∅].  A graph ready for the phase ([tidy], ComplementProofs.v): the
    gates below the root are AND and OR gates (a NULL gate with its one argument only at the root),
    without constants. *)
Notation reachable root G := (in_memory root G ∅).

(** ** The value of the root depends on what is below it *)
Definition below_root (root : Z) (G : graph) (j : Z) : Prop :=
  reachable root G j \/ exists i x a, reachable root G i /\ gs G !! i = Some x /\ In a (g_args x) /\ j = Z.abs a.
Lemma below_gate root G j : below_root root G j -> is_Some (gs G !! j) -> reachable root G j.
Proof. intros [|(i & x & a & A & E & Ia & ->)] Sj; auto. eapply mem_arg; eauto. Qed.
Lemma below_closed root G i x a : below_root root G i -> gs G !! i = Some x -> In a (g_args x) -> below_root root G (Z.abs a).
Proof. intros B E Ia. right. exists i, x, a. repeat split; auto. apply below_gate; eauto. Qed.
Lemma agree root G r ν μ : ranked G r -> consistent G ν ->
  (forall i x, reachable root G i -> gs G !! i = Some x -> μ i = gate_value μ x) ->
  (forall j, below_root root G j -> gs G !! j = None -> μ j = ν j) -> forall i, below_root root G i -> μ i = ν i.
Proof.
  intros R [_ C] HG HV. assert (X : forall n i, (r i < n)%nat -> below_root root G i -> μ i = ν i); [|intros; eapply X; eauto].
  induction n as [|n IH]; intros i L B; [lia|]. destruct (gs G !! i) as [x|] eqn:E; [|auto]. rewrite (HG i x), (C i x) by (auto; apply below_gate; eauto). apply gate_value_ext. intros a Ia. pose proof (below_closed _ _ _ _ _ B E Ia) as Ba.
  destruct (gs G !! Z.abs a) as [y|] eqn:Ey; [|symmetry; symmetry; auto]. apply IH; auto. assert (r (Z.abs a) < r i)%nat by (eapply R; eauto). lia.
Qed.
(** From labellings to values: if each labelling of [G] gives one of the part of [G'] below the root. *)
Lemma transfer root G G' f : wf G -> acyclic G -> wf G' -> acyclic G' -> is_Some (gs G !! root) -> is_Some (gs G' !! root) -> nxt G <= nxt G' ->
  (forall j, below_root root G' j -> gs G' !! j = None -> j = 1 \/ 1 < j < nxt G /\ gs G !! j = None) ->
  (forall ν, consistent G ν -> exists μ, (forall i x, reachable root G' i -> gs G' !! i = Some x -> μ i = gate_value μ x) /\ (forall j, below_root root G' j -> gs G' !! j = None -> μ j = ν j) /\ μ root = xorb f (ν root)) ->
  forall σ b, node_value G' σ root b <-> node_value G σ root (xorb f b).
Proof.
  intros W A W' A' Sr Sr' LN HV HL. assert (LR : 0 < root < nxt G) by (destruct Sr as [x E]; apply W in E; lia). assert (LR' : 0 < root < nxt G') by lia.
  assert (F : forall σ b, node_value G σ root b -> node_value G' σ root (xorb f b)).
  { intros σ b (ν & Cν & Vν & Rν). destruct (node_value_total G' σ root W' A') as (b' & ν' & Cν' & Vν' & Rν'). destruct (HL ν Cν) as (μ & M1 & M2 & M3). destruct A' as [r R'].
    assert (Q : μ root = ν' root).
    { apply (agree root G' r ν' μ R' Cν' M1); [|left; apply mem_root; auto]. intros j B N. rewrite M2 by auto. destruct (HV j B N) as [->|[L N0]]; [destruct Cν as [-> _]; destruct Cν' as [-> _]; auto|]. rewrite Vν by auto. symmetry. apply Vν'; auto. lia. }
    exists ν'. repeat split; auto; [apply Cν'|apply Cν'|congruence]. }
  intros σ b. split.
  - intros H. destruct (node_value_total G σ root W A) as (b0 & H0). pose proof (F σ b0 H0) as H1. pose proof (node_value_unique G' σ root _ _ W' A' LR' H H1) as EB. replace (xorb f b) with b0 by (rewrite <- EB; destruct f, b0; auto). auto.
  - intros H. apply F in H. replace b with (xorb f (xorb f b)) by (destruct f, b; auto). auto.
Qed.

Lemma conn_dual t k vs : (t = kAnd \/ t = kOr) -> conn_value (tflip true t) k (map negb vs) = negb (conn_value t k vs).
Proof. intros [-> | ->]; cbn; induction vs as [|v vs IH]; cbn; auto; rewrite IH; destruct v; auto. Qed.
Lemma lit_signed ν b n : 0 < n -> lit ν (signed b n) = xorb b (ν n).
Proof. intros L. unfold lit, signed. destruct b; [destruct (Z.ltb_spec (- n) 0); [rewrite Z.opp_involutive; destruct (ν n); auto|lia]|destruct (Z.ltb_spec n 0); [lia|destruct (ν n); auto]]. Qed.
Lemma conn_signed ν b t k l : (b = true -> t = kAnd \/ t = kOr) -> (forall a, In a l -> a <> 0) ->
  conn_value (tflip b t) k (map (lit ν) (map (fun a => signed b a) l)) = xorb b (conn_value t k (map (lit ν) l)).
Proof.
  intros T NZ. destruct b; [rewrite xorb_true_l|rewrite xorb_false_l].
  - replace (map (lit ν) (map (fun a => signed true a) l)) with (map negb (map (lit ν) l)); [rewrite <- (conn_dual t k) by auto; reflexivity|]. rewrite !map_map. apply map_ext_in. intros a Ia. symmetry. apply lit_opp. auto.
  - replace (map (fun a => signed false a) l) with l; [reflexivity|]. cbn [signed]. rewrite map_id. auto.
Qed.

(** ** The root of a complemented graph *)
Lemma reach_rank root G r i : ranked G r -> reachable root G i -> i = root \/ (r i < r root)%nat.
Proof. intros R. induction 1 as [H|g c H1 H2|i x a H1 IH H2 H3 H4]; auto; [rewrite lookup_empty in H1; discriminate|]. right. pose proof (R i x a H2 H3 H4). destruct IH as [->|]; lia. Qed.
Lemma complement_root_ok root G : wf G -> acyclic G -> tidy G root ->
  exists G1, complement_root root G = Some G1 /\ wf G1 /\ acyclic G1 /\ tidy G1 root /\ nxt G1 = nxt G /\ (forall j, is_Some (gs G1 !! j) <-> is_Some (gs G !! j)) /\
    forall σ b, node_value G1 σ root b <-> node_value G σ root (negb b).
Proof.
  intros W A T. pose proof T as [[x Ex] TT]. destruct (TT root x (mem_root _ _ _ ltac:(eauto)) Ex) as (Tx & Mx & Cx). destruct A as [r R].
  set (x1 := Gate (tflip true (g_type x)) (g_min x) (rev (map Z.opp (g_args x)))).
  assert (X : exists G1, complement_root root G = Some G1 /\ gs G1 = <[root := x1]> (gs G) /\ nxt G1 = nxt G).
  { unfold complement_root. rewrite Ex. cbn [mbind option_bind]. assert (GEN : forall t, exists G1, (G2 ← set_type root t G; negate_args root G2) = Some G1 /\ gs G1 = <[root := Gate t (g_min x) (rev (map Z.opp (g_args x)))]> (gs G) /\ nxt G1 = nxt G).
    { intros t. unfold set_type. rewrite Ex. cbn [mbind option_bind]. unfold negate_args. cbn [gs]. rewrite lookup_insert. cbn [mbind option_bind]. eexists. split; [reflexivity|]. unfold put, with_args. cbn [gs nxt g_type g_min g_args]. rewrite insert_insert. auto. }
    unfold x1. destruct Tx as [-> |[-> |(_ & E & _)]]; [apply GEN|apply GEN|]. rewrite E. cbn [mbind option_bind]. unfold negate_args. rewrite Ex. cbn [mbind option_bind]. eexists. split; [reflexivity|]. unfold put, with_args. cbn. rewrite E. auto. }
  destruct X as (G1 & E1 & EG & EN). exists G1. split; [auto|]. clear E1.
  assert (SM : forall j, is_Some (gs G1 !! j) <-> is_Some (gs G !! j)) by (intros j; rewrite EG; destruct (decide (root = j)) as [<-|N]; [rewrite lookup_insert, Ex; split; eauto|rewrite lookup_insert_ne by auto; tauto]).
  assert (AR : forall j z a, gs G1 !! j = Some z -> In a (g_args z) -> exists z0 a0, gs G !! j = Some z0 /\ In a0 (g_args z0) /\ Z.abs a0 = Z.abs a).
  { intros j z a Ej Ia. rewrite EG in Ej. destruct (decide (root = j)) as [<-|N]; [rewrite lookup_insert in Ej; injection Ej as <-; cbn in Ia; apply in_neg in Ia; exists x, (- a); repeat split; auto; lia|]. rewrite lookup_insert_ne in Ej by auto. exists z, a. auto. }
  assert (MS : forall j, reachable root G1 j -> reachable root G j).
  { induction 1 as [H|g c H1 H2|j z a H1 IH H2 H3 H4]; [apply mem_root; eauto|rewrite lookup_empty in H1; discriminate|]. destruct (AR j z a H2 H3) as (z0 & a0 & F1 & F2 & F3). rewrite <- F3. eapply mem_arg; eauto. rewrite F3. apply SM. auto. }
  assert (W1 : wf G1).
  { split; [rewrite EN; apply W|]. intros j z Ej. rewrite EN. rewrite EG in Ej. destruct (decide (root = j)) as [<-|N]; [rewrite lookup_insert in Ej; injection Ej as <-|rewrite lookup_insert_ne in Ej by auto; apply W; auto]. destruct (proj2 W root x Ex) as [? ?]. split; auto. cbn. apply args_ok_neg. auto. }
  assert (R1 : ranked G1 r) by (intros j z a Ej Ia Sa; destruct (AR j z a Ej Ia) as (z0 & a0 & F1 & F2 & F3); rewrite <- F3; apply (R j z0 a0); auto; rewrite F3; apply SM; auto).
  split; [auto|]. split; [exists r; auto|]. split; [|split; [auto|split; [auto|]]].
  - split; [apply SM; eauto|]. intros j z Aj Ej. pose proof (MS j Aj) as Aj'. destruct (decide (root = j)) as [<-|N]; [|rewrite EG, lookup_insert_ne in Ej by auto; apply TT; auto]. rewrite EG, lookup_insert in Ej. injection Ej as <-. split; [|split; [auto|]].
    + replace (length (g_args x1)) with (length (g_args x)) by (unfold x1; cbn [g_args]; rewrite rev_length, map_length; auto). change (g_type x1) with (tflip true (g_type x)). destruct Tx as [-> |[-> |(E & -> & L)]]; cbn; auto.
    + apply not_true_iff_false in Cx. apply not_true_iff_false. intros Q. apply Cx. unfold constant in *. cbn [x1 g_args] in Q. apply orb_true_iff in Q. apply orb_true_iff. rewrite !has_In, !in_neg in *. cbn in Q. tauto.
  - intros σ b. change (negb b) with (xorb true b). apply transfer; [exact W|exists r; exact R|exact W1|exists r; exact R1|eauto|apply SM; eauto|lia| |].
    + intros j B N. assert (N0 : gs G !! j = None) by (destruct (gs G !! j) eqn:E; auto; assert (X : is_Some (gs G1 !! j)) by (apply SM; eauto); rewrite N in X; destruct X; discriminate). destruct B as [B|(i & z & a & Ai & Ei & Ia & ->)]; [inversion B as [H|? ? H|? ? ? ? ? ? H]; subst; [|rewrite lookup_empty in H; discriminate|]; destruct H; congruence|].
      destruct (proj2 W1 i z Ei) as [_ [_ Q]]. apply Q in Ia. destruct (Z.eq_dec (Z.abs a) 1); auto. right. split; auto. lia.
    + intros ν Cν. exists (fun j => if j =? root then negb (ν j) else ν j). split; [|split].
      * intros i z Ai Ei. destruct (reach_rank root G1 r i R1 Ai) as [->|L].
        -- rewrite Z.eqb_refl. rewrite EG, lookup_insert in Ei. injection Ei as <-. rewrite (proj2 Cν root x Ex). change (negb (gate_value ν x) = gate_value (fun j => if j =? root then negb (ν j) else ν j) x1). transitivity (gate_value ν x1).
           ++ assert (EV : gate_value ν x1 = conn_value (tflip true (g_type x)) (g_min x) (map (lit ν) (map (fun a => signed true a) (g_args x)))) by (unfold gate_value, x1; cbn [g_type g_min g_args]; apply value_perm, Permutation_sym, Permutation_rev). rewrite EV. unfold gate_value. destruct (proj2 W root x Ex) as [_ [_ Q]].
              destruct Tx as [TX|[TX|(_ & TX & L1)]]; [rewrite conn_signed; auto; intros a Ia; apply Q in Ia; lia|rewrite conn_signed; auto; intros a Ia; apply Q in Ia; lia|]. rewrite TX. destruct (g_args x) as [|a [|]]; try discriminate. cbn. rewrite lit_opp; auto. destruct (Q a (or_introl eq_refl)); auto.
           ++ apply gate_value_ext. intros a Ia. destruct (Z.eqb_spec (Z.abs a) root) as [Q|]; auto. assert (r (Z.abs a) < r root)%nat; [|rewrite Q in *; lia]. apply (R1 root x1 a); auto; [rewrite EG; apply lookup_insert|rewrite Q; apply SM; eauto].
        -- destruct (Z.eqb_spec i root) as [->|N]; [lia|]. assert (Ei0 : gs G !! i = Some z) by (rewrite EG, lookup_insert_ne in Ei; auto). rewrite (proj2 Cν i z Ei0). apply gate_value_ext. intros a Ia. destruct (Z.eqb_spec (Z.abs a) root) as [Q|]; auto. assert (r (Z.abs a) < r i)%nat; [|rewrite Q in *; lia]. apply (R1 i z a); auto. rewrite Q. apply SM. eauto.
      * intros j B N. destruct (Z.eqb_spec j root) as [->|]; auto. assert (X : is_Some (gs G1 !! root)) by (apply SM; eauto). rewrite N in X. destruct X; discriminate.
      * rewrite Z.eqb_refl. destruct (ν root); auto.
Qed.

Section Result.
Context (single : graph -> gmap Z Z -> Z -> bool) (order : graph -> Z -> list Z).
Context (SINGLE : forall root G C g, single G C g = true -> forall p q, in_memory root G C p -> in_memory root G C q -> parent G p g -> parent G q g -> p = q).
Context (ORDER : forall G i x, gs G !! i = Some x -> Permutation (order G i) (List.filter (fun a => bool_decide (is_Some (gs G !! Z.abs a))) (g_args x))).

Lemma propagate_graph fuel root G r : wf G -> ranked G r -> tidy G root -> (r root < fuel)%nat ->
  exists s, propagate single order fuel root (PSt G ∅ ∅) = Some s /\
    let G' := p_graph s in
    wf G' /\ acyclic G' /\ tidy G' root /\ nxt G <= nxt G' /\
    (forall j, 1 < j < nxt G' -> (gs G' !! j = None <-> j < nxt G /\ gs G !! j = None)) /\
    (forall i x a, reachable root G' i -> gs G' !! i = Some x -> In a (g_args x) -> is_Some (gs G' !! Z.abs a) -> 0 < a) /\
    forall σ b, node_value G' σ root b <-> node_value G σ root b.
Proof.
  intros W R T Hf. pose proof (init_ok G root r W R T) as I0.
  destruct (propagate_ok G root r W T single order (SINGLE root) ORDER fuel root G ∅ ∅ ∅ ∅ (fun j => j) (fun _ => false)) as (G' & M' & C' & o & s & E & I & X); auto.
  { destruct (decide (root ∈ (∅ : gset Z))) as [Q|_]; [set_solver|]. rewrite !union_empty_r_L. exact I0. } { apply T. } { intros q Q. set_solver. }
  exists (PSt G' M' C'). split; [exact E|]. cbn [p_graph]. clear E. pose proof (v_wf _ _ _ _ _ _ _ _ _ _ I) as W'. pose proof (v_rank _ _ _ _ _ _ _ _ _ _ I) as R'. pose proof (v_root _ _ _ _ _ _ _ _ _ _ I) as [Sr Or].
  assert (MR : root ∈ M') by (apply (e_marks _ _ _ _ _ _ _ _ _ _ X); set_solver).
  assert (SR : s root = false) by (rewrite (e_sign _ _ _ _ _ _ _ _ _ _ X); auto; set_solver).
  assert (MS : forall i, reachable root G' i -> in_memory root G' C' i).
  { induction 1 as [H|g c H1 H2|j z a H1 IH H2 H3 H4]; [apply mem_root; auto|rewrite lookup_empty in H1; discriminate|eapply mem_arg; eauto]. }
  assert (MM : forall i, reachable root G' i -> i ∈ M').
  { induction 1 as [H|g c H1 H2|j z a H1 IH H2 H3 H4]; [auto|rewrite lookup_empty in H1; discriminate|]. destruct (v_done _ _ _ _ _ _ _ _ _ _ I j z a IH ltac:(set_solver) H2 H3 H4) as [L J]. rewrite Z.abs_eq by lia. auto. }
  assert (OR : forall i, reachable root G' i -> i <> root -> o i <> root).
  { intros i Ai N Q. destruct (reach_rank root G' _ i R' Ai) as [|L]; auto. rewrite Q, Or in L. lia. }
  split; [auto|]. split; [exists (fun j => r (o j)); auto|]. split; [|split; [apply X|split; [|split]]].
  - split; [auto|]. intros i x Ai Ei. destruct (mem_type G root r T _ _ _ _ _ _ _ I i x (MS i Ai) Ei) as (T1 & T2 & T3). split; [|auto]. destruct T1 as [|[|(O & T1 & T1')]]; auto. right. right. split; auto. destruct (Z.eq_dec i root) as [|N]; auto. elim (OR i Ai N O).
  - intros j L. split; intros N.
    + destruct (v_vars _ _ _ _ _ _ _ _ _ _ I j ltac:(lia) N) as (? & ? & _). auto.
    + destruct N as [L1 N]. destruct (gs G' !! j) eqn:Q; auto. assert (Y : is_Some (gs G !! j)) by (apply (e_gates _ _ _ _ _ _ _ _ _ _ X); eauto). rewrite N in Y. destruct Y; discriminate.
  - intros i x a Ai Ei Ia Sa. apply (v_done _ _ _ _ _ _ _ _ _ _ I i x a (MM i Ai) ltac:(set_solver) Ei Ia Sa).
  - intros σ b. replace b with (xorb false b) at 2 by (destruct b; auto). apply transfer; [exact W|exists r; exact R|exact W'|exists (fun j => r (o j)); exact R'|apply T|exact Sr|apply X| |].
    + intros j B N. assert (L : 0 < j < nxt G') by (destruct B as [B|(i & z & a & Ai & Ei & Ia & ->)]; [inversion B as [H|? ? H|? ? ? ? ? ? H]; subst; [|rewrite lookup_empty in H; discriminate|]; destruct H; congruence|]; destruct (proj2 W' i z Ei) as [_ [_ Q]]; apply Q in Ia; lia).
      destruct (v_vars _ _ _ _ _ _ _ _ _ _ I j L N) as (? & ? & _). destruct (Z.eq_dec j 1); auto. right. split; auto. lia.
    + intros ν Cν. exists (fun j => xorb (s j) (ν (o j))). split; [|split].
      * intros i x Ai Ei. destruct (v_struct _ _ _ _ _ _ _ _ _ _ I i x (MS i Ai) Ei) as (y & Ey & Ry & Ty & My & Py). rewrite (proj2 Cν (o i) y Ey). unfold gate_value. rewrite Ty, My.
        assert (PO : forall a, In a (g_args x) -> 0 < o (Z.abs a)).
        { intros a Ia. destruct (gs G' !! Z.abs a) as [z|] eqn:Ez.
          - assert (Aa : in_memory root G' C' (Z.abs a)) by (apply (mem_arg root G' C' i x a); eauto). destruct (v_struct _ _ _ _ _ _ _ _ _ _ I _ z Aa Ez) as (w & Ew & _). apply W in Ew. lia.
          - destruct (proj2 W' i x Ei) as [_ [_ Q]]. apply Q in Ia. destruct (v_vars _ _ _ _ _ _ _ _ _ _ I (Z.abs a)) as (_ & _ & -> & _); auto; lia. }
        replace (map (lit (fun j => xorb (s j) (ν (o j)))) (g_args x)) with (map (lit ν) (map (eff o s ∅ i) (g_args x))).
        -- rewrite (value_perm ν _ _ _ _ Py). symmetry. apply conn_signed.
           ++ intros SI. destruct (proj2 T (o i) y Ry Ey) as (TT & _). destruct TT as [|[|(O & _)]]; auto. destruct (Z.eq_dec i root) as [->|N]; [congruence|]. elim (OR i Ai N O).
           ++ intros a Ia. destruct (proj2 W _ _ Ey) as [_ [_ Q]]. apply Q in Ia. lia.
        -- rewrite map_map. apply map_ext_in. intros a Ia. unfold eff. rewrite lookup_empty. unfold slit. rewrite lit_signed by auto. rewrite lit_abs. destruct (a <? 0), (s (Z.abs a)), (ν (o (Z.abs a))); auto.
      * intros j B N. assert (L : 0 < j < nxt G') by (destruct B as [B|(i & z & a & Ai & Ei & Ia & ->)]; [inversion B as [H|? ? H|? ? ? ? ? ? H]; subst; [|rewrite lookup_empty in H; discriminate|]; destruct H; congruence|]; destruct (proj2 W' i z Ei) as [_ [_ Q]]; apply Q in Ia; lia).
        destruct (v_vars _ _ _ _ _ _ _ _ _ _ I j L N) as (_ & _ & -> & ->). destruct (ν j); auto.
      * rewrite SR, Or. auto.
Qed.

(** More fuel does not change the result. *)
Lemma loop_mono (f g : Z -> pstate -> option pstate) : (forall i s s', f i s = Some s' -> g i s = Some s') ->
  forall l s s', args_loop single f l s = Some s' -> args_loop single g l s = Some s'.
Proof.
  intros M. induction l as [|a l IH]; intros s s' H; [exact H|]. cbn [args_loop] in *. destruct (0 <? a).
  - destruct (f a s) as [s1|] eqn:E; [|discriminate]. rewrite (M _ _ _ E). cbn [mbind option_bind] in *. auto.
  - destruct (p_comps s !! (- a)) as [c|].
    + destruct (decide _); [|discriminate]. destruct (args_loop single f l s) as [[s1 sw]|] eqn:E; [|discriminate]. rewrite (IH _ _ E). auto.
    + destruct (single _ _ _).
      * destruct (negate_gate (- a) (p_graph s)) as [G1|]; [|discriminate]. cbn [mbind option_bind] in *. destruct (f (- a) _) as [s1|] eqn:E1; [|discriminate]. rewrite (M _ _ _ E1). cbn [mbind option_bind] in *. destruct (args_loop single f l s1) as [[s2 sw]|] eqn:E; [|discriminate]. rewrite (IH _ _ E). auto.
      * destruct (clone (- a) (p_graph s)) as [[G1 c]|]; [|discriminate]. cbn [mbind option_bind] in *. destruct (negate_gate c G1) as [G2|]; [|discriminate]. cbn [mbind option_bind] in *. destruct (f c _) as [s1|] eqn:E1; [|discriminate]. rewrite (M _ _ _ E1). cbn [mbind option_bind] in *. destruct (args_loop single f l s1) as [[s2 sw]|] eqn:E; [|discriminate]. rewrite (IH _ _ E). auto.
Qed.
Lemma propagate_mono n fuel i s s' : (n <= fuel)%nat -> propagate single order n i s = Some s' -> propagate single order fuel i s = Some s'.
Proof.
  revert fuel i s s'. induction n as [|n IH]; intros fuel i s s' L H; [discriminate|]. destruct fuel as [|fuel]; [lia|]. cbn [propagate] in *. destruct (decide _); [auto|].
  destruct (args_loop single (propagate single order n) _ _) as [[s1 sw]|] eqn:E; [|discriminate]. rewrite (loop_mono _ (propagate single order fuel) (fun i s s' => IH fuel i s s' ltac:(lia)) _ _ _ E). auto.
Qed.

(** Phase IV: no assertion fails with enough fuel; the result has the value of the graph with the
    complement flag worked in; complements are left on variables only. *)
Theorem C05_complements root comp G : wf G -> acyclic G -> tidy G root ->
  exists n G', (forall fuel, (n <= fuel)%nat -> phase_four single order fuel root comp G = Some G') /\
    wf G' /\ acyclic G' /\ tidy G' root /\ nxt G <= nxt G' /\
    (forall j, 1 < j < nxt G' -> (gs G' !! j = None <-> j < nxt G /\ gs G !! j = None)) /\
    (forall i x a, reachable root G' i -> gs G' !! i = Some x -> In a (g_args x) -> is_Some (gs G' !! Z.abs a) -> 0 < a) /\
    forall σ b, node_value G' σ root b <-> node_value G σ root (xorb b comp).
Proof.
  intros W A T.
  assert (X : exists G1, (if comp then complement_root root G else Some G) = Some G1 /\ wf G1 /\ acyclic G1 /\ tidy G1 root /\ nxt G1 = nxt G /\ (forall j, is_Some (gs G1 !! j) <-> is_Some (gs G !! j)) /\
    forall σ b, node_value G1 σ root b <-> node_value G σ root (xorb b comp)).
  { destruct comp; [|exists G; do 6 (split; [tauto|]); intros σ b; rewrite xorb_false_r; tauto]. destruct (complement_root_ok root G W A T) as (G1 & E & A1 & A2 & A3 & A4 & A5 & A6). exists G1. do 6 (split; [tauto|]). intros σ b. rewrite xorb_true_r. apply A6. }
  destruct X as (G1 & E1 & W1 & [r R1] & T1 & N1 & S1 & V1).
  destruct (propagate_graph (S (r root)) root G1 r W1 R1 T1 ltac:(lia)) as (s & E2 & W2 & A2 & T2 & N2 & S2 & P2 & V2).
  exists (S (r root)), (p_graph s). split; [|split; [auto|split; [auto|split; [auto|split; [lia|split; [|split; [auto|]]]]]]].
  - intros fuel L. unfold phase_four. rewrite E1. cbn [mbind option_bind]. rewrite (propagate_mono _ _ root _ s L E2). auto.
  - intros j L. rewrite S2, N1 by auto. split; intros [L1 NN]; split; auto; [destruct (gs G !! j) eqn:Q; auto; destruct (proj2 (S1 j) ltac:(eauto)); congruence|destruct (gs G1 !! j) eqn:Q; auto; destruct (proj1 (S1 j) ltac:(eauto)); congruence].
  - intros σ b. rewrite V2, V1. tauto.
Qed.
End Result.

(** ** A concrete run *)
(** An oracle that counts the holders in the whole graph, and the order of the model's lists. *)
Definition holders (G : graph) (g : Z) : list Z :=
  map fst (List.filter (fun '(_, x) => has g (g_args x) || has (- g) (g_args x)) (map_to_list (gs G))).
Definition count_single (G : graph) (C : gmap Z Z) (g : Z) : bool := (length (holders G g) =? 1)%nat.
Definition list_order (G : graph) (i : Z) : list Z :=
  match gs G !! i with Some x => List.filter (fun a => bool_decide (is_Some (gs G !! Z.abs a))) (g_args x) | None => [] end.
Lemma holders_parent G p g : parent G p g -> In p (holders G g).
Proof.
  intros (x & E & H). unfold holders. apply in_map_iff. exists (p, x). split; auto. apply List.filter_In. split; [apply elem_of_list_In, elem_of_map_to_list; auto|]. apply orb_true_iff. rewrite !has_In. auto.
Qed.
Lemma count_single_ok root G C g : count_single G C g = true -> forall p q, in_memory root G C p -> in_memory root G C q -> parent G p g -> parent G q g -> p = q.
Proof.
  unfold count_single. intros L p q _ _ Hp Hq. apply holders_parent in Hp, Hq. destruct (holders G g) as [|a [|]]; try discriminate. destruct Hp as [->|[]]. destruct Hq as [->|[]]. auto.
Qed.
Lemma list_order_ok G i x : gs G !! i = Some x -> Permutation (list_order G i) (List.filter (fun a => bool_decide (is_Some (gs G !! Z.abs a))) (g_args x)).
Proof. intros E. unfold list_order. rewrite E. auto. Qed.

(** Variables 2, 3 and 4; the root 8 uses gate 6 with a complement and below gate 7 without. *)
Definition demo : graph := Graph {[ 5 := Gate kAnd 0 [2; 4]; 6 := Gate kOr 0 [3; -5]; 7 := Gate kOr 0 [6; 2]; 8 := Gate kAnd 0 [-6; 7] ]} 9 [] false.
Lemma demo_cases i x : gs demo !! i = Some x -> i = 5 /\ x = Gate kAnd 0 [2; 4] \/ i = 6 /\ x = Gate kOr 0 [3; -5] \/ i = 7 /\ x = Gate kOr 0 [6; 2] \/ i = 8 /\ x = Gate kAnd 0 [-6; 7].
Proof. unfold demo. cbn [gs]. intros E. repeat (apply lookup_insert_Some in E as [[<- <-]|[_ E]]; [tauto|]). apply lookup_singleton_Some in E as [<- <-]. tauto. Qed.
Lemma demo_wf : wf demo.
Proof.
  split; [reflexivity|]. intros i x E. apply demo_cases in E as [[-> ->]|[[-> ->]|[[-> ->]|[-> ->]]]]; (split; [cbn; lia|]); (split; [repeat constructor; cbn; lia|]); cbn; intros a Ha; repeat destruct Ha as [<-|Ha]; try destruct Ha; cbn; lia.
Qed.
Lemma demo_acyclic : acyclic demo.
Proof.
  exists Z.to_nat. intros i x a E Ia _. apply demo_cases in E as [[-> ->]|[[-> ->]|[[-> ->]|[-> ->]]]]; cbn in Ia; repeat destruct Ia as [<-|Ia]; try destruct Ia; cbn; lia.
Qed.
Lemma demo_tidy : tidy demo 8.
Proof.
  split; [exists (Gate kAnd 0 [-6; 7]); reflexivity|]. intros i x _ E. apply demo_cases in E as [[-> ->]|[[-> ->]|[[-> ->]|[-> ->]]]]; cbn; (split; [tauto|split; [lia|reflexivity]]).
Qed.
Definition gate_at (i root : Z) (comp : bool) : option gate :=
  phase_four count_single list_order 9 root comp demo ≫= fun G' => gs G' !! i.
(** Gate 6 and its complement 9 stand side by side; so do gate 5 and its complement 10. *)
Example demo_run : map (fun i => gate_at i 8 false) [8; 7; 6; 9; 5; 10] =
  [Some (Gate kAnd 0 [7; 9]); Some (Gate kOr 0 [6; 2]); Some (Gate kOr 0 [3; 10]); Some (Gate kAnd 0 [5; -3]); Some (Gate kAnd 0 [2; 4]); Some (Gate kOr 0 [-4; -2])].
Proof. vm_compute. reflexivity. Qed.
(** With the complement flag the root 8 is OR (6, -7), and gate 7, which has no other parent, is negated in place. *)
Example demo_run_complement : map (fun i => gate_at i 8 true) [8; 7; 6; 9] =
  [Some (Gate kOr 0 [6; 7]); Some (Gate kAnd 0 [-2; 9]); Some (Gate kOr 0 [3; 10]); Some (Gate kAnd 0 [5; -3])].
Proof. vm_compute. reflexivity. Qed.
Example C05_nonvacuous comp := C05_complements count_single list_order count_single_ok list_order_ok 8 comp demo demo_wf demo_acyclic demo_tidy.
Print Assumptions C05_complements.
