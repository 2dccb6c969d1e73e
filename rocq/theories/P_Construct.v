(** C02: the graph built from the model computes the top event. *)
From stdpp Require Import gmap.
From Coq Require Import List ZArith Lia Bool Permutation.
Import ListNotations.
From Verif Require Import Pdag PdagProofs PdagSem Formula P_Formula Construct ConstructProofs ConstructSem ConstructBuild.
Open Scope Z_scope.

(** A graph of AND, OR, ATLEAST and pass-through gates over positive arguments is monotone. *)
Lemma count_le l (f g : Z -> bool) : (forall a, In a l -> f a = true -> g a = true) -> count (map f l) <= count (map g l).
Proof.
  induction l as [|a l IH]; intros H; [simpl; lia|]. cbn [map]. rewrite !count_cons. specialize (IH (fun b J => H b (or_intror J))). specialize (H a (or_introl eq_refl)).
  destruct (f a); [rewrite H by auto; lia|destruct (g a); lia].
Qed.
Lemma coherent_monotone G r ν ν' : wf G -> ranked G r -> (forall j x, gs G !! j = Some x -> coherent_gate x) -> consistent G ν -> consistent G ν' ->
  (forall j, 1 < j < nxt G -> gs G !! j = None -> ν j = true -> ν' j = true) -> forall j, 0 < j < nxt G -> ν j = true -> ν' j = true.
Proof.
  intros [W0 W] RK CG [C1 C2] [D1 D2] LE. assert (H : forall n j, (r j < n)%nat -> 0 < j < nxt G -> ν j = true -> ν' j = true); [|intros j; apply (H (S (r j))); lia].
  induction n as [|n IH]; intros j L B V; [lia|]. destruct (Z.eq_dec j 1) as [->|]; auto. destruct (gs G !! j) as [x|] eqn:E; [|apply LE; auto; lia].
  rewrite (C2 j x E) in V. rewrite (D2 j x E). destruct (CG j x E) as [T A]. destruct (W j x E) as [_ [_ AO]].
  assert (LL : forall a, In a (g_args x) -> lit ν a = true -> lit ν' a = true).
  { intros a J. destruct (AO a J) as (Z0 & Bd & _). destruct (A a J) as [Pa| ->].
    - unfold lit. replace (a <? 0) with false by lia. destruct (gs G !! a) as [y|] eqn:Ey.
      + apply IH; [|lia]. assert (r (Z.abs a) < r j)%nat; [|rewrite Z.abs_eq in * by lia; lia]. apply (RK j x a E J). rewrite Z.abs_eq by lia. eauto.
      + destruct (Z.eq_dec a 1) as [->|]; auto. apply LE; auto; lia.
    - rewrite (lit_f ν C1). discriminate. }
  pose proof (count_le (g_args x) (lit ν) (lit ν') LL) as CL.
  unfold gate_value in *. destruct T as [T|[T|[T|T]]]; rewrite T in *; cbn [conn_value] in *.
  - rewrite forallb_count in *. rewrite map_length in *. lia.
  - rewrite existsb_count in *. lia.
  - lia.
  - destruct (g_args x) as [|a [|]]; cbn [map] in *; auto. apply LL; simpl; auto.
Qed.

Section Construct.
Context (ev_id : nat -> nat) (kTrue kFalse : nat).
Context (ev_kind : nat -> kind) (formula_of : nat -> option formula) (house : nat -> bool)
        (ccf_gate : nat -> option nat) (ccf : bool).
Notation sound_formula := (sound_formula ev_id kTrue kFalse ev_kind formula_of ccf_gate ccf).
Notation sound_substitution := (sound_substitution ev_id kTrue kFalse ev_kind formula_of ccf_gate ccf).
Notation below_event := (below_event ev_kind formula_of ccf_gate ccf).
Notation build := (build ev_kind formula_of house ccf_gate ccf).
Notation valuation := (valuation ev_kind formula_of house ccf_gate ccf).
Definition subs (us : option (list substitution)) : list substitution := match us with Some l => l | None => [] end.
(** The events named by the root and by the substitutions. *)
Definition named (root : formula) (us : option (list substitution)) : list nat := map event (f_args root) ++ flat_map sub_events (subs us).
(** What the analyses get. *)
Record built (root : formula) (us : option (list substitution)) (r : Z) (l : list sub) (s : st) : Prop := {
  b_wf : PdagProofs.wf (graph s);
  b_acyclic : acyclic (graph s);
  b_root : is_Some (gs (graph s) !! r);
  (* variables: the basic events below the root and the substitutions, numbered from 2 *)
  b_basics : forall e, In e (basics s) <-> exists n, In n (named root us) /\ below_event n e;
  b_nodup : NoDup (basics s);
  b_vars : forall e v, vars s !! e = Some v <-> exists k, nth_error (basics s) k = Some e /\ v = 2 + Z.of_nat k;
  b_nodes : forall j, 1 < j < nxt (graph s) -> (gs (graph s) !! j = None <-> j < 2 + Z.of_nat (length (basics s)));
  (* pass-through gates are registered, flags are right *)
  b_nulls : forall j x, gs (graph s) !! j = Some x -> g_type x = kNull -> In j (nulls (graph s));
  b_normal : norm s = true -> forall j x, gs (graph s) !! j = Some x -> normal_gate x;
  b_suited : forall j x, gs (graph s) !! j = Some x -> suited x;
  b_coherent : coh s = true -> forall j x, gs (graph s) !! j = Some x -> coherent_gate x;
  (* the function *)
  b_value : forall μ σ, valuation μ -> (forall k e, nth_error (basics s) k = Some e -> σ (2 + Z.of_nat k) = μ e) -> forall b,
    node_value (graph s) σ r b <-> b = formula_value μ root && forallb (substitution_value μ) (List.filter declarative (subs us));
  (* non-declarative substitutions *)
  b_subs : l = flat_map (collected s) (List.filter (fun u => negb (declarative u)) (subs us)) }.

Context (R : nat -> nat) (N : nat) (SM : sound_model ev_id kTrue kFalse ev_kind formula_of ccf_gate ccf R N).
Notation inv := (inv ev_kind formula_of house ccf_gate ccf).
Notation ext := (ext R N).
Lemma inv_weaken lev P s : inv true R lev P s -> inv false R lev P s.
Proof. intros [A B C D E F G H I]. constructor; auto. intros j x Ex. destruct (H j x Ex) as (H1 & _ & H3). split; [exact H1|split; [discriminate|exact H3]]. Qed.
Lemma sub_value KC lev P s ν μ u q : inv KC R lev P s -> consistent (graph s) ν -> valuation μ -> (forall e v, vars s !! e = Some v -> ν v = μ e) -> sound_substitution u -> declarative u = true ->
  sub_described ev_kind house ccf_gate ccf s P u q -> ν q = substitution_value μ u.
Proof.
  intros I C V AG SU DE (h & D & T). pose proof (declarative_target _ _ _ _ _ _ _ R N u SU DE) as NT.
  pose proof (formula_node _ _ _ _ _ _ _ _ _ _ SM KC lev P s I ν C μ V AG _ _ (u_hypothesis _ _ _ _ _ _ _ _ SU) D) as VH.
  assert (Bh : 1 < h) by (apply described_node in D as (x & [E _]); apply (i_wf _ _ _ _ _ _ _ _ _ _ I) in E; lia).
  assert (LH : lit ν (- h) = negb (formula_value μ (hypothesis u))) by (rewrite lit_opp by lia; unfold lit; replace (h <? 0) with false by lia; congruence).
  destruct C as [C1 C2]. unfold substitution_value. destruct (s_target u) as [e|b].
  - destruct T as (xs & l & [E _] & PM & RS). rewrite (C2 q _ E). unfold gate_value. cbn [g_type g_min g_args]. rewrite (value_perm ν kOr 0 _ _ PM). cbn [map conn_value existsb].
    rewrite LH, (event_value _ _ _ _ _ _ _ _ _ _ SM KC lev P s I ν (conj C1 C2) μ V AG false e l RS). destruct (formula_value μ (hypothesis u)), (μ e); reflexivity.
  - destruct b; [contradiction|]. destruct T as [E _]. rewrite (C2 q _ E). unfold gate_value. cbn [g_type g_min g_args map conn_value]. rewrite LH. destruct (formula_value μ (hypothesis u)); reflexivity.
Qed.
Lemma built_of root us r l s2 s KC lev P :
  gathered ev_kind ccf_gate ccf s2 -> (forall e, In e (basics s2) <-> exists n, In n (named root us) /\ below_event n e) ->
  ext (fun _ => False) s2 s -> inv KC R lev P s -> is_Some (gs (graph s) !! r) -> (coh s = true -> forall j x, gs (graph s) !! j = Some x -> coherent_gate x) ->
  (forall ν μ, consistent (graph s) ν -> valuation μ -> (forall e v, vars s !! e = Some v -> ν v = μ e) -> ν r = formula_value μ root && forallb (substitution_value μ) (List.filter declarative (subs us))) ->
  l = flat_map (collected s) (List.filter (fun u => negb (declarative u)) (subs us)) -> built root us r l s.
Proof.
  intros A BA X I Er CO VA EL. destruct A as [a1 [a2 a3] a4 a5 a6 a7 a8 a9]. pose proof (x_basics _ _ _ _ _ X) as XB. pose proof (x_vars _ _ _ _ _ X) as XV.
  assert (NV : forall k e, nth_error (basics s) k = Some e -> vars s !! e = Some (2 + Z.of_nat k)) by (rewrite XB, XV; intros k e E; apply a5; eauto).
  constructor; auto.
  - apply (i_wf _ _ _ _ _ _ _ _ _ _ I).
  - exists lev. apply (i_rank _ _ _ _ _ _ _ _ _ _ I).
  - rewrite XB. auto.
  - rewrite XB. auto.
  - rewrite XB, XV. auto.
  - intros j B. rewrite XB. rewrite <- a4. split; intros H.
    + destruct (Z.lt_ge_cases j (nxt (graph s2))); auto. destruct (x_all _ _ _ _ _ X j) as [x Ex]; [lia|congruence].
    + apply (x_none _ _ _ _ _ X); auto. rewrite a1. apply lookup_empty.
  - intros j x E T. destruct (in_dec Z.eq_dec j (nulls (graph s))) as [|NI]; auto. destruct (x_unreg _ _ _ _ _ X j) as [(y & Ey & _)|[]].
    + exists x. auto.
    + rewrite a1, lookup_empty in Ey. discriminate.
  - intros NO j x E. destruct (i_norm _ _ _ _ _ _ _ _ _ _ I j x E) as [H _]. auto.
  - intros j x E. apply (i_norm _ _ _ _ _ _ _ _ _ _ I j x E).
  - intros μ σ V AG.
    assert (VAL : forall ν, consistent (graph s) ν -> (forall j, 1 < j < nxt (graph s) -> gs (graph s) !! j = None -> ν j = σ j) -> ν r = formula_value μ root && forallb (substitution_value μ) (List.filter declarative (subs us))).
    { intros ν C HV. apply (VA ν μ C V). intros e v E. destruct (i_vars _ _ _ _ _ _ _ _ _ _ I e v E) as [B NG]. rewrite HV by auto. rewrite XV in E. apply a5 in E as (k & Nk & ->). apply AG. rewrite XB. auto. }
    intros b. split.
    + intros (ν & C & HV & <-). auto.
    + intros ->. destruct (labelling_exists (graph s) lev σ (i_wf _ _ _ _ _ _ _ _ _ _ I) (i_rank _ _ _ _ _ _ _ _ _ _ I)) as (ν & C & HV). exists ν. auto.
Qed.
(** Variables are only appended. *)
Notation gather := (gather ev_kind formula_of ccf_gate ccf).
Definition longer (s s' : st) : Prop := exists t, basics s' = basics s ++ t.
Lemma longer_refl s : longer s s. Proof. exists []. now rewrite app_nil_r. Qed.
Lemma longer_trans s1 s2 s3 : longer s1 s2 -> longer s2 s3 -> longer s1 s3.
Proof. intros [t E] [t' E']. exists (t ++ t'). rewrite E', E. symmetry. apply app_assoc. Qed.
Lemma gather_basic_longer fuel : (forall f s s', gather fuel f s = Some s' -> longer s s') -> forall e s s', gather_basic formula_of ccf_gate ccf (gather fuel) e s = Some s' -> longer s s'.
Proof.
  intros IH e s s' E. unfold gather_basic, gather_gate in E. destruct (replaced ccf_gate ccf e) as [g|].
  - destruct (gates s !! g); [injection E as <-; apply longer_refl|]. destruct (formula_of g) as [f|]; [|discriminate]. apply IH in E. exact E.
  - destruct (vars s !! e); injection E as <-; [apply longer_refl|]. exists [e]. reflexivity.
Qed.
Lemma gather_longer : forall fuel f s s', gather fuel f s = Some s' -> longer s s'.
Proof.
  induction fuel as [|fuel IH]; intros f s s' E; [discriminate|]. cbn [Construct.gather] in E. revert s E. induction (f_args f) as [|a l IHl]; intros s E; cbn [gather_args] in E; [injection E as <-; apply longer_refl|].
  destruct (gather_event ev_kind formula_of ccf_gate ccf (gather fuel) (event a) s) as [s1|] eqn:E1; [|discriminate]. cbn [mbind option_bind] in E. apply (longer_trans s s1); [|auto].
  unfold gather_event in E1. destruct (ev_kind (event a)).
  - unfold gather_gate in E1. destruct (gates s !! event a); [injection E1 as <-; apply longer_refl|]. destruct (formula_of (event a)) as [f'|]; [|discriminate]. apply IH in E1. exact E1.
  - eapply gather_basic_longer; eauto.
  - injection E1 as <-. apply longer_refl.
Qed.
Lemma gather_substitutions_longer fuel us : forall s s', gather_substitutions ev_kind formula_of ccf_gate ccf fuel us s = Some s' -> longer s s'.
Proof.
  assert (GB : forall l s s', gather_basics ev_kind formula_of ccf_gate ccf fuel l s = Some s' -> longer s s').
  { induction l as [|e l IH]; intros s s' E; cbn [gather_basics] in E; [injection E as <-; apply longer_refl|].
    destruct (gather_basic formula_of ccf_gate ccf (gather fuel) e s) as [s1|] eqn:E1; [|discriminate]. apply (longer_trans s s1); [eapply gather_basic_longer; eauto; apply gather_longer|auto]. }
  induction us as [|u us IH]; intros s s' E; cbn [gather_substitutions] in E; [injection E as <-; apply longer_refl|].
  destruct (gather_substitution ev_kind formula_of ccf_gate ccf fuel u s) as [s1|] eqn:E1; [|discriminate]. apply (longer_trans s s1); [|auto]. unfold gather_substitution in E1.
  destruct (gather fuel (hypothesis u) s) as [s2|] eqn:E2; [|discriminate]. cbn [mbind option_bind] in E1. destruct (gather_basics ev_kind formula_of ccf_gate ccf fuel (source u) s2) as [s3|] eqn:E3; [|discriminate]. cbn [mbind option_bind] in E1.
  apply (longer_trans s s2); [eapply gather_longer; eauto|]. apply (longer_trans s2 s3); [eauto|]. destruct (s_target u); [eapply gather_basic_longer; eauto; apply gather_longer|injection E1 as <-; apply longer_refl].
Qed.
Lemma build_ok fuel root us : sound_formula root -> (forall u, In u (subs us) -> sound_substitution u) -> (N < fuel)%nat ->
  exists r l s, build fuel root us = Some (r, l, s) /\ built root us r l s /\ exists s0 t, gather fuel root blank = Some s0 /\ basics s = basics s0 ++ t /\ (us = None -> t = []).
Proof.
  intros SR SU F. unfold Construct.build.
  destruct (gather_formula_ok _ _ _ _ _ _ _ _ _ SM fuel root blank F SR (blank_gathered kTrue ev_kind house ccf_gate ccf)) as (s1 & E1 & W1). rewrite E1. cbn [mbind option_bind].
  assert (G2 : exists s2, (match us with Some us => gather_substitutions ev_kind formula_of ccf_gate ccf fuel us s1 | None => Some s1 end) = Some s2 /\ grown ev_kind formula_of ccf_gate ccf (flat_map sub_events (subs us)) s1 s2).
  { destruct us as [us|]; cbn [subs] in *; [eapply gather_substitutions_ok; eauto; apply W1|]. exists s1. split; auto. apply grown_refl. apply W1. }
  destruct G2 as (s2 & E2 & W2). rewrite E2. cbn [mbind option_bind].
  assert (LG : exists t, basics s2 = basics s1 ++ t /\ (us = None -> t = [])).
  { destruct us as [us|]; [apply gather_substitutions_longer in E2 as [t Et]; exists t; split; auto; discriminate|]. injection E2 as <-. exists []. rewrite app_nil_r. auto. }
  assert (FST : forall s, basics s = basics s2 -> exists s0 t, Some s1 = Some s0 /\ basics s = basics s0 ++ t /\ (us = None -> t = [])) by (intros s Es; destruct LG as (t & Et & Nt); exists s1, t; rewrite Es; auto).
  clear E1 E2 LG.
  assert (W := grown_trans _ _ _ _ _ _ _ _ _ (blank_gathered kTrue ev_kind house ccf_gate ccf) W1 W2). fold (named root us) in W. clear W1 W2.
  assert (CL : closed ev_kind formula_of ccf_gate ccf s2) by (intros g f a Sg Ef Ia; eapply (w_closed _ _ _ _ _ _ _ W); eauto; apply lookup_empty).
  pose proof (w_ok _ _ _ _ _ _ _ W) as A2.
  assert (BA : forall e, In e (basics s2) <-> exists n, In n (named root us) /\ below_event n e).
  { intros e. split.
    - intros J. destruct (w_only _ _ _ _ _ _ _ W e J) as [[]|H]. auto.
    - intros (n & J & BE). eapply closed_below; eauto. apply (w_done _ _ _ _ _ _ _ W). auto. }
  assert (RG : forall e, In e (named root us) -> registered ev_kind ccf_gate ccf s2 e) by (apply (w_done _ _ _ _ _ _ _ W)).
  pose proof (gathered_inv ev_kind formula_of house ccf_gate ccf R true s2 A2 CL) as I2.
  assert (RT : forall a g, In a (f_args root) -> target ev_kind ccf_gate ccf (event a) = Some g -> (R g < N)%nat) by (intros; apply (m_depth _ _ _ _ _ _ _ _ _ SM)).
  assert (RR : forall a, In a (f_args root) -> registered ev_kind ccf_gate ccf s2 (event a)) by (intros a J; apply RG; unfold named; apply in_app_iff; left; apply in_map; auto).
  destruct (spec_of ev_id kTrue kFalse ev_kind formula_of house ccf_gate ccf R N SM true fuel N root s2 _ _ F SR RT I2 (fun _ H => match H with end) RR) as (r & s3 & lev3 & A3 & X3 & I3 & L3 & D3 & LR & BR & FR & MO).
  rewrite A3. cbn [mbind option_bind]. clear A3.
  assert (Er : is_Some (gs (graph s3) !! r)) by (apply described_node in D3 as (x & [E _]); eauto).
  assert (CO3 : coh s3 = true -> forall j x, gs (graph s3) !! j = Some x -> coherent_gate x) by (intros C j x E; destruct (i_norm _ _ _ _ _ _ _ _ _ _ I3 j x E) as (_ & H & _); auto).
  assert (V3 : forall s lev P KC ν μ, ext (fun _ => False) s3 s -> inv KC R lev P s -> (forall j, P j -> is_Some (gs (graph s3) !! j) -> False) -> consistent (graph s) ν -> valuation μ -> (forall e v, vars s !! e = Some v -> ν v = μ e) -> ν r = formula_value μ root).
  { intros s lev P KC ν μ X I NP C V AG. apply (formula_node _ _ _ _ _ _ _ _ _ _ SM KC lev P s I ν C μ V AG); auto.
    apply (described_stable _ _ _ _ R N (fun _ => False) P s3 s root r X); [tauto|]. eapply described_pend; [|exact D3]. intros j x Ej Pj. apply (NP j Pj). eauto. }
  destruct us as [us|]; cbn [subs] in *.
  2: { exists r, [], s3. split; auto. split; [|apply FST; apply (x_basics _ _ _ _ _ X3)]. apply (built_of root None r [] s2 s3 true lev3 (fun _ => False)); auto.
       intros ν μ C V AG. cbn [subs List.filter forallb]. rewrite andb_true_r. apply (V3 s3 lev3 (fun _ => False) true ν μ); auto. apply ext_refl. }
  unfold make, new_gate. rewrite (i_reg _ _ _ _ _ _ _ _ _ _ I3). set (p := nxt (graph s3)). pose proof (i_wf _ _ _ _ _ _ _ _ _ _ I3) as [W0 W3].
  set (s4 := St (Graph (<[p := Gate kAnd 0 []]> (gs (graph s3))) (p + 1) (nulls (graph s3)) true) (gates s3) (vars s3) (basics s3) (coh s3) (norm s3)).
  change (with_graph s3 (Graph (<[p := Gate kAnd 0 []]> (gs (graph s3))) (p + 1) (nulls (graph s3)) true)) with s4.
  set (lev4 := fun j => if j =? p then (4 * N + 5)%nat else lev3 j).
  assert (ST : ext (eq p) s3 s4 /\ inv true R lev4 (fun j => j = p \/ False) s4 /\ gs (graph s4) !! p = Some (Gate kAnd 0 [])) by (apply start_ok; auto; apply incl_refl).
  destruct ST as (X4 & I4 & E4).
  assert (I4' : inv false R lev4 (eq p) s4) by (apply inv_weaken; eapply inv_pend; [|exact I4]; intros j x _ ->; auto).
  assert (Br : r < p) by (destruct Er as [x Ex]; apply W3 in Ex; unfold p; lia).
  destruct (apply_ok ev_id kTrue kFalse ev_kind formula_of house ccf_gate ccf R N SM fuel p F us lev4 s4 [] [] []) as (s5 & lev5 & xs & qs & A5 & X5 & I5 & L5 & E5 & PM & FD & BQ & SAME); auto.
  { cbn [s4 graph nxt]. lia. }
  { intros q []. }
  { unfold lev4. rewrite Z.eqb_refl. auto. }
  { intros u e J K. eapply registered_ext; [exact X4|]. eapply registered_ext; [exact X3|]. apply RG. unfold named. apply in_app_iff. right. cbn [subs]. apply in_flat_map. eauto. }
  rewrite A5. cbn [mbind option_bind app] in *. rewrite E5. cbn [mbind option_bind g_args].
  assert (NU4 : ~ unreg s4 p) by (intros (x & Ex & Tx & _); rewrite E4 in Ex; injection Ex as <-; discriminate).
  assert (NP : forall j, p = j -> is_Some (gs (graph s3) !! j) -> False) by (intros j <- [x Ex]; apply W3 in Ex; unfold p in Ex; lia).
  destruct xs as [|x0 xs].
  - (* no declarative substitutions *)
    apply Permutation_nil in PM. subst qs. assert (ND : List.filter declarative us = []) by (inversion FD; auto). rewrite (SAME ND) in *. clear SAME s5 A5 X5 I5 E5.
    destruct (finish ev_kind formula_of house ccf_gate ccf true R N (eq p) (fun _ => False) (fun j => j = p \/ False) lev3 lev4 s3 s4) as (F1 & F2 & F3); auto.
    { intros j <-. split; [auto|]. split; [unfold p; lia|auto]. }
    eexists r, _, s4. split; [reflexivity|]. split; [|apply FST; rewrite <- (x_basics _ _ _ _ _ X3); reflexivity]. apply (built_of root (Some us) r _ s2 s4 true lev4 (fun _ => False)); auto.
    + eapply ext_trans; eauto.
    + apply (x_some _ _ _ _ _ F1). auto.
    + intros C j x E. destruct (i_norm _ _ _ _ _ _ _ _ _ _ F2 j x E) as (_ & H & _). auto.
    + intros ν μ C V AG. cbn [subs]. rewrite ND. cbn [forallb]. rewrite andb_true_r. apply (V3 s4 lev4 (fun _ => False) true ν μ); auto.
  - set (ys := x0 :: xs) in *.
    pose proof (x_nxt _ _ _ _ _ X5) as NX5. assert (N4 : nxt (graph s4) = p + 1) by reflexivity.
    assert (BX : forall b, In b ys -> p < b < nxt (graph s5)) by (intros b J; apply BQ; rewrite <- PM; auto).
    assert (B1 : 1 < r) by (destruct Er as [x Ex]; apply W3 in Ex; lia).
    destruct (add_ok ev_kind formula_of house ccf_gate ccf false R N lev5 (eq p) s5 p kAnd 0 ys r) as (s6 & C1 & C2 & C3 & C4 & C5 & C6 & C7 & C8 & C9); auto; try discriminate; try lia.
    { intros [T|T]; discriminate. }
    { intros b J. apply BX in J. lia. }
    { intros _. rewrite Z.abs_eq by lia. rewrite !L5 by lia. unfold lev4. rewrite Z.eqb_refl. destruct (Z.eqb_spec r p); lia. }
    { intros J. apply BX in J. lia. }
    { intros J. apply BX in J. lia. }
    change (match ys with [] => Some (r, flat_map (collected s4) (List.filter (fun u => negb (declarative u)) us), s5)
      | _ :: _ => s ← add p r s5; Some (p, flat_map (collected s4) (List.filter (fun u => negb (declarative u)) us), with_coh s false) end)
      with (s ← add p r s5; Some (p, flat_map (collected s4) (List.filter (fun u => negb (declarative u)) us), with_coh s false)).
    rewrite C1. cbn [mbind option_bind].
    destruct (flags_ok ev_kind formula_of house ccf_gate ccf false R N (eq p) lev5 (eq p) s6 false (norm s6)) as [X7 I7]; auto; try discriminate. cbv zeta in X7, I7.
    change (St (graph s6) (gates s6) (vars s6) (basics s6) false (norm s6)) with (with_coh s6 false) in X7, I7. set (s7 := with_coh s6 false) in *.
    assert (X37 : ext (eq p) s3 s7) by (eapply ext_trans; [exact X4|]; eapply ext_trans; [exact X5|]; eapply ext_trans; eauto).
    assert (E7 : gs (graph s7) !! p = Some (Gate kAnd 0 (set_insert r ys))) by exact C4.
    destruct (finish ev_kind formula_of house ccf_gate ccf false R N (eq p) (fun _ => False) (eq p) lev3 lev5 s3 s7) as (F1 & F2 & F3); auto.
    { apply inv_weaken. auto. }
    { tauto. }
    { intros j <-. split; auto. split; [unfold p; lia|]. intros (x & Ex & Tx & _). rewrite E7 in Ex. injection Ex as <-. discriminate. }
    eexists p, _, s7. split; [reflexivity|]. split; [|apply FST; rewrite (x_basics _ _ _ _ _ X37); apply (x_basics _ _ _ _ _ X3)]. apply (built_of root (Some us) p _ s2 s7 false lev5 (eq p)); auto.
    + eapply ext_trans; eauto.
    + discriminate.
    + intros ν μ C V AG. rewrite (proj2 C p _ E7). unfold gate_value. cbn [g_type g_min g_args subs].
      assert (PR : Permutation (set_insert r ys) (r :: qs)) by (rewrite set_insert_perm, PM; auto; intros J; apply BX in J; lia). rewrite (value_perm ν kAnd 0 _ _ PR). cbn [map conn_value forallb].
      f_equal; [unfold lit; replace (r <? 0) with false by lia; apply (V3 s7 lev5 (eq p) false ν μ); auto|].
      assert (SV : Forall2 (fun u q => ν q = substitution_value μ u) (List.filter declarative us) qs).
      { assert (SD : forall u, In u (List.filter declarative us) -> sound_substitution u /\ declarative u = true) by (intros u J; apply filter_In in J as [J D]; auto).
        assert (S57 : sim (eq p) s5 s7) by (eapply ext_sim; [eapply ext_trans; [exact C2|exact X7]|auto]).
        clear - FD SD S57 I7 C V AG SM. induction FD as [|u q us' qs' D FD IH]; constructor.
        - destruct (SD u (or_introl eq_refl)). eapply (sub_value false lev5 (eq p) s7); eauto. eapply sub_sim; eauto.
        - apply IH. intros; apply SD; simpl; auto. }
      assert (PQ : forall q, In q qs -> 0 < q) by (intros q J; apply BQ in J; lia). clear - SV PQ.
      induction SV as [|u q us' qs' E SV IH]; auto. cbn [map forallb]. rewrite IH by (intros; apply PQ; simpl; auto). f_equal. unfold lit. assert (0 < q) by (apply PQ; simpl; auto). replace (q <? 0) with false by lia. auto.
    + cbn [subs]. assert (E : vars s7 = vars s4) by (rewrite (x_vars _ _ _ _ _ X37); reflexivity). unfold collected, index, target_index, index. rewrite E. reflexivity.
Qed.

Theorem C02_graph fuel root us : sound_formula root -> (forall u, In u (subs us) -> sound_substitution u) -> (N < fuel)%nat ->
  exists r l s, build fuel root us = Some (r, l, s) /\ built root us r l s.
Proof. intros A B C. destruct (build_ok fuel root us A B C) as (r & l & s & E & H & _). eauto. Qed.
(** The graph that ProbabilityAnalyzer::CreateBdd (probability_analysis.cc:247-266) builds of its own,
    without the model, numbers its variables as the graph of the fault tree analysis: the
    probabilities of one fit the other. *)
Theorem C02_same_variables fuel root us r l s r' l' s' : sound_formula root -> (forall u, In u (subs us) -> sound_substitution u) -> (N < fuel)%nat ->
  build fuel root us = Some (r, l, s) -> build fuel root None = Some (r', l', s') -> forall k e, nth_error (basics s') k = Some e -> nth_error (basics s) k = Some e.
Proof.
  intros A B C E E' k e H. destruct (build_ok fuel root us A B C) as (r1 & l1 & s1 & E1 & _ & s0 & t & Eg & Eb & _). destruct (build_ok fuel root None A ltac:(intros u []) C) as (r2 & l2 & s2 & E2 & _ & s0' & t' & Eg' & Eb' & Nt).
  rewrite E in E1. injection E1 as -> -> ->. rewrite E' in E2. injection E2 as -> -> ->. rewrite Eg in Eg'. injection Eg' as <-. rewrite (Nt eq_refl), app_nil_r in Eb'. rewrite Eb' in H. rewrite Eb. rewrite nth_error_app1; auto. apply nth_error_Some. congruence.
Qed.

(** A model flagged coherent: the graph is monotone in the basic events. *)
Theorem C02_coherent root us r l s : built root us r l s -> coh s = true -> forall σ σ', (forall i, σ i = true -> σ' i = true) ->
  node_value (graph s) σ r true -> node_value (graph s) σ' r true.
Proof.
  intros B CO σ σ' LE (ν & C & A & V). destruct (b_acyclic _ _ _ _ _ B) as [lv RK]. destruct (labelling_exists (graph s) lv σ' (b_wf _ _ _ _ _ B) RK) as (ν' & C' & A'). exists ν'. split; [auto|]. split; [auto|].
  destruct (b_root _ _ _ _ _ B) as [x Ex]. pose proof (b_wf _ _ _ _ _ B) as [W0 W]. apply W in Ex as Bx.
  apply (coherent_monotone (graph s) lv ν ν' (b_wf _ _ _ _ _ B) RK (b_coherent _ _ _ _ _ B CO) C C'); auto; try lia. intros j Bj Nj. rewrite A, A' by auto. apply LE.
Qed.

(** Variable [v] of the graph stands for the basic event [e]. *)
Definition stands (s : st) (e : nat) (v : Z) : Prop := exists k, nth_error (basics s) k = Some e /\ v = 2 + Z.of_nat k.
(** The parts of a non-declarative substitution: together as the hypothesis, each with all sources
    and the target. *)
Definition carries (s : st) (u : substitution) (cs : list sub) : Prop :=
  (forall μ σ, (forall k e, nth_error (basics s) k = Some e -> σ (2 + Z.of_nat k) = μ e) -> existsb (fun c => forallb σ (sub_hypothesis c)) cs = formula_value μ (hypothesis u)) /\
  forall c, In c cs -> Forall2 (stands s) (source u) (sub_source c) /\ match s_target u with TEvent e => stands s e (sub_target c) | TConst b => b = true /\ sub_target c = 0 end.
Theorem C02_substitutions root us r l s : (forall u, In u (subs us) -> sound_substitution u) -> built root us r l s ->
  exists parts, l = concat parts /\ Forall2 (carries s) (List.filter (fun u => negb (declarative u)) (subs us)) parts.
Proof.
  intros SU B. exists (map (collected s) (List.filter (fun u => negb (declarative u)) (subs us))). split; [rewrite <- flat_map_concat_map; apply (b_subs _ _ _ _ _ B)|].
  assert (HH : forall u, In u (List.filter (fun u => negb (declarative u)) (subs us)) -> carries s u (collected s u)).
  { intros u J. apply filter_In in J as [J DE]. apply negb_true_iff in DE. destruct (SU u J) as [V SH BS G CC].
    assert (NE : source u <> []) by (unfold declarative in DE; destruct (source u); discriminate).
    destruct (proj1 (C29_validate ev_id ev_kind 0%nat u) V) as [VA [(E & _)|(_ & VC & VT)]]; [contradiction|].
    assert (ST : forall e, In e (sub_events u) -> ev_kind e = KBasic -> stands s e (index s e)).
    { intros e Je K. assert (Ib : In e (basics s)).
      { apply (b_basics _ _ _ _ _ B). exists e. split; [unfold named; apply in_app_iff; right; apply in_flat_map; eauto|]. constructor; auto. unfold target. rewrite K. auto. }
      apply In_nth_error in Ib as [k Ek]. assert (E : vars s !! e = Some (2 + Z.of_nat k)) by (apply (b_vars _ _ _ _ _ B); eauto). exists k. split; auto. unfold index. rewrite E. auto. }
    assert (TG : match s_target u with TEvent e => stands s e (target_index s u) | TConst b => b = true /\ target_index s u = 0 end).
    { unfold target_index. destruct (s_target u) as [e|b] eqn:Et.
      - apply ST; [|apply BS]; unfold sub_events, target_events; rewrite Et; rewrite ?in_app_iff; simpl; auto.
      - destruct b; [auto|congruence]. }
    assert (SC : Forall2 (stands s) (source u) (map (index s) (source u))).
    { assert (Q : forall e, In e (source u) -> stands s e (index s e)) by (intros e Je; apply ST; [unfold sub_events; rewrite !in_app_iff; auto|apply BS; rewrite in_app_iff; auto]).
      clear - Q. induction (source u) as [|e l0 IH]; constructor; [apply Q; simpl; auto|apply IH; intros; apply Q; simpl; auto]. }
    assert (AV : forall μ σ, (forall k e, nth_error (basics s) k = Some e -> σ (2 + Z.of_nat k) = μ e) -> map (arg_value μ) (f_args (hypothesis u)) = map σ (map (fun a => index s (event a)) (f_args (hypothesis u)))).
    { intros μ σ AG. rewrite map_map. apply map_ext_in. intros a Ja. destruct (VA a Ja) as [KB NC]. destruct (ST (event a)) as (k & Ek & Ei); [unfold sub_events; rewrite in_app_iff; left; apply in_map; auto|exact KB|].
      unfold arg_value. rewrite NC, Ei, (AG k _ Ek). now destruct (μ (event a)). }
    split.
    - intros μ σ AG. specialize (AV μ σ AG). unfold formula_value, collected. rewrite AV. destruct (f_conn (hypothesis u)) eqn:Ec; try (destruct VC as [H|[H|[H|[]]]]; discriminate).
      + cbn [existsb sub_hypothesis]. rewrite orb_false_r. generalize (map (fun a => index s (event a)) (f_args (hypothesis u))). intros is. induction is as [|i is IH]; auto. cbn [map forallb]. rewrite IH. auto.
      + generalize (map (fun a => index s (event a)) (f_args (hypothesis u))). intros is. induction is as [|i is IH]; auto. cbn [map existsb sub_hypothesis forallb]. rewrite IH, andb_true_r. auto.
      + cbn [existsb sub_hypothesis]. rewrite orb_false_r. pose proof (f_ok _ _ _ _ _ _ _ _ SH) as (_ & AR & _). rewrite Ec in AR. cbn in AR. destruct (f_args (hypothesis u)) as [|a [|]]; cbn in AR |- *; try lia. now rewrite andb_true_r.
    - intros c Jc. unfold collected in Jc. destruct (f_conn (hypothesis u)); try (destruct Jc as [<-|[]]; auto; fail). apply in_map_iff in Jc as (i & <- & _). auto. }
  revert HH. induction (List.filter _ _) as [|u us' IH]; intros HH; constructor; [apply HH; simpl; auto|apply IH; intros; apply HH; simpl; auto].
Qed.

(** Every assignment of the basic events has a valuation of the model. *)
Lemma formula_value_ext μ μ' f : (forall a, In a (f_args f) -> μ (event a) = μ' (event a)) -> formula_value μ f = formula_value μ' f.
Proof. intros H. unfold formula_value. replace (map (arg_value μ') (f_args f)) with (map (arg_value μ) (f_args f)); auto. apply map_ext_in. intros a J. unfold arg_value. rewrite H; auto. Qed.
Notation target := (target ev_kind ccf_gate ccf).
Fixpoint eval (β : nat -> bool) (n : nat) (e : nat) : bool :=
  match target e with
  | None => match ev_kind e with KHouse => house e | _ => β e end
  | Some g => match n with O => false | S n => match formula_of g with Some f => formula_value (eval β n) f | None => false end end
  end.
Lemma eval_stable β : forall n m e, (forall g, target e = Some g -> R g < n /\ R g < m)%nat -> eval β n e = eval β m e.
Proof.
  induction n as [|n IH]; intros m e H; destruct m as [|m]; cbn [eval]; destruct (target e) as [g|] eqn:T; auto; try (destruct (H g eq_refl); lia).
  destruct (formula_of g) as [f|] eqn:Ef; auto. apply formula_value_ext. intros a J. apply IH. intros g' T'. pose proof (m_order _ _ _ _ _ _ _ _ _ SM g f a g' Ef J T'). destruct (H g eq_refl). lia.
Qed.
Lemma eval_some β n e g f : target e = Some g -> formula_of g = Some f -> eval β (S n) e = formula_value (eval β n) f.
Proof. intros T E. cbn [eval]. now rewrite T, E. Qed.
Lemma eval_valuation (β : nat -> bool) : valuation (eval β N) /\ forall e, ev_kind e = KBasic -> replaced ccf_gate ccf e = None -> eval β N e = β e.
Proof.
  pose proof (m_depth _ _ _ _ _ _ _ _ _ SM) as DP. split; [split; [|split]|].
  - intros e f K Ef. assert (T : target e = Some e) by (unfold ConstructProofs.target; rewrite K; auto). pose proof (DP e). replace (eval β N e) with (eval β (S (pred N)) e) by (f_equal; lia). rewrite (eval_some _ _ _ _ _ T Ef).
    apply formula_value_ext. intros a J. apply eval_stable. intros g' T'. pose proof (m_order _ _ _ _ _ _ _ _ _ SM e f a g' Ef J T'). lia.
  - intros e K. assert (T : target e = None) by (unfold ConstructProofs.target; rewrite K; auto). destruct N; cbn [eval]; rewrite T, K; auto.
  - intros e g K E. assert (T : target e = Some g) by (unfold ConstructProofs.target; rewrite K; auto). assert (T' : target g = Some g) by (unfold ConstructProofs.target; rewrite (m_ccf _ _ _ _ _ _ _ _ _ SM e g E); auto).
    destruct N; cbn [eval]; rewrite T, T'; auto.
  - intros e K E. assert (T : target e = None) by (unfold ConstructProofs.target; rewrite K; auto). destruct N; cbn [eval]; rewrite T, K; auto.
Qed.
Theorem valuation_exists (β : nat -> bool) : exists μ, valuation μ /\ forall e, ev_kind e = KBasic -> replaced ccf_gate ccf e = None -> μ e = β e.
Proof. exists (eval β N). apply eval_valuation. Qed.
End Construct.

(** ** An example: votes, implication, equivalence, cardinality, a house event, a CCF group and
    both sorts of substitutions. *)
Definition ex_kind (e : nat) : kind := match e with 11 | 12 | 13 | 14 | 15 => KGate | 9 => KHouse | _ => KBasic end%nat.
Definition ex_formula (g : nat) : option formula :=
  match g with
  | 11 => Some (mkFormula Atleast 2 0 [mkArg false 1; mkArg true 2; mkArg false 13])
  | 12 => Some (mkFormula Iff 0 0 [mkArg false 1; mkArg true 9])
  | 13 => Some (mkFormula Imply 0 0 [mkArg false 3; mkArg false 4])
  | 14 => Some (mkFormula Or 0 0 [mkArg false 5; mkArg false 6])
  | 15 => Some (mkFormula Cardinality 1 2 [mkArg false 1; mkArg false 2; mkArg true 5])
  | _ => None
  end%nat.
Definition ex_house (e : nat) : bool := true.
Definition ex_ccf (e : nat) : option nat := if Nat.eqb e 4 then Some 14%nat else None.
Definition ex_root : formula := mkFormula Or 0 0 [mkArg false 11%nat; mkArg true 12%nat; mkArg false 15%nat].
Definition ex_subs : option (list substitution) :=
  Some [mkSub (mkFormula And 0 0 [mkArg false 1%nat; mkArg false 2%nat]) [] (TEvent 3%nat);
        mkSub (mkFormula Or 0 0 [mkArg false 5%nat; mkArg false 2%nat]) [1%nat] (TEvent 6%nat)].
Definition ex_rank (g : nat) : nat := match g with 13 => 1 | 11 => 2 | _ => 0 end%nat.
Notation ex_sound := (sound_formula (fun e => e) 100 101 ex_kind ex_formula ex_ccf true).
Lemma ex_sound_of f : distinct_ids (fun e => e) (f_args f) -> arity_ok (f_conn f) (Z.of_nat (length (f_args f))) (min_number f) (max_number f) ->
  P_Formula.args_ok 100 101 (f_conn f) (f_args f) -> forallb (fun a => match target ex_kind ex_ccf true (event a) with Some g => match ex_formula g with Some _ => true | None => false end | None => true end && negb (Nat.eqb (event a) 14)) (f_args f) = true -> ex_sound f.
Proof.
  intros D A AO F. rewrite forallb_forall in F. constructor.
  - split; [auto|]. split; auto.
  - intros a g J T. specialize (F a J). rewrite T in F. apply andb_true_iff in F as [F _]. destruct (ex_formula g); [eauto|discriminate].
  - intros a e J E. specialize (F a J). apply andb_true_iff in F as [_ F]. unfold replaced, ex_ccf in E. destruct (Nat.eqb e 4); [|discriminate]. injection E as E. rewrite <- E in F. discriminate.
Qed.
Ltac ex_formula_tac := apply ex_sound_of; [repeat constructor; cbn; intuition lia|cbn; first [lia|intuition lia|eexists; repeat split; eauto; lia|do 2 eexists; repeat split; eauto; lia]|intros a; cbn; intuition (subst; cbn; auto)|reflexivity].
Lemma ex_model : sound_model (fun e => e) 100 101 ex_kind ex_formula ex_ccf true ex_rank 3.
Proof.
  constructor.
  - intros g f E. do 16 (destruct g as [|g]; [cbn in E; first [discriminate|injection E as <-; ex_formula_tac]|]). discriminate.
  - intros g f E. do 16 (destruct g as [|g]; [cbn in E; first [discriminate|reflexivity]|]). discriminate.
  - intros e g E. unfold replaced, ex_ccf in E. destruct (Nat.eqb e 4); [|discriminate]. injection E as <-. reflexivity.
  - intros e e' g E E'. unfold replaced, ex_ccf in *. destruct (Nat.eqb_spec e 4), (Nat.eqb_spec e' 4); congruence.
  - intros g f a g' E J T. do 16 (destruct g as [|g]; [cbn in E; first [discriminate|injection E as <-; cbn in J; repeat destruct J as [<-|J]; try contradiction; cbn in T; first [discriminate|injection T as <-; cbn; lia]]|]). discriminate.
  - intros g. unfold ex_rank. do 14 (destruct g as [|g]; [lia|]). lia.
Qed.
Lemma ex_root_sound : ex_sound ex_root. Proof. ex_formula_tac. Qed.
Lemma ex_subs_sound u : In u (subs ex_subs) -> sound_substitution (fun e => e) 100 101 ex_kind ex_formula ex_ccf true u.
Proof.
  intros [<-|[<-|[]]]; constructor; try reflexivity; try (cbn [hypothesis]; ex_formula_tac).
  - intros e. cbn. intuition (subst; auto).
  - intros e g. cbn. unfold replaced, ex_ccf. intros [<-|[]]. discriminate.
  - cbn. congruence.
  - intros e. cbn. intuition (subst; auto).
  - intros e g. cbn. unfold replaced, ex_ccf. intros [<-|[<-|[]]]; discriminate.
  - intros _ e. cbn. unfold replaced, ex_ccf. intuition (subst; auto).
Qed.
(** The graph: 5 variables, the second substitution split in two. *)
Lemma ex_built : exists r l s, build ex_kind ex_formula ex_house ex_ccf true 4 ex_root ex_subs = Some (r, l, s) /\ built ex_kind ex_formula ex_house ex_ccf true ex_root ex_subs r l s /\
  basics s = [1; 2; 3; 5; 6]%nat /\ l = [Sub [5] [2] 6; Sub [3] [2] 6] /\ coh s = false.
Proof.
  destruct (C02_graph _ _ _ _ _ ex_house _ _ _ _ ex_model 4 ex_root ex_subs ex_root_sound ex_subs_sound ltac:(lia)) as (r & l & s & E & B).
  assert (H : option_map (fun x => (basics x.2, x.1.2, coh x.2)) (build ex_kind ex_formula ex_house ex_ccf true 4 ex_root ex_subs) = Some ([1; 2; 3; 5; 6]%nat, [Sub [5] [2] 6; Sub [3] [2] 6], false)) by (vm_compute; reflexivity).
  rewrite E in H. cbn [option_map fst snd] in H. injection H as H1 H2 H3. exists r, l, s. auto.
Qed.
(** Both values are reached. *)
Lemma ex_values : exists μ μ', valuation ex_kind ex_formula ex_house ex_ccf true μ /\ valuation ex_kind ex_formula ex_house ex_ccf true μ' /\
  formula_value μ ex_root && forallb (substitution_value μ) (List.filter declarative (subs ex_subs)) = true /\
  formula_value μ' ex_root && forallb (substitution_value μ') (List.filter declarative (subs ex_subs)) = false.
Proof.
  exists (eval ex_kind ex_formula ex_house ex_ccf true (fun e => Nat.eqb e 1) 3), (eval ex_kind ex_formula ex_house ex_ccf true (fun e => Nat.leb e 2) 3).
  assert (H : forall β, valuation ex_kind ex_formula ex_house ex_ccf true (eval ex_kind ex_formula ex_house ex_ccf true β 3)).
  { intros β. apply (eval_valuation _ _ _ _ _ _ _ _ _ _ ex_model β). }
  repeat split; try apply H; vm_compute; reflexivity.
Qed.
(** Declarative substitutions and exact probability.  Unless the algorithm is BDD, the exact
    probability comes from a graph built without the model (CreateBdd): its function differs from
    the one the products are of.  Here: a or b, with the substitution a and b -> false. *)
Definition two_root : formula := mkFormula Or 0 0 [mkArg false 1%nat; mkArg false 2%nat].
Definition two_subs : list substitution := [mkSub (mkFormula And 0 0 [mkArg false 1%nat; mkArg false 2%nat]) [] (TConst false)].
Theorem C02_exact_probability_refuted : exists r l s r' l' s' (σ : Z -> bool),
  build (fun _ => KBasic) (fun _ => None) (fun _ => true) (fun _ => None) false 2 two_root (Some two_subs) = Some (r, l, s) /\
  build (fun _ => KBasic) (fun _ => None) (fun _ => true) (fun _ => None) false 2 two_root None = Some (r', l', s') /\
  node_value (graph s) σ r false /\ node_value (graph s') σ r' true.
Proof.
  assert (SM : sound_model (fun e => e) 100 101 (fun _ => KBasic) (fun _ => None) (fun _ => None) false (fun _ => 0%nat) 1) by (constructor; try discriminate; intros; lia).
  assert (SO : forall f, distinct_ids (fun e => e) (f_args f) -> (2 <= length (f_args f))%nat -> f_conn f = And \/ f_conn f = Or -> sound_formula (fun e => e) 100 101 (fun _ => KBasic) (fun _ => None) (fun _ => None) false f).
  { intros f D L T. constructor; try discriminate. split; [auto|]. split; [|intros a J; destruct T as [-> | ->]; exact I].
    unfold min_number, max_number. destruct T as [-> | ->]; cbn [arity_ok takes_min takes_max]; repeat split; auto; lia. }
  assert (ND : distinct_ids (fun e : nat => e) [mkArg false 1%nat; mkArg false 2%nat]) by (repeat constructor; cbn; intuition lia).
  assert (SR : sound_formula (fun e => e) 100 101 (fun _ => KBasic) (fun _ => None) (fun _ => None) false two_root) by (apply SO; auto).
  assert (SU : forall u, In u two_subs -> sound_substitution (fun e => e) 100 101 (fun _ => KBasic) (fun _ => None) (fun _ => None) false u).
  { intros u [<-|[]]. constructor; auto; try discriminate. }
  destruct (C02_graph _ _ _ _ _ (fun _ => true) _ _ _ _ SM 2 two_root (Some two_subs) SR SU ltac:(lia)) as (r & l & s & E & B).
  destruct (C02_graph _ _ _ _ _ (fun _ => true) _ _ _ _ SM 2 two_root None SR ltac:(intros u []) ltac:(lia)) as (r' & l' & s' & E' & B').
  exists r, l, s, r', l', s', (fun _ => true). split; [exact E|]. split; [exact E'|].
  assert (V : valuation (fun _ => KBasic) (fun _ => None) (fun _ => true) (fun _ => None) false (fun _ => true)) by (repeat split; discriminate).
  split.
  - apply (b_value _ _ _ _ _ _ _ _ _ _ B (fun _ => true) (fun _ => true) V); auto.
  - apply (b_value _ _ _ _ _ _ _ _ _ _ B' (fun _ => true) (fun _ => true) V); auto.
Qed.
