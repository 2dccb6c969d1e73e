(** The constructed graph computes the formulas of the model. *)
From stdpp Require Import gmap.
From Coq Require Import List ZArith Lia Bool Permutation.
Import ListNotations.
From Verif Require Import Pdag PdagProofs PdagSem Formula P_Formula Construct ConstructProofs.
Open Scope Z_scope.

Section Sem.
Context (ev_id : nat -> nat) (kTrue kFalse : nat).
Context (ev_kind : nat -> kind) (formula_of : nat -> option formula) (house : nat -> bool)
        (ccf_gate : nat -> option nat) (ccf : bool).
Notation replaced := (replaced ccf_gate ccf).
Notation target := (target ev_kind ccf_gate ccf).
Notation sound_formula := (sound_formula ev_id kTrue kFalse ev_kind formula_of ccf_gate ccf).
Notation res := (res ev_kind house ccf_gate ccf).
Notation pres := (pres ev_kind house ccf_gate ccf).
Notation described := (described ev_kind house ccf_gate ccf).
Notation registered := (registered ev_kind ccf_gate ccf).
(** A model that passed the checks of the input reader: formulas are valid and refer to defined
    gates, only gates have formulas, gates are not cyclic (layers [R] below [N]), and the gate of
    an event in a CCF group belongs to that event alone and is not named by any formula. *)
Record sound_model (R : nat -> nat) (N : nat) : Prop := {
  m_formulas : forall g f, formula_of g = Some f -> sound_formula f;
  m_kinds : forall g f, formula_of g = Some f -> ev_kind g = KGate;
  m_ccf : forall e g, replaced e = Some g -> ev_kind g = KGate;
  m_private : forall e e' g, replaced e = Some g -> replaced e' = Some g -> e = e';
  m_order : forall g f a g', formula_of g = Some f -> In a (f_args f) -> target (event a) = Some g' -> (R g' < R g)%nat;
  m_depth : forall g, (R g < N)%nat }.
Context (R : nat -> nat) (N : nat) (SM : sound_model R N).
Context (KC : bool).
Notation inv := (inv ev_kind formula_of house ccf_gate ccf KC R).

Lemma lit_sign ν c v : 0 < v -> lit ν (sign c v) = xorb c (ν v).
Proof. intros H. unfold lit, sign. destruct c; [replace (- v <? 0) with true by lia; rewrite Z.opp_involutive|replace (v <? 0) with false by lia]; simpl; auto. now destruct (ν v). Qed.
Section Values.
Context (lev : Z -> nat) (P : Z -> Prop) (s : st) (I : inv lev P s) (ν : Z -> bool) (C : consistent (graph s) ν)
  (μ : nat -> bool) (V : valuation ev_kind formula_of house ccf_gate ccf μ) (AG : forall e v, vars s !! e = Some v -> ν v = μ e).
Lemma res_value n c e l : (forall g i, (R g < n)%nat -> gates s !! g = Some (Some i) -> ν i = μ g) -> (forall g, target e = Some g -> (R g < n)%nat) ->
  res s P c e l -> lit ν l = xorb c (μ e).
Proof.
  intros IH RK W. destruct W as [c e v A B D|c e g i A B|c e j A [B _]].
  - rewrite lit_sign, (AG e v D); auto. apply (i_vars _ _ _ _ _ _ _ _ _ _ I) in D. lia.
  - assert (BI := entry_gate _ _ _ _ _ _ _ _ _ _ _ _ I B). rewrite lit_sign by lia. rewrite (IH g i); auto. f_equal.
    destruct V as (V1 & V2 & V3). unfold ConstructProofs.target in A. destruct (ev_kind e) eqn:K; [injection A as <-; auto| |discriminate]. symmetry. apply V3; auto.
  - assert (BJ : 1 < j) by (apply (i_wf _ _ _ _ _ _ _ _ _ _ I) in B; lia). destruct C as [C1 C2]. unfold lit at 1. replace (j <? 0) with false by lia. rewrite (C2 j _ B). unfold gate_value. cbn [g_type g_min g_args map conn_value].
    rewrite lit_sign, C1 by lia. destruct V as (_ & V2 & _). rewrite (V2 e A). destruct c, (house e); auto.
Qed.
Lemma all_value n l ls : (forall g i, (R g < n)%nat -> gates s !! g = Some (Some i) -> ν i = μ g) -> (forall ce g, In ce l -> target ce.2 = Some g -> (R g < n)%nat) ->
  Forall2 (pres s P) l ls -> map (lit ν) ls = map (fun ce => xorb ce.1 (μ ce.2)) l.
Proof.
  intros IH RK F. induction F as [|ce v l ls W F IHF]; auto. simpl. f_equal.
  - apply (res_value n ce.1 ce.2 v); auto. intros g. apply RK. simpl; auto.
  - apply IHF. intros c g J. apply RK. simpl; auto.
Qed.
Lemma well_value k xs : 0 <= k -> gate_value ν (well k xs) = (k <=? count (map (lit ν) xs)).
Proof.
  intros K. destruct C as [C1 _]. pose proof (count_bounds (map (lit ν) xs)) as B. unfold well, gate_value. destruct (Z.eqb_spec k 0) as [->|].
  - cbn [g_type g_args map conn_value]. rewrite lit_t by auto. lia.
  - destruct (Z.eqb_spec k 1) as [->|]; [|destruct (Z.eqb_spec k (size xs)) as [->|]]; cbn [g_type g_args g_min conn_value]; auto.
    + apply existsb_count.
    + rewrite forallb_count, map_length. reflexivity.
Qed.
Lemma count_opp xs : (forall a, In a xs -> a <> 0) -> count (map (lit ν) (rev (map Z.opp xs))) = Z.of_nat (length xs) - count (map (lit ν) xs).
Proof.
  intros H. rewrite (count_perm _ (map (lit ν) (map Z.opp xs))) by (apply Permutation_map; symmetry; apply Permutation_rev).
  induction xs as [|a xs IH]; auto. cbn [map length]. rewrite !count_cons, IH by (intros; apply H; simpl; auto). rewrite lit_opp by (apply H; simpl; auto). destruct (lit ν a); simpl; lia.
Qed.
Lemma described_value n f i : (forall g j, (R g < n)%nat -> gates s !! g = Some (Some j) -> ν j = μ g) -> sound_formula f ->
  (forall a g, In a (f_args f) -> target (event a) = Some g -> (R g < n)%nat) -> described s P f i -> ν i = formula_value μ f.
Proof.
  intros IH SF RK D. pose proof C as [C1 C2]. set (vs := map (arg_value μ) (f_args f)).
  assert (VS : forall xs ls, Permutation xs ls -> Forall2 (pres s P) (pairs (f_args f)) ls -> Permutation (map (lit ν) xs) vs).
  { intros xs ls PM F. rewrite PM. apply (all_value n) in F; auto.
    - rewrite F. unfold pairs. rewrite map_map. apply Permutation_refl.
    - intros ce g J. apply in_map_iff in J as (a & <- & J). apply RK. auto. }
  assert (NZ : forall xs ls, Permutation xs ls -> Forall2 (pres s P) (pairs (f_args f)) ls -> forall a, In a xs -> a <> 0).
  { intros xs ls PM F a J. rewrite PM in J. apply (all_bound _ _ _ _ _ _ _ _ _ _ _ _ I F) in J. lia. }
  destruct (f_ok _ _ _ _ _ _ _ _ SF) as (_ & AR & _). assert (LV : length vs = length (f_args f)) by apply map_length.
  assert (CV : Z.of_nat (length (List.filter (fun b => b) vs)) = count vs) by reflexivity.
  assert (SMP : forall t xs ls, node s P i (Gate t (match f_conn f with Atleast => f_min f | _ => 0 end) xs) -> Permutation xs ls -> Forall2 (pres s P) (pairs (f_args f)) ls ->
    ν i = conn_value t (match f_conn f with Atleast => f_min f | _ => 0 end) vs).
  { intros t xs ls [E _] PM F. rewrite (C2 i _ E). unfold gate_value. cbn [g_type g_min g_args]. apply conn_value_perm. eapply VS; eauto. }
  unfold formula_value. fold vs. unfold ConstructProofs.described in D. destruct (f_conn f) eqn:EC; cbn [arity_ok] in AR.
  all: try (destruct D as (t & xs & ls & T & ND & PM & F); injection T as <-; rewrite (SMP _ _ _ ND PM F); cbn [conn_value]; auto; fail).
  - destruct D as (t & xs & ls & T & ND & PM & F); injection T as <-; rewrite (SMP _ _ _ ND PM F); cbn [conn_value]. destruct vs as [|v [|]]; simpl in LV; try lia. auto.
  - destruct D as (t & xs & ls & T & ND & PM & F); injection T as <-; rewrite (SMP _ _ _ ND PM F); cbn [conn_value]. destruct vs as [|v [|]]; simpl in LV; try lia. auto.
  - destruct D as (x & xs & ls & [E _] & [Ex _] & PM & F). rewrite (C2 i _ E). unfold gate_value. cbn [g_type g_args map conn_value].
    assert (BX : 1 < x) by (apply (i_wf _ _ _ _ _ _ _ _ _ _ I) in Ex; lia). change (- x) with (sign true x). rewrite lit_sign by lia. rewrite (C2 x _ Ex). unfold gate_value. cbn [g_type g_min g_args].
    rewrite (conn_value_perm _ _ _ _ (VS xs ls PM F)). cbn [conn_value]. destruct vs as [|v [|w [|]]]; simpl in LV; try lia. rewrite !count_cons. destruct v, w; reflexivity.
  - destruct D as (a & b & xs & ls & EA & [E _] & PM & F). rewrite (C2 i _ E). unfold gate_value. cbn [g_type g_args g_min]. rewrite (value_perm ν kOr 0 xs ls PM).
    apply (all_value n) in F; auto; [|intros ce g [<-|[<-|[]]]; apply RK; rewrite EA; simpl; auto]. rewrite F. unfold vs. rewrite EA. cbn [map conn_value existsb]. unfold arg_value. cbn [fst snd].
    destruct (complement a), (μ (event a)), (complement b), (μ (event b)); reflexivity.
  - destruct D as (x & y & xs & ls & zs & [E _] & PZ & [Ex _] & [Ey _] & PM & F). rewrite (C2 i _ E). unfold gate_value. cbn [g_type g_args g_min]. rewrite (value_perm ν kAnd 0 zs _ PZ).
    assert (BX : 1 < x) by (apply (i_wf _ _ _ _ _ _ _ _ _ _ I) in Ex; lia). assert (BY : 1 < y) by (apply (i_wf _ _ _ _ _ _ _ _ _ _ I) in Ey; lia).
    cbn [map conn_value forallb]. unfold lit. replace (x <? 0) with false by lia. replace (y <? 0) with false by lia. rewrite (C2 x _ Ex), (C2 y _ Ey), andb_true_r.
    destruct AR as (k & m & E1 & E2 & K1 & K2 & _). unfold min_number, max_number in *. rewrite EC in *. cbn [takes_min takes_max] in *. injection E1 as <-. injection E2 as <-.
    rewrite !well_value by lia. fold (lit ν). rewrite count_opp by (eapply NZ; eauto). rewrite (count_perm _ _ (VS xs ls PM F)), CV. f_equal.
    assert (LX : length xs = length (f_args f)) by (rewrite <- LV, <- (Permutation_length (VS xs ls PM F)); symmetry; apply map_length). rewrite LX. lia.
Qed.
Lemma entry_value : forall n g i, (R g < n)%nat -> gates s !! g = Some (Some i) -> ν i = μ g.
Proof.
  induction n as [|n IH]; intros g i L E; [lia|]. destruct (i_entry _ _ _ _ _ _ _ _ _ _ I g i E) as (f & Ef & D & _).
  rewrite (described_value (R g) f i); auto.
  - destruct V as (V1 & _). symmetry. apply V1; auto. eapply (m_kinds _ _ SM); eauto.
  - intros h j H. apply IH. lia.
  - eapply (m_formulas _ _ SM); eauto.
  - intros a h J. eapply (m_order _ _ SM); eauto.
Qed.
Lemma formula_node f i : sound_formula f -> described s P f i -> ν i = formula_value μ f.
Proof. intros SF D. apply (described_value N f i); auto; [apply entry_value|]. intros. apply (m_depth _ _ SM). Qed.
Lemma event_value c e l : res s P c e l -> lit ν l = xorb c (μ e).
Proof. apply (res_value N); [apply entry_value|]. intros. apply (m_depth _ _ SM). Qed.
End Values.
End Sem.
