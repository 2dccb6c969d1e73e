(** The whole construction: variables, the root, substitutions. *)
From stdpp Require Import gmap.
From Coq Require Import List ZArith Lia Bool Permutation.
Import ListNotations.
From Verif Require Import Pdag PdagProofs PdagSem Formula P_Formula Construct ConstructProofs ConstructSem.
Open Scope Z_scope.

Section Build.
Context (ev_id : nat -> nat) (kTrue kFalse : nat).
Context (ev_kind : nat -> kind) (formula_of : nat -> option formula) (house : nat -> bool)
        (ccf_gate : nat -> option nat) (ccf : bool).
Notation replaced := (replaced ccf_gate ccf).
Notation target := (target ev_kind ccf_gate ccf).
Notation sound_formula := (sound_formula ev_id kTrue kFalse ev_kind formula_of ccf_gate ccf).
Notation res := (res ev_kind house ccf_gate ccf).
Notation described := (described ev_kind house ccf_gate ccf).
Notation registered := (registered ev_kind ccf_gate ccf).
Notation gathered := (gathered ev_kind ccf_gate ccf).
Notation grown := (grown ev_kind formula_of ccf_gate ccf).
Notation closed := (closed ev_kind formula_of ccf_gate ccf).
Notation below_event := (below_event ev_kind formula_of ccf_gate ccf).
Notation gather := (gather ev_kind formula_of ccf_gate ccf).
Notation construct := (construct ev_kind formula_of house ccf_gate ccf).
Notation construct_substitution := (construct_substitution ev_kind formula_of house ccf_gate ccf).
Context (R : nat -> nat) (N : nat) (SM : sound_model ev_id kTrue kFalse ev_kind formula_of ccf_gate ccf R N).
Notation inv := (inv ev_kind formula_of house ccf_gate ccf).
Notation ext := (ext R N).
(** The basic events that a substitution names beside its hypothesis. *)
Definition target_events (u : substitution) : list nat := match s_target u with TEvent e => [e] | TConst _ => [] end.
Definition sub_events (u : substitution) : list nat := map event (f_args (hypothesis u)) ++ source u ++ target_events u.
(** A substitution that passed the checks (Substitution::Validate, EnsureNoCcfSubstitutions). *)
Record sound_substitution (u : substitution) : Prop := {
  u_valid : validate_substitution ev_kind u = None;
  u_hypothesis : sound_formula (hypothesis u);
  u_basic : forall e, In e (source u ++ target_events u) -> ev_kind e = KBasic;
  u_gates : forall e g, In e (source u ++ target_events u) -> replaced e = Some g -> is_Some (formula_of g);
  u_ccf : source u <> [] -> forall e, In e (sub_events u) -> replaced e = None }.

(** ** Variables *)
Lemma blank_gathered : gathered blank.
Proof.
  constructor; cbn; auto; try (constructor; fail); try tauto.
  - intros e v. rewrite lookup_empty. split; [discriminate|]. intros (k & E & _). destruct k; discriminate.
  - intros g o. rewrite lookup_empty. discriminate.
Qed.
Lemma gather_basic_ok fuel e s : (N < fuel)%nat -> ev_kind e = KBasic -> (forall g, replaced e = Some g -> is_Some (formula_of g)) -> gathered s ->
  exists s', gather_basic formula_of ccf_gate ccf (gather fuel) e s = Some s' /\ grown [e] s s'.
Proof.
  intros F K G A. set (f0 := mkFormula Null 0 0 [mkArg false e]).
  assert (T : target e = replaced e) by (unfold ConstructProofs.target; rewrite K; auto).
  destruct (gather_ok ev_id kTrue kFalse ev_kind formula_of ccf_gate ccf R (m_formulas _ _ _ _ _ _ _ _ _ SM) (m_order _ _ _ _ _ _ _ _ _ SM) (S fuel) N f0 s) as (s' & E & W); auto.
  - constructor.
    + split; [|split]; cbn.
      * unfold distinct_ids. cbn. constructor; [simpl; tauto|constructor].
      * auto.
      * intros a [<-|[]]. reflexivity.
    + intros a g [<-|[]]. cbn [event]. rewrite T. auto.
    + intros a e' [<-|[]]. cbn [event]. intros Q. apply (m_ccf _ _ _ _ _ _ _ _ _ SM) in Q. congruence.
  - intros. apply (m_depth _ _ _ _ _ _ _ _ _ SM).
  - exists s'. split; [|exact W]. cbn [Construct.gather f0 f_args gather_args event] in E. unfold gather_event in E. rewrite K in E.
    destruct (gather_basic formula_of ccf_gate ccf (gather fuel) e s); [exact E|discriminate].
Qed.
Lemma gather_basics_ok fuel : (N < fuel)%nat -> forall l s, (forall e, In e l -> ev_kind e = KBasic) -> (forall e g, In e l -> replaced e = Some g -> is_Some (formula_of g)) -> gathered s ->
  exists s', gather_basics ev_kind formula_of ccf_gate ccf fuel l s = Some s' /\ grown l s s'.
Proof.
  intros F. induction l as [|e l IH]; intros s K G A; [exists s; split; auto; apply grown_refl; auto|].
  cbn [gather_basics]. destruct (gather_basic_ok fuel e s F) as (s1 & E1 & W1); auto; [apply K; simpl; auto|intros g; apply G; simpl; auto|].
  rewrite E1. cbn [mbind option_bind]. destruct (IH s1) as (s2 & E2 & W2); [intros; apply K; simpl; auto|intros; eapply G; eauto; simpl; auto|apply W1|].
  exists s2. split; auto. apply (grown_trans _ _ _ _ [e] l s s1 s2); auto.
Qed.
Lemma gather_formula_ok fuel f s : (N < fuel)%nat -> sound_formula f -> gathered s -> exists s', gather fuel f s = Some s' /\ grown (map event (f_args f)) s s'.
Proof.
  intros F S A. apply (gather_ok ev_id kTrue kFalse ev_kind formula_of ccf_gate ccf R (m_formulas _ _ _ _ _ _ _ _ _ SM) (m_order _ _ _ _ _ _ _ _ _ SM) fuel N f s); auto.
  intros. apply (m_depth _ _ _ _ _ _ _ _ _ SM).
Qed.
Lemma gather_substitution_ok fuel u s : (N < fuel)%nat -> sound_substitution u -> gathered s ->
  exists s', gather_substitution ev_kind formula_of ccf_gate ccf fuel u s = Some s' /\ grown (sub_events u) s s'.
Proof.
  intros F [V H B G _] A. unfold gather_substitution. destruct (gather_formula_ok fuel _ s F H A) as (s1 & E1 & W1). rewrite E1. cbn [mbind option_bind].
  destruct (gather_basics_ok fuel F (source u) s1) as (s2 & E2 & W2); [intros; apply B, in_app_iff; auto|intros e g J; apply G, in_app_iff; auto|apply W1|]. rewrite E2. cbn [mbind option_bind].
  assert (W12 := grown_trans _ _ _ _ _ _ s s1 s2 A W1 W2). unfold sub_events, target_events in *. destruct (s_target u) as [e|b].
  - destruct (gather_basic_ok fuel e s2 F) as (s3 & E3 & W3); [apply B, in_app_iff; simpl; auto|intros g; apply G, in_app_iff; simpl; auto|apply W2|].
    exists s3. split; auto. rewrite app_assoc. eapply grown_trans; eauto.
  - exists s2. split; auto. rewrite app_nil_r. auto.
Qed.
Lemma gather_substitutions_ok fuel : (N < fuel)%nat -> forall us s, (forall u, In u us -> sound_substitution u) -> gathered s ->
  exists s', gather_substitutions ev_kind formula_of ccf_gate ccf fuel us s = Some s' /\ grown (flat_map sub_events us) s s'.
Proof.
  intros F. induction us as [|u us IH]; intros s S A; [exists s; split; auto; apply grown_refl; auto|].
  cbn [gather_substitutions flat_map]. destruct (gather_substitution_ok fuel u s F) as (s1 & E1 & W1); auto; [apply S; simpl; auto|]. rewrite E1. cbn [mbind option_bind].
  destruct (IH s1) as (s2 & E2 & W2); [intros; apply S; simpl; auto|apply W1|]. exists s2. split; auto. eapply grown_trans; eauto.
Qed.
Lemma gathered_inv KC s : gathered s -> closed s -> inv KC R (fun _ => 0%nat) (fun _ => False) s.
Proof.
  intros [A B C D E F G H] CL. constructor; auto.
  - split; [lia|]. rewrite A. intros i x. rewrite lookup_empty. discriminate.
  - intros i x a. rewrite A, lookup_empty. discriminate.
  - apply B.
  - intros e v V. apply D in V as (k & Nk & ->). split; [|rewrite A; apply lookup_empty]. assert (k < length (basics s))%nat by (apply nth_error_Some; congruence). lia.
  - intros e e' v V V'. apply D in V as (k & Nk & ->). apply D in V' as (k' & Nk' & Q). assert (k' = k) by lia. congruence.
  - intros g i Q. apply F in Q. discriminate.
  - intros g g' i Q. apply F in Q. discriminate.
  - intros j x. rewrite A, lookup_empty. discriminate.
Qed.
Lemma closed_below s e b : gathered s -> closed s -> registered s e -> below_event e b -> In b (basics s).
Proof.
  intros A CL RG BE. induction BE as [e T K|e g f a b T Ef Ia BE IH].
  - unfold ConstructProofs.registered in RG. rewrite T in RG. destruct (RG K) as [v Ev]. apply (v_vars _ _ _ _ A) in Ev as (k & Nk & _). eapply nth_error_In; eauto.
  - unfold ConstructProofs.registered in RG. rewrite T in RG. apply IH. eapply CL; eauto.
Qed.

(** ** Substitutions *)
Definition sub_described (s : st) (P : Z -> Prop) (u : substitution) (q : Z) : Prop :=
  exists h, described s P (hypothesis u) h /\
    match s_target u with
    | TEvent e => exists xs l, node s P q (Gate kOr 0 xs) /\ Permutation xs [- h; l] /\ res s P false e l
    | TConst _ => node s P q (Gate kNull 0 [- h])
    end.
Lemma sub_sim P s s' u q : sim P s s' -> sub_described s P u q -> sub_described s' P u q.
Proof.
  intros X (h & D & T). exists h. split; [eapply described_sim; eauto|]. destruct (s_target u).
  - destruct T as (xs & l & A & B & C). exists xs, l. split; [eapply node_sim; eauto|]. split; auto. eapply res_sim; eauto.
  - eapply node_sim; eauto.
Qed.
Lemma spec_of KC fuel : construct_spec ev_id kTrue kFalse ev_kind formula_of house ccf_gate ccf KC R fuel.
Proof. apply construct_ok; apply SM. Qed.
Lemma declarative_target u : sound_substitution u -> declarative u = true -> s_target u <> TConst true.
Proof.
  intros [V _ _ _ _] D. apply C29_validate in V as [_ [(_ & _ & T)|(NE & _)]]; auto. unfold declarative in D. destruct (source u); [contradiction|discriminate].
Qed.
Lemma construct_substitution_ok fuel u s lev (P : Z -> Prop) : (N < fuel)%nat -> sound_substitution u -> declarative u = true ->
  inv false R lev P s -> (forall j, P j -> j < nxt (graph s)) -> (forall e, In e (sub_events u) -> registered s e) ->
  exists q s' lev', construct_substitution fuel u s = Some (q, s') /\ ext (fun _ => False) s s' /\ inv false R lev' P s' /\ (forall j, j < nxt (graph s) -> lev' j = lev j) /\
    sub_described s' P u q /\ (lev' q <= 4 * N + 4)%nat /\ nxt (graph s) <= q.
Proof.
  intros F SU DE I PB RG. pose proof (declarative_target u SU DE) as NT. destruct SU as [V SH B G _]. unfold Construct.construct_substitution, make, new_gate. rewrite (i_reg _ _ _ _ _ _ _ _ _ _ I).
  set (q := nxt (graph s)). pose proof (i_wf _ _ _ _ _ _ _ _ _ _ I) as [W0 _].
  destruct (start_ok ev_kind formula_of house ccf_gate ccf false R N (4 * N + 4) lev P s kOr 0 (nulls (graph s)) (coh s) (norm s)) as (X1 & I1 & E1); auto; try apply incl_refl.
  fold q in X1, I1, E1. set (s1 := St (Graph (<[q := Gate kOr 0 []]> (gs (graph s))) (q + 1) (nulls (graph s)) true) (gates s) (vars s) (basics s) (coh s) (norm s)) in *.
  set (lev1 := fun j => if j =? q then (4 * N + 4)%nat else lev j) in *. set (P1 := fun j => j = q \/ P j) in *.
  change (with_graph s (Graph (<[q := Gate kOr 0 []]> (gs (graph s))) (q + 1) (nulls (graph s)) true)) with s1.
  assert (L1 : lev1 q = (4 * N + 4)%nat) by (unfold lev1; rewrite Z.eqb_refl; auto).
  assert (PB1 : forall j, P1 j -> j < nxt (graph s1)) by (intros j [-> | J]; unfold s1; cbn [graph nxt]; [lia|apply PB in J; unfold q; lia]).
  assert (Pq : P1 q) by (left; auto).
  destruct (spec_of false fuel N (hypothesis u) s1 lev1 P1) as (h & s2 & lev2 & A1 & A2 & A3 & A4 & A5 & A6 & A7 & A8 & _); auto.
  { intros. apply (m_depth _ _ _ _ _ _ _ _ _ SM). }
  { intros a J. eapply registered_ext; [exact X1|]. apply RG. unfold sub_events. apply in_app_iff. left. apply in_map. auto. }
  rewrite A1. cbn [mbind option_bind]. pose proof (x_nxt _ _ _ _ _ A2) as NX2.
  assert (N1 : nxt (graph s1) = q + 1) by reflexivity.
  assert (Eq2 : gs (graph s2) !! q = Some (Gate kOr 0 [])) by (apply (x_gs _ _ _ _ _ A2); auto).
  assert (Hh : exists x, gs (graph s2) !! h = Some x) by (apply described_node in A5 as (x & [E _]); eauto). destruct Hh as [xh Eh].
  assert (Bh : 1 < h < nxt (graph s2)) by (apply (i_wf _ _ _ _ _ _ _ _ _ _ A3) in Eh; lia).
  assert (L2 : lev2 q = (4 * N + 4)%nat) by (rewrite A4; auto).
  destruct (add_ok ev_kind formula_of house ccf_gate ccf false R N lev2 P1 s2 q kOr 0 [] (- h)) as (s3 & B1 & B2 & B3 & B4 & B5 & B6 & B7 & B8 & B9); auto; try lia; try discriminate.
  { intros b []. }
  { intros _. rewrite Z.abs_opp, Z.abs_eq by lia. lia. }
  rewrite B1. cbn [mbind option_bind]. cbn [set_insert] in B4.
  assert (D3 : described s3 P1 (hypothesis u) h) by (eapply described_stable; [exact B2| |exact A5]; intros j <-; auto).
  assert (X3 : ext (eq q) s s3) by (eapply ext_trans; [exact X1|]; eapply ext_trans; [eapply ext_weaken; [| |exact A2]; [lia|tauto]|exact B2]).
  assert (NPj : forall j, P j -> j < q) by auto.
  assert (AG3 : forall j, j < nxt (graph s) -> lev2 j = lev j).
  { intros j J. fold q in J. rewrite A4 by (rewrite N1; lia). unfold lev1. destruct (Z.eqb_spec j q); [lia|auto]. }
  unfold sub_described. unfold sub_events, target_events in *. destruct (s_target u) as [e|b].
  - destruct (add_event_ok ev_id kTrue kFalse ev_kind formula_of house ccf_gate ccf false R (m_formulas _ _ _ _ _ _ _ _ _ SM) (m_order _ _ _ _ _ _ _ _ _ SM) fuel (spec_of false fuel) N
      (Nat.lt_le_incl _ _ F) P1 q Pq kOr 0 (Z.le_refl 0) lev2 s3 [- h] [- h] [] [] e false) as (s4 & lev4 & l & xs & C1 & C2 & C3 & C4 & C5 & C6 & C7); auto; try discriminate.
    + intros j J. apply PB1 in J. lia.
    + intros z [<-|[]]. rewrite Z.abs_opp, Z.abs_eq by lia. rewrite B8, B5 by lia. split; [eauto|auto].
    + split; [intros [T|T]; discriminate|discriminate].
    + lia.
    + eapply registered_ext; [exact X3|]. apply RG. apply in_app_iff. right. apply in_app_iff. right. simpl; auto.
    + intros g T. split; [apply (m_depth _ _ _ _ _ _ _ _ _ SM)|]. assert (Ie : In e (source u ++ [e])) by (apply in_app_iff; simpl; auto). apply (G e g Ie). unfold ConstructProofs.target in T. rewrite (B e Ie) in T. auto.
    + intros ce [].
    + rewrite C1. cbn [mbind option_bind]. exists q, s4, lev4. split; auto.
      destruct (finish ev_kind formula_of house ccf_gate ccf false R N (eq q) P P1 lev lev4 s s4) as (F1 & F2 & F3); auto; [eapply ext_trans; eauto|intros j J; right; auto| |].
      { intros j <-. split; auto. split; [unfold q; lia|]. intros (x & Ex & Tx & Nx). rewrite C5 in Ex. injection Ex as <-. discriminate. }
      split; auto. split; auto. split; [|split; [|split]].
      * intros j J. rewrite C4; auto. unfold q in *. lia.
      * exists h. split; [eapply described_pend; [|eapply described_stable; [exact C2| |exact D3]]; [intros j x _ J; right; auto|intros j <-; auto]|].
        exists xs, l. split; [split; [auto|intros J; apply NPj in J; lia]|]. split; [exact C6|].
        inversion C7 as [|? ? ? ? V1 _]; subst. unfold pres in V1. cbn [fst snd] in V1.
        destruct V1 as [c e' w VA VB VC|c e' g kk VA VB|c e' j VA [VB VN]]; [apply RVar|eapply RGate|apply RHouse; [|split]]; eauto. intros J. apply VN. right. auto.
      * rewrite C4, L2 by lia. lia.
      * unfold q. lia.
  - destruct b; [contradiction|]. unfold set_type. rewrite B4. cbn [mbind option_bind g_min g_args conn_eqb andb]. rewrite (i_reg _ _ _ _ _ _ _ _ _ _ B3).
    set (G4 := Graph (<[q := Gate kNull 0 [- h]]> (gs (graph s3))) (nxt (graph s3)) (nulls (graph s3) ++ [q]) true).
    destruct (edit_ok ev_kind formula_of house ccf_gate ccf false R N lev2 P1 s3 q (Gate kOr 0 [- h]) (Gate kNull 0 [- h]) (nulls (graph s3) ++ [q]) G4 B3 Pq B4 eq_refl) as [X4 I4].
    + intros j J. apply in_app_iff; auto.
    + pose proof B4 as E. apply (i_wf _ _ _ _ _ _ _ _ _ _ B3) in E as [_ E]. exact E.
    + intros a J K. apply (i_rank _ _ _ _ _ _ _ _ _ _ B3 q _ a B4 J K).
    + split; [intros _; right; right; reflexivity|]. split; [discriminate|]. split; [cbn; auto|]. split; [discriminate|auto].
    + exists q, (with_graph s3 G4), lev2. split; auto.
      destruct (finish ev_kind formula_of house ccf_gate ccf false R N (eq q) P P1 lev lev2 s (with_graph s3 G4)) as (F1 & F2 & F3); auto; [eapply ext_trans; eauto|intros j J; right; auto| |].
      { intros j <-. split; auto. split; [unfold q; lia|]. intros (x & Ex & Tx & Nx). apply Nx. cbn [with_graph graph nulls G4]. apply in_app_iff. right. simpl; auto. }
      split; auto. split; auto. split; [auto|split; [|split; [lia|unfold q; lia]]].
      exists h. split; [eapply described_pend; [|eapply described_stable; [exact X4| |exact D3]]; [intros j x _ J; right; auto|intros j <-; auto]|].
      split; [apply lookup_insert|intros J; apply NPj in J; lia].
Qed.

(** Non-declarative substitutions, in terms of the numbers of variables. *)
Definition index (s : st) (e : nat) : Z := match vars s !! e with Some v => v | None => 0 end.
Definition target_index (s : st) (u : substitution) : Z := match s_target u with TEvent e => index s e | TConst _ => 0 end.
Definition collected (s : st) (u : substitution) : list sub :=
  let args := map (fun a => index s (event a)) (f_args (hypothesis u)) in
  match f_conn (hypothesis u) with
  | Or => map (fun i => Sub [i] (map (index s) (source u)) (target_index s u)) args
  | _ => [Sub args (map (index s) (source u)) (target_index s u)]
  end.
Lemma mapM_all {X} (f : X -> option Z) (g : X -> Z) l : (forall x, In x l -> f x = Some (g x)) -> mapM f l = Some (map g l).
Proof. induction l as [|x l IH]; intros H; auto. cbn. rewrite H by (simpl; auto). cbn [mbind option_bind]. rewrite IH by (intros; apply H; simpl; auto). reflexivity. Qed.
Lemma collect_ok u s : sound_substitution u -> declarative u = false -> (forall e, In e (sub_events u) -> registered s e) ->
  collect_substitution ev_kind u s = Some (collected s u).
Proof.
  intros SU DE RG. destruct SU as [V SH B G CC]. assert (NE : source u <> []) by (unfold declarative in DE; destruct (source u); discriminate).
  destruct (proj1 (C29_validate ev_id ev_kind 0%nat u) V) as [VA [(E & _)|(_ & VC & VT)]]; [contradiction|].
  assert (IX : forall e, In e (sub_events u) -> ev_kind e = KBasic -> index_of s e = Some (index s e)).
  { intros e J K. pose proof (RG e J) as H. unfold ConstructProofs.registered, ConstructProofs.target in H. rewrite K, (CC NE e J) in H. destruct (H eq_refl) as [v Ev]. unfold index_of, index. rewrite Ev. auto. }
  assert (IA : forall a, In a (f_args (hypothesis u)) -> In (event a) (sub_events u)) by (intros a J; unfold sub_events; apply in_app_iff; left; apply in_map; auto).
  unfold collect_substitution, collected.
  assert (ET : (match s_target u with TEvent e => index_of s e | TConst b => if b then Some 0 else None end) = Some (target_index s u)).
  { unfold target_index. unfold sub_events, target_events in *. destruct (s_target u) as [e|[|]]; auto; [|contradiction].
    apply IX; [apply in_app_iff; right; apply in_app_iff; right; simpl; auto|apply B; apply in_app_iff; right; simpl; auto]. }
  rewrite ET. cbn [mbind option_bind]. rewrite (mapM_all _ (index s)).
  2: { intros e J. apply IX; [unfold sub_events; apply in_app_iff; right; apply in_app_iff; auto|apply B, in_app_iff; auto]. }
  cbn [mbind option_bind].
  assert (EA : mapM (basic_arg ev_kind s) (f_args (hypothesis u)) = Some (map (fun a => index s (event a)) (f_args (hypothesis u)))).
  { apply mapM_all. intros a J. destruct (VA a J) as [K1 K2]. unfold basic_arg. rewrite K2. unfold is_basic. rewrite K1. apply IX; auto. }
  rewrite EA. cbn [mbind option_bind]. destruct VC as [<-|[<-|[<-|[]]]]; reflexivity.
Qed.
Lemma apply_ok fuel p : (N < fuel)%nat -> forall us lev s xs qs ds, inv false R lev (eq p) s -> p < nxt (graph s) -> gs (graph s) !! p = Some (Gate kAnd 0 xs) -> Permutation xs qs ->
  Forall2 (sub_described s (eq p)) ds qs -> (forall q, In q qs -> p < q < nxt (graph s)) -> lev p = (4 * N + 5)%nat ->
  (forall u, In u us -> sound_substitution u) -> (forall u e, In u us -> In e (sub_events u) -> registered s e) ->
  exists s' lev' xs' qs', apply_substitutions ev_kind formula_of house ccf_gate ccf fuel p us s = Some (flat_map (collected s) (List.filter (fun u => negb (declarative u)) us), s') /\
    ext (eq p) s s' /\ inv false R lev' (eq p) s' /\ (forall j, j < nxt (graph s) -> lev' j = lev j) /\ gs (graph s') !! p = Some (Gate kAnd 0 xs') /\ Permutation xs' qs' /\
    Forall2 (sub_described s' (eq p)) (ds ++ List.filter declarative us) qs' /\ (forall q, In q qs' -> p < q < nxt (graph s')) /\ (List.filter declarative us = [] -> s' = s).
Proof.
  intros F. induction us as [|u us IH]; intros lev s xs qs ds I Bp Ep PM FD BQ LP SU RG.
  - exists s, lev, xs, qs. cbn [apply_substitutions List.filter flat_map]. rewrite app_nil_r. split; auto. split; [apply ext_refl|]. auto 10.
  - cbn [apply_substitutions List.filter]. destruct (declarative u) eqn:DE; cbn [negb flat_map].
    + destruct (construct_substitution_ok fuel u s lev (eq p)) as (q & s1 & lev1 & A1 & A2 & A3 & A4 & A5 & A6 & A7); auto; [apply SU; simpl; auto|intros j <-; auto|intros e; apply RG; simpl; auto|].
      rewrite A1. cbn [mbind option_bind]. pose proof (x_nxt _ _ _ _ _ A2) as NX.
      assert (Eq : exists x, gs (graph s1) !! q = Some x) by (destruct A5 as (h & _ & T); destruct (s_target u); [destruct T as (z & l & [T _] & _)|destruct T as [T _]]; eauto). destruct Eq as [xq Eq].
      assert (Bq : 1 < q < nxt (graph s1)) by (apply (i_wf _ _ _ _ _ _ _ _ _ _ A3) in Eq; lia).
      assert (Ep1 : gs (graph s1) !! p = Some (Gate kAnd 0 xs)) by (apply (x_gs _ _ _ _ _ A2); auto).
      assert (B0 : 1 < p) by (apply (i_wf _ _ _ _ _ _ _ _ _ _ I) in Ep; lia).
      assert (BX : forall b, In b xs -> p < b < nxt (graph s)) by (intros b J; apply BQ; rewrite <- PM; auto).
      destruct (add_ok ev_kind formula_of house ccf_gate ccf false R N lev1 (eq p) s1 p kAnd 0 xs q) as (s2 & B1 & B2 & B3 & B4 & B5 & B6 & B7 & B8 & B9); auto; try discriminate; try lia.
      { intros [T|T]; discriminate. }
      { intros b J. apply BX in J. lia. }
      { intros _. rewrite Z.abs_eq by lia. rewrite (A4 p) by auto. lia. }
      { intros J. apply BX in J. lia. }
      { intros J. apply BX in J. lia. }
      rewrite B1. cbn [mbind option_bind].
      assert (X2 : ext (eq p) s s2) by (eapply ext_trans; [eapply ext_weaken; [| |exact A2]; [lia|tauto]|exact B2]).
      assert (SIM : sim (eq p) s s2) by (eapply ext_sim; [exact X2|auto]). assert (SIM1 : sim (eq p) s1 s2) by (eapply ext_sim; [exact B2|auto]).
      destruct (IH lev1 s2 (set_insert q xs) (qs ++ [q]) (ds ++ [u])) as (s3 & lev3 & xs3 & qs3 & C1 & C2 & C3 & C4 & C5 & C6 & C7 & C8 & C9); auto.
      * lia.
      * rewrite set_insert_perm, PM; [apply Permutation_cons_append|]. intros J. apply BX in J. lia.
      * apply Forall2_app; [|constructor; [|constructor]]; [|eapply sub_sim; eauto]. eapply Forall2_impl; [exact FD|]. intros v w. apply sub_sim. auto.
      * intros z J. apply in_app_iff in J as [J|[<-|[]]]; [apply BQ in J|]; lia.
      * rewrite A4; auto.
      * intros v J. apply SU. simpl; auto.
      * intros v e J K. eapply registered_ext; [exact X2|]. eapply RG; eauto. simpl; auto.
      * assert (CV : collected s2 = collected s).
        { assert (E : vars s2 = vars s) by apply X2. unfold collected, index, target_index, index. rewrite E. reflexivity. }
        rewrite CV in C1. rewrite C1. exists s3, lev3, xs3, qs3. split; auto. split; [eapply ext_trans; eauto|]. split; auto. split; [intros j J; rewrite C4 by lia; auto|]. split; auto. split; auto. rewrite <- app_assoc in C7. split; [exact C7|]. split; auto. discriminate.
    + rewrite collect_ok; auto; [|apply SU; simpl; auto|intros e; apply RG; simpl; auto]. cbn [mbind option_bind].
      destruct (IH lev s xs qs ds) as (s3 & lev3 & xs3 & qs3 & C1 & C2); auto; [intros v J; apply SU; simpl; auto|intros v e J; apply RG; simpl; auto|].
      rewrite C1. cbn [mbind option_bind]. exists s3, lev3, xs3, qs3. split; auto.
Qed.
End Build.
