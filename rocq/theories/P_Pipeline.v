(** C47: from the model to the report.  The events of the products that the analyses report are the
    minimal cut sets (prime implicants) of the top event of the fault tree, whatever the
    preprocessing did in between; its exact probability is that of the top event.
    Vocabulary: [formula_value], [valuation], [substitution_value] (Construct.v): truth values of the
    events of the model; [named], [below_event]: the events named by the top event and the
    substitutions, and the basic events below them; [stands] (P_Construct.v): the variable of the graph that
    stands for a basic event; [preprocess] (P_Preprocess.v): any run of the preprocessor; [live]
    (Live.v): what is left of the graph in memory. *)
From stdpp Require Import gmap.
From Coq Require Import List ZArith Lia Bool Permutation Reals.
Import ListNotations.
From Verif Require Import Pdag PdagProofs PdagSem Formula P_Formula Construct ConstructProofs ConstructSem ConstructBuild P_Construct.
From Verif Require Import ZbddModules Shaped ShapedOps P_Preprocess Live Transfer P_Neat Course.
From Verif Require Expect ProbGraph Zbdd ZbddGraph Mocus ZbddModulesProofs Order InvertOrder P_BddProducts P_Products P_Mocus P_Order P_Modules BoolOptEdits P_Prob.
Open Scope Z_scope.

Section Pipeline.
Context (ev_id : nat -> nat) (kTrue kFalse : nat).
Context (ev_kind : nat -> kind) (formula_of : nat -> option formula) (house : nat -> bool)
        (ccf_gate : nat -> option nat) (ccf : bool).
Context (root : formula) (us : option (list substitution)).
Notation valuation := (valuation ev_kind formula_of house ccf_gate ccf).
Notation built := (built ev_kind formula_of house ccf_gate ccf).

(** ** Specification: the fault tree *)
(** The top event fails: its formula is true and no declarative substitution is violated. *)
Definition top_fails (μ : nat -> bool) : bool := formula_value μ root && forallb (substitution_value μ) (List.filter declarative (subs us)).
(** Basic events of the fault tree.  An event of a CCF group stands for its gate if the analysis asks for CCF. *)
Definition in_tree (e : nat) : Prop := exists n, In n (named root us) /\ below_event ev_kind formula_of ccf_gate ccf n e.
Definition basic (e : nat) : Prop := ev_kind e = KBasic /\ replaced ccf_gate ccf e = None.
(** Cut sets: the top event fails if exactly these basic events have happened. *)
Definition tree_events (X : list nat) : Prop := NoDup X /\ forall e, In e X -> in_tree e.
Definition tree_cut_set (X : list nat) : Prop := forall μ, valuation μ -> (forall e, basic e -> (μ e = true <-> In e X)) -> top_fails μ = true.
Definition tree_minimal_cut_set (X : list nat) : Prop := tree_events X /\ tree_cut_set X /\ forall Y, tree_events Y -> incl Y X -> tree_cut_set Y -> incl X Y.
(** Implicants: literals (complemented?, event) that fail the top event whatever else happens. *)
Definition tree_literals (X : list (bool * nat)) : Prop := NoDup X /\ (forall c e, In (c, e) X -> in_tree e) /\ forall c e, In (c, e) X -> ~ In (negb c, e) X.
Definition tree_implicant (X : list (bool * nat)) : Prop := forall μ, valuation μ -> (forall c e, In (c, e) X -> μ e = negb c) -> top_fails μ = true.
Definition tree_prime_implicant (X : list (bool * nat)) : Prop := tree_literals X /\ tree_implicant X /\ forall Y, tree_literals Y -> incl Y X -> tree_implicant Y -> incl X Y.

(** ** The graph that the analysis gets *)
(** [s]: the state after the construction (its list of basic events); [H], [top], [comp]: the graph,
    its root and complement flag after the preprocessing; [course] (Course.v): any phases, with
    the gates that die on the way taken away. *)
Definition handed (s : st) (H : Pdag.graph) (top : Z) (comp : bool) : Prop :=
  exists r l, built root us r l s /\ course r false (Construct.graph s) top comp H.
(** The product shown to the user: the literal j of the graph is event number |j| - 2 (fault_tree_analysis.cc:43-66, 97-115). *)
Definition shows (s : st) : list nat -> list Z -> Prop := Forall2 (stands s).
Definition literal_stands (s : st) (l : bool * nat) (j : Z) : Prop := stands s l.2 (Z.abs j) /\ l.1 = (j <? 0).
Definition shows_literals (s : st) : list (bool * nat) -> list Z -> Prop := Forall2 (literal_stands s).

Context (rk : nat -> nat) (N : nat) (SM : sound_model ev_id kTrue kFalse ev_kind formula_of ccf_gate ccf rk N).
Context (s : st) (H : Pdag.graph) (top : Z) (comp : bool) (HD : handed s H top comp).
Notation fails := (P_BddProducts.fails H top comp).

Lemma built_roomy r l : built root us r l s -> roomy (Construct.graph s).
Proof.
  intros B. destruct (b_wf _ _ _ _ _ _ _ _ _ _ B) as [W0 W]. split; [|destruct (b_root _ _ _ _ _ _ _ _ _ _ B) as [x Ex]; apply W in Ex; lia].
  intros j x E. pose proof (W j x E) as (Bj & ND & _). split; [lia|]. destruct (b_suited _ _ _ _ _ _ _ _ _ _ B j x E) as (S1 & S2 & S3).
  split; [|split].
  - split; auto.
  - exact S3.
  - exact ND.
Qed.
Record facts : Prop := {
  h_wf : PdagProofs.wf H;
  h_acyclic : acyclic H;
  h_root : is_Some (gs H !! top);
  h_all : forall i, is_Some (gs H !! i) -> under H top i;
  h_var : forall v, var H top v -> 1 < v -> exists e, stands s e v;
  h_link : forall μ σ, valuation μ -> (forall k e, nth_error (basics s) k = Some e -> σ (2 + Z.of_nat k) = μ e) -> (fails σ <-> top_fails μ = true);
  h_basics : forall e, In e (basics s) <-> in_tree e;
  h_nodup : NoDup (basics s);
  h_index : forall e v, Construct.vars s !! e = Some v <-> stands s e v;
  h_gates : forall i, is_Some (gs H !! i) -> 1 + Z.of_nat (length (basics s)) < i }.
Lemma handed_sound : sound (Z.of_nat (length (basics s))) H top /\ exists r l, built root us r l s /\ same_value (Construct.graph s) r false H top comp.
Proof.
  destruct HD as (r & l & B & C).
  destruct (course_sound (Z.of_nat (length (basics s))) (Construct.graph s) r false top comp H ltac:(lia) (b_wf _ _ _ _ _ _ _ _ _ _ B) (b_acyclic _ _ _ _ _ _ _ _ _ _ B) (built_roomy r l B) (b_root _ _ _ _ _ _ _ _ _ _ B) (b_nodes _ _ _ _ _ _ _ _ _ _ B) C) as [S V].
  split; [auto|]. exists r, l. auto.
Qed.
Lemma handed_facts : facts.
Proof.
  destruct handed_sound as (S & r & l & B & V). constructor.
  - apply S.
  - apply S.
  - apply S.
  - apply S.
  - intros v [U Nv] Lv. assert (Q : 1 < v < 2 + Z.of_nat (length (basics s))).
    { destruct U as [|j x a U E J]; [destruct (so_root _ _ _ S); congruence|]. destruct (so_args _ _ _ S j x a E J) as [[y Sy]|K]; [congruence|lia]. }
    destruct (nth_error (basics s) (Z.to_nat (v - 2))) as [e|] eqn:E; [|apply nth_error_None in E; lia]. exists e, (Z.to_nat (v - 2)). split; [auto|lia].
  - intros μ σ Vμ AG. unfold P_BddProducts.fails.
    pose proof (V σ true) as Q. rewrite !xorb_true_l in Q. rewrite Q. cbn [negb]. rewrite (b_value _ _ _ _ _ _ _ _ _ _ B μ σ Vμ AG true). unfold top_fails. split; auto.
  - apply (b_basics _ _ _ _ _ _ _ _ _ _ B).
  - apply (b_nodup _ _ _ _ _ _ _ _ _ _ B).
  - apply (b_vars _ _ _ _ _ _ _ _ _ _ B).
  - apply (so_keys _ _ _ S).
Qed.
Lemma stands_fun e v v' : stands s e v -> stands s e v' -> v = v'.
Proof.
  intros (k & E & ->) (k' & E' & ->). f_equal. f_equal. eapply NoDup_nth_error; [apply (h_nodup handed_facts)| |congruence]. apply nth_error_Some. congruence.
Qed.
Lemma stands_inj e e' v : stands s e v -> stands s e' v -> e = e'.
Proof. intros (k & E & ->) (k' & E' & Q). assert (k = k') by lia. subst. congruence. Qed.
Lemma stands_basic e v : stands s e v -> in_tree e /\ basic e /\ 1 < v.
Proof.
  intros (k & E & ->). apply nth_error_In in E. apply (h_basics handed_facts) in E. split; auto. split; [|lia]. destruct E as (n & _ & BE). clear -BE.
  induction BE as [e T K|]; auto. split; auto. unfold target in T. rewrite K in T. auto.
Qed.
Lemma tree_stands e : in_tree e <-> exists v, stands s e v.
Proof.
  split; [|intros [v S]; apply (stands_basic e v S)]. intros T. apply (h_basics handed_facts) in T. apply In_nth_error in T as [k E]. exists (2 + Z.of_nat k), k. auto.
Qed.
Lemma var_dec v : var H top v \/ ~ var H top v.
Proof. destruct (h_acyclic handed_facts) as [r RK]. unfold var. destruct (under_dec H r top v RK); [|tauto]. destruct (gs H !! v); [right; intros [_ ?]; discriminate|tauto]. Qed.
Lemma top_range : 0 < top < nxt H.
Proof. destruct (h_root handed_facts) as [x E]. apply (h_wf handed_facts) in E. lia. Qed.
(** Only the variables below the root matter, and not the constant. *)
Lemma fails_local σ σ' : (forall v, var H top v -> 1 < v -> σ v = σ' v) -> fails σ -> fails σ'.
Proof. intros A. apply value_local; [apply (h_wf handed_facts)|apply (h_acyclic handed_facts)|apply top_range|]. intros v B V. apply A; auto. lia. Qed.

(** *** Cut sets *)
Notation member P := (fun v => if in_dec Z.eq_dec v P then true else false).
Lemma cut_match X P : Forall2 (stands s) X P -> (P_BddProducts.cut_set H top comp P <-> tree_cut_set X).
Proof.
  intros F. assert (AG : forall μ, (forall e, basic e -> (μ e = true <-> In e X)) -> forall k e, nth_error (basics s) k = Some e -> member P (2 + Z.of_nat k) = μ e).
  { intros μ M k e E. assert (S1 : stands s e (2 + Z.of_nat k)) by (exists k; auto). destruct (stands_basic _ _ S1) as (_ & B & _). pose proof (match_in (stands s) stands_fun stands_inj X P e _ F S1) as Q. specialize (M e B).
    destruct (in_dec Z.eq_dec (2 + Z.of_nat k) P), (μ e); auto; [symmetry|]; tauto. }
  split.
  - intros C μ V M. apply (h_link handed_facts μ (member P) V (AG μ M)). exact C.
  - intros C. destruct (valuation_exists ev_id kTrue kFalse ev_kind formula_of house ccf_gate ccf rk N SM (fun e => if in_dec Nat.eq_dec e X then true else false)) as (μ & V & M).
    assert (MX : forall e, basic e -> (μ e = true <-> In e X)). { intros e [K1 K2]. rewrite M by auto. destruct (in_dec Nat.eq_dec e X); split; auto; discriminate. }
    apply (h_link handed_facts μ (member P) V (AG μ MX)). apply C; auto.
Qed.
Notation vars := (fun v => var H top v /\ 1 < v).
Lemma vars_dec v : vars v \/ ~ vars v. Proof. destruct (var_dec v), (Z.lt_ge_cases 1 v); [left|right|right|right]; try tauto; intros [? ?]; try tauto; lia. Qed.
Notation min_z := (min_z vars (fun _ => True) (P_BddProducts.cut_set H top comp)).
Notation min_a := (min_a (stands s) (fun _ => True) tree_cut_set).
Lemma minimal_tree X : min_a X <-> tree_minimal_cut_set X.
Proof.
  assert (Q : forall X, set_a (stands s) (fun _ => True) X <-> tree_events X).
  { intros Y. unfold set_a, tree_events. split; [intros (A & B & _); split; auto; intros e J; apply tree_stands; auto|]. intros (A & B). split; auto. split; auto. intros e J. apply tree_stands; auto. }
  unfold Transfer.min_a, tree_minimal_cut_set. rewrite Q. split; intros (A & B & C); (split; [auto|split; [auto|]]); intros Y S; apply C; apply Q; auto.
Qed.
Lemma cut_restrict P Q : P_BddProducts.cut_set H top comp P -> incl Q P -> (forall v, In v P -> vars v -> In v Q) -> P_BddProducts.cut_set H top comp Q.
Proof.
  intros C I K. eapply fails_local; [|exact C]. intros v V L. cbn beta. destruct (in_dec Z.eq_dec v P) as [J|J], (in_dec Z.eq_dec v Q) as [J2|J2]; [auto|elim J2; auto|elim J; auto|auto].
Qed.
Lemma minimal_graph P : P_BddProducts.minimal_cut_set H top comp P <-> min_z P.
Proof.
  unfold P_BddProducts.minimal_cut_set, P_BddProducts.events, Transfer.min_z, set_z. split.
  - intros ((ND & V) & C & M). assert (V1 : forall v, In v P -> 1 < v).
    { intros v J. destruct (Z.lt_ge_cases 1 v) as [|B]; auto. exfalso.
      assert (Y : incl P (remove Z.eq_dec v P)).
      { apply M; [split; [|intros u Ju; apply V; apply in_remove in Ju; tauto]| |].
        - clear -ND. induction ND as [|a l N1 N2 IH]; cbn; [constructor|]. destruct (Z.eq_dec v a); auto. constructor; auto. intros J. apply in_remove in J. tauto.
        - intros u Ju. apply in_remove in Ju. tauto.
        - apply (cut_restrict P); auto; [intros u Ju; apply in_remove in Ju; tauto|]. intros u Ju [_ L]. apply in_in_remove; auto. lia. }
      apply Y in J. apply in_remove in J. tauto. }
    split; [split; [auto|split; auto]|]. split; auto. intros Y (NY & VY & _) I CY. apply M; [split; [auto|intros v J; apply VY; auto]|auto|auto].
  - intros ((ND & V & _) & C & M). split; [split; auto; intros v J; apply V; auto|]. split; auto. intros Y [NY VY] I CY. apply M; [split; [auto|split; [|auto]; intros v J; split; [apply VY|apply (V v)]; auto]|auto|auto].
Qed.
Lemma cut_to_events P : P_BddProducts.minimal_cut_set H top comp P -> exists X, shows s X P /\ tree_minimal_cut_set X.
Proof.
  intros M. apply minimal_graph in M. destruct (to_events (stands s) stands_fun stands_inj vars ltac:(intros v [V L]; apply (h_var handed_facts v V L)) (fun _ => True) (P_BddProducts.cut_set H top comp) (fun _ => True) tree_cut_set
    ltac:(intros; tauto) cut_match P M) as (X & F & MX). exists X. split; auto. apply minimal_tree; auto.
Qed.
Lemma cut_to_vars X : tree_minimal_cut_set X -> exists P, shows s X P /\ P_BddProducts.minimal_cut_set H top comp P.
Proof.
  intros M. apply minimal_tree in M. destruct (to_vars (stands s) stands_fun stands_inj vars vars_dec ltac:(intros v [V L]; apply (h_var handed_facts v V L)) (fun _ => True) (P_BddProducts.cut_set H top comp) (fun _ => True) tree_cut_set
    ltac:(auto) ltac:(intros; tauto) cut_match ltac:(intros P Q _; apply cut_restrict) X M) as (P & F & MX). exists P. split; auto. apply minimal_graph; auto.
Qed.

(** *** Prime implicants *)
Notation lvars := (fun j => var H top (Z.abs j) /\ 1 < Z.abs j).
Notation okz := (fun P => forall j, In j P -> j <> 0 /\ ~ In (- j) P).
Notation oka := (fun X : list (bool * nat) => forall c e, In (c, e) X -> ~ In (negb c, e) X).
Notation lst := (literal_stands s).
Lemma lst_fun l j j' : lst l j -> lst l j' -> j = j'.
Proof. intros [A B] [A' B']. pose proof (stands_fun _ _ _ A A'). rewrite B in B'. destruct (stands_basic _ _ A) as (_ & _ & L). destruct (Z.ltb_spec j 0), (Z.ltb_spec j' 0); try discriminate; lia. Qed.
Lemma lst_inj l l' j : lst l j -> lst l' j -> l = l'.
Proof. intros [A B] [A' B']. destruct l as [c e], l' as [c' e']. cbn [fst snd] in *. rewrite (stands_inj _ _ _ A A'). congruence. Qed.
Lemma lst_opp c e j : lst (c, e) j -> lst (negb c, e) (- j) /\ j <> 0.
Proof.
  intros [A B]. cbn [fst snd] in *. destruct (stands_basic _ _ A) as (_ & _ & L). split; [|lia]. split; cbn [fst snd]; [rewrite Z.abs_opp; auto|]. rewrite B. destruct (Z.ltb_spec j 0), (Z.ltb_spec (- j) 0); auto; lia.
Qed.
Lemma ok_match X P : Forall2 lst X P -> (okz P <-> oka X).
Proof.
  intros F. split.
  - intros K c e J J'. destruct (match_left lst X P _ F J) as (j & Jj & S1). destruct (lst_opp _ _ _ S1) as [S2 _]. apply (K j Jj). apply (match_in lst lst_fun lst_inj X P _ _ F S2). auto.
  - intros K j J. destruct (match_right lst X P _ F J) as ([c e] & Jx & S1). destruct (lst_opp _ _ _ S1) as [S2 NZ]. split; auto. intros J'. apply (K c e Jx). apply (match_in lst lst_fun lst_inj X P _ _ F S2). auto.
Qed.
Lemma lit_stands (ρ : Z -> bool) c e j : lst (c, e) j -> (lit ρ j = true <-> ρ (Z.abs j) = negb c).
Proof.
  intros [A B]. cbn [fst snd] in *. unfold lit. rewrite B. destruct (Z.ltb_spec j 0).
  - rewrite Z.abs_neq by lia. rewrite negb_true_iff. tauto.
  - rewrite Z.abs_eq by lia. tauto.
Qed.
Lemma implicant_match X P : Forall2 lst X P -> (P_BddProducts.implicant H top comp P <-> tree_implicant X).
Proof.
  intros F. split.
  - intros C μ V M. set (σ := fun v : Z => match nth_error (basics s) (Z.to_nat (v - 2)) with Some e => μ e | None => false end).
    assert (AG : forall k e, nth_error (basics s) k = Some e -> σ (2 + Z.of_nat k) = μ e) by (intros k e E; unfold σ; replace (Z.to_nat (2 + Z.of_nat k - 2)) with k by lia; rewrite E; auto).
    apply (h_link handed_facts μ σ V AG). apply C. intros j J. destruct (match_right lst X P j F J) as ([c e] & Jx & S1). apply (lit_stands σ c e j S1). destruct S1 as [(k & E & Q) _]. cbn [snd] in E. rewrite Q, (AG k e E). auto.
  - intros C ρ L. destruct (valuation_exists ev_id kTrue kFalse ev_kind formula_of house ccf_gate ccf rk N SM (fun e => match Construct.vars s !! e with Some v => ρ v | None => false end)) as (μ & V & M).
    assert (AG : forall k e, nth_error (basics s) k = Some e -> ρ (2 + Z.of_nat k) = μ e).
    { intros k e E. assert (S1 : stands s e (2 + Z.of_nat k)) by (exists k; auto). destruct (stands_basic _ _ S1) as (_ & [K1 K2] & _). rewrite M by auto.
      now rewrite (proj2 (h_index handed_facts e _) S1). }
    apply (h_link handed_facts μ ρ V AG). apply C; auto. intros c e J. destruct (match_left lst X P _ F J) as (j & Jj & S1). pose proof (L j Jj) as Lj. apply (lit_stands ρ c e j S1) in Lj.
    destruct S1 as [(k & E & Q) _]. cbn [snd] in E. rewrite <- (AG k e E), <- Q. auto.
Qed.
Lemma implicant_restrict P Q : okz P -> P_BddProducts.implicant H top comp P -> incl Q P -> (forall v, In v P -> lvars v -> In v Q) -> P_BddProducts.implicant H top comp Q.
Proof.
  intros K C I V ρ L. set (ρ' := fun v => if in_dec Z.eq_dec v P then true else if in_dec Z.eq_dec (- v) P then false else ρ v).
  apply (fails_local ρ'); [|apply C].
  - intros v Vv Lv. unfold ρ'. destruct (in_dec Z.eq_dec v P) as [J|J].
    + assert (JQ : In v Q) by (apply V; auto; rewrite Z.abs_eq by lia; auto). apply L in JQ. unfold lit in JQ. destruct (Z.ltb_spec v 0); [lia|auto].
    + destruct (in_dec Z.eq_dec (- v) P) as [J'|J']; auto.
      assert (JQ : In (- v) Q) by (apply V; auto; rewrite Z.abs_neq, Z.opp_involutive by lia; auto). apply L in JQ. unfold lit in JQ. destruct (Z.ltb_spec (- v) 0); [|lia]. rewrite Z.opp_involutive in JQ. apply negb_true_iff in JQ. auto.
  - intros j J. destruct (K j J) as [NZ NO]. unfold lit, ρ'. destruct (Z.ltb_spec j 0).
    + destruct (in_dec Z.eq_dec (- j) P); [contradiction|]. rewrite Z.opp_involutive. destruct (in_dec Z.eq_dec j P); [auto|contradiction].
    + destruct (in_dec Z.eq_dec j P); [auto|contradiction].
Qed.
Notation pmin_z := (Transfer.min_z lvars okz (P_BddProducts.implicant H top comp)).
Notation pmin_a := (Transfer.min_a lst oka tree_implicant).
Lemma prime_tree X : pmin_a X <-> tree_prime_implicant X.
Proof.
  assert (Q : forall X, set_a lst oka X <-> tree_literals X).
  { intros Y. unfold set_a, tree_literals. split.
    - intros (A & B & C). split; auto. split; auto. intros c e J. apply tree_stands. destruct (B _ J) as [j [S1 _]]. exists (Z.abs j). auto.
    - intros (A & B & C). split; auto. split; auto. intros [c e] J. apply B in J. apply tree_stands in J as [v S1]. destruct (stands_basic _ _ S1) as (_ & _ & L).
      exists (if c then - v else v). split; cbn [fst snd]; destruct c; rewrite ?Z.abs_opp, ?Z.abs_eq by lia; auto; [destruct (Z.ltb_spec (- v) 0)|destruct (Z.ltb_spec v 0)]; auto; lia. }
  unfold Transfer.min_a, tree_prime_implicant. rewrite Q. split; intros (A & B & C); (split; [auto|split; [auto|]]); intros Y S1; apply C; apply Q; auto.
Qed.
Lemma prime_graph P : P_BddProducts.prime_implicant H top comp P <-> pmin_z P.
Proof.
  unfold P_BddProducts.prime_implicant, P_BddProducts.literals, Transfer.min_z, set_z. split.
  - intros ((ND & V & O) & C & M). assert (OK : okz P) by (intros j J; split; [apply V|apply O]; auto). assert (V1 : forall v, In v P -> 1 < Z.abs v).
    { intros v J. destruct (Z.lt_ge_cases 1 (Z.abs v)) as [|B]; auto. exfalso.
      assert (SB : incl (remove Z.eq_dec v P) P) by (intros u Ju; apply in_remove in Ju; tauto).
      assert (Y : incl P (remove Z.eq_dec v P)).
      { apply M; auto; [split; [|split; [intros u Ju; apply V; auto|intros u Ju Ju'; apply (O u); auto]]|].
        - clear -ND. induction ND as [|a l N1 N2 IH]; cbn; [constructor|]. destruct (Z.eq_dec v a); auto. constructor; auto. intros J. apply in_remove in J. tauto.
        - apply (implicant_restrict P); auto. intros u Ju [_ L]. apply in_in_remove; auto. intros ->. lia. }
      apply Y in J. apply in_remove in J. tauto. }
    split; [split; [auto|split; auto]|]. { intros j J. split; [apply V; auto|auto]. } split; auto. intros Y (NY & VY & OY) I CY. apply M; auto. split; [auto|]. split; [|intros j J; apply OY; auto]. intros v J. split; [apply OY; auto|apply VY; auto].
  - intros ((ND & V & O) & C & M). split; [split; [auto|split; [intros v J; split; [apply O; auto|apply V; auto]|intros j J; apply O; auto]]|]. split; auto. intros Y (NY & VY & OY) I CY. apply M; auto. split; [auto|]. split.
    + intros v J. split; [apply VY; auto|apply (V v); auto].
    + intros j J. split; [apply VY; auto|apply OY; auto].
Qed.
Lemma lvars_dec v : lvars v \/ ~ lvars v. Proof. apply (vars_dec (Z.abs v)). Qed.
Lemma lvars_stand j : lvars j -> exists l, lst l j.
Proof. intros [V L]. destruct (h_var handed_facts _ V L) as [e S1]. exists (j <? 0, e). split; auto. Qed.
Lemma prime_to_events P : P_BddProducts.prime_implicant H top comp P -> exists X, shows_literals s X P /\ tree_prime_implicant X.
Proof.
  intros M. apply prime_graph in M. destruct (to_events lst lst_fun lst_inj lvars lvars_stand okz (P_BddProducts.implicant H top comp) oka tree_implicant
    ok_match implicant_match P M) as (X & F & MX). exists X. split; auto. apply prime_tree; auto.
Qed.
Lemma prime_to_vars X : tree_prime_implicant X -> exists P, shows_literals s X P /\ P_BddProducts.prime_implicant H top comp P.
Proof.
  intros M. apply prime_tree in M. destruct (to_vars lst lst_fun lst_inj lvars lvars_dec lvars_stand okz (P_BddProducts.implicant H top comp) oka tree_implicant
    ltac:(intros P' Q I K j J; split; [apply (K j); auto|intros J'; apply (K j); auto]) ok_match implicant_match implicant_restrict X M) as (P & F & MX). exists P. split; auto. apply prime_graph; auto.
Qed.

(** ** The reports *)
(** What the user gets of the list of products L: every product shows a minimal cut set within the
    limit; every minimal cut set [asked] for is shown; none is shown twice, none includes another. *)
Definition reports_cut_sets (asked : list nat -> Prop) (limit : Z) (L : list (list Z)) : Prop :=
  (forall P, In P L -> exists X, shows s X P /\ tree_minimal_cut_set X /\ Z.of_nat (length X) <= limit) /\
  (forall X, tree_minimal_cut_set X -> asked X -> exists P Y, In P L /\ shows s Y P /\ Permutation X Y) /\
  NoDup L /\ (forall P Q X Y, In P L -> In Q L -> shows s X P -> shows s Y Q -> incl X Y -> P = Q).
Definition reports_prime_implicants (limit : Z) (L : list (list Z)) : Prop :=
  (forall P, In P L -> exists X, shows_literals s X P /\ tree_prime_implicant X /\ Z.of_nat (length X) <= limit) /\
  (forall X, tree_prime_implicant X -> Z.of_nat (length X) <= limit -> exists P Y, In P L /\ shows_literals s Y P /\ Permutation X Y) /\
  NoDup L /\ (forall P Q X Y, In P L -> In Q L -> shows_literals s X P -> shows_literals s Y Q -> incl X Y -> P = Q).
Lemma same_members {A} (X Y : list A) : NoDup X -> NoDup Y -> incl X Y -> incl Y X -> Permutation X Y.
Proof. intros NX NY A1 A2. apply NoDup_Permutation; auto. intros x. split; auto. Qed.
Lemma cut_sets_reported (asked : list nat -> Prop) (zasked : list Z -> Prop) limit L : (forall X P, shows s X P -> asked X -> zasked P) ->
  (forall P, In P L -> P_BddProducts.minimal_cut_set H top comp P /\ Z.of_nat (length P) <= limit) ->
  (forall X, P_BddProducts.minimal_cut_set H top comp X -> zasked X -> exists P, In P L /\ forall v, In v P <-> In v X) ->
  NoDup L -> (forall P Q, In P L -> In Q L -> incl P Q -> P = Q) -> reports_cut_sets asked limit L.
Proof.
  intros ZA A B C D. split; [|split; [|split]].
  - intros P J. destruct (A P J) as [M LE]. destruct (cut_to_events P M) as (X & F & MX). exists X. split; auto. split; auto. rewrite (Forall2_length _ _ _ F). auto.
  - intros X MX AX. destruct (cut_to_vars X MX) as (P & F & M). destruct (B P M (ZA X P F AX)) as (Q & JQ & EQ). destruct (A Q JQ) as [MQ _]. destruct (cut_to_events Q MQ) as (Y & FY & MY). exists Q, Y. split; auto. split; auto.
    apply same_members; [apply MX|apply MY| |].
    + apply (match_incl (stands s) stands_fun stands_inj X P Y Q F FY). intros v J. apply EQ. auto.
    + apply (match_incl (stands s) stands_fun stands_inj Y Q X P FY F). intros v J. apply EQ. auto.
  - exact C.
  - intros P Q X Y JP JQ FX FY I. apply D; auto. apply (match_incl (stands s) stands_fun stands_inj X P Y Q FX FY). auto.
Qed.
Lemma prime_implicants_reported limit L :
  (forall P, In P L -> P_BddProducts.prime_implicant H top comp P /\ Z.of_nat (length P) <= limit) ->
  (forall X, P_BddProducts.prime_implicant H top comp X -> Z.of_nat (length X) <= limit -> exists P, In P L /\ forall v, In v P <-> In v X) ->
  NoDup L -> (forall P Q, In P L -> In Q L -> incl P Q -> P = Q) -> reports_prime_implicants limit L.
Proof.
  intros A B C D. split; [|split; [|split]].
  - intros P J. destruct (A P J) as [M LE]. destruct (prime_to_events P M) as (X & F & MX). exists X. split; auto. split; auto. rewrite (Forall2_length _ _ _ F). auto.
  - intros X MX AX. destruct (prime_to_vars X MX) as (P & F & M). destruct (B P M) as (Q & JQ & EQ); [rewrite <- (Forall2_length _ _ _ F); auto|]. destruct (A Q JQ) as [MQ _]. destruct (prime_to_events Q MQ) as (Y & FY & MY). exists Q, Y. split; auto. split; auto.
    apply same_members; [apply MX|apply MY| |].
    + apply (match_incl lst lst_fun lst_inj X P Y Q F FY). intros v J. apply EQ. auto.
    + apply (match_incl lst lst_fun lst_inj Y Q X P FY F). intros v J. apply EQ. auto.
  - exact C.
  - intros P Q X Y JP JQ FX FY I. apply D; auto. apply (match_incl lst lst_fun lst_inj X P Y Q FX FY). auto.
Qed.

(** ** Marks of the graph *)
(** Normal form: AND and OR gates of at least two arguments, no constants (phase III); the gates
    flagged as modules are modules. *)
Definition finished (module : Z -> bool) : Prop :=
  (forall i x, gs H !! i = Some x -> (g_type x = kAnd \/ g_type x = kOr) /\ (2 <= length (g_args x))%nat /\ constant x = false) /\
  (forall m, is_Some (gs H !! m) -> module m = true -> P_Modules.is_module H top m).
Definition flag (marks : gmap Z bool) (i : Z) : bool := default false (marks !! i).
Lemma finished_modular module : finished module -> forall m, is_Some (gs H !! m) -> module m = true -> modular H m.
Proof. intros [_ M] m S1 E. apply (P_Modules.module_iff H top m (h_acyclic handed_facts) (h_all handed_facts) S1). auto. Qed.
Lemma marked module : finished module -> exists fuel marks c, (forall f, (fuel <= f)%nat -> Order.mark_graph H f top comp = Some (marks, c)) /\
  forall i x a, gs H !! i = Some x -> flag marks i = true -> In a (g_args x) -> 0 < a /\ (is_Some (gs H !! a) -> flag marks a = true).
Proof.
  intros [FI _]. destruct (P_Order.C46_coherence H top (h_acyclic handed_facts) (h_root handed_facts) ltac:(intros i x E; apply (FI i x E)) comp) as (f & marks & c & MG & MK & _).
  exists f, marks, c. split; auto. intros i x a E FL J. destruct (MK i (h_all handed_facts i ltac:(eauto)) ltac:(eauto)) as (b & Eb & CB). unfold flag in FL. rewrite Eb in FL. cbn in FL. subst b.
  pose proof (proj1 CB eq_refl) as NN. pose proof (h_wf handed_facts) as [_ W]. destruct (W i x E) as (_ & _ & AO). destruct (AO a J) as (Z0 & _ & _).
  assert (Pa : 0 < a). { destruct (Z.lt_ge_cases 0 a) as [|C]; auto. elim (NN i x (under_refl H i) E). left. exists a. split; auto. lia. }
  split; auto. intros SA. destruct (MK a (h_all handed_facts a SA) SA) as (b & Ea & CA). unfold flag. rewrite Ea. cbn. apply CA. intros j y U. apply NN. eapply under_trans; [|exact U]. rewrite <- (Z.abs_eq a) by lia. apply (under_arg H i i x a); auto. apply under_refl.
Qed.

(** ** C47 *)
(** The BDD algorithm.  Minimal cut sets of fewer events than the limit are all reported; those of as many
    events as the limit too if the modules are coherent (see C16). *)
Definition within (limit : Z) (complete : Prop) (X : list nat) : Prop := Z.of_nat (length X) < limit \/ Z.of_nat (length X) <= limit /\ complete.
Theorem C47_bdd module limit hash prime parents arrange arrange_args : finished module ->
  (forall m b, is_Some (gs H !! m) -> module m = true -> exists ρ, node_value H ρ m b) ->
  (forall n, (0 < prime n)%nat) -> (forall l, Permutation (arrange l) l) -> (forall l, Permutation (arrange_args l) l) -> 0 <= limit ->
  exists F, forall fuel, (F <= fuel)%nat -> exists marks c order M L L', Order.mark_graph H fuel top comp = Some (marks, c) /\ Order.topological_order H arrange_args fuel top = Some order /\
    (forall steps, (M <= steps)%nat ->
      P_BddProducts.products H top comp (Order.order_of order) (order.2 + nxt H) hash prime module (flag marks) parents arrange false fuel steps limit = Some L /\
      P_BddProducts.products H top comp (Order.order_of order) (order.2 + nxt H) hash prime module (flag marks) parents arrange true fuel steps limit = Some L') /\
    reports_cut_sets (within limit (forall m, is_Some (gs H !! m) -> module m = true -> flag marks m = true)) limit L /\
    reports_prime_implicants limit L'.
Proof.
  intros FI VA PP ARR ARG LIM. pose proof FI as [FG _]. destruct (marked module FI) as (f1 & marks & c & MG & CO).
  destruct (P_Order.C07_analysis H top (h_acyclic handed_facts) (h_root handed_facts) ltac:(intros i x E; apply (FG i x E)) arrange_args module (flag marks) ARG (h_wf handed_facts)
    ltac:(intros i x E; destruct (FG i x E) as (A & B & _); auto) (finished_modular module FI) VA CO) as (f2 & order & TO & PR & _).
  destruct (P_BddProducts.C14_bdd H top comp _ _ hash prime module (flag marks) parents arrange limit PR PP ARR LIM) as (f3 & H3).
  destruct (P_BddProducts.C15_bdd H top comp _ _ hash prime module (flag marks) parents arrange limit PR PP ARR LIM) as (f4 & H4).
  exists (Nat.max (Nat.max f1 f2) (Nat.max f3 f4)). intros fuel LF. destruct (H3 fuel) as (M3 & L & E3 & A3 & B3 & C3 & D3); [lia|]. destruct (H4 fuel) as (M4 & L' & E4 & A4 & B4 & C4 & D4); [lia|].
  exists marks, c, order, (Nat.max M3 M4), L, L'. split; [apply MG; lia|]. split; [apply TO; lia|]. split; [intros steps LS; split; [apply E3|apply E4]; lia|]. split.
  - eapply cut_sets_reported; [|exact A3|exact B3|exact C3|exact D3]. intros X P F. unfold within. rewrite (Forall2_length _ _ _ F). intros [Q|[Q K]]; [left; auto|right; split; auto].
  - eapply prime_implicants_reported; [exact A4|exact B4|exact C4|exact D4].
Qed.

(** The ZBDD algorithm and MOCUS. *)
Lemma zbdd_reports module limit parents arrange arrange_args : finished module -> complements_at_leaves H -> comp = false ->
  (forall l, Permutation (arrange l) l) -> (forall l, Permutation (arrange_args l) l) -> 0 <= limit ->
  exists F, forall fuel, (F <= fuel)%nat -> exists marks c order M L, Order.mark_graph H fuel top comp = Some (marks, c) /\ Order.topological_order H arrange_args fuel top = Some order /\
    (forall steps, (M <= steps)%nat ->
      P_Products.products H top (InvertOrder.literal_order order.1 order.2) (order.2 + nxt H) module (flag marks) parents arrange fuel steps limit = Some L) /\
    reports_cut_sets (fun X => Z.of_nat (length X) <= limit) limit L.
Proof.
  intros FI CV C0 ARR ARG LIM. pose proof FI as [FG _]. destruct (marked module FI) as (f1 & marks & c & MG & CO). pose proof (h_wf handed_facts) as W. pose proof (h_acyclic handed_facts) as AC.
  destruct (P_Order.C07_order H top AC (h_root handed_facts) ltac:(intros i x E; apply (FG i x E)) arrange_args ARG) as (f2 & order & TO & DOM & RG & SJ & INJ & LT & BL).
  assert (NV : forall j k, order.1 !! j = Some k -> 1 <= k <= order.2) by (intros j k K; apply (RG j k K)).
  assert (NN : 0 <= order.2). { destruct (proj2 (DOM top) (under_refl H top)) as [k K]. pose proof (NV top k K). lia. }
  set (ord := InvertOrder.literal_order order.1 order.2).
  assert (OR : Zbdd.ordering ord).
  { intros i j Ni Nj. unfold ord, InvertOrder.literal_order. split; [|intros [-> | ->]; auto; rewrite Z.abs_opp; auto].
    destruct (order.1 !! Z.abs i) as [k|] eqn:Ki, (order.1 !! Z.abs j) as [k'|] eqn:Kj.
    - intros <-. assert (Z.abs i = Z.abs j) by (apply (INJ (Z.abs i) (Z.abs j) k); auto). lia.
    - pose proof (NV _ _ Ki). lia.
    - pose proof (NV _ _ Kj). lia.
    - lia. }
  assert (TP : forall j, Z.abs j < nxt H -> ord j <= order.2 + nxt H). { intros j B. unfold ord, InvertOrder.literal_order. destruct (order.1 !! Z.abs j) as [k|] eqn:K; [pose proof (NV _ _ K); lia|lia]. }
  assert (PR : P_Products.prepared H top ord (order.2 + nxt H) module (flag marks)).
  { constructor; auto.
    - apply (h_root handed_facts).
    - intros g _ _ i x E _. destruct (FG i x E) as (A & B & C). split; auto. split; auto. split; auto. intros a J. pose proof E as E'. apply W in E' as (_ & _ & HW). destruct (HW a J) as (NZ & RGa & _). split; auto. split; [apply TP; lia|]. intros Sa. apply (CV i x a E J Sa).
    - apply (finished_modular module FI).
    - intros g SG _ C j (i & y & E & A & J & K).
      assert (CI : flag marks i = true).
      { clear -A C CO CV. induction A as [|i x a A IH E J S M]; auto. pose proof (CV i x a E J S) as Pa. rewrite Z.abs_eq in * by lia. apply (CO i x a E IH J); auto. }
      destruct (CO i y j E CI J) as [Pj CJ]. split; auto. intros IM. unfold ZbddModules.is_module, ZbddGraph.is_gate in IM. rewrite Z.abs_eq in IM by lia.
      destruct (gs H !! j) eqn:Ej; [apply CJ; eauto|discriminate]. }
  destruct (P_Products.C14_zbdd H top ord (order.2 + nxt H) module (flag marks) parents arrange limit PR AC ARR LIM) as (f3 & H3).
  exists (Nat.max (Nat.max f1 f2) f3). intros fuel LF. destruct (H3 fuel) as (M & L & E3 & A3 & B3 & C3 & D3); [lia|].
  exists marks, c, order, M, L. split; [apply MG; lia|]. split; [apply TO; lia|]. split; [exact E3|]. 
  assert (EQ : forall P, P_BddProducts.minimal_cut_set H top comp P <-> P_Products.minimal_cut_set H top P) by (intros P; rewrite C0; reflexivity).
  apply (cut_sets_reported _ (fun P => Z.of_nat (length P) <= limit)); auto; [|intros P J; rewrite EQ; auto|intros X; rewrite EQ; auto]. intros X P F. rewrite (Forall2_length _ _ _ F). auto.
Qed.
Lemma mocus_reports module limit parents arrange sort_args sort : finished module -> complements_at_leaves H -> comp = false -> module top = true ->
  (forall l, Permutation (arrange l) l) -> (forall l, Permutation (sort_args l) l) -> (forall order, InvertOrder.sorts_by order (sort order)) -> 0 <= limit ->
  exists F, forall fuel, (F <= fuel)%nat -> exists marks c order new last M L, Order.mark_graph H fuel top comp = Some (marks, c) /\ Order.topological_order H sort_args fuel top = Some order /\
    InvertOrder.invert_order H module (sort order.1) fuel top order.1 = Some new /\
    (forall steps, (M <= steps)%nat ->
      Mocus.mocus_products (InvertOrder.literal_order new last) (last + nxt H) H module (flag marks) limit (1 + Z.of_nat (length (basics s))) arrange parents fuel steps top = Some L) /\
    reports_cut_sets (fun X => Z.of_nat (length X) <= limit) limit L.
Proof.
  intros FI CV C0 MT ARR ARG SO LIM. pose proof FI as [FG _]. destruct (marked module FI) as (f1 & marks & c & MG & CO). pose proof (h_wf handed_facts) as W. pose proof (h_acyclic handed_facts) as AC.
  destruct (P_Mocus.C17_pipeline H top module (flag marks) arrange ARR parents sort_args sort (1 + Z.of_nat (length (basics s))) limit ARG SO LIM W AC (h_root handed_facts)) as (f2 & H2); auto.
  - intros i x E. destruct (FG i x E) as (A & B & C). split; auto. split; auto. split; auto. intros a. apply CV with i. auto.
  - apply (finished_modular module FI).
  - apply (h_gates handed_facts).
  - intros i x a E J Na. pose proof E as E'. apply W in E' as (_ & _ & HW). destruct (HW a J) as (NZ & RGa & _). destruct (FG i x E) as (_ & _ & CX).
    assert (L1 : 1 < Z.abs a). { destruct (Z.eq_dec (Z.abs a) 1) as [E1|]; [|lia]. assert (constant x = true); [|congruence]. apply BoolOptEdits.constant_In. destruct (Z.eq_dec a 1) as [->|]; auto. right. replace (-1) with a by lia. auto. }
    destruct (h_var handed_facts (Z.abs a)) as (e & k & Ek & Q); auto; [split; auto; apply (under_arg H top i x a); auto; apply (h_all handed_facts); eauto|].
    assert (k < length (basics s))%nat by (apply nth_error_Some; congruence). lia.
  - exists (Nat.max f1 f2). intros fuel LF. destruct (H2 fuel) as (order & new & last & M & L & T & IN & E3 & A3 & B3 & C3 & D3); [lia|].
    exists marks, c, order, new, last, M, L. split; [apply MG; lia|]. split; auto. split; auto. split; auto. 
    assert (EQ : forall P, P_BddProducts.minimal_cut_set H top comp P <-> P_Products.minimal_cut_set H top P) by (intros P; rewrite C0; reflexivity).
    apply (cut_sets_reported _ (fun P => Z.of_nat (length P) <= limit)); auto; [|intros P J; rewrite EQ; auto|intros X; rewrite EQ; auto]. intros X P F. rewrite (Forall2_length _ _ _ F). auto.
Qed.
(** Trivial graphs: all that is left of the tree is an event, its complement or a constant. *)
Section Trivial.
Context (x : gate) (c : Z) (Ex : gs H !! top = Some x) (Tx : g_type x = kNull) (Ax : g_args x = [c]) (Nc : gs H !! Z.abs c = None) (C0 : comp = false).
Lemma var_only v : var H top v -> v = Z.abs c.
Proof. intros V. apply (P_BddProducts.trivial_var H top (fun i => i) x c Ex Ax Nc ltac:(auto) v). auto. Qed.
Lemma short_cut P Q : P_BddProducts.minimal_cut_set H top comp P -> P_BddProducts.minimal_cut_set H top comp Q -> incl P Q -> P = Q.
Proof.
  intros ((NP & VP) & CP & MP) ((NQ & VQ) & CQ & MQ) I. assert (I' : incl Q P) by (apply MQ; auto; split; auto).
  assert (SH : forall l : list Z, NoDup l -> (forall v, In v l -> var H top v) -> l = [] \/ l = [Z.abs c]).
  { intros [|a [|b l]] N1 V; auto; rewrite (var_only a) by (apply V; simpl; auto); auto. exfalso. inversion N1 as [|? ? A _]; subst. apply A. left. rewrite (var_only a), (var_only b); auto; apply V; simpl; auto. }
  destruct (SH P NP VP) as [-> | ->], (SH Q NQ VQ) as [-> | ->]; auto; [elim (I' (Z.abs c)); simpl; auto|elim (I (Z.abs c)); simpl; auto].
Qed.
Lemma short_prime P Q : P_BddProducts.prime_implicant H top comp P -> P_BddProducts.prime_implicant H top comp Q -> incl P Q -> P = Q.
Proof.
  intros ((NP & VP & OP) & CP & MP) ((NQ & VQ & OQ) & CQ & MQ) I. assert (I' : incl Q P) by (apply MQ; auto; split; auto).
  assert (SH : forall l : list Z, NoDup l -> (forall j, In j l -> j <> 0 /\ var H top (Z.abs j)) -> (forall j, In j l -> ~ In (- j) l) -> (length l <= 1)%nat).
  { intros [|a [|b l]] N1 V O; cbn [length]; auto; try lia. exfalso. inversion N1 as [|? ? A _]; subst. destruct (V a) as [Na Va]; [simpl; auto|]. destruct (V b) as [Nb Vb]; [simpl; auto|].
    pose proof (var_only _ Va). pose proof (var_only _ Vb). assert (b = a \/ b = - a) as [-> | ->] by lia; [apply A; simpl; auto|apply (O a); simpl; auto]. }
  pose proof (SH P NP VP OP). pose proof (SH Q NQ VQ OQ). destruct P as [|a [|]], Q as [|b [|]]; cbn [length] in *; try lia; auto.
  - elim (I' b); simpl; auto.
  - elim (I a); simpl; auto.
  - destruct (I a) as [->|[]]; simpl; auto.
Qed.
Theorem C47_trivial ord ord' tp module coherent hash prime parents arrange arrange' bound limit : 0 <= limit -> (forall n, (0 < prime n)%nat) -> (coherent top = true -> 0 < c) ->
  (forall i j, ord i = ord j -> i = j) -> 0 < ord (Z.abs c) <= tp -> Zbdd.ordering ord' -> ord' c <= tp ->
  exists F, forall fuel, (F <= fuel)%nat -> exists M L1 L2 L3 L4, (forall steps, (M <= steps)%nat ->
      P_BddProducts.products H top comp ord tp hash prime module coherent parents arrange false fuel steps limit = Some L1 /\
      P_BddProducts.products H top comp ord tp hash prime module coherent parents arrange true fuel steps limit = Some L2 /\
      P_Products.products H top ord' tp module coherent parents arrange' fuel steps limit = Some L3 /\
      Mocus.mocus_products ord' tp H module coherent limit bound arrange' parents fuel steps top = Some L4) /\
    reports_cut_sets (fun X => Z.of_nat (length X) <= limit) limit L1 /\ reports_prime_implicants limit L2 /\
    reports_cut_sets (fun X => Z.of_nat (length X) <= limit) limit L3 /\ reports_cut_sets (fun X => Z.of_nat (length X) <= limit) limit L4.
Proof.
  intros LIM PP CH IN TP OR TP'. pose proof (h_wf handed_facts) as W. pose proof (h_acyclic handed_facts) as AC.
  destruct (P_BddProducts.C14_bdd_trivial H top comp ord tp hash prime module coherent parents arrange x c W AC Ex Tx Ax Nc IN PP TP C0 CH limit LIM) as (f1 & H1).
  destruct (P_BddProducts.C15_bdd_trivial H top comp ord tp hash prime module coherent parents arrange x c W AC Ex Tx Ax Nc IN PP TP C0 CH limit LIM) as (f2 & H2).
  destruct (P_Products.C14_trivial H top ord' tp module coherent parents arrange' limit x c W AC Ex Tx Ax Nc OR TP' LIM) as (L3 & E3 & A3 & B3 & C3).
  destruct (P_Mocus.C17_trivial H top module coherent arrange' parents ord' tp bound limit x c W AC Ex Tx Ax Nc OR TP' LIM) as (L4 & E4 & A4 & B4 & C4).
  exists (S (Nat.max f1 f2)). intros fuel LF. destruct (H1 fuel) as (M1 & L1 & E1 & A1 & B1 & C1); [lia|]. destruct (H2 fuel) as (M2 & L2 & E2 & A2 & B2 & C2); [lia|].
  exists (7 + Nat.max M1 M2)%nat, L1, L2, L3, L4. split; [intros steps LS; split; [apply E1; lia|split; [apply E2; lia|split; [apply E3; lia|apply E4; lia]]]|].
  assert (EQ : forall P, P_BddProducts.minimal_cut_set H top comp P <-> P_Products.minimal_cut_set H top P) by (intros P; rewrite C0; reflexivity).
  assert (CR : forall L, (forall P, In P L -> P_BddProducts.minimal_cut_set H top comp P /\ Z.of_nat (length P) <= limit) ->
    (forall X, P_BddProducts.minimal_cut_set H top comp X -> Z.of_nat (length X) <= limit -> exists P, In P L /\ forall v, In v P <-> In v X) -> NoDup L -> reports_cut_sets (fun X => Z.of_nat (length X) <= limit) limit L).
  { intros L A B C. apply (cut_sets_reported _ (fun P => Z.of_nat (length P) <= limit)); auto; [intros X P F; rewrite (Forall2_length _ _ _ F); auto|]. intros P Q JP JQ. apply short_cut; [apply (A P JP)|apply (A Q JQ)]. }
  split; [apply CR; auto|]. split; [|split; apply CR; auto; [intros P J; rewrite EQ; auto|intros X; rewrite EQ; auto|intros P J; rewrite EQ; auto|intros X; rewrite EQ; auto]].
  apply prime_implicants_reported; auto. intros P Q JP JQ. apply short_prime; [apply (A2 P JP)|apply (A2 Q JQ)].
Qed.
End Trivial.

(** ** Probabilities *)
(** The probability of the top event by the definition: the sum over the sets X of basic events that
    may happen together.  [es]: the basic events of the tree; [q]: their probabilities; [D]: decides
    whether the top event fails when exactly the events of X happen. *)
Fixpoint event_sets (es : list nat) : list (list nat) := match es with [] => [[]] | e :: es => map (cons e) (event_sets es) ++ event_sets es end.
Definition chance (q : nat -> R) (es X : list nat) : R := fold_right Rmult 1%R (map (fun e => if in_dec Nat.eq_dec e X then q e else 1 - q e)%R es).
Definition top_probability (q : nat -> R) (es : list nat) (D : list nat -> bool) : R := fold_right Rplus 0%R (map (fun X => if D X then chance q es X else 0%R) (event_sets es)).
Definition known (q : nat -> R) (e : nat) (b : R) (e' : nat) : R := if Nat.eq_dec e' e then b else q e'.
(** Questions to the analyzer: the total probability for new probabilities of the events, or the
    marginal importance of an event; with the answers by the definitions. *)
Inductive question := QTotal (q : nat -> R) | QImportance (e : nat).
Fixpoint event_answers (sign : R) (es : list nat) (D : list nat -> bool) (cs : list question) (q : nat -> R) : list R :=
  match cs with
  | [] => []
  | QTotal q :: cs => top_probability q es D :: event_answers sign es D cs q
  | QImportance e :: cs => (sign * (top_probability (known q e 1) es D - top_probability (known q e 0) es D))%R :: event_answers sign es D cs q
  end.
Definition fits (q : nat -> R) (p : Z -> R) : Prop := forall e v, stands s e v -> p v = q e.
Inductive asks : question -> P_Prob.command R -> Prop :=
| asks_total q p : fits q p -> asks (QTotal q) (P_Prob.Total p)
| asks_importance e v : stands s e v -> asks (QImportance e) (P_Prob.Mif v).

Section Probability.
Context (es : list nat) (NE : NoDup es) (EE : forall e, In e es <-> in_tree e) (D : list nat -> bool) (DE : forall X, D X = true <-> tree_cut_set X).
Definition idx (e : nat) : Z := default 0 (Construct.vars s !! e).
Lemma idx_stands e : In e es -> stands s e (idx e).
Proof. intros J. apply EE, tree_stands in J as [v S1]. unfold idx. rewrite (proj2 (h_index handed_facts e v) S1). auto. Qed.
Lemma D_ext X Y : (forall e, In e X <-> In e Y) -> D X = D Y.
Proof.
  intros A. assert (Q : forall X Y, (forall e, In e X <-> In e Y) -> D X = true -> D Y = true); [|apply eq_true_iff_eq; split; apply Q; [auto|symmetry; auto]].
  intros X' Y' B E. apply DE in E. apply DE. intros μ V M. apply E; auto. intros e K. rewrite M by auto. symmetry. auto.
Qed.
Definition happened (ρ : Z -> bool) : list nat := List.filter (fun e => ρ (idx e)) es.
Definition Fz (ρ : Z -> bool) : bool := D (happened ρ).
Lemma happened_In ρ e : In e (happened ρ) <-> In e es /\ ρ (idx e) = true. Proof. apply filter_In. Qed.
Lemma happened_match ρ : Forall2 (stands s) (happened ρ) (map idx (happened ρ)).
Proof.
  assert (A : forall l, incl l es -> Forall2 (stands s) l (map idx l)). { induction l as [|e l IH]; intros I; cbn; constructor; [apply idx_stands, I; simpl; auto|apply IH; intros u J; apply I; simpl; auto]. }
  apply A. intros e J. apply happened_In in J. tauto.
Qed.
Lemma Fz_fails ρ : Fz ρ = true <-> fails ρ.
Proof.
  unfold Fz. rewrite DE, <- (cut_match _ _ (happened_match ρ)). unfold P_BddProducts.cut_set.
  assert (A : forall v, var H top v -> 1 < v -> member (map idx (happened ρ)) v = ρ v).
  { intros v V L. destruct (h_var handed_facts v V L) as [e S1]. assert (Ee : In e es) by (apply EE, tree_stands; eauto). assert (Ei : idx e = v) by (apply (stands_fun e); auto; apply idx_stands; auto).
    destruct (in_dec Z.eq_dec v (map idx (happened ρ))) as [J|J].
    - apply in_map_iff in J as (e' & E' & J'). apply happened_In in J' as [J1 J2]. congruence.
    - destruct (ρ v) eqn:Q; auto. elim J. apply in_map_iff. exists e. split; auto. apply happened_In. split; auto. congruence. }
  split; apply fails_local; intros v V L; [|symmetry]; apply A; auto.
Qed.
Lemma idx_inj e e' : In e es -> In e' es -> idx e = idx e' -> e = e'.
Proof. intros A B E. apply (stands_inj e e' (idx e)); [apply idx_stands; auto|rewrite E; apply idx_stands; auto]. Qed.
Lemma idx_nodup : NoDup (map idx es).
Proof.
  assert (A : forall l, NoDup l -> incl l es -> NoDup (map idx l)); [|apply A; auto; apply incl_refl]. induction 1 as [|e l N1 N2 IH]; intros I; cbn; constructor.
  - intros J. apply in_map_iff in J as (e' & E & J). apply N1. rewrite <- (idx_inj e' e); auto; apply I; simpl; auto.
  - apply IH. intros a J. apply I. simpl. auto.
Qed.
Lemma Fz_extensional : Expect.extensional Fz.
Proof. intros ρ ρ' A. unfold Fz. apply D_ext. intros e. rewrite !happened_In, A. tauto. Qed.
Lemma subsets_map l : Expect.subsets (map idx l) = map (map idx) (event_sets l).
Proof. induction l as [|e l IH]; auto. cbn [map Expect.subsets event_sets]. rewrite map_app, !map_map, IH, map_map. f_equal. Qed.
Lemma sets_incl l X : In X (event_sets l) -> incl X l.
Proof.
  revert X. induction l as [|e l IH]; intros X J; cbn in J; [destruct J as [<-|[]]; intros ? []|]. apply in_app_iff in J as [J|J].
  - apply in_map_iff in J as (Y & <- & J). intros u [<-|Ju]; [left; auto|right; apply (IH Y); auto].
  - intros u Ju. right. apply (IH X); auto.
Qed.
Lemma top_prob q p : fits q p -> Expect.prob p (map idx es) Fz = top_probability q es D.
Proof.
  intros FI. unfold Expect.prob, Expect.sum, top_probability. f_equal. rewrite subsets_map, map_map. apply map_ext_in. intros X J. apply sets_incl in J.
  assert (OC : forall e, In e es -> Expect.occurs (map idx X) (idx e) = if in_dec Nat.eq_dec e X then true else false).
  { intros e Je. unfold Expect.occurs. destruct (in_dec Z.eq_dec (idx e) (map idx X)) as [I|I], (in_dec Nat.eq_dec e X) as [I'|I']; auto.
    - apply in_map_iff in I as (e' & Q & Je'). rewrite (idx_inj e' e) in Je' by auto. contradiction.
    - elim I. apply in_map. auto. }
  assert (DX : Fz (Expect.occurs (map idx X)) = D X).
  { apply D_ext. intros e. rewrite happened_In. split.
    - intros [Je Q]. rewrite OC in Q by auto. destruct (in_dec Nat.eq_dec e X); [auto|discriminate].
    - intros Je. split; [auto|]. rewrite OC by auto. destruct (in_dec Nat.eq_dec e X); auto. }
  rewrite DX. destruct (D X); auto. unfold Expect.weight, chance. rewrite map_map. f_equal. apply map_ext_in. intros e Je. rewrite OC by auto. rewrite (FI e (idx e) (idx_stands e Je)). destruct (in_dec Nat.eq_dec e X); auto.
Qed.
(** Variables that do not matter can be left out. *)
Lemma expect_filter p (d : Z -> bool) vs : forall F : (Z -> bool) -> R, (forall ρ ρ', (forall v, d v = true -> ρ v = ρ' v) -> F ρ = F ρ') -> Expect.expect p vs F = Expect.expect p (List.filter d vs) F.
Proof.
  induction vs as [|v vs IH]; intros F A; auto. cbn [Expect.expect List.filter].
  assert (AS : forall b ρ ρ', (forall v0, d v0 = true -> ρ v0 = ρ' v0) -> F (Expect.set ρ v b) = F (Expect.set ρ' v b)).
  { intros b ρ ρ' E. apply A. intros u Du. unfold Expect.set. destruct (Z.eq_dec u v); auto. }
  destruct (d v) eqn:Dv; [cbn [Expect.expect]; rewrite !IH by apply AS; auto|].
  assert (Q : forall b, Expect.expect p vs (fun ρ => F (Expect.set ρ v b)) = Expect.expect p vs F).
  { intros b. apply Expect.expect_ext. intros ρ. apply A. intros u Du. unfold Expect.set. destruct (Z.eq_dec u v) as [->|]; auto. congruence. }
  rewrite !Q, <- IH by auto. ring.
Qed.
Lemma graph_variables : (forall v, var H top v -> 1 < v) -> exists vs, NoDup vs /\ (forall v, In v vs <-> var H top v) /\ forall p q, fits q p -> Expect.prob p vs Fz = top_probability q es D.
Proof.
  intros V1. destruct (h_acyclic handed_facts) as [r RK]. destruct (under_list H r RK top) as [lu LU].
  set (d := fun v => if in_dec Z.eq_dec v lu then match gs H !! v with None => true | Some _ => false end else false).
  assert (DD : forall v, d v = true <-> var H top v).
  { intros v. unfold d, var. rewrite <- LU. destruct (in_dec Z.eq_dec v lu), (gs H !! v); split; try discriminate; try tauto; intros [? ?]; try discriminate; contradiction. }
  exists (List.filter d (map idx es)). split; [apply NoDup_filter, idx_nodup|]. split.
  - intros v. rewrite filter_In, DD. split; [tauto|]. intros V. split; auto. destruct (h_var handed_facts v V (V1 v V)) as [e S1]. assert (Ee : In e es) by (apply EE, tree_stands; eauto).
    rewrite <- (stands_fun e _ _ (idx_stands e Ee) S1). apply in_map. auto.
  - intros p q FI. rewrite <- (top_prob q p FI). rewrite !Expect.prob_expect; auto; try apply Fz_extensional; [|apply idx_nodup|apply NoDup_filter, idx_nodup].
    symmetry. apply expect_filter. intros ρ ρ' A. f_equal. apply eq_true_iff_eq. rewrite !Fz_fails. split; apply fails_local; intros v V _; [|symmetry]; apply A, DD; auto.
Qed.
Lemma fits_given q p e v b : fits q p -> stands s e v -> fits (known q e b) (Expect.given p v b).
Proof.
  intros FI S1 e' v' S2. unfold known, Expect.given. destruct (Nat.eq_dec e' e) as [->|NQ]; [rewrite (stands_fun e v' v); auto; destruct (Z.eq_dec v v); [auto|contradiction]|].
  destruct (Z.eq_dec v' v) as [->|]; [elim NQ; apply (stands_inj e' e v); auto|]. auto.
Qed.
Lemma answered sign vs cs zs : (forall p q, fits q p -> Expect.prob p vs Fz = top_probability q es D) -> Forall2 asks cs zs -> forall q p, fits q p -> P_Prob.answers sign vs Fz zs p = event_answers sign es D cs q.
Proof.
  intros PQ. induction 1 as [|c z cs zs A F IH]; intros q p FI; auto. destruct A as [q' p' FI'|e v S1]; cbn [P_Prob.answers event_answers]; f_equal; auto.
  rewrite (PQ _ _ (fits_given q p e v 1 FI S1)), (PQ _ _ (fits_given q p e v 0 FI S1)). auto.
Qed.
(** All questions are answered by the definitions; the sign of the importance is the same for all of them
    and right if the graph is coherent (C22). *)
Theorem C47_probability module hash prime parents arrange arrange_args used q p cs zs : finished module ->
  (forall m b, is_Some (gs H !! m) -> module m = true -> exists ρ, node_value H ρ m b) ->
  (forall n, (0 < prime n)%nat) -> (forall l, Permutation (arrange l) l) -> (forall l, Permutation (arrange_args l) l) ->
  match used with Some (_, limit) => 0 <= limit | None => True end ->
  fits q p -> Forall2 asks cs zs -> (forall v, In (P_Prob.Mif v) zs -> var H top v) ->
  exists F, forall fuel, (F <= fuel)%nat -> exists marks c order sign M, Order.mark_graph H fuel top comp = Some (marks, c) /\ Order.topological_order H arrange_args fuel top = Some order /\
    (sign = 1 \/ sign = -1)%R /\ (comp = false -> flag marks top = true -> sign = 1%R) /\ forall steps, (M <= steps)%nat ->
      P_Prob.analysis H top comp (Order.order_of order) (order.2 + nxt H) hash prime module (flag marks) parents arrange ProbGraph.Rarith used fuel steps p zs =
      Some (event_answers sign es D (QTotal q :: cs) q).
Proof.
  intros FI VA PP ARR ARG LIM FQ AS MV. pose proof FI as [FG _]. destruct (marked module FI) as (f1 & marks & c & MG & CO).
  destruct (P_Order.C07_analysis H top (h_acyclic handed_facts) (h_root handed_facts) ltac:(intros i x E; apply (FG i x E)) arrange_args module (flag marks) ARG (h_wf handed_facts)
    ltac:(intros i x E; destruct (FG i x E) as (A & B & _); auto) (finished_modular module FI) VA CO) as (f2 & order & TO & PR & OD).
  assert (V1 : forall v, var H top v -> 1 < v). { intros v V. apply (P_BddProducts.var_not_constant H top _ _ _ _ PR top v (h_root handed_facts) V). }
  destruct (graph_variables V1) as (vs & NV & VV & PV).
  destruct (P_Prob.C22_mif H top comp _ _ hash prime module (flag marks) parents arrange PP ARR PR used p zs vs Fz LIM OD NV VV Fz_fails ltac:(intros v J; apply VV; auto)) as (f3 & H3).
  exists (Nat.max f1 (Nat.max f2 f3)). intros fuel LF. destruct (H3 fuel) as (sg & M & SG & SC & AN); [lia|]. exists marks, c, order, sg, M. split; [apply MG; lia|]. split; [apply TO; lia|]. split; auto. split; auto.
  intros steps LS. rewrite (AN steps LS). f_equal. apply answered; auto. constructor; auto. constructor. auto.
Qed.
End Probability.
End Pipeline.

(** ** ZBDD and MOCUS *)
(** These algorithms need negation normal form.  The preprocessor brings it about (preprocessor.cc:2378-2396): a coherent
    fault tree has it and keeps it (C50), otherwise phase IV is run, and later phases keep it. *)
Section Products.
Context (ev_id : nat -> nat) (kTrue kFalse : nat).
Context (ev_kind : nat -> kind) (formula_of : nat -> option formula) (house : nat -> bool)
        (ccf_gate : nat -> option nat) (ccf : bool).
Context (root : formula) (us : option (list substitution)).
Definition settled (s : st) (H : Pdag.graph) (top : Z) (comp : bool) : Prop :=
  exists r l, built ev_kind formula_of house ccf_gate ccf root us r l s /\
    (coh s = true /\ course r false (Construct.graph s) top comp H \/
     exists r1 c1 H1 H2, course r false (Construct.graph s) r1 c1 H1 /\ phase_four_run r1 c1 H1 H2 /\ segments r1 false H2 top comp H).
Context (rk : nat -> nat) (N : nat) (SM : sound_model ev_id kTrue kFalse ev_kind formula_of ccf_gate ccf rk N).
Context (s : st) (H : Pdag.graph) (top : Z) (comp : bool) (SD : settled s H top comp).
Theorem C47_normal_form : handed ev_kind formula_of house ccf_gate ccf root us s H top comp /\ complements_at_leaves H /\ comp = false /\
  (coh s = true -> forall i x a, gs H !! i = Some x -> constant x = false -> In a (g_args x) -> 0 < a) /\
  (coh s = false -> only [kAnd; kOr; kNull] H).
Proof.
  destruct SD as (r & l & B & D). pose proof (b_wf _ _ _ _ _ _ _ _ _ _ B) as W. pose proof (b_acyclic _ _ _ _ _ _ _ _ _ _ B) as A. pose proof (built_roomy _ _ _ _ _ _ _ _ r l B) as R. pose proof (b_root _ _ _ _ _ _ _ _ _ _ B) as SR. pose proof (b_nodes _ _ _ _ _ _ _ _ _ _ B) as VF.
  set (n := Z.of_nat (length (basics s))) in *. assert (P : 0 <= n) by (unfold n; lia).
  assert (CH : coh s = true -> forall r' c' H', course r false (Construct.graph s) r' c' H' -> simple_graph H' /\ no_complements H' /\ c' = false).
  { intros C r' c' H' (r1 & c1 & G1 & H1 & PR & L & D'). pose proof (b_coherent _ _ _ _ _ _ _ _ _ _ B C) as CG.
    destruct (C50_coherent [kAnd; kOr; kNull; kAtleast] r (Construct.graph s) r1 c1 G1 ltac:(auto) W SR ltac:(intros j x E; destruct (CG j x E) as [[Q|[Q|[Q|Q]]] _]; rewrite Q; cbn; auto) ltac:(intros j x a E; apply (CG j x E)) PR) as (T1 & C1 & ->).
    pose proof (live_only _ _ _ _ L T1) as T2. pose proof (live_none_negated _ _ _ L C1) as C2. destruct D' as [(-> & -> & ->)|[T SG]]; [auto|].
    destruct (first_sound n _ _ _ _ _ _ _ P W A R SR VF PR L) as (S1 & _). apply (segments_coherent n _ _ _ _ _ _ SG P S1 T2 C2 eq_refl). }
  assert (KEY : forall r' c' H', course r false (Construct.graph s) r' c' H' -> forall j, is_Some (gs H' !! j) -> 1 < j).
  { intros r' c' H' C j Sj. destruct (course_sound n _ _ _ _ _ _ P W A R SR VF C) as [S _]. pose proof (so_keys _ _ _ S j Sj). lia. }
  assert (POS : coh s = true -> forall r' c' H', course r false (Construct.graph s) r' c' H' -> forall i x a, gs H' !! i = Some x -> constant x = false -> In a (g_args x) -> 0 < a).
  { intros C r' c' H' CO i x a E K J. destruct (CH C r' c' H' CO) as (_ & C1 & _). destruct (C1 i x a E J) as [|Q]; [auto|]. exfalso. assert (constant x = true); [|congruence]. apply BoolOptEdits.constant_In. right. rewrite <- Q. auto. }
  destruct D as [(C & CO)|(r1 & c1 & H1 & H2 & CO & PF & SG)].
  - destruct (CH C top comp H CO) as (T1 & C1 & E1). split; [exists r, l; auto|]. split.
    { intros j x a E J Sa. destruct (C1 j x a E J) as [|Q]; [auto|]. subst a. pose proof (KEY _ _ _ CO _ Sa). lia. }
    split; [auto|]. split; [intros _; apply (POS C top comp H CO)|congruence].
  - destruct (course_sound n _ _ _ _ _ _ P W A R SR VF CO) as [S1 _]. destruct (phase_four_normal n H1 r1 c1 H2 P S1 PF) as (SG1 & T1 & T2 & C2).
    destruct (segments_sound n _ _ _ _ _ _ SG1 P S1 T1) as (S2 & _ & _).
    pose proof (course_more r false _ r1 c1 H1 top comp H CO T1 (segments_trans _ _ _ _ _ _ _ _ _ SG1 SG)) as CO2.
    destruct (segments_normal n _ _ _ _ _ _ SG P S2 T2 C2 eq_refl) as (T3 & C3 & E3). split; [exists r, l; split; [auto|exact CO2]|].
    split; [auto|]. split; [auto|]. split; [intros C; apply (POS C top comp H CO2)|auto].
Qed.
Theorem C47_zbdd module limit parents arrange arrange_args : finished H top module ->
  (forall l, Permutation (arrange l) l) -> (forall l, Permutation (arrange_args l) l) -> 0 <= limit ->
  exists F, forall fuel, (F <= fuel)%nat -> exists marks c order M L, Order.mark_graph H fuel top comp = Some (marks, c) /\ Order.topological_order H arrange_args fuel top = Some order /\
    (forall steps, (M <= steps)%nat ->
      P_Products.products H top (InvertOrder.literal_order order.1 order.2) (order.2 + nxt H) module (flag marks) parents arrange fuel steps limit = Some L) /\
    reports_cut_sets ev_kind formula_of house ccf_gate ccf root us s (fun X => Z.of_nat (length X) <= limit) limit L.
Proof.
  intros FI. destruct C47_normal_form as (HD & CV & C0 & _). apply (zbdd_reports ev_id kTrue kFalse ev_kind formula_of house ccf_gate ccf root us rk N SM s H top comp HD module limit parents arrange arrange_args FI CV C0).
Qed.
Theorem C47_mocus module limit parents arrange sort_args sort : finished H top module -> module top = true ->
  (forall l, Permutation (arrange l) l) -> (forall l, Permutation (sort_args l) l) -> (forall order, InvertOrder.sorts_by order (sort order)) -> 0 <= limit ->
  exists F, forall fuel, (F <= fuel)%nat -> exists marks c order new last M L, Order.mark_graph H fuel top comp = Some (marks, c) /\ Order.topological_order H sort_args fuel top = Some order /\
    InvertOrder.invert_order H module (sort order.1) fuel top order.1 = Some new /\
    (forall steps, (M <= steps)%nat ->
      Mocus.mocus_products (InvertOrder.literal_order new last) (last + nxt H) H module (flag marks) limit (1 + Z.of_nat (length (basics s))) arrange parents fuel steps top = Some L) /\
    reports_cut_sets ev_kind formula_of house ccf_gate ccf root us s (fun X => Z.of_nat (length X) <= limit) limit L.
Proof.
  intros FI. destruct C47_normal_form as (HD & CV & C0 & _). apply (mocus_reports ev_id kTrue kFalse ev_kind formula_of house ccf_gate ccf root us rk N SM s H top comp HD module limit parents arrange sort_args sort FI CV C0).
Qed.
End Products.

(** ** The hypotheses are met by non-trivial cases *)
(** The tree 1 or (2 or not (not 3 or 4)): the preprocessor joins its OR gates, the inner one dies; phase IV
    makes the complemented gate (3 and not 4), a module. *)
Definition pm_kind (e : nat) : kind := match e with 11 | 12 => KGate | _ => KBasic end%nat.
Definition pm_formula (g : nat) : option formula :=
  match g with
  | 11 => Some (mkFormula Or 0 0 [mkArg false 2; mkArg true 12])
  | 12 => Some (mkFormula Or 0 0 [mkArg true 3; mkArg false 4])
  | _ => None
  end%nat.
Definition pm_root : formula := mkFormula Or 0 0 [mkArg false 1%nat; mkArg false 11%nat].
Definition pm_rank (g : nat) : nat := match g with 11 => 1 | _ => 0 end%nat.
Definition pm_module (i : Z) : bool := (i =? 6) || (i =? 8).
Notation pm_sound := (sound_formula (fun e => e) 100 101 pm_kind pm_formula (fun _ => None) false).
Notation pm_settled := (settled pm_kind pm_formula (fun _ => false) (fun _ => None) false pm_root None).
Notation pm_handed := (handed pm_kind pm_formula (fun _ => false) (fun _ => None) false pm_root None).
Lemma pm_sound_of f : distinct_ids (fun e => e) (f_args f) -> (2 <= length (f_args f))%nat -> f_conn f = And \/ f_conn f = Or ->
  (forall a g, In a (f_args f) -> target pm_kind (fun _ => None) false (event a) = Some g -> is_Some (pm_formula g)) -> pm_sound f.
Proof.
  intros D L T G. constructor; [|auto|discriminate]. split; [auto|]. split; [|intros a J; destruct T as [-> | ->]; exact I].
  unfold min_number, max_number. destruct T as [-> | ->]; cbn [arity_ok takes_min takes_max]; repeat split; auto; lia.
Qed.
Ltac pm_tac := apply pm_sound_of; [repeat constructor; cbn; intuition lia|cbn; lia|cbn; auto|
  intros a g J T; cbn in J; repeat destruct J as [<-|J]; try contradiction; cbn in T; first [discriminate|injection T as <-; eexists; reflexivity]].
Lemma pm_model : sound_model (fun e => e) 100 101 pm_kind pm_formula (fun _ => None) false pm_rank 2.
Proof.
  constructor.
  - intros g f E. do 13 (destruct g as [|g]; [cbn in E; first [discriminate|injection E as <-; pm_tac]|]). discriminate.
  - intros g f E. do 13 (destruct g as [|g]; [cbn in E; first [discriminate|reflexivity]|]). discriminate.
  - discriminate.
  - discriminate.
  - intros g f a g' E J T. do 13 (destruct g as [|g]; [cbn in E; first [discriminate|injection E as <-; cbn in J; repeat destruct J as [<-|J]; try contradiction; cbn in T; first [discriminate|injection T as <-; cbn; lia]]|]). discriminate.
  - intros g. unfold pm_rank. do 12 (destruct g as [|g]; [lia|]). lia.
Qed.
Definition pm_s : st := match Construct.build pm_kind pm_formula (fun _ => false) (fun _ => None) false 3 pm_root None with Some (_, _, s) => s | None => blank end.
Definition pm_g : Pdag.graph := default (Construct.graph pm_s) (Preproc.coalesce_gate 6 7 [-8; 3] (Construct.graph pm_s)).
(** What is in memory after it. *)
Definition pm_h1 : Pdag.graph := Graph {[ 6 := Gate kOr 0 [-8; 2; 3]; 8 := Gate kOr 0 [-4; 5] ]} (nxt pm_g) [] true.
Definition pm_g2 : Pdag.graph := default pm_h1 (Complement.phase_four P_Complement.count_single list_order 9 6 false pm_h1).
Lemma pm_built : built pm_kind pm_formula (fun _ => false) (fun _ => None) false pm_root None 6 [] pm_s.
Proof.
  destruct (C02_graph _ _ _ _ _ (fun _ => false) _ _ _ _ pm_model 3 pm_root None ltac:(pm_tac) ltac:(intros u []) ltac:(lia)) as (r & l & s & E & B).
  assert (Q : option_map fst (Construct.build pm_kind pm_formula (fun _ => false) (fun _ => None) false 3 pm_root None) = Some (6, [])) by (vm_compute; reflexivity).
  unfold pm_s. rewrite E in *. cbn [option_map fst] in Q. injection Q as -> ->. exact B.
Qed.
Lemma pm_gates : map_to_list (gs pm_g) = [(8, Gate kOr 0 [-4; 5]); (6, Gate kOr 0 [-8; 2; 3]); (7, Gate kOr 0 [-8; 3])] /\ map_to_list (gs pm_g2) = [(8, Gate kAnd 0 [-5; 4]); (6, Gate kOr 0 [2; 3; 8])].
Proof. vm_compute. auto. Qed.
Lemma pm_cases i x : gs pm_g !! i = Some x -> i = 8 /\ x = Gate kOr 0 [-4; 5] \/ i = 6 /\ x = Gate kOr 0 [-8; 2; 3] \/ i = 7 /\ x = Gate kOr 0 [-8; 3].
Proof.
  intros E. apply elem_of_map_to_list in E. rewrite (proj1 pm_gates) in E. rewrite !elem_of_cons in E. destruct E as [E|[E|[E|E]]]; [injection E; auto|injection E; auto|injection E; auto|]. apply elem_of_nil in E. contradiction.
Qed.
Lemma pm_cases2 i x : gs pm_g2 !! i = Some x -> i = 8 /\ x = Gate kAnd 0 [-5; 4] \/ i = 6 /\ x = Gate kOr 0 [2; 3; 8].
Proof.
  intros E. apply elem_of_map_to_list in E. rewrite (proj2 pm_gates) in E. rewrite !elem_of_cons in E. destruct E as [E|[E|E]]; [injection E; auto|injection E; auto|]. apply elem_of_nil in E. contradiction.
Qed.
Lemma pm_under j : under pm_g 6 j -> In j [6; 2; 3; 8; 5; 4].
Proof.
  induction 1 as [|j x a U IH E J]; [simpl; auto|]. destruct (pm_cases j x E) as [[-> ->]|[[-> ->]|[-> ->]]]; cbn [g_args] in J.
  - destruct J as [<-|[<-|[]]]; simpl; auto 10.
  - destruct J as [<-|[<-|[<-|[]]]]; simpl; auto 10.
  - simpl in IH. exfalso. lia.
Qed.
Lemma pm_live : live pm_g 6 pm_h1.
Proof.
  constructor; [reflexivity|]. intros j x. unfold pm_h1. cbn [gs]. rewrite lookup_insert_Some, lookup_singleton_Some. split.
  - intros [(<- & <-)|(_ & <- & <-)].
    + split; [vm_compute; reflexivity|constructor].
    + split; [vm_compute; reflexivity|]. apply (under_arg pm_g 6 6 (Gate kOr 0 [-8; 2; 3]) (-8)); [constructor|vm_compute; reflexivity|simpl; auto].
  - intros [E U]. destruct (pm_cases j x E) as [[-> ->]|[[-> ->]|[-> ->]]]; [right; auto|left; auto|]. apply pm_under in U. simpl in U. exfalso. lia.
Qed.
Lemma pm_h1_cases i x : gs pm_h1 !! i = Some x -> i = 6 /\ x = Gate kOr 0 [-8; 2; 3] \/ i = 8 /\ x = Gate kOr 0 [-4; 5].
Proof. unfold pm_h1. cbn [gs]. rewrite lookup_insert_Some, lookup_singleton_Some. intros [(<- & <-)|(_ & <- & <-)]; auto. Qed.
Lemma pm_four H : live pm_g2 6 H -> phase_four_run 6 false pm_h1 H.
Proof.
  intros L. exists P_Complement.count_single, list_order, 9%nat, pm_g2. split; [apply P_Complement.count_single_ok|]. split; [apply P_Complement.list_order_ok|]. split; [|split; [apply ok_default; vm_compute; reflexivity|exact L]].
  split; [eexists; reflexivity|]. intros i x _ E. apply pm_h1_cases in E as [[-> ->]|[-> ->]]; (split; [cbn; auto|]); (split; [cbn; lia|reflexivity]).
Qed.
Lemma pm_values H : wf H -> acyclic H -> 5 < nxt H -> (forall j, In j [2; 3; 4; 5] -> gs H !! j = None) ->
  gs H !! 8 = Some (Gate kAnd 0 [-5; 4]) -> gs H !! 6 = Some (Gate kOr 0 [2; 3; 8]) ->
  forall m b, is_Some (gs H !! m) -> pm_module m = true -> exists ρ, node_value H ρ m b.
Proof.
  intros W AC NX NG E8 E6 m b _ M. exists (fun j => (j =? 4) && b).
  destruct (node_value_total H (fun j => (j =? 4) && b) m W AC) as (b' & ν & CN & LV & V). exists ν. split; auto. split; auto.
  assert (V2 : ν 2 = false /\ ν 3 = false /\ ν 4 = b /\ ν 5 = false). { repeat split; (rewrite LV; [reflexivity|lia|apply NG; simpl; auto 10]). }
  destruct V2 as (V2 & V3 & V4 & V5). pose proof (proj2 CN _ _ E8) as C8. pose proof (proj2 CN _ _ E6) as C6. unfold gate_value, lit in C8, C6. cbn in C8, C6.
  change (- (-5)) with 5 in C8. rewrite V4, V5 in C8. rewrite V2, V3, C8 in C6.
  unfold pm_module in M. apply orb_true_iff in M as [M|M]; apply Z.eqb_eq in M; subst m; destruct b; congruence || (rewrite C8; auto) || (rewrite C6; auto).
Qed.
Lemma pm_example : exists H, pm_settled pm_s H 6 false /\ finished H 6 pm_module /\ basics pm_s = [1; 2; 3; 4]%nat /\ coh pm_s = false /\
  forall m b, is_Some (gs H !! m) -> pm_module m = true -> exists ρ, node_value H ρ m b.
Proof.
  assert (P : preprocess 6 false (Construct.graph pm_s) 6 false pm_g).
  { eapply (pre_phase 6 false _ 6 false pm_g); [|constructor]. apply phase_step. eapply (P_Preproc.step_coalesce _ _ 6 7 [-8; 3] (Gate kOr 0 [2; 7]) (Gate kOr 0 [-8; 3]) kOr); [vm_compute; reflexivity|vm_compute; reflexivity|reflexivity|reflexivity|reflexivity|].
    apply ok_default. vm_compute. reflexivity. }
  assert (CO : course 6 false (Construct.graph pm_s) 6 false pm_h1) by (exists 6, false, pm_g, pm_h1; split; [exact P|]; split; [apply pm_live|auto]).
  assert (W2 : wf pm_g2). { split; [vm_compute; reflexivity|]. intros i x E. assert (NX : nxt pm_g2 = 9) by (vm_compute; reflexivity). rewrite NX. apply pm_cases2 in E as [[-> ->]|[-> ->]]; (split; [lia|]); (split; [repeat constructor; cbn; lia|]); cbn; intros a Ha; repeat destruct Ha as [<-|Ha]; try destruct Ha; cbn; lia. }
  assert (A2 : acyclic pm_g2). { exists (fun i => if i =? 6 then 1%nat else 0%nat). intros i x a E Ia [y Sy]. apply pm_cases2 in Sy as [[Sy _]|[Sy _]]; rewrite Sy; apply pm_cases2 in E as [[-> ->]|[-> ->]]; cbn [g_args In] in Ia; cbn; lia. }
  destruct (live_exists pm_g2 6 A2) as [H L]. exists H. pose proof (live_wf _ _ _ L W2) as W. pose proof (live_acyclic _ _ _ L A2) as AC.
  assert (CA : forall i x, gs H !! i = Some x -> i = 8 /\ x = Gate kAnd 0 [-5; 4] \/ i = 6 /\ x = Gate kOr 0 [2; 3; 8]).
  { intros i x E. apply (l_gates _ _ _ L) in E as [E U]. apply (pm_cases2 i x E). }
  assert (E8 : gs H !! 8 = Some (Gate kAnd 0 [-5; 4])). { apply (l_gates _ _ _ L). split; [vm_compute; reflexivity|]. apply (under_arg pm_g2 6 6 (Gate kOr 0 [2; 3; 8]) 8); [constructor|vm_compute; reflexivity|simpl; auto]. }
  assert (E6 : gs H !! 6 = Some (Gate kOr 0 [2; 3; 8])). { apply (l_gates _ _ _ L). split; [vm_compute; reflexivity|constructor]. }
  split; [exists 6, []; split; [apply pm_built|]; right; exists 6, false, pm_h1, H; split; [exact CO|]; split; [apply pm_four; exact L|constructor]|]. split; [split|split; [|split]].
  - intros i x E. destruct (CA i x E) as [[-> ->]|[-> ->]]; cbn [g_type g_args length]; repeat split; auto.
  - intros m Sm M. apply (P_Modules.module_iff H 6 m AC (live_all _ _ _ L) Sm). unfold pm_module in M. apply orb_true_iff in M as [M|M]; apply Z.eqb_eq in M; subst m.
    + intros i x a E J U. right. apply (live_all _ _ _ L). eauto.
    + assert (U8 : forall j, under H 8 j -> j = 8 \/ j = 5 \/ j = 4).
      { induction 1 as [|j x a U IH E J]; [auto|]. destruct (CA j x E) as [[-> ->]|[-> ->]]; cbn [g_args] in J; [destruct J as [<-|[<-|[]]]; auto|lia]. }
      intros i x a E J U. apply U8 in U. destruct (CA i x E) as [[-> ->]|[-> ->]]; [right; constructor|]. left. cbn [g_args] in J. destruct J as [<-|[<-|[<-|[]]]]; cbn in *; lia.
  - vm_compute. reflexivity.
  - vm_compute. reflexivity.
  - apply pm_values; auto; [rewrite (l_nxt _ _ _ L); vm_compute; reflexivity|].
    intros j J. destruct (gs H !! j) as [x|] eqn:E; auto. destruct (CA j x E) as [[-> _]|[-> _]]; simpl in J; exfalso; lia.
Qed.
(** The theorems for it: an analysis by each algorithm reports exactly the minimal cut sets of the tree. *)
Notation pm_reports := (reports_cut_sets pm_kind pm_formula (fun _ => false) (fun _ => None) false pm_root None pm_s).
Example C47_nonvacuous : exists H, pm_handed pm_s H 6 false /\ (exists order marks F M L,
    P_Products.products H 6 (InvertOrder.literal_order order.1 order.2) (order.2 + nxt H) pm_module (flag marks) (fun _ => 1%nat) (fun l => l) F M 10 = Some L /\
    pm_reports (fun X => Z.of_nat (length X) <= 10) 10 L) /\
  exists order marks F M L,
    P_BddProducts.products H 6 false (Order.order_of order) (order.2 + nxt H) (fun _ => 0%nat) (fun _ => 7%nat) pm_module (flag marks) (fun _ => 1%nat) (fun l => l) true F M 10 = Some L /\
    reports_prime_implicants pm_kind pm_formula (fun _ => false) (fun _ => None) false pm_root None pm_s 10 L.
Proof.
  destruct pm_example as (H & SD & FI & _ & _ & VA). destruct (C47_normal_form _ _ _ _ _ _ _ _ _ _ _ SD) as (HD & _). exists H. split; auto. split.
  - destruct (C47_zbdd _ _ _ _ _ (fun _ => false) _ _ pm_root None pm_rank 2 pm_model pm_s H 6 false SD pm_module 10 (fun _ => 1%nat) (fun l => l) (fun l => l) FI ltac:(auto) ltac:(auto) ltac:(lia)) as (F & HF).
    destruct (HF F) as (marks & c & order & M & L & _ & _ & E & RP); [lia|]. exists order, marks, F, M, L. split; [apply E; lia|auto].
  - destruct (C47_bdd _ _ _ _ _ (fun _ => false) _ _ pm_root None pm_rank 2 pm_model pm_s H 6 false HD pm_module 10 (fun _ => 0%nat) (fun _ => 7%nat) (fun _ => 1%nat) (fun l => l) (fun l => l) FI VA ltac:(intros; cbn; lia) ltac:(auto) ltac:(auto) ltac:(lia)) as (F & HF).
    destruct (HF F) as (marks & c & order & M & L & L' & _ & _ & E & _ & RP); [lia|]. exists order, marks, F, M, L'. split; [apply E; lia|auto].
Qed.
Print Assumptions C47_bdd.
Print Assumptions C47_normal_form.
Print Assumptions C47_zbdd.
Print Assumptions C47_mocus.
Print Assumptions C47_trivial.
Print Assumptions C47_probability.
