From stdpp Require Import gmap.
From Coq Require Import Lia.
From Verif Require Import CacheTable Bdd BddProofs.
Open Scope Z_scope.

Section History.
  Variable ord : Z -> Z.
  Hypothesis ord_inj : forall i j, ord i = ord j -> i = j.
  Variable hash : ckey -> nat.
  Variable prime : nat -> nat.
  Hypothesis prime_pos : forall n, (0 < prime n)%nat.
  Notation wf := (wf ord hash).

  Definition holds (b : bdd) (f : fn) (g : bfun) : Prop :=
    valid (nodes b) f.2 /\ forall σ, feval (nodes b) σ f = g σ.
  Definition Inv (s : bstate) (gs : list bfun) : Prop :=
    wf s.1 /\ Forall2 (holds s.1) s.2 gs.

  Lemma holds_mono b b' f g : wf b -> wf b' -> ext b b' -> holds b f g -> holds b' f g.
  Proof.
    intros W W' (Sub & _ & _) [V H]. split; [eapply valid_mono; eauto|].
    intros σ. rewrite <- H. apply (feval_mono ord); auto; [apply W|apply W'].
  Qed.

  Lemma cache_values_find c k r : find ckey fn ckey_eq hash c k = Some r -> In r (cache_values c).
  Proof.
    intros H. apply find_has in H. unfold cache_values. apply in_flat_map.
    exists (Some (k, r)). split; [exact H|now left].
  Qed.

  Lemma collect_ok dead held b gs :
    wf b -> Forall2 (holds b) held gs ->
    wf (collect dead held b) /\ Forall2 (holds (collect dead held b)) held gs.
  Proof.
    intros W HF. unfold collect. destruct (refs_ok dead held b) eqn:Er; [|auto].
    unfold refs_ok in Er. apply andb_true_iff in Er as [E1 E2].
    rewrite forallb_forall in E1, E2.
    set (ns' := filter (fun kv : Z * node => kv.1 ∉ dead) (nodes b)).
    assert (Hlk : forall v n, ns' !! v = Some n <-> nodes b !! v = Some n /\ v ∉ dead).
    { intros v n. unfold ns'. rewrite map_filter_lookup_Some. simpl. tauto. }
    assert (Hsub : ns' ⊆ nodes b) by (apply map_filter_subseteq).
    assert (Hab : forall o v, above (nodes b) o v -> v ∉ dead -> above ns' o v).
    { intros o v [->|(n & En & L)] Hd; [now left|]. right. exists n. split; [|auto]. now apply Hlk. }
    assert (Hva : forall v, valid (nodes b) v -> v ∉ dead -> valid ns' v).
    { intros v [->|[n En]] Hd; [now left|]. right. exists n. now apply Hlk. }
    assert (Hst : store_ok ord ns').
    { intros v n Hv. apply Hlk in Hv as [Hv Hd].
      destruct (w_store _ _ b W v n Hv) as (K1 & K2 & K3 & K4 & K5 & K6 & K7).
      specialize (E2 (v, n)). simpl in E2. rewrite bool_decide_eq_false_2 in E2 by auto. simpl in E2.
      assert (E2' : negb (bool_decide (n_high n ∈ dead)) && negb (bool_decide (n_low n ∈ dead)) = true).
      { apply E2. apply elem_of_list_In. now apply elem_of_map_to_list. }
      apply andb_true_iff in E2' as [Dh Dl]. apply negb_true_iff, bool_decide_eq_false in Dh.
      apply negb_true_iff, bool_decide_eq_false in Dl.
      split; [auto|]. split; [auto|]. split; [auto|]. split; auto. }
    assert (Hlive : forall f : fn, In f (held ++ cache_values (and_t b) ++ cache_values (or_t b)) -> f.2 ∉ dead).
    { intros f Hin. apply E1 in Hin. now apply negb_true_iff, bool_decide_eq_false in Hin. }
    assert (Hvv : forall v, valid ns' v -> valid (nodes b) v) by (intros; eapply valid_mono; eauto).
    assert (Hfe : forall σ f, valid ns' f.2 -> feval ns' σ f = feval (nodes b) σ f).
    { intros σ f Hv. symmetry. apply (feval_mono ord); auto. apply W. }
    split.
    - constructor; simpl.
      + apply W.
      + exact Hst.
      + intros v n Hv. apply Hlk in Hv as [Hv _]. eapply w_lt; eauto.
      + intros k v. rewrite map_filter_lookup_Some. simpl. rewrite (w_ut _ _ b W). fold ns'.
        split.
        * intros [(n & En & Ek) Hd]. exists n. rewrite Hlk. auto.
        * intros (n & En & Ek). apply Hlk in En as [En Hd]. eauto.
      + intros t. pose proof (w_cwf _ _ b W t). now destruct t.
      + intros t k r Hf.
        assert (Hf' : find ckey fn ckey_eq hash (get_cache t b) k = Some r) by now destruct t.
        destruct (w_cache _ _ b W _ _ _ Hf') as (C1 & C2 & C3 & C4). fold ns'.
        assert (Hr : r.2 ∉ dead).
        { apply Hlive. apply in_or_app. right. apply in_or_app.
          apply cache_values_find in Hf'. destruct t; auto. }
        split; [simpl; auto|]. split; [exact C2|]. split; [exact C3|].
        simpl. intros V1 V2. destruct (C4 (Hvv _ V1) (Hvv _ V2)) as [C5 C6]. split.
        * intros σ. rewrite !Hfe; auto.
        * intros o A1 A2. apply Hab; [|auto]. apply C6; eapply above_mono; eauto.
    - assert (Hh : forall f, In f held -> f.2 ∉ dead).
      { intros f Hf. apply Hlive. apply in_or_app. now left. }
      clear - HF Hh Hva Hfe.
      induction HF as [|f g held gs [V H] _ IH]; [constructor|].
      constructor.
      + assert (Hv : valid ns' f.2) by (apply Hva; [auto|]; apply Hh; now left).
        split; [exact Hv|]. simpl. intros σ. fold ns'. now rewrite Hfe.
      + apply IH. intros f' Hf'. apply Hh. now right.
  Qed.

  Lemma Forall2_nth {A B} (P : A -> B -> Prop) l l' : Forall2 P l l' -> forall i,
    match nth_error l i, nth_error l' i with
    | Some a, Some b => P a b | None, None => True | _, _ => False end.
  Proof. induction 1; intros [|i]; simpl; auto. apply IHForall2. Qed.

  Lemma Forall2_remove {A B} (P : A -> B -> Prop) l l' i : Forall2 P l l' ->
    Forall2 P (firstn i l ++ skipn (S i) l) (firstn i l' ++ skipn (S i) l').
  Proof.
    intros H. apply Forall2_app.
    - revert i. induction H; intros [|i]; simpl; constructor; auto.
    - revert i. induction H as [|? ? ? ? ? H' IH]; intros i; simpl; [constructor|].
      destruct i; simpl; [exact H'|]. apply IH.
  Qed.

  Lemma run_bop_ok s gs o : Inv s gs ->
    exists s', run_bop hash prime ord s o = Some s' /\ Inv s' (spec_bop gs o).
  Proof.
    destruct s as [b held]. intros [W HF]; simpl in *.
    destruct o as [i| |i|t i j|i| |dead]; simpl.
    - unfold variable. destruct (find_or_add i kOne kOne true (ord i) b) as [b' v] eqn:E.
      apply (find_or_add_ok ord hash) in E as (W' & X & n & En & N1 & N2 & N3 & N4 & N5);
        auto; try (now left); try discriminate.
      eexists; split; [reflexivity|]. split; [exact W'|]. simpl. constructor.
      + split; [right; simpl; eauto|]. intros σ. unfold feval; simpl.
        rewrite (eval_node ord _ σ v n) by (auto; apply W').
        rewrite N1, N3, N4, N5, (eval_one ord) by apply W'. now destruct (σ i).
      + eapply Forall2_impl; [exact HF|]. intros; apply (holds_mono b b'); auto.
    - eexists; split; [reflexivity|]. split; [exact W|]. constructor; [|exact HF].
      split; [now left|]. intros σ. unfold feval; simpl. now rewrite (eval_one ord) by apply W.
    - pose proof (Forall2_nth _ _ _ HF i) as Hi.
      destruct (nth_error held i) as [f|], (nth_error gs i) as [g|]; try contradiction;
        (eexists; split; [reflexivity|]; split; [exact W|]); [|exact HF].
      constructor; [|exact HF]. destruct Hi as [V H]. split; [exact V|].
      intros σ. rewrite <- H. unfold feval; simpl. now destruct f.1, (eval _ _ _).
    - pose proof (Forall2_nth _ _ _ HF i) as Hi. pose proof (Forall2_nth _ _ _ HF j) as Hj.
      destruct (nth_error held i) as [f|], (nth_error gs i) as [g|]; try contradiction;
        [|eexists; split; [reflexivity|]; split; [exact W|exact HF]].
      destruct (nth_error held j) as [f'|], (nth_error gs j) as [g'|]; try contradiction;
        [|eexists; split; [reflexivity|]; split; [exact W|exact HF]].
      destruct Hi as [V H], Hj as [V' H'].
      destruct (apply_ok ord ord_inj hash prime prime_pos (S (Z.to_nat (f.2 + f'.2))) t f.2 f'.2 f.1 f'.1 b W V V')
        as (b' & r & E & W' & X & Vr & Sr & _); [lia|].
      unfold apply_fn. rewrite E. eexists; split; [reflexivity|]. split; [exact W'|]. constructor.
      + split; [exact Vr|]. intros σ. rewrite Sr.
        change (f.1, f.2) with (f.1, f.2). rewrite <- H, <- H'.
        destruct f, f'. reflexivity.
      + eapply Forall2_impl; [exact HF|]. intros; apply (holds_mono b b'); auto.
    - eexists; split; [reflexivity|]. split; [exact W|]. now apply Forall2_remove.
    - eexists; split; [reflexivity|]. split; [now apply wf_clear|exact HF].
    - eexists; split; [reflexivity|]. now apply collect_ok.
  Qed.

  Lemma run_bops_ok os : forall s gs, Inv s gs ->
    exists s', run_bops hash prime ord s os = Some s' /\ Inv s' (spec_bops os gs).
  Proof.
    induction os as [|o os IH]; intros s gs H; simpl; [eauto|].
    destruct (run_bop_ok s gs o H) as (s' & -> & H'). apply IH. exact H'.
  Qed.

  Lemma init_inv : Inv (empty_bdd prime, []) [].
  Proof. split; [now apply empty_wf|constructor]. Qed.

  Lemma reach os : exists b held,
    run_bops hash prime ord (empty_bdd prime, []) os = Some (b, held) /\
    wf b /\ Forall2 (holds b) held (spec_bops os []).
  Proof.
    destruct (run_bops_ok os _ _ init_inv) as ([b held] & E & H). exists b, held. auto.
  Qed.

  Lemma history_correct os : exists b held,
    run_bops hash prime ord (empty_bdd prime, []) os = Some (b, held) /\
    length held = length (spec_bops os []) /\
    forall i f g, nth_error held i = Some f -> nth_error (spec_bops os []) i = Some g ->
    forall σ r, fn_reads (nodes b) σ f r <-> r = g σ.
  Proof.
    destruct (reach os) as (b & held & E & W & HF). exists b, held. split; [auto|].
    split; [eapply Forall2_length; eauto|]. intros i f g Hf Hg σ r.
    pose proof (Forall2_nth _ _ _ HF i) as Hi. rewrite Hf, Hg in Hi. destruct Hi as [V H].
    rewrite (fn_reads_iff ord) by (auto; apply W). now rewrite H.
  Qed.

  Lemma unique_nodes b : wf b -> forall v v' n n',
    nodes b !! v = Some n -> nodes b !! v' = Some n' -> node_key n = node_key n' -> v = v'.
  Proof.
    intros W v v' n n' E E' K.
    assert (H1 : utable b !! node_key n = Some v) by (apply (w_ut _ _ b W); eauto).
    assert (H2 : utable b !! node_key n = Some v') by (apply (w_ut _ _ b W); eauto).
    congruence.
  Qed.

  Lemma history_canonical os b held :
    run_bops hash prime ord (empty_bdd prime, []) os = Some (b, held) ->
    forall i j f f' g g', nth_error held i = Some f -> nth_error held j = Some f' ->
    nth_error (spec_bops os []) i = Some g -> nth_error (spec_bops os []) j = Some g' ->
    ((forall σ, g σ = g' σ) <-> f = f').
  Proof.
    intros E. destruct (reach os) as (b' & held' & E' & W & HF). rewrite E in E'. injection E' as <- <-.
    intros i j f f' g g' Hf Hf' Hg Hg'.
    pose proof (Forall2_nth _ _ _ HF i) as Hi. rewrite Hf, Hg in Hi. destruct Hi as [V H].
    pose proof (Forall2_nth _ _ _ HF j) as Hj. rewrite Hf', Hg' in Hj. destruct Hj as [V' H'].
    split.
    - intros Heq. apply (canonical ord (nodes b)); auto; [apply W|now apply unique_nodes|].
      intros σ. now rewrite H, H'.
    - intros <- σ. now rewrite <- H, <- H'.
  Qed.

  Lemma history_constant os b held :
    run_bops hash prime ord (empty_bdd prime, []) os = Some (b, held) ->
    forall i f g, nth_error held i = Some f -> nth_error (spec_bops os []) i = Some g ->
    ((forall σ, g σ = true) <-> f = (false, kOne)) /\ ((forall σ, g σ = false) <-> f = (true, kOne)).
  Proof.
    intros E. destruct (reach os) as (b' & held' & E' & W & HF). rewrite E in E'. injection E' as <- <-.
    intros i f g Hf Hg.
    pose proof (Forall2_nth _ _ _ HF i) as Hi. rewrite Hf, Hg in Hi. destruct Hi as [V H].
    assert (H1 : forall σ, eval (nodes b) σ 1 = true) by (intros; apply (eval_one ord), W).
    split; split.
    - intros Ht. apply (canonical ord (nodes b)); auto; [apply W|now apply unique_nodes|now left|].
      intros σ. rewrite H, Ht. unfold feval; simpl. now rewrite H1.
    - intros -> σ. rewrite <- H. unfold feval; simpl. now rewrite H1.
    - intros Ht. apply (canonical ord (nodes b)); auto; [apply W|now apply unique_nodes|now left|].
      intros σ. rewrite H, Ht. unfold feval; simpl. now rewrite H1.
    - intros -> σ. rewrite <- H. unfold feval; simpl. now rewrite H1.
  Qed.

  (** Structure: every live vertex is ordered and reduced and its children are live. *)
  Definition live (b : bdd) (v : Z) : Prop := v = kOne \/ exists n, nodes b !! v = Some n.
  Lemma history_structure os b held :
    run_bops hash prime ord (empty_bdd prime, []) os = Some (b, held) ->
    (forall f, In f held -> live b f.2) /\
    (forall v n, nodes b !! v = Some n ->
       live b (n_high n) /\ live b (n_low n) /\ n_order n = ord (n_index n) /\
       (forall c m, c = n_high n \/ c = n_low n -> nodes b !! c = Some m -> n_order n < n_order m) /\
       (n_high n = n_low n -> n_ce n = true)) /\
    (forall v v' n n', nodes b !! v = Some n -> nodes b !! v' = Some n' ->
       n_index n = n_index n' -> n_high n = n_high n' -> n_low n = n_low n' -> n_ce n = n_ce n' -> v = v').
  Proof.
    intros E. destruct (reach os) as (b' & held' & E' & W & HF). rewrite E in E'. injection E' as <- <-.
    assert (Hl : forall v, valid (nodes b) v -> live b v) by (intros v [->|[n En]]; [now left|right; eauto]).
    split; [|split].
    - intros f Hin. apply Hl. apply In_nth_error in Hin as [i Hi].
      pose proof (Forall2_nth _ _ _ HF i) as Hn. rewrite Hi in Hn.
      destruct (nth_error (spec_bops os []) i); [apply Hn|contradiction].
    - intros v n En. destruct (w_store _ _ b W v n En) as (_ & Ho & Ah & Al & Hh & Hlo & Hr).
      split; [eapply Hl, above_valid; eauto|]. split; [eapply Hl, above_valid; eauto|]. split; [auto|]. split.
      + intros c m Hc Em. pose proof (w_store _ _ b W c m Em) as (Hc2 & _).
        destruct Hc as [->| ->]; [destruct Ah as [?|(m' & Em' & L)]|destruct Al as [?|(m' & Em' & L)]];
          try lia; rewrite Em in Em'; injection Em' as <-; auto.
      + intros Heq. destruct (n_ce n); auto. exfalso. now apply Hr.
    - intros v v' n n' E1 E2 K1 K2 K3 K4. eapply unique_nodes; eauto.
      unfold node_key. congruence.
  Qed.
End History.

(** The history without its cache clearings. *)
Definition not_clear (o : bop) : bool := match o with BClear => false | _ => true end.
Lemma spec_no_clear os : forall held, spec_bops (List.filter not_clear os) held = spec_bops os held.
Proof.
  unfold spec_bops. induction os as [|o os IH]; intros held; simpl; [reflexivity|].
  destruct o; simpl; apply IH.
Qed.
Lemma history_cache_transparent :
  forall (ord : Z -> Z), (forall i j, ord i = ord j -> i = j) ->
  forall (hash hash' : ckey -> nat) (prime prime' : nat -> nat),
  (forall n, (0 < prime n)%nat) -> (forall n, (0 < prime' n)%nat) ->
  forall os os', List.filter not_clear os = List.filter not_clear os' ->
  forall b held b' held',
    run_bops hash prime ord (empty_bdd prime, []) os = Some (b, held) ->
    run_bops hash' prime' ord (empty_bdd prime', []) os' = Some (b', held') ->
    length held = length held' /\
    forall i f f', nth_error held i = Some f -> nth_error held' i = Some f' ->
    forall σ r, fn_reads (nodes b) σ f r <-> fn_reads (nodes b') σ f' r.
Proof.
  intros ord Hinj hash hash' prime prime' Hp Hp' os os' Heq b held b' held' E E'.
  destruct (history_correct ord Hinj hash prime Hp os) as (b1 & h1 & E1 & L1 & C1).
  rewrite E in E1. injection E1 as <- <-.
  destruct (history_correct ord Hinj hash' prime' Hp' os') as (b2 & h2 & E2 & L2 & C2).
  rewrite E' in E2. injection E2 as <- <-.
  assert (Hs : spec_bops os [] = spec_bops os' [])
    by (rewrite <- (spec_no_clear os), <- (spec_no_clear os'), Heq; reflexivity).
  split; [congruence|]. intros i f f' Hf Hf' σ r.
  destruct (nth_error (spec_bops os []) i) as [g|] eqn:Eg.
  - rewrite (C1 i f g Hf Eg). rewrite Hs in Eg. now rewrite (C2 i f' g Hf' Eg).
  - apply nth_error_None in Eg. assert (nth_error held i <> None) by congruence.
    apply nth_error_Some in H. lia.
Qed.
