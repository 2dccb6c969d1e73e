From stdpp Require Import gmap.
From Coq Require Import Lia.
From Verif Require Import CacheTable Bdd.
Open Scope Z_scope.

Definition opb (t : conn) (x y : bool) : bool :=
  match t with CAnd => x && y | COr => x || y end.

Definition valid (ns : gmap Z node) (v : Z) : Prop := v = 1 \/ is_Some (ns !! v).
Definition above (ns : gmap Z node) (o v : Z) : Prop :=
  v = 1 \/ exists n, ns !! v = Some n /\ o < n_order n.

Fixpoint evf (ns : gmap Z node) (σ : Z -> bool) (m : nat) (v : Z) : bool :=
  match m with
  | O => true
  | S m' => match ns !! v with
            | None => true
            | Some n => if σ (n_index n) then evf ns σ m' (n_high n)
                        else xorb (n_ce n) (evf ns σ m' (n_low n))
            end
  end.
Definition eval ns σ v := evf ns σ (Z.to_nat v) v.
Definition feval ns σ (f : fn) := xorb f.1 (eval ns σ f.2).

(** Vertex store well-formedness: ids, ordering, reduction. *)
Definition node_ok (ord : Z -> Z) (ns : gmap Z node) (v : Z) (n : node) : Prop :=
  2 <= v /\ n_order n = ord (n_index n) /\
  above ns (n_order n) (n_high n) /\ above ns (n_order n) (n_low n) /\
  1 <= n_high n < v /\ 1 <= n_low n < v /\ (n_ce n = false -> n_high n <> n_low n).
Definition store_ok ord ns := forall v n, ns !! v = Some n -> node_ok ord ns v n.

Lemma above_valid ns o v : above ns o v -> valid ns v.
Proof. intros [->|(n & E & _)]; [now left|right; eauto]. Qed.

Lemma above_weaken ns o o' v : o' <= o -> above ns o v -> above ns o' v.
Proof. intros H [->|(n & E & L)]; [now left|right; exists n; split; auto; lia]. Qed.

Lemma above_mono ns ns' o v : ns ⊆ ns' -> above ns o v -> above ns' o v.
Proof. intros H [->|(n & E & L)]; [now left|right; exists n; split; auto; eapply lookup_weaken; eauto]. Qed.
Lemma valid_mono ns ns' v : ns ⊆ ns' -> valid ns v -> valid ns' v.
Proof. intros H [->|[n E]]; [now left|right; exists n; eapply lookup_weaken; eauto]. Qed.

Section Store.
  Variable ord : Z -> Z.

  Lemma evf_enough ns σ : store_ok ord ns -> forall m v, (Z.to_nat v <= m)%nat -> evf ns σ m v = eval ns σ v.
  Proof.
    intros Hs. induction m as [m IH] using lt_wf_ind. intros v Hv. unfold eval.
    destruct (ns !! v) as [n|] eqn:E.
    - destruct (Hs v n E) as (H2 & _ & _ & _ & Hh & Hl & _).
      destruct m as [|m]; [lia|]. destruct (Z.to_nat v) as [|k] eqn:Ek; [lia|].
      simpl. rewrite E. destruct (σ (n_index n)).
      + rewrite (IH m) by lia. destruct (decide (k = m)) as [->|].
        * rewrite (IH m) by lia. reflexivity.
        * rewrite (IH k) by lia. reflexivity.
      + rewrite (IH m) by lia. f_equal. symmetry. apply (IH k); lia.
    - destruct m as [|m]; simpl; destruct (Z.to_nat v); simpl; rewrite ?E; reflexivity.
  Qed.

  Lemma eval_node ns σ v n : store_ok ord ns -> ns !! v = Some n ->
    eval ns σ v = if σ (n_index n) then eval ns σ (n_high n) else xorb (n_ce n) (eval ns σ (n_low n)).
  Proof.
    intros Hs E. destruct (Hs v n E) as (H2 & _ & _ & _ & Hh & Hl & _).
    unfold eval at 1. destruct (Z.to_nat v) as [|k] eqn:Ek; [lia|]. simpl. rewrite E.
    rewrite !evf_enough by (auto; lia). reflexivity.
  Qed.

  Lemma store_no_one ns : store_ok ord ns -> ns !! 1 = None.
  Proof. intros Hs. destruct (ns !! 1) eqn:E; auto. apply Hs in E as (? & _). lia. Qed.

  Lemma eval_one ns σ : store_ok ord ns -> eval ns σ 1 = true.
  Proof. intros Hs. unfold eval. simpl. change (Pos.to_nat 1) with 1%nat. simpl. now rewrite store_no_one. Qed.

  Lemma valid_pos ns v : store_ok ord ns -> valid ns v -> 1 <= v.
  Proof. intros Hs [->|[n E]]; [lia|]. apply Hs in E as (? & _). lia. Qed.

  Lemma valid_cases ns v : store_ok ord ns -> valid ns v ->
    (terminal v = true /\ v = 1) \/ (terminal v = false /\ exists n, ns !! v = Some n /\ node_ok ord ns v n).
  Proof.
    intros Hs [->|[n E]]; [left; auto|]. right. pose proof (Hs v n E) as (H2 & H).
    split; [unfold terminal; apply Z.ltb_ge; lia|]. exists n; split; auto. 
  Qed.

  Lemma reads_eval ns σ : store_ok ord ns -> forall v, valid ns v -> reads ns σ v (eval ns σ v).
  Proof.
    intros Hs. assert (H : forall k v, (Z.to_nat v <= k)%nat -> valid ns v -> reads ns σ v (eval ns σ v)).
    { induction k as [|k IH]; intros v Hk Hv.
      - pose proof (valid_pos ns v Hs Hv). lia.
      - destruct (valid_cases ns v Hs Hv) as [[_ ->]|[_ (n & E & Hn)]].
        + rewrite eval_one by auto. constructor.
        + rewrite (eval_node ns σ v n) by auto.
          destruct Hn as (_ & _ & Ah & Al & Hh & Hl & _).
          destruct (σ (n_index n)) eqn:Es.
          * eapply reads_high; eauto. apply IH; [lia|]. eapply above_valid; eauto.
          * eapply reads_low; eauto. apply IH; [lia|]. eapply above_valid; eauto. }
    intros v Hv. eapply H; eauto.
  Qed.

  Lemma reads_fun ns σ v r : store_ok ord ns -> reads ns σ v r -> r = eval ns σ v.
  Proof.
    intros Hs. induction 1 as [|v n r E Es _ IH|v n r E Es _ IH].
    - symmetry; now apply eval_one.
    - rewrite (eval_node ns σ v n), Es by auto. exact IH.
    - rewrite (eval_node ns σ v n), Es by auto. now rewrite IH.
  Qed.

  Lemma fn_reads_iff ns σ f r : store_ok ord ns -> valid ns f.2 ->
    (fn_reads ns σ f r <-> r = feval ns σ f).
  Proof.
    intros Hs Hv. split.
    - intros (r' & Hr & ->). apply reads_fun in Hr; auto. now rewrite Hr.
    - intros ->. exists (eval ns σ f.2). split; auto. now apply reads_eval.
  Qed.

  Lemma eval_mono ns ns' σ : store_ok ord ns -> store_ok ord ns' -> ns ⊆ ns' ->
    forall v, valid ns v -> eval ns' σ v = eval ns σ v.
  Proof.
    intros Hs Hs' Hsub v Hv. symmetry. apply reads_fun; auto.
    pose proof (reads_eval ns σ Hs v Hv) as H. revert H. generalize (eval ns σ v). clear Hv.
    intros r H. induction H as [|v n r E Es _ IH|v n r E Es _ IH].
    - constructor.
    - eapply reads_high; eauto. eapply lookup_weaken; eauto.
    - eapply reads_low; eauto. eapply lookup_weaken; eauto.
  Qed.

  Lemma feval_mono ns ns' σ f : store_ok ord ns -> store_ok ord ns' -> ns ⊆ ns' ->
    valid ns f.2 -> feval ns' σ f = feval ns σ f.
  Proof. intros. unfold feval. f_equal. eapply eval_mono; eauto. Qed.

  (** A diagram does not look at variables ordered at or before [o]. *)
  Lemma eval_above ns σ i x : store_ok ord ns -> forall v, above ns (ord i) v ->
    eval ns (fun j => if decide (j = i) then x else σ j) v = eval ns σ v.
  Proof.
    intros Hs. assert (H : forall k v, (Z.to_nat v <= k)%nat -> above ns (ord i) v ->
      eval ns (fun j => if decide (j = i) then x else σ j) v = eval ns σ v).
    { induction k as [|k IH]; intros v Hk Ha.
      - pose proof (valid_pos ns v Hs (above_valid _ _ _ Ha)). lia.
      - destruct Ha as [->|(n & E & L)]; [rewrite !eval_one; auto|].
        destruct (Hs v n E) as (_ & Ho & Ah & Al & Hh & Hl & _).
        rewrite !(eval_node ns _ v n) by auto.
        destruct (decide (n_index n = i)) as [Ei|N]; [rewrite Ei in Ho; lia|].
        rewrite !IH; auto; try lia; (apply (above_weaken ns (n_order n)); [lia|assumption]). }
    intros v Ha; eapply H; eauto.
  Qed.

  (** Canonicity of the store, given uniqueness of keys. *)
  Lemma canonical ns : (forall i j, ord i = ord j -> i = j) -> store_ok ord ns ->
    (forall v v' n n', ns !! v = Some n -> ns !! v' = Some n' -> node_key n = node_key n' -> v = v') ->
    forall f g, valid ns f.2 -> valid ns g.2 ->
    (forall σ, feval ns σ f = feval ns σ g) -> f = g.
  Proof.
    intros ord_inj Hs Hu.
    assert (H : forall k f g, (Z.to_nat (f.2 + g.2) <= k)%nat -> valid ns f.2 -> valid ns g.2 ->
      (forall σ, feval ns σ f = feval ns σ g) -> f = g).
    { induction k as [|k IH]; intros [c1 v1] [c2 v2] Hk V1 V2 He; simpl in *.
      - pose proof (valid_pos ns v1 Hs V1). pose proof (valid_pos ns v2 Hs V2). lia.
      - pose proof (valid_pos ns v1 Hs V1) as P1. pose proof (valid_pos ns v2 Hs V2) as P2.
        unfold feval in He; simpl in He.
        (* a non-terminal vertex whose function ignores its own top variable is impossible *)
        assert (Hno : forall c v n d w, ns !! v = Some n -> valid ns w -> above ns (n_order n) w ->
                  v + w = v1 + v2 -> (forall σ, xorb c (eval ns σ v) = xorb d (eval ns σ w)) -> False).
        { intros c v n d w E Vw Aw Hsum Heq. destruct (Hs v n E) as (H2 & Ho & Ah & Al & Hh & Hl & Hred).
          pose proof (valid_pos ns w Hs Vw) as Pw.
          assert (Eh : (c, n_high n) = (d, w)).
          { apply IH; simpl; [lia|eapply above_valid; eauto|auto|].
            intros σ. unfold feval; simpl.
            specialize (Heq (fun j => if decide (j = n_index n) then true else σ j)).
            rewrite (eval_node ns _ v n) in Heq by auto.
            destruct (decide (n_index n = n_index n)); [|congruence].
            rewrite !eval_above in Heq; auto; rewrite <- Ho; auto. }
          assert (El : (xorb c (n_ce n), n_low n) = (d, w)).
          { apply IH; simpl; [lia|eapply above_valid; eauto|auto|].
            intros σ. unfold feval; simpl.
            specialize (Heq (fun j => if decide (j = n_index n) then false else σ j)).
            rewrite (eval_node ns _ v n) in Heq by auto.
            destruct (decide (n_index n = n_index n)); [|congruence].
            rewrite !eval_above in Heq; auto; rewrite <- ?Ho; auto.
            rewrite <- Heq. now destruct c, (n_ce n), (eval ns σ (n_low n)). }
          injection Eh as -> Ev1. injection El as Ec Ev2.
          apply Hred; [destruct d, (n_ce n); simpl in Ec; congruence|congruence]. }
        destruct (valid_cases ns v1 Hs V1) as [[_ ->]|[_ (n1 & E1 & N1)]];
        destruct (valid_cases ns v2 Hs V2) as [[_ ->]|[_ (n2 & E2 & N2)]].
        + specialize (He (fun _ => true)). rewrite !eval_one in He by auto.
          destruct c1, c2; simpl in He; congruence.
        + exfalso. eapply (Hno c2 v2 n2 c1 1); eauto; [now left|lia].
        + exfalso. eapply (Hno c1 v1 n1 c2 1); eauto; now left.
        + destruct (Z.lt_trichotomy (n_order n1) (n_order n2)) as [L|[Eo|L]].
          * exfalso. eapply (Hno c1 v1 n1 c2 v2); eauto. right; eauto.
          * destruct N1 as (_ & Ho1 & Ah1 & Al1 & Hh1 & Hl1 & _).
            destruct N2 as (_ & Ho2 & Ah2 & Al2 & Hh2 & Hl2 & _).
            assert (Ei : n_index n1 = n_index n2) by (apply ord_inj; lia).
            assert (Eh : (c1, n_high n1) = (c2, n_high n2)).
            { apply IH; simpl; [lia|eapply above_valid; eauto|eapply above_valid; eauto|].
              intros σ. unfold feval; simpl.
              specialize (He (fun j => if decide (j = n_index n1) then true else σ j)).
              rewrite (eval_node ns _ v1 n1), (eval_node ns _ v2 n2) in He by auto.
              rewrite <- Ei in He. destruct (decide (n_index n1 = n_index n1)); [|congruence].
              rewrite !eval_above in He; auto; rewrite <- Ho1; auto. now rewrite Eo. }
            assert (El : (xorb c1 (n_ce n1), n_low n1) = (xorb c2 (n_ce n2), n_low n2)).
            { apply IH; simpl; [lia|eapply above_valid; eauto|eapply above_valid; eauto|].
              intros σ. unfold feval; simpl.
              specialize (He (fun j => if decide (j = n_index n1) then false else σ j)).
              rewrite (eval_node ns _ v1 n1), (eval_node ns _ v2 n2) in He by auto.
              rewrite <- Ei in He. destruct (decide (n_index n1 = n_index n1)); [|congruence].
              rewrite !eval_above in He; auto; rewrite <- ?Ho1; auto; [|now rewrite Eo].
              rewrite !xorb_assoc. exact He. }
            injection Eh as -> Eh. injection El as Ec El.
            assert (Ece : n_ce n1 = n_ce n2) by (destruct c2, (n_ce n1), (n_ce n2); simpl in Ec; congruence).
            f_equal. eapply Hu; eauto. unfold node_key. now rewrite Ei, Eh, El, Ece.
          * exfalso. eapply (Hno c2 v2 n2 c1 v1); eauto; [right; eauto|lia]. }
    intros f g V1 V2 He. eapply H; eauto.
  Qed.
End Store.

(** ---- Manager invariant ---- *)
Section Manager.
  Variable ord : Z -> Z.
  Hypothesis ord_inj : forall i j, ord i = ord j -> i = j.
  Variable hash : ckey -> nat.
  Variable prime : nat -> nat.
  Hypothesis prime_pos : forall n, (0 < prime n)%nat.

  Definition unsign (k : Z) : fn := (k <? 0, Z.abs k).
  Lemma unsign_signed c v : 1 <= v -> unsign (signed c v) = (c, v).
  Proof. intros H. unfold unsign, signed. destruct c; f_equal; lia. Qed.

  Definition cache_ok (t : conn) (b : bdd) (k : ckey) (r : fn) : Prop :=
    valid (nodes b) r.2 /\ Z.abs k.1 < next_id b /\ Z.abs k.2 < next_id b /\
    (valid (nodes b) (Z.abs k.1) -> valid (nodes b) (Z.abs k.2) ->
     (forall σ, feval (nodes b) σ r = opb t (feval (nodes b) σ (unsign k.1)) (feval (nodes b) σ (unsign k.2))) /\
     (forall o, above (nodes b) o (Z.abs k.1) -> above (nodes b) o (Z.abs k.2) -> above (nodes b) o r.2)).

  Notation cfind := (find ckey fn ckey_eq hash).

  Record wf (b : bdd) : Prop := {
    w_next : 2 <= next_id b;
    w_store : store_ok ord (nodes b);
    w_lt : forall v n, nodes b !! v = Some n -> v < next_id b;
    w_ut : forall k v, utable b !! k = Some v <-> exists n, nodes b !! v = Some n /\ node_key n = k;
    w_cwf : forall t, CacheTable.wf ckey fn hash (get_cache t b);
    w_cache : forall t k r, cfind (get_cache t b) k = Some r -> cache_ok t b k r }.

  Definition ext (b b' : bdd) : Prop :=
    nodes b ⊆ nodes b' /\ next_id b <= next_id b' /\
    forall v, v < next_id b -> nodes b' !! v = nodes b !! v.
  Lemma ext_refl b : ext b b.
  Proof. repeat split; auto; lia. Qed.
  Lemma ext_trans a b c : ext a b -> ext b c -> ext a c.
  Proof.
    intros (A1 & A2 & A3) (B1 & B2 & B3). split; [etrans; eauto|]. split; [lia|].
    intros v Hv. rewrite B3 by lia. now apply A3.
  Qed.

  Lemma valid_lt b v : wf b -> valid (nodes b) v -> v < next_id b.
  Proof. intros W [->|[n E]]; [pose proof (w_next b W); lia|eapply w_lt; eauto]. Qed.

  Lemma ext_valid b b' v : ext b b' -> v < next_id b -> valid (nodes b') v -> valid (nodes b) v.
  Proof. intros (_ & _ & H) L [->|E]; [now left|right]. now rewrite <- (H v L). Qed.
  Lemma ext_above b b' o v : ext b b' -> v < next_id b -> above (nodes b') o v -> above (nodes b) o v.
  Proof. intros (_ & _ & H) L [->|(n & E & Lo)]; [now left|right]. exists n. now rewrite <- (H v L). Qed.

  Lemma cache_ok_mono t b b' k r : store_ok ord (nodes b) -> store_ok ord (nodes b') ->
    ext b b' -> cache_ok t b k r -> cache_ok t b' k r.
  Proof.
    intros Hs Hs' Hx (V & L1 & L2 & H). pose proof Hx as (Hsub & Hn & _).
    split; [eapply valid_mono; eauto|]. split; [lia|]. split; [lia|].
    intros V1 V2. apply (ext_valid b b') in V1; auto. apply (ext_valid b b') in V2; auto.
    destruct (H V1 V2) as [He Ha]. split.
    - intros σ. rewrite !(feval_mono ord (nodes b) (nodes b')); auto.
    - intros o A1 A2. eapply above_mono; eauto.
      apply Ha; eapply ext_above; eauto.
  Qed.

  Lemma get_set_cache t t' c b : get_cache t (set_cache t' c b) =
    match t, t' with CAnd, CAnd | COr, COr => c | _, _ => get_cache t b end.
  Proof. now destruct t, t'. Qed.
  Lemma nodes_set_cache t c b : nodes (set_cache t c b) = nodes b.
  Proof. now destruct t. Qed.
  Lemma next_set_cache t c b : next_id (set_cache t c b) = next_id b.
  Proof. now destruct t. Qed.
  Lemma ut_set_cache t c b : utable (set_cache t c b) = utable b.
  Proof. now destruct t. Qed.

  Lemma wf_emplace t b k r : wf b -> cache_ok t b k r ->
    wf (set_cache t (emplace ckey fn hash prime (get_cache t b) k r) b).
  Proof.
    intros W C. destruct W as [H1 H2 H3 H4 H5 H6].
    destruct (emplace_wf ckey fn ckey_eq hash prime prime_pos (get_cache t b) k r (H5 t)) as (E1 & _ & E3).
    constructor; rewrite ?nodes_set_cache, ?next_set_cache, ?ut_set_cache; auto.
    - intros t'. rewrite get_set_cache. destruct t, t'; auto.
    - intros t' k' r' Hf. rewrite get_set_cache in Hf.
      assert (Hc : cache_ok t' b k' r').
      { destruct t, t'; auto; apply E3 in Hf as [[-> ->]|[_ Hf]]; auto. }
      unfold cache_ok in *. now rewrite nodes_set_cache, next_set_cache.
  Qed.

  Lemma wf_clear b : wf b -> wf (clear_tables b).
  Proof.
    intros [H1 H2 H3 H4 H5 H6]. constructor; auto.
    - intros []; apply (clear_wf ckey fn ckey_eq hash); [apply (H5 CAnd)|apply (H5 COr)].
    - intros t k r Hf. exfalso.
      destruct t; simpl in Hf; [pose proof (proj2 (clear_wf ckey fn ckey_eq hash _ (H5 CAnd)) k)
                               |pose proof (proj2 (clear_wf ckey fn ckey_eq hash _ (H5 COr)) k)]; simpl in *; congruence.
  Qed.

  Lemma empty_wf : wf (empty_bdd prime).
  Proof.
    constructor; simpl; try lia.
    - intros v n E. rewrite lookup_empty in E. discriminate.
    - intros v n E. rewrite lookup_empty in E. discriminate.
    - intros k v. rewrite lookup_empty. split; [discriminate|].
      intros (n & E & _). rewrite lookup_empty in E. discriminate.
    - intros []; simpl; apply new_wf; auto.
    - intros t k r Hf. exfalso.
      pose proof (cache_sound ckey fn ckey_eq hash prime prime_pos 1000 [] k r) as Hc.
      simpl in Hc. destruct t; simpl in Hf; apply Hc in Hf; discriminate.
  Qed.

  Lemma find_or_add_ok index high low ce b b' v :
    wf b -> above (nodes b) (ord index) high -> above (nodes b) (ord index) low ->
    (ce = false -> high <> low) ->
    find_or_add index high low ce (ord index) b = (b', v) ->
    wf b' /\ ext b b' /\ exists n, nodes b' !! v = Some n /\ n_index n = index /\ n_order n = ord index /\
      n_high n = high /\ n_low n = low /\ n_ce n = ce.
  Proof.
    intros W Ah Al Hred. unfold find_or_add.
    pose proof (valid_pos ord (nodes b) high (w_store b W) (above_valid _ _ _ Ah)) as Ph.
    pose proof (valid_pos ord (nodes b) low (w_store b W) (above_valid _ _ _ Al)) as Pl.
    destruct (utable b !! ukey index high low ce) as [id|] eqn:E; intros [= <- <-].
    - split; [auto|]. split; [apply ext_refl|]. apply (w_ut b W) in E as (n & En & Ek).
      exists n. destruct (w_store b W _ _ En) as (_ & Ho & _ & _ & Hh & Hl & _).
      unfold node_key, ukey in Ek. injection Ek as E1 E2 E3.
      assert (n_ce n = ce /\ n_low n = low) as [-> ->].
      { destruct (n_ce n), ce; split; auto; lia. }
      repeat split; auto. now rewrite Ho, E1.
    - set (id := next_id b). set (nd := Node index (ord index) high low ce).
      assert (Hfresh : nodes b !! id = None).
      { destruct (nodes b !! id) eqn:En; auto. apply (w_lt b W) in En. unfold id in En. lia. }
      assert (Hsub : nodes b ⊆ <[id:=nd]> (nodes b)) by now apply insert_subseteq.
      assert (Hx : ext b (mk_bdd (<[id:=nd]> (nodes b)) (<[ukey index high low ce:=id]> (utable b))
                       (and_t b) (or_t b) (id + 1))).
      { split; [exact Hsub|]. split; simpl; [unfold id; lia|]. intros v Hv.
        apply lookup_insert_ne. unfold id. lia. }
      assert (Hstore : store_ok ord (<[id:=nd]> (nodes b))).
      { intros v n Hv. destruct (decide (v = id)) as [->|N].
        - rewrite lookup_insert in Hv. injection Hv as <-. unfold nd, node_ok; simpl.
          pose proof (w_next b W). pose proof (valid_lt b high W (above_valid _ _ _ Ah)).
          pose proof (valid_lt b low W (above_valid _ _ _ Al)).
          split; [unfold id; lia|]. split; [reflexivity|].
          split; [eapply above_mono; eauto|]. split; [eapply above_mono; eauto|].
          split; [unfold id; lia|]. split; [unfold id; lia|]. exact Hred.
        - rewrite lookup_insert_ne in Hv by auto.
          destruct (w_store b W v n Hv) as (K1 & K2 & K3 & K4 & K5 & K6 & K7).
          split; [auto|]. split; [auto|]. split; [eapply above_mono; eauto|].
          split; [eapply above_mono; eauto|]. auto. }
      split; [|split; [exact Hx|]].
      + constructor; simpl.
        * pose proof (w_next b W). unfold id; lia.
        * exact Hstore.
        * intros v n Hv. destruct (decide (v = id)) as [->|N]; [lia|].
          rewrite lookup_insert_ne in Hv by auto. apply (w_lt b W) in Hv. unfold id; lia.
        * intros k v. destruct (decide (k = ukey index high low ce)) as [->|Nk].
          -- rewrite lookup_insert. split.
             ++ intros [= <-]. exists nd. rewrite lookup_insert. split; reflexivity.
             ++ intros (n & En & Ek). destruct (decide (v = id)) as [->|N]; [reflexivity|].
                rewrite lookup_insert_ne in En by auto.
                assert (utable b !! ukey index high low ce = Some v) by (apply (w_ut b W); eauto).
                congruence.
          -- rewrite lookup_insert_ne by auto. rewrite (w_ut b W). split.
             ++ intros (n & En & Ek). exists n. rewrite lookup_insert_ne; [auto|].
                intros <-. congruence.
             ++ intros (n & En & Ek). destruct (decide (v = id)) as [->|N].
                ** rewrite lookup_insert in En. injection En as <-. unfold nd in Ek.
                   unfold node_key in Ek. simpl in Ek. congruence.
                ** rewrite lookup_insert_ne in En by auto. eauto.
        * intros t. pose proof (w_cwf b W t). now destruct t.
        * intros t k r Hf.
          assert (Hc : cache_ok t b k r) by (apply (w_cache b W); now destruct t).
          revert Hc. apply (cache_ok_mono t b); auto. apply W.
      + exists nd. simpl. rewrite lookup_insert. repeat split.
  Qed.

  Lemma shortcut_ok b t v1 v2 c1 c2 r : wf b -> valid (nodes b) v1 -> valid (nodes b) v2 ->
    shortcut t v1 v2 c1 c2 = Some r ->
    valid (nodes b) r.2 /\
    (forall σ, feval (nodes b) σ r = opb t (feval (nodes b) σ (c1, v1)) (feval (nodes b) σ (c2, v2))) /\
    (forall o, above (nodes b) o v1 -> above (nodes b) o v2 -> above (nodes b) o r.2).
  Proof.
    intros W V1 V2. unfold shortcut.
    assert (Hone : forall σ, eval (nodes b) σ 1 = true) by (intros; apply (eval_one ord), W).
    destruct (valid_cases ord _ _ (w_store b W) V1) as [[-> ->]|[-> _]].
    - intros [= <-]. destruct t, c1; simpl; (split; [auto; now left|]); (split; [|intros; auto; now left]);
        intros σ; unfold feval; simpl; rewrite ?Hone; repeat match goal with |- context [eval ?x ?y ?z] => destruct (eval x y z) end; repeat match goal with c : bool |- _ => destruct c end; reflexivity.
    - destruct (valid_cases ord _ _ (w_store b W) V2) as [[-> ->]|[-> _]].
      + intros [= <-]. destruct t, c2; simpl; (split; [auto; now left|]); (split; [|intros; auto; now left]);
        intros σ; unfold feval; simpl; rewrite ?Hone; repeat match goal with |- context [eval ?x ?y ?z] => destruct (eval x y z) end; repeat match goal with c : bool |- _ => destruct c end; reflexivity.
      + destruct (Z.eqb_spec v1 v2) as [->|]; [|discriminate]. intros [= <-].
        destruct t, c1, c2; simpl; (split; [auto; now left|]); (split; [|intros; auto; now left]);
        intros σ; unfold feval; simpl; rewrite ?Hone; repeat match goal with |- context [eval ?x ?y ?z] => destruct (eval x y z) end; repeat match goal with c : bool |- _ => destruct c end; reflexivity.
  Qed.

  Lemma shortcut_none t v1 v2 c1 c2 : shortcut t v1 v2 c1 c2 = None ->
    terminal v1 = false /\ terminal v2 = false /\ v1 <> v2.
  Proof.
    unfold shortcut. destruct (terminal v1), (terminal v2); try discriminate.
    destruct (Z.eqb_spec v1 v2); [discriminate|auto].
  Qed.

  Definition result_ok (t : conn) (b b' : bdd) (v1 v2 : Z) (c1 c2 : bool) (r : fn) : Prop :=
    wf b' /\ ext b b' /\ valid (nodes b') r.2 /\
    (forall σ, feval (nodes b') σ r = opb t (feval (nodes b) σ (c1, v1)) (feval (nodes b) σ (c2, v2))) /\
    (forall o, above (nodes b) o v1 -> above (nodes b) o v2 -> above (nodes b') o r.2).

  Lemma key_sym t b r v1 v2 c1 c2 : wf b -> valid (nodes b) v1 -> valid (nodes b) v2 ->
    (cache_ok t b (min_max_id v1 v2 c1 c2) r <->
     (valid (nodes b) r.2 /\
      (forall σ, feval (nodes b) σ r = opb t (feval (nodes b) σ (c1, v1)) (feval (nodes b) σ (c2, v2))) /\
      (forall o, above (nodes b) o v1 -> above (nodes b) o v2 -> above (nodes b) o r.2))).
  Proof.
    intros W V1 V2. pose proof (valid_pos ord _ _ (w_store b W) V1) as P1.
    pose proof (valid_pos ord _ _ (w_store b W) V2) as P2.
    pose proof (valid_lt b _ W V1). pose proof (valid_lt b _ W V2).
    assert (Habs : forall c v, 1 <= v -> Z.abs (signed c v) = v) by (intros [] v ?; simpl; lia).
    unfold min_max_id, cache_ok. destruct (v2 <? v1); simpl; rewrite !Habs, !unsign_signed by auto.
    - split.
      + intros (A & _ & _ & B). destruct (B V2 V1) as [B1 B2]. split; [auto|]. split; [|auto].
        intros σ. rewrite B1. destruct t; simpl; [apply andb_comm|apply orb_comm].
      + intros (A & B1 & B2). split; [auto|]. split; [lia|]. split; [lia|]. intros _ _. split; [|auto].
        intros σ. rewrite B1. destruct t; simpl; [apply andb_comm|apply orb_comm].
    - split.
      + intros (A & _ & _ & B). destruct (B V1 V2) as [B1 B2]. auto.
      + intros (A & B1 & B2). repeat split; auto.
  Qed.

  Lemma apply_ok fuel : forall t v1 v2 c1 c2 b,
    wf b -> valid (nodes b) v1 -> valid (nodes b) v2 -> (Z.to_nat (v1 + v2) < fuel)%nat ->
    exists b' r, apply hash prime fuel t v1 v2 c1 c2 b = Some (b', r) /\ result_ok t b b' v1 v2 c1 c2 r.
  Proof.
    induction fuel as [|fuel IH]; intros t v1 v2 c1 c2 b W V1 V2 Hf; [lia|].
    cbn [apply]. destruct (shortcut t v1 v2 c1 c2) as [r|] eqn:Esc.
    { exists b, r. split; [auto|]. destruct (shortcut_ok b t v1 v2 c1 c2 r W V1 V2 Esc) as (A & B & C).
      split; [auto|]. split; [apply ext_refl|]. auto. }
    apply shortcut_none in Esc as (T1 & T2 & Hne).
    destruct (cfind (get_cache t b) (min_max_id v1 v2 c1 c2)) as [r|] eqn:Ec.
    { exists b, r. split; [auto|]. apply (w_cache b W) in Ec. apply key_sym in Ec as (A & B & C); auto.
      split; [auto|]. split; [apply ext_refl|]. auto. }
    destruct (valid_cases ord _ _ (w_store b W) V1) as [[T _]|[_ (n1 & E1 & N1)]]; [congruence|].
    destruct (valid_cases ord _ _ (w_store b W) V2) as [[T _]|[_ (n2 & E2 & N2)]]; [congruence|].
    rewrite E1, E2.
    (* the recursive part, for ordered arguments; [f] is the final key *)
    assert (Hrec : forall v1 v2 n1 n2 c1 c2, nodes b !! v1 = Some n1 -> nodes b !! v2 = Some n2 ->
       n_order n1 <= n_order n2 -> (Z.to_nat (v1 + v2) < S fuel)%nat -> forall key,
       (forall b' r, result_ok t b b' v1 v2 c1 c2 r -> cache_ok t b' key r) ->
       exists b' r,
        match apply hash prime fuel t (n_high n1) (if n_order n1 =? n_order n2 then n_high n2 else v2) c1 c2 b with
        | None => None
        | Some (b, (hc, hv)) =>
            match apply hash prime fuel t (n_low n1) (if n_order n1 =? n_order n2 then n_low n2 else v2)
                    (xorb c1 (n_ce n1)) (if n_order n1 =? n_order n2 then xorb c2 (n_ce n2) else c2) b with
            | None => None
            | Some (b, (lc, lv)) =>
                let ce := xorb hc lc in
                let '(b, v) := if ce || negb (hv =? lv)
                  then find_or_add (n_index n1) hv lv ce (n_order n1) b else (b, hv) in
                let r := (hc, v) in
                Some (set_cache t (emplace ckey fn hash prime (get_cache t b) key r) b, r)
            end
        end = Some (b', r) /\ result_ok t b b' v1 v2 c1 c2 r).
    { clear v1 v2 n1 n2 c1 c2 E1 E2 N1 N2 V1 V2 T1 T2 Hne Ec Hf.
      intros v1 v2 n1 n2 c1 c2 E1 E2 Hle Hf key Hkey.
      pose proof (w_store b W) as Hs.
      destruct (Hs v1 n1 E1) as (L1 & O1 & Ah1 & Al1 & Hh1 & Hl1 & Red1).
      destruct (Hs v2 n2 E2) as (L2 & O2 & Ah2 & Al2 & Hh2 & Hl2 & Red2).
      set (w_h := if n_order n1 =? n_order n2 then n_high n2 else v2).
      set (w_l := if n_order n1 =? n_order n2 then n_low n2 else v2).
      set (c2l := if n_order n1 =? n_order n2 then xorb c2 (n_ce n2) else c2).
      assert (AWh : above (nodes b) (n_order n1) w_h).
      { unfold w_h. destruct (Z.eqb_spec (n_order n1) (n_order n2)) as [->|]; [exact Ah2|].
        right; exists n2; split; auto; lia. }
      assert (AWl : above (nodes b) (n_order n1) w_l).
      { unfold w_l. destruct (Z.eqb_spec (n_order n1) (n_order n2)) as [->|]; [exact Al2|].
        right; exists n2; split; auto; lia. }
      assert (Hwh : 1 <= w_h <= v2) by (unfold w_h; destruct (_ =? _); lia).
      assert (Hwl : 1 <= w_l <= v2) by (unfold w_l; destruct (_ =? _); lia).
      destruct (IH t (n_high n1) w_h c1 c2 b) as (b1 & [hc hv] & Eh & W1 & X1 & Vh & Sh & Oh);
        [auto|eapply above_valid; eauto|eapply above_valid; eauto|lia|].
      rewrite Eh. pose proof X1 as (Sub1 & Nx1 & _).
      destruct (IH t (n_low n1) w_l (xorb c1 (n_ce n1)) c2l b1) as (b2 & [lc lv] & El & W2 & X2 & Vl & Sl & Ol);
        [auto|eapply valid_mono; eauto; eapply above_valid; eauto|eapply valid_mono; eauto; eapply above_valid; eauto|lia|].
      rewrite El. pose proof X2 as (Sub2 & Nx2 & _). simpl in Vh, Vl, Oh, Ol.
      (* cofactor equations in terms of the original store *)
      assert (Hlow : forall σ, feval (nodes b2) σ (lc, lv) =
         opb t (feval (nodes b) σ (xorb c1 (n_ce n1), n_low n1)) (feval (nodes b) σ (c2l, w_l))).
      { intros σ. rewrite Sl. rewrite !(feval_mono ord (nodes b) (nodes b1)); auto; try apply W1;
          simpl; eapply above_valid; eauto. }
      assert (Hhigh : forall σ, feval (nodes b2) σ (hc, hv) =
         opb t (feval (nodes b) σ (c1, n_high n1)) (feval (nodes b) σ (c2, w_h))).
      { intros σ. rewrite (feval_mono ord (nodes b1) (nodes b2)); auto; try apply W1; apply W2. }
      assert (Ahv : above (nodes b2) (ord (n_index n1)) hv).
      { eapply above_mono; [exact Sub2|]. apply Oh; rewrite <- O1; auto. }
      assert (Alv : above (nodes b2) (ord (n_index n1)) lv).
      { apply Ol; eapply above_mono; eauto; rewrite <- O1; auto. }
      assert (Hcof : forall σ, opb t (feval (nodes b) σ (c1, v1)) (feval (nodes b) σ (c2, v2)) =
         if σ (n_index n1) then feval (nodes b2) σ (hc, hv) else feval (nodes b2) σ (lc, lv)).
      { intros σ. rewrite Hhigh, Hlow. unfold feval, w_h, w_l, c2l; simpl.
        rewrite (eval_node ord (nodes b) σ v1 n1) by auto.
        destruct (Z.eqb_spec (n_order n1) (n_order n2)) as [Eo|].
        - assert (Ei : n_index n1 = n_index n2) by (apply ord_inj; lia).
          rewrite (eval_node ord (nodes b) σ v2 n2) by auto. rewrite <- Ei.
          destruct (σ (n_index n1)); [reflexivity|]. now rewrite !xorb_assoc.
        - destruct (σ (n_index n1)); [reflexivity|]. now rewrite !xorb_assoc. }
      assert (Habove : forall o, above (nodes b) o v1 -> o < n_order n1).
      { intros o [->|(n & En & Lo)]; [lia|]. rewrite E1 in En. injection En as <-. auto. }
      assert (Hmain : exists b3 v, (if xorb hc lc || negb (hv =? lv)
          then find_or_add (n_index n1) hv lv (xorb hc lc) (n_order n1) b2 else (b2, hv)) = (b3, v) /\
          result_ok t b b3 v1 v2 c1 c2 (hc, v)).
      { destruct (xorb hc lc || negb (hv =? lv)) eqn:Ered.
        - destruct (find_or_add _ _ _ _ _ _) as [b3 v] eqn:Efa. exists b3, v. split; [auto|].
          rewrite O1 in Efa.
          apply find_or_add_ok in Efa as (W3 & X3 & n & En & I1 & I2 & I3 & I4 & I5); auto.
          2:{ intros Ece <-. rewrite Ece in Ered. rewrite Z.eqb_refl in Ered. discriminate. }
          assert (X03 : ext b b3) by (eapply ext_trans; [|exact X3]; eapply ext_trans; eauto).
          split; [auto|]. split; [auto|]. split; [right; simpl; eauto|]. split.
          + intros σ. rewrite Hcof. unfold feval; simpl.
            rewrite (eval_node ord (nodes b3) σ v n) by (auto; apply W3).
            pose proof X3 as (Sub3 & _ & _).
            rewrite I1, I3, I4, I5.
            rewrite !(eval_mono ord (nodes b2) (nodes b3)); auto; try apply W2; try apply W3.
            2:{ eapply valid_mono; [exact Sub2|auto]. }
            destruct (σ (n_index n1)); [reflexivity|]. now destruct hc, lc, (eval _ _ lv).
          + intros o A1 A2. right. exists n. split; [auto|]. rewrite I2, <- O1. now apply Habove.
        - exists b2, hv. split; [auto|]. apply orb_false_iff in Ered as [Ece Eid].
          apply negb_false_iff, Z.eqb_eq in Eid. subst lv.
          assert (hc = lc) as <- by (destruct hc, lc; simpl in Ece; congruence).
          split; [auto|]. split; [eapply ext_trans; eauto|]. split; [simpl; eapply above_valid; eauto|]. split.
          + intros σ. rewrite Hcof. now destruct (σ _).
          + intros o A1 A2. simpl. eapply above_weaken; [|exact Ahv].
            apply Habove in A1. lia. }
      destruct Hmain as (b3 & v & Em & R). cbv zeta. rewrite Em.
      eexists _, _. split; [reflexivity|].
      pose proof (Hkey _ _ R) as Hck. destruct R as (R1 & R2 & R3 & R4 & R5).
      unfold result_ok. rewrite nodes_set_cache.
      split; [now apply wf_emplace|]. split; [|auto].
      destruct R2 as (Q1 & Q2 & Q3). unfold ext. rewrite nodes_set_cache, next_set_cache. auto. }
    assert (Hkey : forall v1' v2' c1' c2' b' r, 
       (v1', c1', v2', c2') = (v1, c1, v2, c2) \/ (v1', c1', v2', c2') = (v2, c2, v1, c1) ->
       result_ok t b b' v1' v2' c1' c2' r -> cache_ok t b' (min_max_id v1 v2 c1 c2) r).
    { intros v1' v2' c1' c2' b' r Hcase (R1 & R2 & R3 & R4 & R5). pose proof R2 as (Sub & _ & _).
      apply key_sym; auto; [eapply valid_mono; eauto|eapply valid_mono; eauto|].
      split; [auto|].
      assert (Hf1 : forall σ, feval (nodes b') σ (c1, v1) = feval (nodes b) σ (c1, v1))
        by (intros; apply (feval_mono ord); auto; [apply W|apply R1]).
      assert (Hf2 : forall σ, feval (nodes b') σ (c2, v2) = feval (nodes b) σ (c2, v2))
        by (intros; apply (feval_mono ord); auto; [apply W|apply R1]).
      split.
      - intros σ. rewrite Hf1, Hf2, R4. destruct Hcase as [[= -> -> -> ->]|[= -> -> -> ->]]; [reflexivity|].
        destruct t; simpl; [apply andb_comm|apply orb_comm].
      - intros o A1 A2.
        apply (ext_above b b') in A1; auto; [|now apply valid_lt].
        apply (ext_above b b') in A2; auto; [|now apply valid_lt].
        destruct Hcase as [[= -> -> -> ->]|[= -> -> -> ->]]; auto. }
    destruct (Z.ltb_spec (n_order n2) (n_order n1)).
    - destruct (Hrec v2 v1 n2 n1 c2 c1 E2 E1 ltac:(lia) ltac:(lia) (min_max_id v1 v2 c1 c2)
                  (fun b' r => Hkey v2 v1 c2 c1 b' r (or_intror eq_refl))) as (b' & r & Er & R).
      exists b', r. split; [exact Er|].
      destruct R as (R1 & R2 & R3 & R4 & R5). split; [auto|]. split; [auto|]. split; [auto|]. split; [|auto].
      intros σ. rewrite R4. destruct t; simpl; [apply andb_comm|apply orb_comm].
    - destruct (Hrec v1 v2 n1 n2 c1 c2 E1 E2 ltac:(lia) ltac:(lia) (min_max_id v1 v2 c1 c2)
                  (fun b' r => Hkey v1 v2 c1 c2 b' r (or_introl eq_refl))) as (b' & r & Er & R).
      exists b', r. split; [exact Er|exact R].
  Qed.
End Manager.
