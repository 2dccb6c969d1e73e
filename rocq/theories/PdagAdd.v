From stdpp Require Import gmap.
From Coq Require Import Lia Permutation.
From Verif Require Import Pdag PdagProofs.
Open Scope Z_scope.

Lemma in_map_lit ν a l : In a l -> In (lit ν a) (map (lit ν) l).
Proof. apply in_map. Qed.
Lemma forallb_dup b vs : In b vs -> b && forallb (fun b => b) vs = forallb (fun b => b) vs.
Proof.
  intros H. destruct b; [reflexivity|]. simpl. symmetry. apply not_true_iff_false.
  rewrite forallb_forall. intros H'. now specialize (H' _ H).
Qed.
Lemma existsb_dup b vs : In b vs -> b || existsb (fun b => b) vs = existsb (fun b => b) vs.
Proof.
  intros H. destruct b; [|reflexivity]. simpl. symmetry. apply existsb_exists. eauto.
Qed.
Lemma forallb_compl b vs : In (negb b) vs -> b && forallb (fun b => b) vs = false.
Proof.
  intros H. destruct b; [|reflexivity]. simpl in *. apply not_true_iff_false.
  rewrite forallb_forall. intros H'. now specialize (H' _ H).
Qed.
Lemma existsb_compl b vs : In (negb b) vs -> b || existsb (fun b => b) vs = true.
Proof.
  intros H. destruct b; [reflexivity|]. simpl in *. apply existsb_exists. eauto.
Qed.

Lemma process_duplicate_changes i a G G' x : wf G -> gs G !! i = Some x -> In a (g_args x) ->
  add_asserts x = true -> ~ (g_type x = kAtleast /\ size (g_args x) = 2) ->
  process_duplicate i a G = Some G' -> changes G G' i a (plus x a).
Proof.
  intros W Ex Hin Hass Hbug H. unfold process_duplicate in H. rewrite Ex in H. cbn [mbind option_bind] in H.
  assert (Hs1 : size (g_args x) = 1 -> g_args x = [a]).
  { intros Hs. apply size1 in Hs as (b & E). rewrite E in Hin |- *. now destruct Hin as [->|[]]. }
  destruct (g_type x) eqn:Et; try discriminate.
  - destruct (Z.eqb_spec (size (g_args x)) 1) as [Hs|Hs].
    + eapply set_type_changes; eauto. intros ν _. unfold plus. rewrite Et, (Hs1 Hs). simpl.
      now destruct (lit ν a).
    + injection H as <-. eapply id_changes; eauto. intros ν _. unfold plus, gate_value. rewrite Et. simpl.
      now apply forallb_dup, in_map_lit.
  - destruct (Z.eqb_spec (size (g_args x)) 1) as [Hs|Hs].
    + eapply set_type_changes; eauto. intros ν _. unfold plus. rewrite Et, (Hs1 Hs). simpl.
      now destruct (lit ν a).
    + injection H as <-. eapply id_changes; eauto. intros ν _. unfold plus, gate_value. rewrite Et. simpl.
      now apply existsb_dup, in_map_lit.
  - eapply atleast_duplicate_changes; eauto.
  - unfold add_asserts in Hass. rewrite Et in Hass. simpl in Hass.
    rewrite !andb_true_iff, !negb_true_iff in Hass. destruct Hass as [[_ Hle] _]. apply Z.ltb_ge in Hle.
    destruct (Z.eqb_spec (size (g_args x)) 1) as [Hs|Hs].
    + eapply make_constant_changes; eauto. intros ν _. unfold plus. rewrite Et, (Hs1 Hs). simpl.
      unfold count. simpl. now destruct (lit ν a).
    + exfalso. unfold size in *. destruct (g_args x); [destruct Hin|]. simpl length in *. lia.
  - destruct (Z.eqb_spec (size (g_args x)) 1) as [Hs|Hs].
    + eapply set_type_changes; eauto. intros ν _. unfold plus. rewrite Et, (Hs1 Hs). simpl.
      now destruct (lit ν a).
    + injection H as <-. eapply id_changes; eauto. intros ν _. unfold plus, gate_value. rewrite Et. simpl.
      f_equal. now apply forallb_dup, in_map_lit.
  - destruct (Z.eqb_spec (size (g_args x)) 1) as [Hs|Hs].
    + eapply set_type_changes; eauto. intros ν _. unfold plus. rewrite Et, (Hs1 Hs). simpl.
      now destruct (lit ν a).
    + injection H as <-. eapply id_changes; eauto. intros ν _. unfold plus, gate_value. rewrite Et. simpl.
      f_equal. now apply existsb_dup, in_map_lit.
Qed.

Lemma process_complement_changes i a G G' x : wf G -> gs G !! i = Some x -> In (- a) (g_args x) ->
  add_asserts x = true -> a <> 0 ->
  process_complement i a G = Some G' -> changes G G' i a (plus x a).
Proof.
  intros W Ex Hin Hass Ha0 H. unfold process_complement in H. rewrite Ex in H. cbn [mbind option_bind] in H.
  assert (Hc : forall ν, In (negb (lit ν a)) (map (lit ν) (g_args x))).
  { intros ν. rewrite <- lit_opp by auto. now apply in_map_lit. }
  destruct (g_type x) eqn:Et; try discriminate.
  - eapply make_constant_changes; eauto. intros ν _. unfold plus. rewrite Et. simpl. now apply forallb_compl.
  - eapply make_constant_changes; eauto. intros ν _. unfold plus. rewrite Et. simpl. now apply existsb_compl.
  - destruct ((g_min x <=? 1) || (size (g_args x) + 1 <=? g_min x)) eqn:Eg; [discriminate|].
    apply orb_false_iff in Eg as [E1 E2]. apply Z.leb_gt in E1, E2.
    apply bind_inv in H as (G1 & E3 & H). apply erase_arg_inv in E3 as (x1 & Ex1 & _ & HG1 & N1).
    rewrite Ex in Ex1. injection Ex1 as <-.
    apply bind_inv in H as (G2 & E4 & H). apply set_min_inv in E4 as (x2 & Ex2 & HG2 & N2).
    rewrite HG1, lookup_insert in Ex2. injection Ex2 as <-. rewrite HG1, insert_insert in HG2.
    apply bind_inv in H as (x3 & Ex3 & H). rewrite HG2, lookup_insert in Ex3. injection Ex3 as <-.
    unfold with_args, with_min in HG2, H. cbn [g_type g_min g_args] in HG2, H. rewrite Et in HG2.
    assert (Hok : args_ok (nxt G) (g_args x)) by (apply W in Ex; apply Ex).
    assert (Hperm : Permutation (g_args x) (- a :: set_erase (- a) (g_args x))).
    { apply set_erase_perm; auto. apply Hok. }
    assert (Hyok : args_ok (nxt G) (set_erase (- a) (g_args x))) by now apply args_ok_erase.
    assert (HyIn : forall b, In b (set_erase (- a) (g_args x)) -> In b (g_args x))
      by (intros b Hb; apply set_erase_In in Hb; tauto).
    set (ys := set_erase (- a) (g_args x)) in *.
    assert (Hys : size (g_args x) = size ys + 1).
    { unfold size. rewrite (Permutation_length Hperm). simpl length. lia. }
    assert (Hv : forall ν, plus x a ν = (g_min x - 1 <=? count (map (lit ν) ys))).
    { intros ν. unfold plus. rewrite Et. simpl.
      rewrite count_cons, (count_perm _ (map (lit ν) (- a :: ys))) by now apply Permutation_map.
      simpl. rewrite count_cons, lit_opp by auto. destruct (lit ν a); simpl; vbool. }
    assert (Hfin : forall t, gs G' = <[i := Gate t (g_min x - 1) ys]> (gs G) -> nxt G' = nxt G ->
       (forall ν, (g_min x - 1 <=? count (map (lit ν) ys)) = conn_value t (g_min x - 1) (map (lit ν) ys)) ->
       changes G G' i a (plus x a)).
    { intros t HG' N' Hval. eapply changes_simple with (x' := Gate t (g_min x - 1) ys); [exact W|exact Ex|exact HG'|exact N'|exact Hyok|cbn [g_args]; auto|].
      intros ν _. rewrite Hv. apply Hval. }
    assert (N2G : nxt G2 = nxt G) by congruence.
    destruct (Z.eqb_spec (size ys) 1) as [S1|S1]; [|destruct (Z.eqb_spec (g_min x - 1) 1) as [M1|M1];
      [|destruct (Z.eqb_spec (g_min x - 1) (size ys)) as [M2|M2]]].
    + apply set_type_spec in H as (x4 & Ex4 & HG' & N'). rewrite HG2, lookup_insert in Ex4. injection Ex4 as <-.
      rewrite HG2, insert_insert in HG'. apply (Hfin kNull); [exact HG'|lia|].
      intros ν. destruct (size1 ys S1) as (b & Eb). rewrite Eb. simpl. unfold count. simpl.
      replace (g_min x - 1) with 1 by lia. now destruct (lit ν b).
    + apply set_type_spec in H as (x4 & Ex4 & HG' & N'). rewrite HG2, lookup_insert in Ex4. injection Ex4 as <-.
      rewrite HG2, insert_insert in HG'. apply (Hfin kOr); [exact HG'|lia|].
      intros ν. simpl. now rewrite existsb_count, M1.
    + apply set_type_spec in H as (x4 & Ex4 & HG' & N'). rewrite HG2, lookup_insert in Ex4. injection Ex4 as <-.
      rewrite HG2, insert_insert in HG'. apply (Hfin kAnd); [exact HG'|lia|].
      intros ν. simpl. now rewrite forallb_count, size_map, M2.
    + injection H as <-. apply (Hfin kAtleast); [exact HG2|lia|]. reflexivity.
  - eapply make_constant_changes; eauto. intros ν _.
    unfold add_asserts in Hass. rewrite Et in Hass. simpl in Hass.
    rewrite !andb_true_iff, !negb_true_iff in Hass. destruct Hass as [[_ Hle] _]. apply Z.ltb_ge in Hle.
    assert (E1 : g_args x = [- a]).
    { destruct (g_args x) as [|b [|]]; [destruct Hin| |unfold size in Hle; simpl length in Hle; lia].
      now destruct Hin as [->|[]]. }
    unfold plus. rewrite Et, E1. simpl. unfold count. simpl. rewrite lit_opp by auto. now destruct (lit ν a).
  - eapply make_constant_changes; eauto. intros ν _. unfold plus. rewrite Et. simpl.
    now rewrite forallb_compl.
  - eapply make_constant_changes; eauto. intros ν _. unfold plus. rewrite Et. simpl.
    now rewrite existsb_compl.
Qed.

Lemma add_new_changes i a G G' x : wf G -> gs G !! i = Some x -> below G a ->
  add_new i a G = Some G' -> changes G G' i a (plus x a).
Proof.
  intros W Ex [Ha0 Han] H. apply add_new_inv in H as (y & Ey & H1 & H2 & HG & Hn).
  rewrite Ex in Ey. injection Ey as <-.
  assert (Hok : args_ok (nxt G) (g_args x)) by (apply W in Ex; apply Ex).
  eapply changes_simple; eauto.
  - cbn [g_args with_args]. now apply args_ok_insert.
  - cbn [g_args with_args]. intros b Hb. apply set_insert_In in Hb as [->|]; auto.
  - intros ν _. unfold plus, gate_value, with_args. cbn [g_type g_min g_args].
    symmetry. rewrite (value_perm ν _ _ _ _ (set_insert_perm _ _ H1)). reflexivity.
Qed.

(** The one case in which the code is wrong. *)
Definition two_arg_duplicate (x : gate) (a : Z) : Prop :=
  g_type x = kAtleast /\ size (g_args x) = 2 /\ In a (g_args x).

Lemma add_arg_changes i a G G' x : wf G -> gs G !! i = Some x -> below G a ->
  ~ two_arg_duplicate x a ->
  add_arg i a G = Some G' -> changes G G' i a (plus x a).
Proof.
  intros W Ex Hb Hbug H. pose proof H as H'. unfold add_arg in H'. rewrite Ex in H'. cbn [mbind option_bind] in H'.
  destruct (add_asserts x) eqn:Hass; [|discriminate]. cbn [negb orb] in H'.
  destruct (a =? 0) eqn:Ea0; [discriminate|].
  destruct (has a (g_args x)) eqn:Eh.
  - apply has_In in Eh. eapply process_duplicate_changes; eauto. unfold two_arg_duplicate in Hbug. tauto.
  - destruct (has (- a) (g_args x)) eqn:Eh'.
    + apply has_In in Eh'. eapply process_complement_changes; eauto. apply Hb.
    + eapply add_new_changes; eauto.
Qed.

Lemma add_any_changes i a G G' x : wf G -> gs G !! i = Some x -> below G a ->
  ~ two_arg_duplicate x a ->
  (g_type x = kNot \/ g_type x = kNull -> g_args x = []) ->
  add_any i a G = Some G' -> changes G G' i a (plus x a).
Proof.
  intros W Ex Hb Hbug H0 H. unfold add_any in H. rewrite Ex in H. cbn [mbind option_bind] in H.
  destruct ((a =? 1) || (a =? -1)) eqn:Ea.
  - destruct (constant x); [discriminate|].
    apply (add_constant_changes i (0 <? a) G G' x) in H; auto.
    apply orb_true_iff in Ea as [E|E]; apply Z.eqb_eq in E; subst a; exact H.
  - eapply add_arg_changes; eauto.
Qed.
