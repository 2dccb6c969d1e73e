(** More rewriting steps: constants in place of arguments, perfect merge candidates. *)
From stdpp Require Import gmap.
From Coq Require Import Lia Permutation.
From Verif Require Import Pdag PdagProofs PdagAdd PdagSem PdagKeeps Preproc PreprocProofs PreprocNorm PreprocMerge PreprocNeg.
Open Scope Z_scope.

(** ** ProcessConstantArg *)
Definition fixed (ν : Z -> bool) (n : Z) (s : bool) : Z -> bool := fun j => if j =? n then s else ν j.
Lemma constant_keeps i n s G G' x : wf G -> acyclic G -> gs G !! i = Some x -> 1 < n ->
  (In n (g_args x) \/ In (- n) (g_args x)) ->
  (g_type x = kNot \/ g_type x = kNull -> length (g_args x) <= 1)%nat ->
  (forall ν, consistent G ν -> gate_value (fixed ν n s) x = gate_value ν x) ->
  process_constant_arg i n s G = Some G' -> keeps G G'.
Proof.
  intros W A Ex Hn Hin Har Hsem H. unfold process_constant_arg in H. rewrite Ex in H. cbn [mbind option_bind] in H.
  set (a := if has n (g_args x) then n else - n) in *.
  assert (Ha : In a (g_args x) /\ (a = n \/ a = - n)).
  { unfold a. destruct (has n (g_args x)) eqn:E; [apply has_In in E; auto|].
    apply has_false in E. destruct Hin as [|]; [contradiction|auto]. }
  destruct Ha as [Hia Hag]. set (s' := if a <? 0 then negb s else s) in *.
  apply bind_inv in H as (G1 & E1 & H). apply erase_arg_inv in E1 as (x0 & Ex0 & _ & HG1 & N1).
  rewrite Ex in Ex0. injection Ex0 as <-.
  assert (Hok : args_ok (nxt G) (g_args x)) by (now apply W in Ex).
  set (x1 := with_args x (set_erase a (g_args x))) in *.
  assert (Hperm : Permutation (g_args x) (a :: g_args x1)) by (apply set_erase_perm; auto; apply Hok).
  assert (Hlen : length (g_args x) = S (length (g_args x1))) by (rewrite (Permutation_length Hperm); auto).
  assert (W1 : wf G1).
  { split; [destruct W; lia|]. intros j z Ez. rewrite HG1 in Ez. rewrite N1. destruct (Z.eq_dec j i) as [->|J].
    - rewrite lookup_insert in Ez. injection Ez as <-. split; [now apply W in Ex|]. now apply args_ok_erase.
    - rewrite lookup_insert_ne in Ez by auto. now apply W. }
  assert (C : changes G1 G' i (if s' then 1 else -1) (plus x1 (if s' then 1 else -1))).
  { apply add_constant_changes; auto; [now rewrite HG1, lookup_insert|].
    intros T. specialize (Har T). destruct (g_args x1); [auto|simpl in Hlen; lia]. }
  eapply keeps_edit; [exact W|exact Ex|exact HG1|exact N1| |exact C|..].
  - intros c Hc. apply set_erase_In in Hc. tauto.
  - intros ν Hc. rewrite (keeps_sem_gate G i x ν Hc Ex), <- Hsem by auto. unfold plus, gate_value, x1. cbn [g_type g_min with_args].
    symmetry. rewrite (value_perm _ _ _ _ _ Hperm). cbn [map]. f_equal. f_equal.
    + rewrite const_value by apply Hc. unfold s', lit, fixed. destruct (Z.ltb_spec a 0).
      * destruct (Z.eqb_spec (- a) n); [auto|lia].
      * destruct (Z.eqb_spec a n); [auto|lia].
    + apply map_ext_in. intros c Hc'. apply set_erase_In in Hc' as [Hc' Hca]. rewrite !lit_abs. unfold fixed.
      destruct (Z.eqb_spec (Z.abs c) n) as [E|]; auto. exfalso.
      destruct (proj2 Hok c Hc') as (_ & _ & Hno). apply Hno. replace (- c) with a by lia. auto.
  - intros [r Hr]. exists r. split; [auto|]. intros [y Ey]. apply W in Ey. destruct s'; simpl in Ey; lia.
Qed.

(** ** FilterMergeCandidates *)
Lemma erase_all_spec i : forall l G G' x, gs G !! i = Some x -> erase_all i l G = Some G' ->
  gs G' = <[i := with_args x (erase_list l (g_args x))]> (gs G) /\ nxt G' = nxt G.
Proof.
  induction l as [|a l IH]; intros G G' x Ex H; simpl in H.
  - injection H as <-. split; auto. rewrite insert_id; auto. rewrite Ex. f_equal. destruct x as [t k l]. unfold with_args. simpl. f_equal.
    unfold erase_list. simpl. clear. induction l as [|a l IH]; simpl; [auto|now rewrite <- IH].
  - apply bind_inv in H as (G1 & E1 & H). apply erase_arg_inv in E1 as (x0 & Ex0 & _ & HG1 & N1).
    rewrite Ex in Ex0. injection Ex0 as <-.
    destruct (IH G1 G' _ ltac:(rewrite HG1; apply lookup_insert) H) as [E N]. split; [|lia].
    rewrite E, HG1, insert_insert. f_equal. unfold with_args. cbn [g_args g_type g_min]. now rewrite erase_list_cons.
Qed.
Lemma erase_list_ok n cs l : args_ok n l -> args_ok n (erase_list cs l).
Proof.
  intros [N H]. split; [apply List.NoDup_filter; auto|]. intros a Ha. apply erase_list_In in Ha as [Ha _].
  destruct (H a Ha) as (? & ? & Hno). repeat split; auto. intros Hc. apply erase_list_In in Hc. tauto.
Qed.
Lemma merge_candidate_keeps c g G G' x y : wf G -> acyclic G -> gs G !! c = Some x -> gs G !! g = Some y -> c <> g ->
  simple_type (g_type x) -> g_type x = g_type y -> (forall a, In a (g_args y) -> In a (g_args x)) ->
  merge_candidate c g G = Some G' -> keeps G G'.
Proof.
  intros W A Ex Ey Hcg Hst Hty Hsub H.
  assert (Ht : coalesce_type (g_type x) = Some (g_type y)) by (rewrite <- Hty; destruct Hst as [-> | ->]; auto). unfold merge_candidate in H. rewrite Ey in H. cbn [mbind option_bind] in H.
  apply bind_inv in H as (G1 & E1 & H). destruct (erase_all_spec c _ G G1 x Ex E1) as [HG1 N1].
  apply bind_inv in H as (G2 & E2 & H).
  assert (Hok : args_ok (nxt G) (g_args x)) by (now apply W in Ex).
  set (x1 := with_args x (erase_list (g_args y) (g_args x))) in *.
  assert (Hg1 : 1 < g < nxt G) by (now apply W in Ey).
  assert (Ex1 : gs G1 !! c = Some x1) by (rewrite HG1; apply lookup_insert).
  assert (W1 : wf G1).
  { split; [destruct W; lia|]. intros j z Ez. rewrite HG1 in Ez. rewrite N1. destruct (Z.eq_dec j c) as [->|J].
    - rewrite lookup_insert in Ez. injection Ez as <-. split; [now apply W in Ex|]. now apply erase_list_ok.
    - rewrite lookup_insert_ne in Ez by auto. now apply W. }
  assert (K : keeps G G2).
  { assert (C : changes G1 G2 c g (plus x1 g)).
    { eapply add_arg_changes; [exact W1|exact Ex1|split; lia| |exact E2].
      apply not_atleast_coalesce. unfold x1. cbn [with_args g_type]. eauto. }
    eapply keeps_edit; [exact W|exact Ex|exact HG1|exact N1| |exact C|..].
    - intros d Hd. apply erase_list_In in Hd. tauto.
    - intros ν Hν. rewrite (keeps_sem_gate G c x ν Hν Ex). unfold plus, gate_value, x1. cbn [g_type g_min with_args g_args].
      apply (group_value ν _ (g_type y) (g_min x) (g_args y) (g_args x) (g :: erase_list (g_args y) (g_args x)) g Ht); auto.
      + unfold lit at 1. destruct (Z.ltb_spec g 0); [lia|]. rewrite (keeps_sem_gate G g y ν Hν Ey). unfold gate_value.
        destruct (g_type x); try discriminate; injection Ht as <-; auto.
      + intros d. simpl. rewrite erase_list_In. intuition.
    - intros _. destruct (canonical_rank G A) as (r & Hr & Hc).
      exists (fun j : Z => if (j =? c)%Z then S (2 * r j) else (2 * r j)%nat). rewrite Z.abs_eq by lia.
      pose proof (Hc g c y x Ey Ex Hsub). split.
      + intros j z a Ez Ha Hs. pose proof (Hr j z a Ez Ha Hs). destruct (Z.eqb_spec (Z.abs a) c), (Z.eqb_spec j c); lia.
      + intros _. rewrite Z.eqb_refl. destruct (Z.eqb_spec g c); [congruence|]. lia. }
  apply bind_inv in H as (x2 & Ex2 & H).
  destruct (constant x2); [injection H as <-; auto|]. destruct (Z.eqb_spec (size (g_args x2)) 1) as [E|E]; [|injection H as <-; auto].
  eapply keeps_trans; [exact K|]. apply size1 in E as (a & Ea).
  assert (T : g_type x2 = g_type x \/ g_type x2 = kNull).
  { unfold add_arg in E2. rewrite Ex1 in E2. cbn [mbind option_bind] in E2. destruct (_ || _); [discriminate|].
    destruct (has g (g_args x1)); [|destruct (has (- g) (g_args x1))].
    - unfold process_duplicate in E2. rewrite Ex1 in E2. cbn [mbind option_bind] in E2.
      assert (TT : g_type x1 = g_type x) by auto. rewrite TT in E2.
      destruct Hst as [Et|Et]; rewrite Et in *; (destruct (size (g_args x1) =? 1);
      [apply set_type_spec in E2 as (w & Ew & HG2 & _); rewrite HG2, lookup_insert in Ex2; injection Ex2 as <-; simpl; auto|
       injection E2 as <-; rewrite Ex1 in Ex2; injection Ex2 as <-; auto]).
    - unfold process_complement in E2. rewrite Ex1 in E2. cbn [mbind option_bind] in E2.
      assert (TT : g_type x1 = g_type x) by auto. rewrite TT in E2.
      destruct Hst as [Et|Et]; rewrite Et in *; apply make_constant_spec in E2 as (w & Ew & _ & HG2 & _);
      rewrite HG2, lookup_insert in Ex2; injection Ex2 as <-; simpl; auto.
    - apply add_new_inv in E2 as (w & Ew & _ & _ & HG2 & _). rewrite HG2, lookup_insert in Ex2. injection Ex2 as <-.
      rewrite Ex1 in Ew. injection Ew as <-. auto. }
  eapply set_type_keeps; [apply K|exact Ex2| |exact H]. intros ν. unfold gate_value. rewrite Ea. simpl.
  destruct T as [T|T]; rewrite T; [destruct Hst as [-> | ->]|]; simpl; now destruct (lit ν a).
Qed.
