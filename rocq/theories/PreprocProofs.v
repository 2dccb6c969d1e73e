From stdpp Require Import gmap.
From Coq Require Import Lia Permutation.
From Verif Require Import Pdag PdagProofs PdagAdd PdagSem PdagKeeps Preproc.
Open Scope Z_scope.

(** ** Joining a pass-through gate *)
Lemma join_null_keeps i a G G' x b :
  wf G -> acyclic G -> gs G !! i = Some x ->
  (g_type x = kNot \/ g_type x = kNull -> length (g_args x) <= 1)%nat ->
  (exists y, gs G !! Z.abs a = Some y /\ g_args y = [b]) ->
  ~ (g_type x = kAtleast /\ length (g_args x) = 3%nat /\ In (b * Z.sgn a) (g_args x)) ->
  join_null_gate i a G = Some G' -> keeps G G'.
Proof.
  intros W A Ex Har (y & Ey & Eb) Hbug H. unfold join_null_gate in H. rewrite Ey in H. cbn [mbind option_bind] in H.
  destruct (g_type y) eqn:Et; try discriminate. rewrite Eb in H.
  apply bind_inv in H as (G1 & E1 & H). apply erase_arg_inv in E1 as (x0 & Ex0 & Hin & HG1 & N1).
  rewrite Ex in Ex0. injection Ex0 as <-.
  assert (Hok : args_ok (nxt G) (g_args x)) by (now apply W in Ex).
  destruct (proj2 Hok a Hin) as (Ha0 & Han & _).
  assert (Hbok : b <> 0 /\ Z.abs b < nxt G).
  { apply W in Ey as [_ [_ Hy]]. rewrite Eb in Hy. destruct (Hy b) as (? & ? & _); [left; auto|]. auto. }
  assert (Hsg : Z.sgn a = 1 \/ Z.sgn a = -1) by lia.
  set (x1 := with_args x (set_erase a (g_args x))) in *.
  assert (Hperm : Permutation (g_args x) (a :: g_args x1)).
  { apply set_erase_perm; auto. apply Hok. }
  assert (W1 : wf G1).
  { split; [destruct W; lia|]. intros j z Ez. rewrite HG1 in Ez. rewrite N1. destruct (Z.eq_dec j i) as [->|J].
    - rewrite lookup_insert in Ez. injection Ez as <-. split; [now apply W in Ex|]. now apply args_ok_erase.
    - rewrite lookup_insert_ne in Ez by auto. now apply W. }
  assert (Hlen : length (g_args x) = S (length (g_args x1))) by (rewrite (Permutation_length Hperm); auto).
  assert (Ha1 : Z.abs (b * Z.sgn a) = Z.abs b) by (destruct Hsg as [-> | ->]; lia).
  assert (C : changes G1 G' i (b * Z.sgn a) (plus x1 (b * Z.sgn a))).
  { eapply add_any_changes; [exact W1|now rewrite HG1, lookup_insert| | | |exact H].
    - split; [destruct Hsg as [-> | ->]; lia|]. rewrite N1, Ha1. tauto.
    - intros (T1 & T2 & T3). apply Hbug. split; [exact T1|]. split; [unfold size in T2; lia|].
      eapply Permutation_in; [symmetry; exact Hperm|]. right. exact T3.
    - intros T. specialize (Har T). destruct (g_args x1); [auto|simpl in Hlen; lia]. }
  eapply keeps_edit; [exact W|exact Ex|exact HG1|exact N1| |exact C|..].
  - intros c Hc. apply set_erase_In in Hc. tauto.
  - intros ν Hc. rewrite (keeps_sem_gate G i x ν Hc Ex). unfold plus, gate_value, x1. cbn [g_type g_min with_args].
    symmetry. rewrite (value_perm ν _ _ _ _ Hperm). cbn [map]. f_equal. f_equal.
    assert (Hy : ν (Z.abs a) = lit ν b).
    { rewrite (keeps_sem_gate G _ y ν Hc Ey). unfold gate_value. rewrite Et, Eb. reflexivity. }
    rewrite lit_abs, Hy. destruct Hsg as [Es|Es]; rewrite Es.
    + rewrite Z.mul_1_r. destruct (Z.ltb_spec a 0); [lia|auto].
    + replace (b * -1) with (- b) by lia. rewrite lit_opp by tauto. destruct (Z.ltb_spec a 0); [auto|lia].
  - intros _. destruct A as [r Hr]. exists r. split; [auto|]. rewrite Ha1. intros Hs.
    assert (r (Z.abs a) < r i)%nat by (eapply Hr; eauto).
    assert (r (Z.abs b) < r (Z.abs a))%nat by (eapply (Hr _ y b); eauto; rewrite Eb; left; auto). lia.
Qed.

(** ** Coalescing *)
Lemma add_arg_and_or i b G G' x : wf G -> gs G !! i = Some x -> is_Some (coalesce_type (g_type x)) ->
  (forall c, g_args x = [c] -> c <> b) ->
  add_arg i b G = Some G' ->
  nxt G' = nxt G /\ (forall j, j <> i -> gs G' !! j = gs G !! j) /\
  exists x', gs G' !! i = Some x' /\
   (constant x' = true \/ (g_type x' = g_type x /\ g_min x' = g_min x /\ forall d, In d (g_args x') <-> d = b \/ In d (g_args x))).
Proof.
  intros W Ex Ht Hs H. unfold add_arg in H. rewrite Ex in H. cbn [mbind option_bind] in H.
  destruct (add_asserts x); [|discriminate]. cbn [negb orb] in H. destruct (b =? 0); [discriminate|].
  destruct (has b (g_args x)) eqn:Eh.
  - apply has_In in Eh. unfold process_duplicate in H. rewrite Ex in H. cbn [mbind option_bind] in H.
    assert (G' = G) as ->.
    { destruct (g_type x); try (destruct Ht; discriminate);
      (destruct (Z.eqb_spec (size (g_args x)) 1) as [E|E]; [|congruence];
       apply size1 in E as (c & Ec); rewrite Ec in Eh; destruct Eh as [->|[]]; now destruct (Hs b Ec)). }
    split; [auto|]. split; [auto|]. exists x. split; [auto|]. right. repeat split; auto. intros [->|]; auto.
  - destruct (has (- b) (g_args x)) eqn:Eh'.
    + unfold process_complement in H. rewrite Ex in H. cbn [mbind option_bind] in H.
      assert (Hm : exists s, make_constant i s G = Some G').
      { destruct (g_type x); try (destruct Ht; discriminate); eauto. }
      destruct Hm as [s Hm]. apply make_constant_spec in Hm as (y & Ey & _ & HG & N).
      split; [auto|]. split; [intros j J; now rewrite HG, lookup_insert_ne by auto|].
      rewrite HG, lookup_insert. eexists; split; [reflexivity|]. left. now destruct s.
    + apply add_new_inv in H as (y & Ey & H1 & H2 & HG & N). rewrite Ex in Ey. injection Ey as <-.
      split; [auto|]. split; [intros j J; now rewrite HG, lookup_insert_ne by auto|].
      rewrite HG, lookup_insert. eexists; split; [reflexivity|]. right. repeat split; auto; apply set_insert_In.
Qed.

Lemma not_atleast_coalesce x b : is_Some (coalesce_type (g_type x)) -> ~ two_arg_duplicate x b.
Proof. intros [t Ht] (E & _). rewrite E in Ht. discriminate. Qed.

Lemma below_of G j y b : wf G -> gs G !! j = Some y -> In b (g_args y) -> below G b.
Proof. intros W E Hb. apply W in E as [_ [_ H]]. destruct (H b Hb) as (? & ? & _). now split. Qed.

Lemma absorb_value t u (v w : bool) (vs ws : list bool) k k' : coalesce_type t = Some u ->
  In v vs -> v = conn_value u k' ws -> In w ws -> conn_value t k (w :: vs) = conn_value t k vs.
Proof.
  intros Ht Hv Ev Hw. destruct t; try discriminate; injection Ht as <-; simpl in *; [| |f_equal|f_equal].
  all: subst v.
  1,3: destruct w; [reflexivity|]; simpl; symmetry; apply not_true_iff_false; rewrite forallb_forall; intros H;
       specialize (H _ Hv); rewrite forallb_forall in H; now specialize (H _ Hw).
  all: destruct w; [|reflexivity]; simpl; symmetry; apply existsb_exists;
       exists (existsb (fun b => b) ws); split; [auto|]; apply existsb_exists; eauto.
Qed.

(** adding an argument of an argument of the matching type *)
Lemma add_absorbed_keeps i c b G G' x y u : wf G -> acyclic G -> gs G !! i = Some x -> gs G !! c = Some y ->
  In c (g_args x) -> coalesce_type (g_type x) = Some u -> g_type y = u -> In b (g_args y) ->
  add_arg i b G = Some G' -> keeps G G'.
Proof.
  intros W A Ex Ey Hc Ht Hu Hb H.
  assert (Hcp : 1 < c) by (now apply W in Ey).
  eapply (keeps_edit G G G' i b x x (plus x b)); [exact W|exact Ex|now rewrite insert_id|reflexivity|auto|..].
  - eapply add_arg_changes; [exact W|exact Ex|eapply below_of; eauto|apply not_atleast_coalesce; eauto|exact H].
  - intros ν Hν. rewrite (keeps_sem_gate G i x ν Hν Ex). unfold plus, gate_value.
    apply (absorb_value _ u (lit ν c) (lit ν b) _ (map (lit ν) (g_args y)) _ (g_min y)); auto.
    + now apply in_map.
    + unfold lit. destruct (Z.ltb_spec c 0); [lia|]. rewrite (keeps_sem_gate G c y ν Hν Ey). unfold gate_value. now rewrite Hu.
    + now apply in_map.
  - intros [r Hr]. exists r. split; [auto|]. intros Hs.
    assert (r (Z.abs c) < r i)%nat by (eapply Hr; eauto; rewrite Z.abs_eq by lia; eauto).
    assert (r (Z.abs b) < r c)%nat by (eapply Hr; eauto). rewrite Z.abs_eq in H0 by lia. lia.
Qed.

Lemma coalesce_keeps i c l G G' x y u : wf G -> acyclic G -> gs G !! i = Some x -> gs G !! c = Some y ->
  coalesce_type (g_type x) = Some u -> g_type y = u -> Permutation l (g_args y) ->
  coalesce_gate i c l G = Some G' -> keeps G G'.
Proof.
  intros W A Ex Ey Ht Hu Hl H. unfold coalesce_gate in H. rewrite Ex, Ey in H. cbn [mbind option_bind] in H.
  destruct (constant x || negb (has c (g_args x)) || constant y || (size (g_args y) =? 0)) eqn:Eg; [discriminate|].
  rewrite !orb_false_iff, negb_false_iff, has_In in Eg. destruct Eg as [[[_ Hc] _] _].
  assert (Hcp : 1 < c) by (now apply W in Ey).
  assert (Hic : i <> c).
  { intros <-. destruct A as [r Hr]. pose proof (Hr i x i Ex Hc). rewrite Z.abs_eq in H0 by lia. specialize (H0 ltac:(eauto)). lia. }
  assert (Hself : forall b, In b (g_args y) -> b <> c).
  { intros b Hb ->. destruct A as [r Hr]. pose proof (Hr c y c Ey Hb). rewrite Z.abs_eq in H0 by lia. specialize (H0 ltac:(eauto)). lia. }
  apply bind_inv in H as (G1 & E1 & H). apply bind_inv in H as (x1 & Ex1 & H).
  assert (Gen : forall l done G0 x0, keeps G G0 -> gs G0 !! i = Some x0 -> gs G0 !! c = Some y -> In c (g_args x0) ->
     g_type x0 = g_type x -> (forall b, In b l -> In b (g_args y)) -> (forall b, In b done -> In b (g_args x0)) ->
     add_until_constant i l G0 = Some G1 -> keeps G G1 /\ (constant x1 = true \/
       (gs G1 !! c = Some y /\ In c (g_args x1) /\ g_type x1 = g_type x /\ forall b, In b (done ++ l) -> In b (g_args x1)))).
  { clear H E1 Hl l. induction l as [|b l IH]; intros done G0 x0 K Ex0 Ey0 Hc0 T0 Hl Hd E1.
    - injection E1 as <-. rewrite Ex0 in Ex1. injection Ex1 as <-. split; [auto|]. right. rewrite app_nil_r. auto.
    - cbn [add_until_constant] in E1. apply bind_inv in E1 as (G2 & E2 & E1). apply bind_inv in E1 as (x2 & Ex2 & E1).
      assert (Hb : In b (g_args y)) by (apply Hl; left; auto).
      assert (K2 : keeps G0 G2).
      { eapply (add_absorbed_keeps i c b G0 G2 x0 y u); eauto; try apply K; auto. now rewrite T0. }
      assert (K3 : keeps G G2) by (eapply keeps_trans; eauto).
      destruct (add_arg_and_or i b G0 G2 x0) as (N2 & O2 & x2' & Ex2' & Hx2); auto.
      { apply K. } { rewrite T0; eauto. } { intros d Ed. rewrite Ed in Hc0. destruct Hc0 as [->|[]]. apply not_eq_sym; auto. }
      rewrite Ex2 in Ex2'. injection Ex2' as <-.
      destruct (constant x2) eqn:C2.
      + injection E1 as <-. rewrite Ex2 in Ex1. injection Ex1 as <-. auto.
      + destruct Hx2 as [?|(T2 & M2 & I2)]; [congruence|].
        destruct (IH (done ++ [b]) G2 x2) as [K4 Hr]; auto.
        * rewrite O2 by auto. exact Ey0.
        * apply I2; auto.
        * congruence.
        * intros d Hd'. apply Hl. right; auto.
        * intros d Hd'. apply I2. apply in_app_iff in Hd' as [Hd'|[->|[]]]; auto.
        * split; [auto|]. rewrite <- app_assoc in Hr. exact Hr. }
  destruct (Gen l [] G x) as [K1 Hcase]; auto.
  { now apply keeps_refl. } { intros b Hb. eapply Permutation_in; eauto. } { intros b []. }
  destruct (constant x1) eqn:C1; [injection H as <-; auto|].
  destruct Hcase as [?|(Ey1 & Hc1 & T1 & I1)]; [discriminate|].
  apply erase_arg_inv in H as (x1' & Ex1' & _ & HG' & N'). rewrite Ex1 in Ex1'. injection Ex1' as <-.
  eapply keeps_trans; [exact K1|].
  assert (W1 := k_wf _ _ K1).
  assert (Hok : args_ok (nxt G1) (g_args x1)) by (now apply W1 in Ex1).
  eapply keeps_put; [exact W1|exact Ex1|exact HG'|exact N'|now apply args_ok_erase| |].
  - intros ν Hν. unfold gate_value. cbn [g_type g_min g_args with_args].
    set (ys := set_erase c (g_args x1)).
    assert (Hp : Permutation (g_args x1) (c :: ys)) by (apply set_erase_perm; auto; apply Hok).
    rewrite (value_perm ν _ _ _ _ Hp). cbn [map].
    assert (Hlc : lit ν c = conn_value u (g_min y) (map (lit ν) (g_args y))).
    { unfold lit at 1. destruct (Z.ltb_spec c 0); [lia|]. rewrite (keeps_sem_gate G1 c y ν Hν Ey1). unfold gate_value. now rewrite Hu. }
    assert (Hsub : forall b, In b (g_args y) -> In b ys).
    { intros b Hb. apply set_erase_In. split; [|auto]. apply I1. simpl. eapply Permutation_in; [symmetry; eauto|auto]. }
    rewrite T1. rewrite Hlc. clear - Ht Hsub.
    assert (HA : forallb (fun b => b) (map (lit ν) (g_args y)) && forallb (fun b => b) (map (lit ν) ys) = forallb (fun b => b) (map (lit ν) ys)).
    { apply eq_true_iff_eq. rewrite andb_true_iff, !forallb_forall. split; [tauto|]. intros H. split; [|auto].
      intros v Hv. apply in_map_iff in Hv as (b & <- & Hb). apply H. apply in_map. auto. }
    assert (HO : existsb (fun b => b) (map (lit ν) (g_args y)) || existsb (fun b => b) (map (lit ν) ys) = existsb (fun b => b) (map (lit ν) ys)).
    { apply eq_true_iff_eq. rewrite orb_true_iff, !existsb_exists. split; [|tauto]. intros [(v & Hv & E)|?]; [|auto].
      apply in_map_iff in Hv as (b & <- & Hb). exists (lit ν b). split; [apply in_map|]; auto. }
    destruct (g_type x); try discriminate; injection Ht as <-; simpl; congruence.
  - intros [r Hr]. exists r. split; [auto|]. cbn [g_args with_args]. intros d Hd. apply set_erase_In in Hd as [Hd _].
    intros Hs. eapply Hr; eauto.
Qed.

(** ** Replacing a gate with an equivalent one *)
Lemma replace_keeps p g g' G G' x r : wf G -> ranked G r -> gs G !! p = Some x ->
  (In g (g_args x) \/ In (- g) (g_args x)) -> 0 < g -> 0 < g' < nxt G ->
  (forall ν, consistent G ν -> ν g' = ν g) -> (is_Some (gs G !! g') -> r g' < r p)%nat ->
  ~ (g_type x = kAtleast /\ length (g_args x) = 3%nat /\ (In g' (g_args x) \/ In (- g') (g_args x))) ->
  replace_in_parent p g g' G = Some G' -> keeps G G'.
Proof.
  intros W Hr Ex Hg Hg0 Hg' Hsem Hrk Hbug H. unfold replace_in_parent in H. rewrite Ex in H. cbn [mbind option_bind] in H.
  set (a := arg_of x g) in *.
  assert (Ha : In a (g_args x) /\ (a = g \/ a = - g)).
  { unfold a, arg_of. destruct (has g (g_args x)) eqn:E; [apply has_In in E; auto|].
    apply has_false in E. destruct Hg as [|]; [contradiction|auto]. }
  destruct Ha as [Hin Hag].
  set (b := if a <? 0 then - g' else g') in *.
  apply bind_inv in H as (G1 & E1 & H). apply erase_arg_inv in E1 as (x0 & Ex0 & _ & HG1 & N1).
  rewrite Ex in Ex0. injection Ex0 as <-.
  assert (Hok : args_ok (nxt G) (g_args x)) by (now apply W in Ex).
  set (x1 := with_args x (set_erase a (g_args x))) in *.
  assert (Hperm : Permutation (g_args x) (a :: g_args x1)).
  { apply set_erase_perm; auto. apply Hok. }
  assert (Hlen : length (g_args x) = S (length (g_args x1))) by (rewrite (Permutation_length Hperm); auto).
  assert (W1 : wf G1).
  { split; [destruct W; lia|]. intros j z Ez. rewrite HG1 in Ez. rewrite N1. destruct (Z.eq_dec j p) as [->|J].
    - rewrite lookup_insert in Ez. injection Ez as <-. split; [now apply W in Ex|]. now apply args_ok_erase.
    - rewrite lookup_insert_ne in Ez by auto. now apply W. }
  assert (Habs : Z.abs b = g') by (unfold b; destruct (a <? 0); lia).
  assert (C : changes G1 G' p b (plus x1 b)).
  { eapply add_arg_changes; [exact W1|now rewrite HG1, lookup_insert| | |exact H].
    - split; [unfold b; destruct (a <? 0); lia|lia].
    - intros (T1 & T2 & T3). apply Hbug. split; [exact T1|]. split; [unfold size in T2; lia|].
      assert (In b (g_args x)) by (eapply Permutation_in; [symmetry; exact Hperm|right; exact T3]).
      unfold b in H0. destruct (a <? 0); auto. }
  eapply keeps_edit; [exact W|exact Ex|exact HG1|exact N1| |exact C|..].
  - intros c Hc. apply set_erase_In in Hc. tauto.
  - intros ν Hc. rewrite (keeps_sem_gate G p x ν Hc Ex). unfold plus, gate_value, x1. cbn [g_type g_min with_args].
    symmetry. rewrite (value_perm ν _ _ _ _ Hperm). cbn [map]. f_equal. f_equal.
    rewrite !lit_abs, Habs, Hsem by auto. replace (Z.abs a) with g by lia. unfold b.
    destruct (Z.ltb_spec a 0).
    + destruct (Z.ltb_spec (- g') 0); [auto|lia].
    + destruct (Z.ltb_spec g' 0); [lia|auto].
  - intros _. exists r. split; [auto|]. rewrite Habs. auto.
Qed.

(** Two gates with the same definition (GateSet::Equal, preprocessor.cc:226-236). *)
Definition same_definition (y y' : gate) : Prop :=
  g_type y' = g_type y /\ g_args y' = g_args y /\ (g_type y = kAtleast -> g_min y' = g_min y).
Lemma same_definition_keeps p g g' G G' x y y' : wf G -> acyclic G -> gs G !! p = Some x ->
  gs G !! g = Some y -> gs G !! g' = Some y' -> same_definition y y' ->
  (In g (g_args x) \/ In (- g) (g_args x)) ->
  ~ (g_type x = kAtleast /\ length (g_args x) = 3%nat /\ (In g' (g_args x) \/ In (- g') (g_args x))) ->
  replace_in_parent p g g' G = Some G' -> keeps G G'.
Proof.
  intros W A Ex Ey Ey' (S1 & S2 & S3) Hg Hbug H.
  destruct (canonical_rank G A) as (r & Hr & Hc).
  assert (0 < g) by (apply W in Ey; lia). assert (0 < g' < nxt G) by (apply W in Ey'; lia).
  eapply (replace_keeps p g g' G G' x r); eauto.
  - intros ν Hν. rewrite (keeps_sem_gate G g' y' ν Hν Ey'), (keeps_sem_gate G g y ν Hν Ey).
    unfold gate_value. rewrite S1, S2. destruct (g_type y); auto. simpl. now rewrite S3.
  - intros _. assert (r g' <= r g)%nat by (eapply Hc; eauto; rewrite S2; auto).
    assert (r g < r p)%nat; [|lia]. destruct Hg as [Hg|Hg].
    + pose proof (Hr p x g Ex Hg). rewrite Z.abs_eq in H3 by lia. eauto.
    + pose proof (Hr p x (- g) Ex Hg). rewrite Z.abs_opp, Z.abs_eq in H3 by lia. eauto.
Qed.
