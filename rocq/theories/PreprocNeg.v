From stdpp Require Import gmap.
From Coq Require Import Lia Permutation.
From Verif Require Import Pdag PdagProofs PdagAdd PdagSem PdagKeeps Preproc PreprocProofs PreprocNorm.
Open Scope Z_scope.

(** ** Absorption (distributive arguments) *)
Lemma drop_keeps i c G G' x y : wf G -> gs G !! i = Some x -> gs G !! c = Some y -> In c (g_args x) ->
  (exists t u d, coalesce_type (g_type x) = Some t /\ coalesce_type (g_type y) = Some u /\ g_type y = u /\ u <> t /\
     In d (g_args x) /\ d <> c /\
     (In d (g_args y) \/ exists z, gs G !! d = Some z /\ g_type z = u /\ forall e, In e (g_args z) -> In e (g_args y))) ->
  drop_distributive i c G = Some G' -> keeps G G'.
Proof.
  intros W Ex Ey Hc (t & u & d & Ht & Hu & Eu & Hut & Hd & Hdc & Hsub) H. unfold drop_distributive in H.
  apply erase_arg_inv in H as (x0 & Ex0 & _ & HG & N). rewrite Ex in Ex0. injection Ex0 as <-.
  destruct (proj2 W _ _ Ex) as [Hi Hok]. assert (Hc1 : 1 < c) by (now apply W in Ey).
  eapply keeps_put; [exact W|exact Ex|exact HG|exact N|now apply args_ok_erase| |].
  - intros ν Hν. unfold gate_value. cbn [with_args g_type g_min g_args].
    assert (Hp := set_erase_perm c (g_args x) (proj1 Hok) Hc). rewrite (value_perm ν _ _ _ _ Hp). cbn [map].
    assert (Hdi : In (lit ν d) (map (lit ν) (set_erase c (g_args x)))) by (apply in_map, set_erase_In; auto).
    assert (Hlc : lit ν c = conn_value u (g_min y) (map (lit ν) (g_args y))).
    { unfold lit at 1. destruct (Z.ltb_spec c 0); [lia|]. rewrite (keeps_sem_gate G c y ν Hν Ey). unfold gate_value. now rewrite Eu. }
    assert (Himp : (u = kOr -> lit ν d = true -> lit ν c = true) /\ (u = kAnd -> lit ν c = true -> lit ν d = true)).
    { rewrite Hlc. destruct Hsub as [Hin|(z & Ez & Etz & Hz)].
      - split; intros ->; simpl.
        + intros E. apply existsb_exists. exists (lit ν d). split; [now apply in_map|auto].
        + rewrite forallb_forall. intros E. apply E. now apply in_map.
      - assert (Hd1 : 1 < d) by (now apply W in Ez).
        assert (Hld : lit ν d = conn_value u (g_min z) (map (lit ν) (g_args z))).
        { unfold lit at 1. destruct (Z.ltb_spec d 0); [lia|]. rewrite (keeps_sem_gate G d z ν Hν Ez). unfold gate_value. now rewrite Etz. }
        rewrite Hld. split; intros ->; simpl.
        + rewrite !existsb_exists. intros (v & Hv & E). exists v. split; [|auto]. apply in_map_iff in Hv as (e & <- & He). apply in_map. auto.
        + rewrite !forallb_forall. intros E v Hv. apply E. apply in_map_iff in Hv as (e & <- & He). apply in_map. auto. }
    revert Hdi Himp Ht Hut. generalize (lit ν c), (lit ν d). intros vc vd Hdi [I1 I2] Ht Hut. clear Hlc Hsub.
    generalize dependent (map (lit ν) (set_erase c (g_args x))). intros vs Hdi.
    assert (HA : u = kOr -> vc && forallb (fun b => b) vs = forallb (fun b => b) vs).
    { intros Eu'. destruct vc; [auto|]. simpl. symmetry. apply not_true_iff_false. rewrite forallb_forall. intros E.
      specialize (E _ Hdi). specialize (I1 Eu' E). discriminate. }
    assert (HO : u = kAnd -> vc || existsb (fun b => b) vs = existsb (fun b => b) vs).
    { intros Eu'. destruct vc; [|auto]. simpl. symmetry. apply existsb_exists. exists vd. auto. }
    assert (Hu' : u = kAnd \/ u = kOr) by (destruct (g_type y); try discriminate; injection Hu as <-; auto).
    destruct (g_type x); try discriminate; injection Ht as <-; simpl; symmetry; try f_equal; [apply HA|apply HO|apply HA|apply HO];
      destruct Hu'; congruence.
  - intros [r Hr]. exists r. split; [auto|]. cbn [with_args g_args]. intros e He. apply set_erase_In in He as [He _]. intros Hs. eapply Hr; eauto.
Qed.

Lemma fix_single_keeps i G G' x : wf G -> gs G !! i = Some x -> fix_single i G = Some G' -> keeps G G'.
Proof.
  intros W Ex H. unfold fix_single in H. rewrite Ex in H. cbn [mbind option_bind] in H.
  destruct (Z.eqb_spec (size (g_args x)) 1) as [E|E]; [|injection H as <-; now apply keeps_refl].
  apply size1 in E as (a & Ea). destruct (g_type x) eqn:Et; try discriminate;
  (eapply set_type_keeps; [exact W|exact Ex| |exact H]; intros ν; unfold gate_value; rewrite Et, Ea; simpl; now destruct (lit ν a)).
Qed.

(** ** Elimination of negative gates *)
Lemma fold_insert_perm l : List.NoDup l -> Permutation (fold_right set_insert [] l) l.
Proof.
  induction l as [|a l IH]; intros H; [auto|]. inversion H as [|? ? Ha Hl]; subst. simpl.
  rewrite set_insert_perm, IH; auto. intros Hc. apply Ha. now apply (in_perm _ _ _ (IH Hl)).
Qed.
Lemma notify_abs G a : Z.abs (notify_arg G a) = Z.abs a.
Proof. unfold notify_arg. destruct (negative_gate G (Z.abs a)); lia. Qed.
Lemma notify_inj G a b : notify_arg G a = notify_arg G b -> a = b.
Proof.
  intros H. assert (E : Z.abs a = Z.abs b) by (rewrite <- (notify_abs G a), <- (notify_abs G b); congruence).
  unfold notify_arg in H. rewrite E in H. destruct (negative_gate G (Z.abs b)); lia.
Qed.
Lemma notify_opp G a : notify_arg G (- a) = - notify_arg G a.
Proof. unfold notify_arg. rewrite Z.abs_opp. destruct (negative_gate G (Z.abs a)); lia. Qed.
Lemma notify_ok G n l : args_ok n l -> args_ok n (fold_right set_insert [] (map (notify_arg G) l)) /\
  Permutation (fold_right set_insert [] (map (notify_arg G) l)) (map (notify_arg G) l).
Proof.
  intros [Hnd Hok].
  assert (Hnd' : List.NoDup (map (notify_arg G) l)).
  { apply FinFun.Injective_map_NoDup; [intros a b; apply notify_inj|auto]. }
  assert (P := fold_insert_perm _ Hnd'). split; [|exact P].
  split; [eapply Permutation_NoDup; [symmetry; exact P|auto]|].
  intros a Ha. apply (in_perm _ _ _ P) in Ha. apply in_map_iff in Ha as (b & <- & Hb). destruct (Hok b Hb) as (B1 & B2 & B3).
  repeat split.
  - intros E. apply B1. apply (notify_inj G). rewrite E. unfold notify_arg. destruct (negative_gate G (Z.abs 0)); auto.
  - now rewrite notify_abs.
  - intros Hc. apply (in_perm _ _ _ P) in Hc. apply in_map_iff in Hc as (c & Ec & Hc). rewrite <- notify_opp in Ec. apply notify_inj in Ec. now subst.
Qed.

Section Neg.
  Variables (G : graph) (root : Z) (comp : bool).
  Hypotheses (W : wf G) (A : acyclic G)
    (Hnot : forall j x, gs G !! j = Some x -> g_type x = kNot -> exists a, g_args x = [a]).
  Let G' := fst (normalize_negative root comp G).

  Lemma neg_lookup j : gs G' !! j = positive_gate G <$> gs G !! j.
  Proof. unfold G', normalize_negative. cbn [fst gs]. apply lookup_fmap. Qed.
  Lemma neg_wf : wf G'.
  Proof using W.
    split; [apply W|]. intros j y Ey. rewrite neg_lookup in Ey. destruct (gs G !! j) as [x|] eqn:Ex; [|discriminate].
    injection Ey as <-. apply W in Ex as [? Hok]. split; [auto|]. cbn. now apply notify_ok.
  Qed.
  Lemma neg_acyclic : acyclic G'.
  Proof using A W.
    destruct A as [r Hr]. exists r. intros j y a Ey Ha Hs. rewrite neg_lookup in Ey. destruct (gs G !! j) as [x|] eqn:Ex; [|discriminate].
    injection Ey as <-. cbn in Ha. destruct (notify_ok G _ _ (proj2 (proj2 W _ _ Ex))) as [_ P]. apply (in_perm _ _ _ P) in Ha.
    apply in_map_iff in Ha as (b & <- & Hb). rewrite notify_abs in *. rewrite neg_lookup in Hs. eapply Hr; eauto.
    destruct (gs G !! Z.abs b); [eauto|destruct Hs; discriminate].
  Qed.
  Definition neg_label (ν : Z -> bool) (j : Z) : bool := xorb (ν j) (negative_gate G j).
  Lemma neg_lit ν a : a <> 0 -> lit (neg_label ν) (notify_arg G a) = lit ν a.
  Proof.
    intros Ha. rewrite !lit_abs, notify_abs. unfold neg_label, notify_arg. destruct (negative_gate G (Z.abs a)) eqn:E.
    - destruct (Z.ltb_spec (- a) 0), (Z.ltb_spec a 0); try lia; destruct (ν (Z.abs a)); reflexivity.
    - rewrite xorb_false_r. reflexivity.
  Qed.
  Lemma neg_consistent ν : consistent G ν -> consistent G' (neg_label ν).
  Proof using W Hnot.
    intros [H1 Hc]. split.
    - unfold neg_label, negative_gate. destruct (gs G !! 1) eqn:E; [apply W in E; lia|]. now rewrite xorb_false_r.
    - intros j y Ey. rewrite neg_lookup in Ey. destruct (gs G !! j) as [x|] eqn:Ex; [|discriminate]. injection Ey as <-.
      unfold neg_label at 1, negative_gate. rewrite Ex, (Hc _ _ Ex).
      destruct (notify_ok G _ _ (proj2 (proj2 W _ _ Ex))) as [_ P]. unfold gate_value, positive_gate. cbn [g_type g_min g_args].
      rewrite (value_perm (neg_label ν) _ _ _ _ P). rewrite map_map.
      rewrite (map_ext_in (fun a => lit (neg_label ν) (notify_arg G a)) (lit ν)).
      2:{ intros a Ha. apply neg_lit. apply (proj2 W _ _ Ex); auto. }
      destruct (g_type x) eqn:Et; cbn [negative_type positive_type conn_value]; rewrite ?xorb_false_r, ?xorb_true_r, ?negb_involutive; auto.
      destruct (Hnot j x Ex Et) as (a & ->). simpl. now rewrite negb_involutive.
  Qed.
  Lemma neg_value σ j b : 0 < j < nxt G ->
    (node_value G' σ j (xorb b (negative_gate G j)) <-> node_value G σ j b).
  Proof using W A Hnot.
    assert (H : forall b, node_value G σ j b -> node_value G' σ j (xorb b (negative_gate G j))).
    { intros c (ν & Hc & Hv & <-). exists (neg_label ν). split; [now apply neg_consistent|]. split; [|reflexivity].
      intros k Hk Ek. rewrite neg_lookup in Ek. assert (Ek' : gs G !! k = None) by (destruct (gs G !! k); [discriminate|auto]).
      unfold neg_label, negative_gate. rewrite Ek', xorb_false_r. now apply Hv. }
    intros Hj. split; [|apply H]. intros Hb. destruct (node_value_total G σ j W A) as (b0 & Hb0).
    assert (E : xorb b (negative_gate G j) = xorb b0 (negative_gate G j)).
    { eapply (node_value_unique G' σ j); [apply neg_wf|apply neg_acyclic|exact Hj|apply H; eauto|auto]. }
    assert (b = b0) as ->; auto. destruct b, b0, (negative_gate G j); auto; discriminate.
  Qed.
  Lemma neg_types j x : gs G' !! j = Some x -> negative_type (g_type x) = false.
  Proof using.
    rewrite neg_lookup. destruct (gs G !! j) as [y|]; [|discriminate]. intros [= <-]. cbn. now destruct (g_type y).
  Qed.
End Neg.
