(** C01: adding an argument to a gate never changes what the gate means.
    Specification vocabulary: [conn_value] (truth table of the connectives), [node_value]
    (value of a node of a graph under an assignment of the variables), [literal_value]
    (value of an argument, negative = complemented), see Pdag.v and PdagSem.v. *)
From stdpp Require Import gmap.
From Coq Require Import Lia Permutation.
From Verif Require Import Pdag PdagProofs PdagAdd PdagSem.
Open Scope Z_scope.

(** One call of AddArg, for any argument: new, duplicate, complement of an argument
    already present, or the constant.  The only exclusion is the duplicate argument of a
    two-argument K/N gate, for which the code is wrong, see [C01_duplicate_refuted].
    NOT and NULL gates take only one argument (an assert in the code). *)
Theorem C01_add_argument i a G G' x r : wf G -> ranked G r -> gs G !! i = Some x -> below G a ->
  (is_Some (gs G !! Z.abs a) -> (r (Z.abs a) < r i)%nat) ->
  (g_type x = kNot \/ g_type x = kNull -> g_args x = []) ->
  ~ (g_type x = kAtleast /\ length (g_args x) = 2%nat /\ In a (g_args x)) ->
  add_any i a G = Some G' ->
  wf G' /\ acyclic G' /\
  (forall j, 1 < j < nxt G -> (gs G' !! j = None <-> gs G !! j = None)) /\
  (forall j, nxt G <= j < nxt G' -> is_Some (gs G' !! j)) /\
  (forall j, j <> i -> j < nxt G -> gs G' !! j = gs G !! j) /\
  forall σ vs, Forall2 (literal_value G σ) (a :: g_args x) vs ->
   (forall b, node_value G' σ i b <-> b = conn_value (g_type x) (g_min x) vs).
Proof.
  intros W Hr Ex Hb Hra Hn Hbug H.
  assert (HC : changes G G' i a (plus x a)).
  { eapply add_any_changes; eauto. intros (E1 & E2 & E3). apply Hbug. unfold size in E2. repeat split; auto; lia. }
  destruct (changes_value G G' i a x r (plus x a) W Hr Ex Hb Hra ltac:(reflexivity) HC)
    as (A1 & A2 & A3 & A4 & A5 & _ & A6). auto 10.
Qed.

(** ** Construction argument by argument *)
Fixpoint add_args (i : Z) (l : list Z) (G : graph) : option graph :=
  match l with [] => Some G | a :: l => G' ← add_arg i a G; add_args i l G' end.

Definition order_matters (t : conn) : bool := match t with kAtleast | kXor | kNot | kNull => true | _ => false end.
(** [done] are the arguments added so far, [x] is the gate. *)
Definition added (t : conn) (k : Z) (done : list Z) (x : gate) : Prop :=
  add_asserts x = true ->
  g_type x = t /\ g_min x = k /\
  if order_matters t then Permutation (g_args x) done else forall a, In a (g_args x) <-> In a done.

Lemma set_value t k (l l' : list bool) : order_matters t = false -> (forall b, In b l <-> In b l') ->
  conn_value t k l = conn_value t k l'.
Proof.
  intros Ht H.
  assert (H1 : forallb (fun b => b) l = forallb (fun b => b) l').
  { apply eq_true_iff_eq. rewrite !forallb_forall. split; intros A b Hb; apply A; now apply H. }
  assert (H2 : existsb (fun b => b) l = existsb (fun b => b) l').
  { apply eq_true_iff_eq. rewrite !existsb_exists. split; intros (b & Hb & E); exists b; split; auto; now apply H. }
  destruct t; try discriminate; simpl; congruence.
Qed.

Lemma Forall2_In_l {A B} (R : A -> B -> Prop) l l' a : Forall2 R l l' -> In a l -> exists b, In b l' /\ R a b.
Proof. induction 1 as [|x y l l' H1 H2 IH]; intros [].
  - subst. eexists; split; [left|]; eauto.
  - destruct IH as (b & ? & ?); auto. exists b; split; [right|]; auto. Qed.
Lemma Forall2_In_r {A B} (R : A -> B -> Prop) l l' b : Forall2 R l l' -> In b l' -> exists a, In a l /\ R a b.
Proof. induction 1 as [|x y l l' H1 H2 IH]; intros [].
  - subst. eexists; split; [left|]; eauto.
  - destruct IH as (a & ? & ?); auto. exists a; split; [right|]; auto. Qed.

Definition low (G : graph) (r : Z -> nat) (i a : Z) : Prop :=
  below G a /\ (is_Some (gs G !! Z.abs a) -> (r (Z.abs a) < r i)%nat).

Lemma literal_total G r σ l : wf G -> ranked G r -> exists vs, Forall2 (literal_value G σ) l vs.
Proof.
  intros W Hr. induction l as [|a l [vs IH]]; [exists []; constructor|].
  destruct (node_value_total G σ (Z.abs a) W ltac:(now exists r)) as (b & Hb).
  exists ((if a <? 0 then negb b else b) :: vs). constructor; [now exists b|auto].
Qed.
Lemma literal_unique G r σ a b b' : wf G -> ranked G r -> below G a ->
  literal_value G σ a b -> literal_value G σ a b' -> b' = b.
Proof.
  intros W Hr [Ha0 Han] (v & Hv & ->) (v' & Hv' & ->).
  rewrite (node_value_unique G σ (Z.abs a) v v' W ltac:(now exists r) ltac:(lia) Hv Hv'). auto.
Qed.

Lemma value_of_added G r σ t k done args a vs ws v : wf G -> ranked G r ->
  (forall b, In b (a :: done) -> below G b) ->
  (if order_matters t then Permutation args done else forall b, In b args <-> In b done) ->
  Forall2 (literal_value G σ) done vs -> Forall2 (literal_value G σ) (a :: args) ws -> literal_value G σ a v ->
  conn_value t k ws = conn_value t k (vs ++ [v]).
Proof.
  intros W Hr Hb Hs Hvs Hws Hv. inversion Hws as [|? w ? ws' Hw Hws']; subst.
  assert (w = v) as -> by (eapply literal_unique; eauto; apply Hb; left; auto).
  transitivity (conn_value t k (v :: vs)); [|apply conn_value_perm; apply Permutation_cons_append].
  destruct (order_matters t) eqn:Ht.
  - apply conn_value_perm. constructor.
    clear Hws. revert vs ws' Hvs Hws'. induction Hs as [|b l l' Hs IH|b c l|l l1 l2 Hs1 IH1 Hs2 IH2]; intros vs ws Hvs Hws.
    + inversion Hvs; inversion Hws; auto.
    + inversion Hvs as [|? v1 ? vs' Hv1 Hvs']; inversion Hws as [|? w1 ? ws' Hw1 Hws']; subst.
      assert (w1 = v1) as -> by (eapply literal_unique; eauto; apply Hb; simpl; auto).
      constructor. apply IH; auto. intros d [<-|Hd]; apply Hb; simpl; auto.
    + inversion Hvs as [|? v1 ? vs' Hv1 Hvs']; inversion Hws as [|? w1 ? ws' Hw1 Hws']; subst.
      inversion Hvs' as [|? v2 ? vs'' Hv2 Hvs'']; inversion Hws' as [|? w2 ? ws'' Hw2 Hws'']; subst.
      assert (w2 = v1) as -> by (eapply literal_unique; eauto; apply Hb; simpl; auto).
      assert (w1 = v2) as -> by (eapply literal_unique; eauto; apply Hb; simpl; auto).
      assert (E : ws'' = vs''); [|rewrite E; constructor].
      assert (Hl : forall d, In d l -> below G d) by (intros d Hd; apply Hb; simpl; auto).
      clear - Hvs'' Hws'' Hl W Hr. revert ws'' Hws''. induction Hvs''; intros ws Hws; inversion Hws; subst; auto.
      f_equal; [eapply literal_unique; eauto; apply Hl; left; auto|apply IHHvs''; auto; intros; apply Hl; right; auto].
    + destruct (literal_total G r σ l1 W Hr) as [us Hus].
      transitivity us; [apply IH1; auto|apply IH2; auto].
      intros d [<-|Hd]; apply Hb; [left; auto|]. right. eapply Permutation_in; eauto.
  - apply set_value; auto. intros b. split; (intros [->|H]; [left; auto|right]).
    + destruct (Forall2_In_r _ _ _ _ Hws' H) as (c & Hc & Hcb). destruct (Forall2_In_l _ _ _ c Hvs) as (d & Hd & Hcd); [now apply Hs|].
      replace b with d; auto. eapply literal_unique; eauto. apply Hb. right. now apply Hs.
    + destruct (Forall2_In_r _ _ _ _ Hvs H) as (c & Hc & Hcb). destruct (Forall2_In_l _ _ _ c Hws') as (d & Hd & Hcd); [now apply Hs|].
      replace b with d; auto. eapply literal_unique; eauto. apply Hb. right. auto.
Qed.

Lemma add_arg_added i a G G' x t k done : wf G -> gs G !! i = Some x -> added t k done x ->
  (t = kAtleast -> ~ In a done /\ ~ In (- a) done) ->
  add_arg i a G = Some G' -> exists x', gs G' !! i = Some x' /\ added t k (done ++ [a]) x'.
Proof.
  intros W Ex Hadd Hkn H. unfold add_arg in H. rewrite Ex in H. cbn [mbind option_bind] in H.
  destruct (add_asserts x) eqn:Hass; [|discriminate]. destruct (Hadd Hass) as (Et & Ek & Hs). cbn [negb orb] in H.
  destruct (a =? 0) eqn:Ea0; [discriminate|]. apply Z.eqb_neq in Ea0.
  destruct (has a (g_args x)) eqn:Eh.
  - apply has_In in Eh. unfold process_duplicate in H. rewrite Ex in H. cbn [mbind option_bind] in H. rewrite Et in H.
    assert (Hd : In a done).
    { destruct (order_matters t); [eapply Permutation_in; eauto|now apply Hs]. }
    assert (Hend : forall u, set_type i u G = Some G' -> conn_eqb u kNot || conn_eqb u kNull = true ->
              exists x', gs G' !! i = Some x' /\ added t k (done ++ [a]) x').
    { intros u Hu Hun. apply set_type_spec in Hu as (y & Ey & HG & _). rewrite Ex in Ey. injection Ey as <-.
      rewrite HG, lookup_insert. eexists; split; [reflexivity|]. intros Hc. exfalso. unfold add_asserts in Hc.
      cbn [g_type g_args] in Hc. rewrite Hun in Hc.
      assert (size (g_args x) <> 0) by (unfold size; destruct (g_args x); [destruct Eh|simpl length; lia]).
      apply Z.eqb_neq in H0. rewrite H0 in Hc. cbn [negb andb] in Hc. rewrite !andb_false_r in Hc. discriminate. }
    assert (Hsame : G' = G -> order_matters t = false -> exists x', gs G' !! i = Some x' /\ added t k (done ++ [a]) x').
    { intros -> Ho. exists x; split; [auto|]. intros _. rewrite Ho in *. repeat split; auto; rewrite in_app_iff.
      - intros Hi. left. now apply Hs.
      - intros [Hi|[<-|[]]]; auto. now apply Hs. }
    destruct t; try discriminate; try (destruct (size (g_args x) =? 1); [eapply Hend; [exact H|reflexivity]|apply Hsame; [congruence|reflexivity]]).
    + exfalso. now apply (proj1 (Hkn eq_refl)).
    + destruct (size (g_args x) =? 1) eqn:E1.
      * apply make_constant_spec in H as (y & Ey & _ & HG & _). rewrite HG, lookup_insert. eexists; split; [reflexivity|].
        intros Hc. discriminate.
      * exfalso. unfold add_asserts in Hass. rewrite Et in Hass. cbn [conn_eqb andb orb negb] in Hass.
        rewrite !andb_true_iff, !negb_true_iff in Hass. destruct Hass as [[_ Hle] _]. apply Z.ltb_ge in Hle. apply Z.eqb_neq in E1.
        unfold size in *. destruct (g_args x); [destruct Eh|]. simpl length in *. lia.
  - apply has_false in Eh. destruct (has (- a) (g_args x)) eqn:Eh'.
    + apply has_In in Eh'. unfold process_complement in H. rewrite Ex in H. cbn [mbind option_bind] in H. rewrite Et in H.
      assert (Hd : In (- a) done).
      { destruct (order_matters t); [eapply Permutation_in; eauto|now apply Hs]. }
      destruct t; try discriminate;
        try (apply make_constant_spec in H as (y & Ey & _ & HG & _); rewrite HG, lookup_insert; eexists; split; [reflexivity|];
             intros Hc; discriminate).
      exfalso. now apply (proj2 (Hkn eq_refl)).
    + apply add_new_inv in H as (y & Ey & H1 & H2 & HG & _). rewrite Ex in Ey. injection Ey as <-.
      rewrite HG, lookup_insert. eexists; split; [reflexivity|]. intros _. cbn [g_type g_min g_args with_args].
      split; [auto|]. split; [auto|]. destruct (order_matters t).
      * rewrite set_insert_perm by auto. rewrite <- Permutation_cons_append. now constructor.
      * intros b. rewrite set_insert_In, in_app_iff, Hs. simpl. firstorder congruence.
Qed.

Lemma Forall2_app_inv_last {A B} (R : A -> B -> Prop) l a vs : Forall2 R (l ++ [a]) vs ->
  exists vs' v, vs = vs' ++ [v] /\ Forall2 R l vs' /\ R a v.
Proof.
  intros H. apply List.Forall2_app_inv_l in H as (vs' & w & H1 & H2 & ->).
  inversion H2 as [|? v ? ? Hv Hn]; subst. inversion Hn; subst. eauto.
Qed.

(** What is known after [done] has been added to the empty gate [i] of [G]. *)
Record built (G : graph) (r : Z -> nat) (i : Z) (t : conn) (k : Z) (done : list Z) (G' : graph) : Prop := {
  b_wf : wf G';
  b_nxt : nxt G <= nxt G';
  b_rank : exists r', ranked G' r' /\ forall j l, j < nxt G -> l < nxt G -> (r j < r l)%nat -> (r' j < r' l)%nat;
  b_vars : forall j, 1 < j < nxt G -> (gs G' !! j = None <-> gs G !! j = None);
  b_fresh : forall j, nxt G <= j < nxt G' -> is_Some (gs G' !! j);
  b_others : forall j, j <> i -> j < nxt G -> gs G' !! j = gs G !! j;
  b_low : forall σ j b, 0 < j < nxt G -> (is_Some (gs G !! j) -> (r j < r i)%nat) ->
     (node_value G' σ j b <-> node_value G σ j b);
  b_value : forall σ vs, Forall2 (literal_value G σ) done vs -> done <> [] ->
     forall b, node_value G' σ i b <-> b = conn_value t k vs }.

Lemma built_step G r i t k done G1 a G2 x : wf G -> ranked G r -> is_Some (gs G !! i) -> built G r i t k done G1 -> gs G1 !! i = Some x -> added t k done x ->
  (forall b, In b (a :: done) -> low G r i b) ->
  ~ (t = kAtleast /\ length done = 2%nat /\ In a done) ->
  add_arg i a G1 = Some G2 -> built G r i t k (done ++ [a]) G2.
Proof.
  intros W Hr Hgi B Ex Hadd Hlow Hbug H.
  assert (Hi : 1 < i < nxt G) by (destruct Hgi as [y Ey]; now apply W in Ey).
  destruct (b_rank _ _ _ _ _ _ _ B) as (r1 & Hr1 & Hmono).
  pose proof (b_nxt _ _ _ _ _ _ _ B) as Hn1.
  assert (Hass : add_asserts x = true).
  { unfold add_arg in H. rewrite Ex in H. cbn [mbind option_bind] in H. destruct (add_asserts x); [auto|discriminate]. }
  destruct (Hadd Hass) as (Et & Ek & Hs).
  assert (La : below G a /\ (is_Some (gs G !! Z.abs a) -> (r (Z.abs a) < r i)%nat)) by (apply Hlow; left; auto).
  destruct La as [Hba Hra].
  assert (Hargs : forall b, In b (g_args x) -> In b done).
  { intros b Hb. destruct (order_matters t); [eapply Permutation_in; eauto|now apply Hs]. }
  assert (Hsome : forall j, 0 < j < nxt G -> is_Some (gs G1 !! j) -> is_Some (gs G !! j)).
  { intros j Hj [y Ey]. destruct (gs G !! j) eqn:E; [eauto|].
    assert (1 < j) by (apply (b_wf _ _ _ _ _ _ _ B) in Ey; lia).
    apply (b_vars _ _ _ _ _ _ _ B) in E; [congruence|lia]. }
  assert (C : changes G1 G2 i a (plus x a)).
  { eapply add_arg_changes; [apply B|exact Ex|destruct Hba; split; [auto|lia]| |exact H].
    intros (E1 & E2 & E3). apply Hbug. rewrite Et in E1. rewrite E1 in Hs. simpl in Hs. split; [auto|].
    rewrite <- (Permutation_length Hs). unfold size in E2. split; [lia|]. eapply Permutation_in; eauto. }
  assert (Hra1 : is_Some (gs G1 !! Z.abs a) -> (r1 (Z.abs a) < r1 i)%nat).
  { intros Hsm. apply Hmono; [destruct Hba; lia|lia|]. apply Hra, Hsome; auto. destruct Hba; lia. }
  destruct (changes_value G1 G2 i a x r1 (plus x a) (b_wf _ _ _ _ _ _ _ B) Hr1 Ex ltac:(destruct Hba; split; [auto|lia]) Hra1 ltac:(reflexivity) C)
    as (A1 & A2 & A3 & A4 & A5 & A6 & A7).
  destruct (ch_rank _ _ _ _ _ C r1 Hr1 Hra1) as (r2 & Hr2 & Hm2).
  pose proof (ch_nxt _ _ _ _ _ C) as Hn2.
  constructor; auto.
  - lia.
  - exists r2. split; auto. intros j l Hj Hl L. apply Hm2; [lia|lia|]. auto.
  - intros j Hj. rewrite A3 by lia. now apply B.
  - intros j Hj. destruct (Z.lt_ge_cases j (nxt G1)); [|apply A4; lia].
    destruct (b_fresh _ _ _ _ _ _ _ B j ltac:(lia)) as [y Ey]. destruct (Z.eq_dec j i) as [->|J]; [apply C|].
    rewrite A5 by auto. eauto.
  - intros j J L. rewrite A5 by (auto; lia). now apply B.
  - intros σ j b Hj Hji. rewrite A6; [now apply B|lia|]. intros Hsm. apply Hmono; [lia|lia|]. apply Hji, Hsome; auto; lia.
  - intros σ vs Hvs _. apply Forall2_app_inv_last in Hvs as (vs' & v & -> & Hvs & Hv).
    assert (Hlv : forall b w, In b (a :: done) -> literal_value G σ b w -> literal_value G1 σ b w).
    { intros b w Hb (u & Hu & ->). destruct (Hlow b Hb) as [[? ?] Hlb]. exists u. split; [|auto]. apply B; auto. lia. }
    destruct (literal_total G1 r1 σ (a :: g_args x) (b_wf _ _ _ _ _ _ _ B) Hr1) as [ws Hws].
    intros b. rewrite (A7 σ ws Hws b).
    erewrite (value_of_added G1 r1 σ (g_type x) (g_min x) done (g_args x) a vs' ws v).
    + rewrite Et, Ek. tauto.
    + apply B.
    + auto.
    + intros b' Hb'. destruct (Hlow b' Hb') as [[? ?] _]. split; [auto|lia].
    + rewrite Et. exact Hs.
    + clear - Hvs Hlv. induction Hvs; constructor; [apply Hlv; simpl; auto|]. apply IHHvs. intros b w Hb. apply Hlv. simpl in *. tauto.
    + exact Hws.
    + apply Hlv; auto. left; auto.
Qed.

(** A gate built from the empty gate by adding the arguments of a list one after the
    other means its connective applied to the list: any list for AND/OR/NAND/NOR/XOR/
    NOT/NULL (if no assert fails); for K/N the arguments before the last are over
    distinct nodes, and the last is not a duplicate if there are just two others. *)
Theorem C01_build i t k l G G' r : wf G -> ranked G r -> gs G !! i = Some (Gate t k []) ->
  (forall a, In a l -> below G a /\ (is_Some (gs G !! Z.abs a) -> (r (Z.abs a) < r i)%nat)) -> l <> [] ->
  (t = kAtleast -> exists bs c, l = bs ++ [c] /\ List.NoDup (map Z.abs bs) /\ ~ (length bs = 2%nat /\ In c bs)) ->
  add_args i l G = Some G' ->
  wf G' /\ acyclic G' /\
  (forall j, 1 < j < nxt G -> (gs G' !! j = None <-> gs G !! j = None)) /\
  (forall j, j <> i -> j < nxt G -> gs G' !! j = gs G !! j) /\
  forall σ vs, Forall2 (literal_value G σ) l vs ->
   (forall b, node_value G' σ i b <-> b = conn_value t k vs).
Proof.
  intros W Hr Ex Hlow Hne Hkn H.
  assert (Gen : forall todo done G1 x, built G r i t k done G1 -> gs G1 !! i = Some x -> added t k done x ->
     l = done ++ todo -> add_args i todo G1 = Some G' -> built G r i t k l G').
  { induction todo as [|a todo IH]; intros done G1 x B E1 Hadd El Hrun.
    - injection Hrun as <-. rewrite app_nil_r in El. now subst.
    - cbn [add_args] in Hrun. apply bind_inv in Hrun as (G2 & Ha & Hrun).
      assert (B2 : built G r i t k (done ++ [a]) G2).
      { eapply built_step; eauto.
        - intros b Hb. apply Hlow. rewrite El, in_app_iff. destruct Hb as [<-|Hb]; simpl; auto.
        - intros (-> & L2 & Hin). destruct (Hkn eq_refl) as (bs & c & El' & Hnd & Hlast).
          rewrite El in El'. destruct todo as [|d todo] using rev_ind.
          + apply app_inj_tail in El' as [-> ->]. auto.
          + clear IHtodo. change (a :: todo ++ [d]) with ((a :: todo) ++ [d]) in El'. rewrite app_assoc in El'.
            apply app_inj_tail in El' as [<- ->]. rewrite map_app in Hnd. simpl in Hnd.
            apply NoDup_remove_2 in Hnd. apply Hnd. rewrite in_app_iff. left. now apply in_map. }
      destruct todo as [|d todo].
      + injection Hrun as <-. now subst.
      + destruct (add_arg_added i a G1 G2 x t k done (b_wf _ _ _ _ _ _ _ B) E1 Hadd) as (x2 & E2 & Hadd2); auto.
        { intros ->. destruct (Hkn eq_refl) as (bs & c & El' & Hnd & Hlast).
          rewrite El in El'. destruct (exists_last (l := d :: todo)) as (td & e & Etd); [discriminate|]. rewrite Etd in El'.
          change (a :: td ++ [e]) with ((a :: td) ++ [e]) in El'. rewrite app_assoc in El'.
          apply app_inj_tail in El' as [<- _]. rewrite map_app in Hnd. simpl in Hnd.
          apply NoDup_remove_2 in Hnd. split; intros Hin; apply Hnd; rewrite in_app_iff; left.
          - now apply in_map.
          - rewrite <- (Z.abs_opp a). now apply in_map. }
        eapply (IH (done ++ [a]) G2); eauto. now rewrite <- app_assoc. }
  assert (B : built G r i t k l G').
  { eapply (Gen l [] G (Gate t k [])); eauto.
    - constructor; auto; try tauto; try lia; try (now exists r); try (intros; lia).
    - intros _. cbn [g_type g_min g_args]. repeat split; auto. destruct (order_matters t); [constructor|tauto]. }
  split; [apply B|]. split; [destruct (b_rank _ _ _ _ _ _ _ B) as (r' & ? & _); now exists r'|].
  split; [apply B|]. split; [apply B|]. intros σ vs Hvs. apply B; auto.
Qed.

(** The defect: a 2-out-of-[x, z] gate which gets [x] again must mean [x]
    (two copies of [x] suffice, [z] alone does not), but it becomes [z].
    Such a gate arises from at-least 2 of [x, z, g] with g := null(x). *)
Theorem C01_duplicate_refuted :
  exists i a x G G', wf G /\ acyclic G /\ gs G !! i = Some x /\ below G a /\ 
    add_any i a G = Some G' /\
    exists σ vs, Forall2 (literal_value G σ) (a :: g_args x) vs /\
      ~ node_value G' σ i (conn_value (g_type x) (g_min x) vs).
Proof.
  set (x := Gate kAtleast 2 [2; 3]).
  set (G := Graph {[4 := x]} 5 [] true).
  set (G' := default G (add_any 4 2 G)).
  exists 4, 2, x, G, G'.
  assert (W : wf G).
  { split; [simpl; lia|]. intros i y E. cbn [G gs] in E. apply lookup_singleton_Some in E as [<- <-]. simpl. split; [lia|].
    split; [repeat constructor; simpl; lia|]. intros a [<-|[<-|[]]]; simpl; lia. }
  assert (A : acyclic G).
  { exists (fun _ => 0%nat). intros i y a E Ha [z Hz]. cbn [G gs] in E, Hz. apply lookup_singleton_Some in E as [<- <-].
    apply lookup_singleton_Some in Hz as [E _]. destruct Ha as [<-|[<-|[]]]; simpl in E; lia. }
  split; [exact W|]. split; [exact A|]. split; [reflexivity|]. split; [split; simpl; lia|]. split; [vm_compute; reflexivity|].
  exists (fun j => j =? 2), [true; true; false]. split.
  - assert (N : forall j, j = 2 \/ j = 3 -> node_value G (fun j => j =? 2) j (j =? 2)).
    { intros j Hj. destruct (node_value_total G (fun j => j =? 2) j W A) as (b & ν & Hc & Hv & Hb).
      exists ν. split; [auto|]. split; [auto|]. apply Hv; [simpl; lia|]. apply lookup_singleton_None. lia. }
    repeat constructor; (eexists; split; [apply N; auto|]; reflexivity).
  - intros (ν & [_ Hc] & Hv & Hb). specialize (Hc 4 (Gate kNull 2 [3]) eq_refl).
    rewrite Hc in Hb. unfold gate_value, lit in Hb. cbn in Hb. rewrite (Hv 3) in Hb; [discriminate|vm_compute; split; reflexivity|reflexivity].
Qed.

(** ** The hypotheses are met by non-trivial cases *)
Definition ex_graph : graph := Graph {[5 := Gate kAtleast 3 [2; 3; 4]; 6 := Gate kXor 0 []]} 7 [] true.
Example ex_duplicate : exists G', add_any 5 2 ex_graph = Some G' /\
  gs G' !! 5 = Some (Gate kAnd 3 [2; 7]) /\ gs G' !! 7 = Some (Gate kOr 1 [3; 4]).
Proof. eexists; split; [reflexivity|]. split; reflexivity. Qed.
Example ex_complement : exists G', add_any 5 (-3) ex_graph = Some G' /\ gs G' !! 5 = Some (Gate kAnd 2 [2; 4]).
Proof. eexists; split; [reflexivity|]. reflexivity. Qed.
Example ex_wf : wf ex_graph /\ ranked ex_graph (fun _ => 0%nat).
Proof.
  assert (C : forall i x, gs ex_graph !! i = Some x -> (i = 5 /\ x = Gate kAtleast 3 [2; 3; 4]) \/ (i = 6 /\ x = Gate kXor 0 [])).
  { intros i x E. unfold ex_graph in E. simpl in E.
    apply lookup_insert_Some in E as [[<- <-]|[_ E]]; [auto|]. apply lookup_singleton_Some in E as [<- <-]. auto. }
  split; [split; [simpl; lia|]|].
  - intros i x E. destruct (C i x E) as [[-> ->]|[-> ->]]; simpl; (split; [lia|]).
    + split; [repeat constructor; simpl; lia|]. intros a [<-|[<-|[<-|[]]]]; simpl; lia.
    + split; [constructor|intros ? []].
  - intros i x a E Ha [y Hy]. exfalso. destruct (C i x E) as [[-> ->]|[-> ->]]; [|destruct Ha].
    destruct (C _ _ Hy) as [[Ey _]|[Ey _]]; destruct Ha as [<-|[<-|[<-|[]]]]; simpl in Ey; lia.
Qed.
Example ex_build : exists G', add_args 6 [2; -2] ex_graph = Some G' /\ gs G' !! 6 = Some (Gate kNull 0 [1]).
Proof. eexists; split; [reflexivity|]. reflexivity. Qed.
