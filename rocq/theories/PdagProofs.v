From stdpp Require Import gmap.
From Coq Require Import Lia Permutation.
From Verif Require Import Pdag.
Open Scope Z_scope.

Ltac inv_bind H :=
  match type of H with
  | (?m ≫= _) = Some _ =>
      let E := fresh "E" in destruct m eqn:E; cbn [mbind option_bind] in H; [|discriminate H]
  end.

(** ** Sets as lists *)
Lemma has_In x l : has x l = true <-> In x l.
Proof.
  unfold has. rewrite existsb_exists. split.
  - intros (y & Hy & E). apply Z.eqb_eq in E. now subst.
  - intros H. exists x. split; [auto|apply Z.eqb_refl].
Qed.
Lemma has_false x l : has x l = false <-> ~ In x l.
Proof. rewrite <- has_In. now destruct (has x l). Qed.

Lemma set_insert_perm x l : ~ In x l -> Permutation (set_insert x l) (x :: l).
Proof.
  induction l as [|y t IH]; simpl; intros H; [reflexivity|].
  destruct (x <? y); [reflexivity|]. destruct (Z.eqb_spec x y) as [->|Hn].
  - exfalso. apply H. now left.
  - rewrite IH by tauto. apply perm_swap.
Qed.
Lemma set_erase_notin x l : ~ In x l -> set_erase x l = l.
Proof.
  induction l as [|y t IH]; simpl; intros H; [reflexivity|].
  destruct (Z.eqb_spec x y) as [->|Hn]; simpl; [tauto|]. f_equal. apply IH. tauto.
Qed.
Lemma set_erase_In x y l : In y (set_erase x l) <-> In y l /\ y <> x.
Proof.
  unfold set_erase. rewrite filter_In, negb_true_iff, Z.eqb_neq. intuition congruence.
Qed.
Lemma set_erase_perm x l : List.NoDup l -> In x l -> Permutation l (x :: set_erase x l).
Proof.
  induction 1 as [|y t Hy Ht IH]; simpl; intros H; [contradiction|].
  destruct (Z.eqb_spec x y) as [->|Hn]; simpl.
  - rewrite set_erase_notin by auto. reflexivity.
  - destruct H as [->|H]; [congruence|]. rewrite (IH H) at 1. apply perm_swap.
Qed.
Lemma set_erase_NoDup x l : List.NoDup l -> List.NoDup (set_erase x l).
Proof. intros H. unfold set_erase. now apply List.NoDup_filter. Qed.
Lemma set_insert_In x y l : In y (set_insert x l) <-> y = x \/ In y l.
Proof.
  induction l as [|z t IH]; simpl; [intuition congruence|].
  destruct (x <? z); simpl; [intuition congruence|].
  destruct (Z.eqb_spec x z) as [->|Hn]; simpl; [intuition congruence|]. rewrite IH. tauto.
Qed.

(** ** Values *)
Lemma count_perm vs vs' : Permutation vs vs' -> count vs = count vs'.
Proof.
  unfold count. intros H. f_equal. apply Permutation_length.
  induction H; simpl.
  - reflexivity.
  - destruct x; [now apply Permutation_cons|auto].
  - destruct x, y; reflexivity || apply perm_swap.
  - etransitivity; eauto.
Qed.
Lemma count_cons b vs : count (b :: vs) = (if b then 1 else 0) + count vs.
Proof. unfold count; simpl. destruct b; simpl; lia. Qed.
Lemma count_bounds vs : 0 <= count vs <= Z.of_nat (length vs).
Proof.
  induction vs as [|b vs IH]; [unfold count; simpl; lia|].
  rewrite count_cons. simpl length. destruct b; lia.
Qed.
Lemma forallb_count vs : forallb (fun b => b) vs = (Z.of_nat (length vs) <=? count vs).
Proof.
  induction vs as [|b vs IH]; [reflexivity|].
  rewrite count_cons. simpl. rewrite IH. pose proof (count_bounds vs).
  destruct b; cbn [andb]; destruct (Z.leb_spec (Z.of_nat (length vs)) (count vs));
    symmetry; (apply Z.leb_le || apply Z.leb_gt); lia.
Qed.
Lemma existsb_count vs : existsb (fun b => b) vs = (1 <=? count vs).
Proof.
  induction vs as [|b vs IH]; [reflexivity|].
  rewrite count_cons. simpl. rewrite IH. pose proof (count_bounds vs).
  destruct b; cbn [orb]; symmetry; [apply Z.leb_le; lia|]. reflexivity.
Qed.
Lemma conn_value_perm t k vs vs' : Permutation vs vs' -> conn_value t k vs = conn_value t k vs'.
Proof.
  intros H. pose proof (count_perm _ _ H) as Hc. pose proof (Permutation_length H) as Hl.
  assert (H1 : match vs with [v] => v | _ => false end = match vs' with [v] => v | _ => false end).
  { destruct vs as [|v [|]], vs' as [|v' [|]]; simpl in Hl; try lia; auto.
    unfold count in Hc; simpl in Hc. destruct v, v'; simpl in Hc; auto; lia. }
  assert (H2 : match vs with [v] => negb v | _ => false end = match vs' with [v] => negb v | _ => false end).
  { destruct vs as [|v [|]], vs' as [|v' [|]]; simpl in Hl; try lia; auto. now rewrite H1. }
  destruct t; simpl; rewrite ?forallb_count, ?existsb_count, ?Hl, ?Hc; auto.
Qed.
Lemma value_perm ν t k l l' : Permutation l l' ->
  conn_value t k (map (lit ν) l) = conn_value t k (map (lit ν) l').
Proof. intros H. now apply conn_value_perm, Permutation_map. Qed.

Lemma lit_opp ν a : a <> 0 -> lit ν (- a) = negb (lit ν a).
Proof.
  intros H. unfold lit. destruct (Z.ltb_spec a 0), (Z.ltb_spec (-a) 0); try lia.
  - rewrite negb_involutive. reflexivity.
  - now rewrite Z.opp_involutive.
Qed.
Lemma lit_agree ν ν' n a : (forall j, j < n -> ν' j = ν j) -> Z.abs a < n -> lit ν' a = lit ν a.
Proof. intros H Ha. unfold lit. destruct (Z.ltb_spec a 0); rewrite H by lia; auto. Qed.

(** ** Well-formed graphs *)
Definition args_ok (n : Z) (l : list Z) : Prop :=
  List.NoDup l /\ forall a, In a l -> a <> 0 /\ Z.abs a < n /\ ~ In (- a) l.
Definition wf (G : graph) : Prop :=
  1 < nxt G /\ forall i x, gs G !! i = Some x -> 1 < i < nxt G /\ args_ok (nxt G) (g_args x).

Lemma args_ok_mono n m l : args_ok n l -> n <= m -> args_ok m l.
Proof. intros [H1 H2] Hm. split; [auto|]. intros a Ha. destruct (H2 a Ha) as (?&?&?). repeat split; auto; lia. Qed.
Lemma args_ok_erase n l a : args_ok n l -> args_ok n (set_erase a l).
Proof.
  intros [H1 H2]. split; [now apply set_erase_NoDup|].
  intros b Hb. apply set_erase_In in Hb as [Hb Hn]. destruct (H2 b Hb) as (?&?&Hc).
  repeat split; auto. rewrite set_erase_In. tauto.
Qed.
Lemma args_ok_insert n l a : args_ok n l -> a <> 0 -> Z.abs a < n -> ~ In a l -> ~ In (- a) l ->
  args_ok n (set_insert a l).
Proof.
  intros [H1 H2] Ha0 Han Ha Hna. split.
  - eapply Permutation_NoDup; [symmetry; now apply set_insert_perm|]. now constructor.
  - intros b Hb. apply set_insert_In in Hb as [->|Hb].
    + repeat split; auto. rewrite set_insert_In. intros [E|E]; [lia|tauto].
    + destruct (H2 b Hb) as (?&?&Hc). repeat split; auto. rewrite set_insert_In.
      intros [E|E]; [|tauto]. apply Hna. now rewrite <- E, Z.opp_involutive.
Qed.
Lemma args_ok_nil n : args_ok n [].
Proof. split; [constructor|intros ? []]. Qed.
Lemma args_ok_single n a : a <> 0 -> Z.abs a < n -> args_ok n [a].
Proof.
  intros H1 H2. split; [repeat constructor; simpl; tauto|].
  intros b [->|[]]. repeat split; auto. simpl. lia.
Qed.

(** ** One gate changes: the graph [G'] is [G] where gate [i] is given the meaning [P] *)
Definition sets (G G' : graph) (i : Z) (P : (Z -> bool) -> bool) : Prop :=
  forall ν, ν 1 = true -> (forall j x, j <> i -> gs G !! j = Some x -> ν j = gate_value ν x) ->
    ν i = P ν -> exists ν', consistent G' ν' /\ forall j, j < nxt G -> ν' j = ν j.
(** ... and an acyclic arrangement in which [a] is below [i] stays acyclic. *)
Definition keeps_rank (G G' : graph) (i a : Z) : Prop :=
  forall r, ranked G r -> (is_Some (gs G !! Z.abs a) -> (r (Z.abs a) < r i)%nat) ->
    exists r', ranked G' r' /\ forall j k, j < nxt G -> k < nxt G -> (r j < r k)%nat <-> (r' j < r' k)%nat.
Record changes (G G' : graph) (i a : Z) (P : (Z -> bool) -> bool) : Prop := {
  ch_wf : wf G';
  ch_nxt : nxt G <= nxt G';
  ch_others : forall j, j <> i -> j < nxt G -> gs G' !! j = gs G !! j;
  ch_self : is_Some (gs G' !! i);
  ch_fresh : forall j, nxt G <= j < nxt G' -> is_Some (gs G' !! j);
  ch_sets : sets G G' i P;
  ch_rank : keeps_rank G G' i a }.

(** A change of one gate without fresh gates. *)
Lemma changes_simple G G' i a x x' P :
  wf G -> gs G !! i = Some x -> gs G' = <[i := x']> (gs G) -> nxt G' = nxt G ->
  args_ok (nxt G) (g_args x') ->
  (forall b, In b (g_args x') -> In b (g_args x) \/ Z.abs b = Z.abs a \/ Z.abs b = 1) ->
  (forall ν, ν 1 = true -> P ν = gate_value ν x') ->
  changes G G' i a P.
Proof.
  intros W E HG Hn Ha Hsub HP. destruct W as [W0 W].
  constructor.
  - split; [lia|]. intros j y. rewrite HG. destruct (Z.eq_dec j i) as [->|Hj].
    + rewrite lookup_insert. intros [= <-]. rewrite Hn. split; [apply (W _ _ E)|auto].
    + rewrite lookup_insert_ne by congruence. rewrite Hn. apply W.
  - lia.
  - intros j Hj _. rewrite HG. rewrite lookup_insert_ne by congruence; auto.
  - rewrite HG, lookup_insert. eauto.
  - intros j Hj. lia.
  - intros ν H1 Hc Hi. exists ν. split; [|auto]. split; [auto|].
    intros j y. rewrite HG. destruct (Z.eq_dec j i) as [->|Hj].
    + rewrite lookup_insert. intros [= <-]. rewrite Hi. auto.
    + rewrite lookup_insert_ne by congruence. auto.
  - intros r Hr Hra. exists r. split; [|intros; reflexivity].
    assert (Hsome : forall k, is_Some (gs G' !! k) -> is_Some (gs G !! k)).
    { intros k. rewrite HG. destruct (Z.eq_dec k i) as [->|Hk].
      - intros _. eauto.
      - now rewrite lookup_insert_ne by congruence. }
    intros j y b Hy Hb Hs. apply Hsome in Hs. rewrite HG in Hy. destruct (Z.eq_dec j i) as [->|Hj].
    + rewrite lookup_insert in Hy. injection Hy as <-.
      destruct (Hsub b Hb) as [Hin|[Hab|Hab]].
      * eapply Hr; eauto.
      * rewrite Hab in *. auto.
      * rewrite Hab in Hs. destruct Hs as [z Hz]. apply W in Hz. lia.
    + rewrite lookup_insert_ne in Hy by congruence. eapply Hr; eauto.
Qed.

Lemma set_type_spec i t G G' : set_type i t G = Some G' ->
  exists x, gs G !! i = Some x /\ gs G' = <[i := Gate t (g_min x) (g_args x)]> (gs G) /\ nxt G' = nxt G.
Proof. unfold set_type. destruct (gs G !! i) as [x|]; [|discriminate]. intros [= <-]. eauto. Qed.

Lemma make_constant_spec i s G G' : make_constant i s G = Some G' ->
  exists x, gs G !! i = Some x /\ constant x = false /\
   gs G' = <[i := Gate kNull (g_min x) [if s then 1 else -1]]> (gs G) /\ nxt G' = nxt G.
Proof.
  unfold make_constant. intros H. inv_bind H. destruct (constant g) eqn:Ec; [discriminate|].
  unfold erase_args in H. rewrite E in H. cbn [mbind option_bind] in H.
  unfold set_type, put in H. simpl in H. rewrite lookup_insert in H. cbn [mbind option_bind] in H.
  simpl in H. rewrite lookup_insert in H. injection H as <-. simpl.
  exists g. rewrite !insert_insert. auto.
Qed.

Definition below (G : graph) (a : Z) : Prop := a <> 0 /\ Z.abs a < nxt G.

Lemma const_value ν (s : bool) : ν 1 = true -> lit ν (if s then 1 else -1) = s.
Proof. intros H. destruct s; unfold lit; cbn -[Z.opp]; [exact H|]. change (- -1) with 1. now rewrite H. Qed.

(** Adding a constant argument. *)
Lemma make_constant_changes i a (s : bool) G G' P : wf G -> make_constant i s G = Some G' ->
  (forall ν, ν 1 = true -> P ν = s) -> changes G G' i a P.
Proof.
  intros W H HP. apply make_constant_spec in H as (x & E & _ & HG & Hn).
  eapply changes_simple; eauto; simpl.
  - destruct W as [W0 _]. destruct s; apply args_ok_single; lia.
  - intros b [<-|[]]. right; right. destruct s; reflexivity.
  - intros ν H1. etransitivity; [now apply HP|]. unfold gate_value; simpl. symmetry. now apply const_value.
Qed.

Lemma set_type_changes i a t G G' x P : wf G -> set_type i t G = Some G' -> gs G !! i = Some x ->
  (forall ν, ν 1 = true -> P ν = conn_value t (g_min x) (map (lit ν) (g_args x))) ->
  changes G G' i a P.
Proof.
  intros W H Ex HP. apply set_type_spec in H as (y & E & HG & Hn). rewrite E in Ex. injection Ex as ->.
  eapply changes_simple; eauto; simpl; auto. apply W in E. apply E.
Qed.

Lemma id_changes i a G x P : wf G -> gs G !! i = Some x ->
  (forall ν, ν 1 = true -> P ν = gate_value ν x) -> changes G G i a P.
Proof.
  intros W E HP. eapply changes_simple; eauto.
  - now rewrite insert_id.
  - apply W in E. apply E.
Qed.

Lemma reduce_logic_changes i a t m G G' x P : wf G -> reduce_logic i t m G = Some G' -> gs G !! i = Some x ->
  (forall ν, ν 1 = true -> P ν = gate_value ν x) ->
  (size (g_args x) = m -> forall ν, ν 1 = true -> P ν = conn_value t (g_min x) (map (lit ν) (g_args x))) ->
  changes G G' i a P.
Proof.
  intros W H Ex H1 H2. unfold reduce_logic in H. rewrite Ex in H. cbn [mbind option_bind] in H.
  destruct (g_args x) eqn:Ea; [discriminate|]. rewrite <- Ea in *.
  destruct (Z.eqb_spec (size (g_args x)) m) as [Em|_].
  - eapply set_type_changes; eauto.
  - injection H as <-. eapply id_changes; eauto.
Qed.

(** What the gate is to mean after [a] has been added. *)
Definition plus (x : gate) (a : Z) (ν : Z -> bool) : bool :=
  conn_value (g_type x) (g_min x) (lit ν a :: map (lit ν) (g_args x)).

Ltac vbool := repeat match goal with
  | |- context [?a <=? ?b] => destruct (Z.leb_spec a b)
  end; try reflexivity; try lia.

Lemma size_map ν l : Z.of_nat (length (map (lit ν) l)) = size l.
Proof. unfold size. now rewrite map_length. Qed.

Lemma size1 l : size l = 1 -> exists a, l = [a].
Proof. unfold size. destruct l as [|a [|]]; simpl; try lia. eauto. Qed.

Lemma lit_t ν : ν 1 = true -> lit ν 1 = true.
Proof. auto. Qed.
Lemma lit_f ν : ν 1 = true -> lit ν (-1) = false.
Proof. intros H. exact (const_value ν false H). Qed.
Ltac cst H1 := simpl; rewrite ?(lit_t _ H1), ?(lit_f _ H1); simpl; rewrite ?andb_true_r, ?orb_false_r; try reflexivity.
Lemma add_constant_changes i (s : bool) G G' x : wf G -> gs G !! i = Some x ->
  (g_type x = kNot \/ g_type x = kNull -> g_args x = []) ->
  add_constant_arg i s G = Some G' -> changes G G' i (if s then 1 else -1) (plus x (if s then 1 else -1)).
Proof.
  intros W Ex H0 H. unfold add_constant_arg in H. rewrite Ex in H. cbn [mbind option_bind] in H.
  unfold plus.
  destruct s.
  - destruct (g_type x) eqn:Et.
    + eapply reduce_logic_changes; eauto.
      * intros ν H1. unfold gate_value. rewrite Et. cst H1.
      * intros Hs ν H1. apply size1 in Hs as (b & ->). cst H1.
    + eapply make_constant_changes; eauto; intros ν H1; cst H1.
    + destruct ((size (g_args x) <? 2) || (g_min x <=? 0)) eqn:Eg; [discriminate|].
      unfold set_min in H. rewrite Ex in H. cbn [mbind option_bind] in H.
      assert (HP : forall ν, ν 1 = true -> conn_value kAtleast (g_min x) (lit ν 1 :: map (lit ν) (g_args x))
                  = conn_value kAtleast (g_min x - 1) (map (lit ν) (g_args x))).
      { intros ν H1. cst H1. rewrite count_cons. vbool. }
      assert (Ha : args_ok (nxt G) (g_args x)) by (apply W in Ex; apply Ex).
      destruct (Z.eqb_spec (g_min x - 1) 1) as [Em|Em].
      * apply set_type_spec in H as (y & E & HG & Hn). simpl in E, HG. rewrite lookup_insert in E.
        injection E as <-. simpl in HG. rewrite insert_insert in HG.
        eapply changes_simple; eauto; simpl; auto. intros ν H1. etransitivity; [now apply HP|].
        unfold gate_value; simpl. rewrite existsb_count, Em. reflexivity.
      * injection H as <-. eapply changes_simple with (x' := with_min x (g_min x - 1)); [exact W|exact Ex|reflexivity|reflexivity|exact Ha|simpl; auto|].
        intros ν H1. etransitivity; [now apply HP|]. unfold gate_value; simpl. now rewrite Et.
    + destruct (Z.eqb_spec (size (g_args x)) 1) as [Hs|]; [|discriminate].
      eapply set_type_changes; eauto. intros ν H1. apply size1 in Hs as (b & ->). cst H1.
      unfold count; simpl. now destruct (lit ν b).
    + rewrite H0 by auto. eapply make_constant_changes; eauto; intros ν H1; cst H1.
    + eapply reduce_logic_changes; eauto.
      * intros ν H1. unfold gate_value. rewrite Et. cst H1.
      * intros Hs ν H1. apply size1 in Hs as (b & ->). cst H1.
    + eapply make_constant_changes; eauto; intros ν H1; cst H1.
    + rewrite H0 by auto. eapply make_constant_changes; eauto; intros ν H1; cst H1.
  - destruct (g_type x) eqn:Et.
    + eapply make_constant_changes; eauto; intros ν H1; cst H1.
    + eapply reduce_logic_changes; eauto.
      * intros ν H1. unfold gate_value. rewrite Et. cst H1.
      * intros Hs ν H1. apply size1 in Hs as (b & ->). cst H1.
    + destruct (size (g_args x) <? 2) eqn:Eg; [discriminate|].
      assert (HP : forall ν, ν 1 = true -> conn_value kAtleast (g_min x) (lit ν (-1) :: map (lit ν) (g_args x))
                  = conn_value kAtleast (g_min x) (map (lit ν) (g_args x))).
      { intros ν H1. cst H1. }
      eapply reduce_logic_changes; eauto.
      * intros ν H1. etransitivity; [now apply HP|]. unfold gate_value. now rewrite Et.
      * intros Hs ν H1. etransitivity; [now apply HP|]. simpl. rewrite forallb_count, size_map, Hs. reflexivity.
    + destruct (Z.eqb_spec (size (g_args x)) 1) as [Hs|]; [|discriminate].
      eapply set_type_changes; eauto. intros ν H1. apply size1 in Hs as (b & ->). cst H1.
      unfold count; simpl. now destruct (lit ν b).
    + rewrite H0 by auto. eapply make_constant_changes; eauto; intros ν H1; cst H1.
    + eapply make_constant_changes; eauto; intros ν H1; cst H1.
    + eapply reduce_logic_changes; eauto.
      * intros ν H1. unfold gate_value. rewrite Et. cst H1.
      * intros Hs ν H1. apply size1 in Hs as (b & ->). cst H1.
    + rewrite H0 by auto. eapply make_constant_changes; eauto; intros ν H1; cst H1.
Qed.

(** ** Inversions *)
Lemma bind_inv {A B} (m : option A) (k : A -> option B) r : m ≫= k = Some r ->
  exists a, m = Some a /\ k a = Some r.
Proof. destruct m; [eauto|discriminate]. Qed.
Lemma add_new_inv i a G G' : add_new i a G = Some G' ->
  exists x, gs G !! i = Some x /\ ~ In a (g_args x) /\ ~ In (- a) (g_args x) /\
    gs G' = <[i := with_args x (set_insert a (g_args x))]> (gs G) /\ nxt G' = nxt G.
Proof.
  unfold add_new. intros H. apply bind_inv in H as (x & E & H).
  destruct (add_asserts x && negb (has a (g_args x)) && negb (has (-a) (g_args x))) eqn:Ea; [|discriminate].
  injection H as <-. rewrite !andb_true_iff, !negb_true_iff, !has_false in Ea.
  exists x. simpl. tauto.
Qed.
Lemma set_min_inv i k G G' : set_min i k G = Some G' ->
  exists x, gs G !! i = Some x /\ gs G' = <[i := with_min x k]> (gs G) /\ nxt G' = nxt G.
Proof. unfold set_min. intros H. apply bind_inv in H as (x & E & H). injection H as <-. eauto. Qed.
Lemma erase_args_inv i G G' : erase_args i G = Some G' ->
  exists x, gs G !! i = Some x /\ gs G' = <[i := with_args x []]> (gs G) /\ nxt G' = nxt G.
Proof. unfold erase_args. intros H. apply bind_inv in H as (x & E & H). injection H as <-. eauto. Qed.
Lemma erase_arg_inv i a G G' : erase_arg i a G = Some G' ->
  exists x, gs G !! i = Some x /\ In a (g_args x) /\
    gs G' = <[i := with_args x (set_erase a (g_args x))]> (gs G) /\ nxt G' = nxt G.
Proof.
  unfold erase_arg. intros H. apply bind_inv in H as (x & E & H).
  destruct (has a (g_args x)) eqn:Ea; [|discriminate]. injection H as <-. apply has_In in Ea. eauto.
Qed.
Lemma clone_inv i G G' c : clone i G = Some (G', c) ->
  exists x, gs G !! i = Some x /\ constant x = false /\ g_type x <> kNull /\ c = nxt G /\
    gs G' = <[nxt G := x]> (gs G) /\ nxt G' = nxt G + 1.
Proof.
  unfold clone. destruct (gs G !! i) as [x|]; [|discriminate].
  destruct (constant x || conn_eqb (g_type x) kNull) eqn:Ec; [discriminate|]. intros [= <- <-].
  apply orb_false_iff in Ec as [E1 E2]. exists x. repeat split; auto. intros E. now rewrite E in E2.
Qed.
Lemma transfer_new_inv i a j G G' : transfer_new i a j G = Some G' -> i <> j ->
  exists x y, gs G !! i = Some x /\ gs G !! j = Some y /\ In a (g_args x) /\
    ~ In a (g_args y) /\ ~ In (- a) (g_args y) /\
    gs G' = <[j := with_args y (set_insert a (g_args y))]>
              (<[i := with_args x (set_erase a (g_args x))]> (gs G)) /\ nxt G' = nxt G.
Proof.
  unfold transfer_new. intros H Hij. apply bind_inv in H as (x & E & H).
  destruct (constant x); [discriminate|]. apply bind_inv in H as (G1 & E1 & H).
  apply erase_arg_inv in E1 as (x' & Ex' & Hin & HG1 & Hn1). rewrite E in Ex'. injection Ex' as <-.
  apply add_new_inv in H as (y & Ey & H1 & H2 & HG' & Hn'). rewrite HG1 in Ey.
  rewrite lookup_insert_ne in Ey by auto. exists x, y. rewrite HG', HG1, Hn', Hn1. repeat split; auto.
Qed.

(** A change of one gate that introduces fresh gates below it. *)
Lemma changes_fresh G G' i a x x' P (f : (Z -> bool) -> Z -> bool) (d : Z -> nat) :
  wf G -> gs G !! i = Some x -> wf G' -> nxt G <= nxt G' ->
  (forall j, j <> i -> j < nxt G -> gs G' !! j = gs G !! j) ->
  (forall j, nxt G <= j < nxt G' -> is_Some (gs G' !! j)) ->
  gs G' !! i = Some x' ->
  (forall j, (1 <= d j <= 3)%nat) ->
  (forall j y b, j = i \/ nxt G <= j -> gs G' !! j = Some y -> In b (g_args y) ->
     In b (g_args x) \/ Z.abs b = Z.abs a \/ (nxt G <= Z.abs b /\ (j = i \/ (d j < d (Z.abs b))%nat))) ->
  (forall ν ν', ν 1 = true -> (forall j, j < nxt G -> ν' j = ν j) -> (forall j, nxt G <= j -> ν' j = f ν j) ->
     P ν = gate_value ν' x' /\ forall j y, nxt G <= j -> gs G' !! j = Some y -> f ν j = gate_value ν' y) ->
  Z.abs a < nxt G ->
  changes G G' i a P.
Proof.
  intros W E W' Hn Ho Hf E' Hd Hsub HP Ha.
  constructor; auto; [eauto|..].
  - intros ν H1 Hc Hi.
    set (ν' := fun j => if j <? nxt G then ν j else f ν j).
    assert (V1 : forall j, j < nxt G -> ν' j = ν j).
    { intros j Hj. unfold ν'. apply Z.ltb_lt in Hj. now rewrite Hj. }
    assert (V2 : forall j, nxt G <= j -> ν' j = f ν j).
    { intros j Hj. unfold ν'. apply Z.ltb_ge in Hj. now rewrite Hj. }
    destruct (HP ν ν' H1 V1 V2) as [HP1 HP2].
    exists ν'. split; [|auto]. split; [rewrite V1; auto; apply W|].
    intros j y Ey. destruct (Z.lt_ge_cases j (nxt G)) as [Hj|Hj].
    + destruct (Z.eq_dec j i) as [->|Hji].
      * rewrite E' in Ey. injection Ey as <-. rewrite V1 by auto. congruence.
      * rewrite Ho in Ey by auto. rewrite V1 by auto. rewrite (Hc j y Hji Ey).
        unfold gate_value. f_equal. apply map_ext_in. intros b Hb. symmetry.
        eapply lit_agree; eauto. apply W in Ey as [_ [_ Hok]]. apply Hok. auto.
    + rewrite V2 by auto. auto.
  - intros r Hr Hra.
    set (r' := fun j => if j <? nxt G then (4 * r j + 4)%nat else (4 * r i + 4 - d j)%nat).
    assert (R1 : forall j, j < nxt G -> r' j = (4 * r j + 4)%nat).
    { intros j Hj. unfold r'. apply Z.ltb_lt in Hj. now rewrite Hj. }
    assert (R2 : forall j, nxt G <= j -> r' j = (4 * r i + 4 - d j)%nat).
    { intros j Hj. unfold r'. apply Z.ltb_ge in Hj. now rewrite Hj. }
    exists r'. split; [|intros j k Hj Hk; rewrite !R1 by auto; lia].
    assert (Hold : forall k, k < nxt G -> is_Some (gs G' !! k) -> is_Some (gs G !! k)).
    { intros k Hk Hs. destruct (Z.eq_dec k i) as [->|Hki]; [eauto|]. now rewrite Ho in Hs by auto. }
    assert (Hi : i < nxt G) by (apply W in E; lia).
    assert (Hbelow : forall b, In b (g_args x) \/ Z.abs b = Z.abs a -> is_Some (gs G' !! Z.abs b) ->
              (r' (Z.abs b) <= 4 * r i)%nat).
    { intros b [Hin|Hab] Hs.
      - assert (L : Z.abs b < nxt G) by (apply W in E as [_ [_ Hok]]; apply Hok; auto).
        rewrite R1 by auto. pose proof (Hr i x b E Hin (Hold _ L Hs)). lia.
      - rewrite Hab in *. rewrite R1 by auto. pose proof (Hra (Hold _ Ha Hs)). lia. }
    intros j y b Ey Hb Hs. destruct (Z.lt_ge_cases j (nxt G)) as [Hj|Hj].
    + rewrite (R1 j) by auto. destruct (Z.eq_dec j i) as [->|Hji].
      * destruct (Hsub i y b (or_introl eq_refl) Ey Hb) as [Hin|[Hab|[Hab _]]].
        -- pose proof (Hbelow b (or_introl Hin) Hs). lia.
        -- pose proof (Hbelow b (or_intror Hab) Hs). lia.
        -- rewrite R2 by auto. specialize (Hd (Z.abs b)). lia.
      * rewrite Ho in Ey by auto.
        assert (L : Z.abs b < nxt G) by (apply W in Ey as [_ [_ Hok]]; apply Hok; auto).
        rewrite R1 by auto. pose proof (Hr j y b Ey Hb (Hold _ L Hs)). lia.
    + rewrite (R2 j) by auto. pose proof (Hd j).
      destruct (Hsub j y b (or_intror Hj) Ey Hb) as [Hin|[Hab|[Hab [->|L]]]].
      * pose proof (Hbelow b (or_introl Hin) Hs). lia.
      * pose proof (Hbelow b (or_intror Hab) Hs). lia.
      * lia.
      * rewrite R2 by auto. specialize (Hd (Z.abs b)). lia.
Qed.

Lemma atleast_arith (v : bool) k c : 2 <= k -> 0 <= c ->
  (k <=? (if v then 1 else 0) + ((if v then 1 else 0) + c)) = (v && (k - 2 <=? c)) || (k <=? c).
Proof. intros. destruct v; cbn [andb orb]; vbool. Qed.

Arguments set_insert : simpl never.
(** The duplicate argument of a K/N gate, except the two-argument gate. *)
Lemma atleast_duplicate_changes i a G G' x : wf G -> gs G !! i = Some x -> g_type x = kAtleast ->
  In a (g_args x) -> size (g_args x) <> 2 ->
  atleast_duplicate i a G = Some G' -> changes G G' i a (plus x a).
Proof.
  intros W Ex Et Hin H2 H. unfold atleast_duplicate in H. rewrite Ex in H. cbn [mbind option_bind] in H.
  set (k := g_min x) in *. set (n := size (g_args x)) in *.
  destruct ((k <=? 1) || (n <? k)) eqn:Eg; [discriminate|].
  apply orb_false_iff in Eg as [Ek1 Enk]. apply Z.leb_gt in Ek1. apply Z.ltb_ge in Enk.
  destruct (Z.eqb_spec n 2) as [|_]; [contradiction|].
  assert (Hi : 1 < i < nxt G /\ args_ok (nxt G) (g_args x)) by (now apply W).
  destruct Hi as [Hi Hok].
  assert (Ha : a <> 0 /\ Z.abs a < nxt G /\ ~ In (- a) (g_args x)) by (now apply Hok).
  destruct Ha as (Ha0 & Han & Hna).
  assert (Hperm : Permutation (g_args x) (a :: set_erase a (g_args x))).
  { apply set_erase_perm; auto. apply Hok. }
  set (ys := set_erase a (g_args x)) in *.
  assert (Hys : size ys = n - 1).
  { unfold n, size. rewrite (Permutation_length Hperm). simpl length. lia. }
  assert (HyIn : forall b, In b ys -> In b (g_args x)) by (intros b Hb; apply set_erase_In in Hb; tauto).
  assert (Hyok : args_ok (nxt G) ys) by (now apply args_ok_erase).
  assert (Hv : forall ν, plus x a ν = (lit ν a && (k - 2 <=? count (map (lit ν) ys))) || (k <=? count (map (lit ν) ys))).
  { intros ν. unfold plus. rewrite Et. change (g_min x) with k. simpl.
    rewrite count_cons, (count_perm _ (map (lit ν) (a :: ys))) by now apply Permutation_map.
    simpl. rewrite count_cons. apply atleast_arith; [lia|]. apply count_bounds. }
  assert (Hag : forall ν ν', (forall j, j < nxt G -> ν' j = ν j) -> map (lit ν') ys = map (lit ν) ys).
  { intros ν ν' Hν. apply map_ext_in. intros b Hb. eapply lit_agree; eauto. apply Hyok. auto. }
  assert (Hla : forall ν ν', (forall j, j < nxt G -> ν' j = ν j) -> lit ν' a = lit ν a)
    by (intros; eapply lit_agree; eauto).
  assert (Hpos : forall ν j, 0 < j -> lit ν j = ν j).
  { intros ν j Hj. unfold lit. destruct (Z.ltb_spec j 0); [lia|auto]. }
  destruct (Z.eqb_spec k n) as [Ekn|Ekn].
  - (* k = n *)
    destruct (k <=? 2) eqn:Ek2; [discriminate|]. apply Z.leb_gt in Ek2.
    apply bind_inv in H as ([G1 c] & E1 & H). apply clone_inv in E1 as (x1 & Ex1 & _ & _ & -> & HG1 & N1).
    rewrite Ex in Ex1. injection Ex1 as <-.
    apply bind_inv in H as (G2 & E2 & H). apply set_min_inv in E2 as (x2 & Ex2 & HG2 & N2).
    rewrite HG1, lookup_insert in Ex2. injection Ex2 as <-. rewrite HG1, insert_insert in HG2.
    apply bind_inv in H as (G3 & E3 & H). apply erase_args_inv in E3 as (x3 & Ex3 & HG3 & N3).
    rewrite HG2, lookup_insert_ne in Ex3 by lia. rewrite Ex in Ex3. injection Ex3 as <-.
    apply bind_inv in H as (G4 & E4 & H). apply set_type_spec in E4 as (x4 & Ex4 & HG4 & N4).
    rewrite HG3, lookup_insert in Ex4. injection Ex4 as <-. rewrite HG3, insert_insert in HG4. simpl in HG4.
    apply bind_inv in H as (G5 & E5 & H). apply transfer_new_inv in E5 as (x5 & y5 & Ex5 & Ey5 & _ & _ & _ & HG5 & N5); [|lia].
    rewrite HG4, lookup_insert_ne in Ex5 by lia. rewrite HG2, lookup_insert in Ex5. injection Ex5 as <-.
    rewrite HG4, lookup_insert in Ey5. injection Ey5 as <-. simpl in HG5. fold ys in HG5.
    apply bind_inv in H as (G6 & E6 & H).
    apply add_new_inv in H as (x7 & Ex7 & _ & _ & HG' & N').
    assert (H6 : nxt G6 = nxt G5 /\ gs G6 = <[nxt G := Gate (if k - 2 =? 1 then kOr else kAtleast) (k - 2) ys]> (gs G5)).
    { assert (Hc : gs G5 !! nxt G = Some (Gate kAtleast (k - 2) ys)).
      { rewrite HG5, lookup_insert_ne, lookup_insert by lia. unfold with_args, with_min. simpl. now rewrite Et. }
      destruct (k - 2 =? 1).
      - apply set_type_spec in E6 as (x6 & Ex6 & HG6 & N6). rewrite Hc in Ex6. injection Ex6 as <-. auto.
      - injection E6 as <-. split; [auto|]. now rewrite insert_id. }
    destruct H6 as [N6 HG6].
    assert (Ex7' : x7 = Gate kAnd k [a]).
    { rewrite HG6, lookup_insert_ne, HG5, lookup_insert in Ex7 by lia. now injection Ex7 as <-. }
    subst x7. simpl in HG'.
    set (t2 := if k - 2 =? 1 then kOr else kAtleast) in *.
    assert (L_i : gs G' !! i = Some (Gate kAnd k (set_insert (nxt G) [a]))) by (rewrite HG', lookup_insert; auto).
    assert (L_c : gs G' !! nxt G = Some (Gate t2 (k - 2) ys)) by (rewrite HG', lookup_insert_ne, HG6, lookup_insert by lia; auto).
    assert (L_o : forall j, j <> i -> j <> nxt G -> gs G' !! j = gs G !! j).
    { intros j J1 J2. rewrite HG', lookup_insert_ne, HG6, lookup_insert_ne, HG5, lookup_insert_ne, lookup_insert_ne,
        HG4, lookup_insert_ne, HG2, lookup_insert_ne by congruence. auto. }
    assert (Nn : nxt G' = nxt G + 1) by congruence.
    assert (Hfresh : ~ In (nxt G) [a]) by (simpl; lia).
    apply (changes_fresh G G' i a x (Gate kAnd k (set_insert (nxt G) [a])) (plus x a)
             (fun ν _ => k - 2 <=? count (map (lit ν) ys)) (fun _ => 1%nat)); auto.
    + split; [destruct W; lia|]. intros j y Ey. rewrite Nn.
      destruct (Z.eq_dec j i) as [->|J1]; [|destruct (Z.eq_dec j (nxt G)) as [->|J2]].
      * rewrite L_i in Ey. injection Ey as <-. split; [lia|]. cbn [g_args].
        apply args_ok_insert; try (simpl; lia). apply args_ok_single; lia.
      * rewrite L_c in Ey. injection Ey as <-. split; [lia|]. cbn [g_args]. eapply args_ok_mono; eauto. lia.
      * rewrite L_o in Ey by auto. apply W in Ey as [? ?]. split; [lia|]. eapply args_ok_mono; eauto. lia.
    + lia.
    + intros j J1 J2. apply L_o; lia.
    + intros j Hj. replace j with (nxt G) by lia. eauto.
    + intros j y b Hj Ey Hb.
      destruct (Z.eq_dec j i) as [->|J1]; [|destruct (Z.eq_dec j (nxt G)) as [->|J2]].
      * rewrite L_i in Ey. injection Ey as <-. apply (proj1 (set_insert_In _ _ _)) in Hb.
        destruct Hb as [->|[->|[]]]; [|auto]. right; right. split; [lia|auto].
      * rewrite L_c in Ey. injection Ey as <-. left. now apply HyIn.
      * exfalso. rewrite L_o in Ey by auto. apply W in Ey. lia.
    + intros ν ν' H1 V1 V2. split.
      * rewrite Hv. unfold gate_value. cbn [g_type g_min g_args].
        rewrite (value_perm ν' kAnd k _ (nxt G :: [a]) (set_insert_perm _ _ Hfresh)). simpl.
        rewrite (Hla ν ν'), (Hpos ν' (nxt G)), V2 by (auto; destruct W; lia).
        pose proof (count_bounds (map (lit ν) ys)) as Hcb. rewrite size_map, Hys in Hcb.
        destruct (lit ν a), (Z.leb_spec (k-2) (count (map (lit ν) ys))); cbn [andb orb]; vbool.
      * intros j y Hj Ey. destruct (Z.eq_dec j (nxt G)) as [->|J2].
        -- rewrite L_c in Ey. injection Ey as <-. unfold gate_value. cbn [g_type g_min g_args]. rewrite (Hag ν ν') by auto.
           unfold t2. destruct (Z.eqb_spec (k - 2) 1) as [E|E]; simpl; auto. now rewrite existsb_count, E.
        -- exfalso. rewrite L_o in Ey by lia. apply W in Ey. lia.
  - (* k < n *)
    destruct (n <=? 2) eqn:En2; [discriminate|]. apply Z.leb_gt in En2.
    apply bind_inv in H as ([G1 c] & E1 & H). apply clone_inv in E1 as (x1 & Ex1 & _ & _ & -> & HG1 & N1).
    rewrite Ex in Ex1. injection Ex1 as <-.
    apply bind_inv in H as (G2 & E2 & H). apply erase_args_inv in E2 as (x2 & Ex2 & HG2 & N2).
    rewrite HG1, lookup_insert_ne in Ex2 by lia. rewrite Ex in Ex2. injection Ex2 as <-.
    apply bind_inv in H as (G3 & E3 & H). apply set_type_spec in E3 as (x3 & Ex3 & HG3 & N3).
    rewrite HG2, lookup_insert in Ex3. injection Ex3 as <-. rewrite HG2, insert_insert in HG3. simpl in HG3.
    apply bind_inv in H as (G4 & E4 & H). apply add_new_inv in E4 as (x4 & Ex4 & _ & _ & HG4 & N4).
    rewrite HG3, lookup_insert in Ex4. injection Ex4 as <-. rewrite HG3, insert_insert in HG4. simpl in HG4.
    fold k in HG4.
    apply bind_inv in H as (G8 & E8 & H).
    apply bind_inv in H as (x9 & Ex9 & H).
    destruct (size (g_args x9) <? g_min x9) eqn:E9; [discriminate|].
    assert (H9 : forall tl, x9 = Gate kAtleast k ys -> tl = (if size ys =? k then kAnd else kAtleast) ->
        nxt G' = nxt G8 /\ gs G' = <[nxt G := Gate tl k ys]> (gs G8)).
    { intros tl -> ->. simpl in H. destruct (size ys =? k).
      - apply set_type_spec in H as (x6 & Ex6 & HG6 & N6). rewrite Ex9 in Ex6. injection Ex6 as <-. auto.
      - injection H as <-. split; [auto|]. now rewrite insert_id. }
    clear H. specialize (H9 (if size ys =? k then kAnd else kAtleast)).
    set (t1 := if size ys =? k then kAnd else kAtleast) in *.
    assert (Vt1 : forall ν, gate_value ν (Gate t1 k ys) = (k <=? count (map (lit ν) ys))).
    { intros ν. unfold gate_value, t1. destruct (Z.eqb_spec (size ys) k) as [E|E]; simpl; auto.
      now rewrite forallb_count, size_map, E. }
    destruct (Z.eqb_spec k 2) as [K2|K2].
    + apply transfer_new_inv in E8 as (x5 & y5 & Ex5 & Ey5 & _ & _ & _ & HG8 & N8); [|lia].
      rewrite HG4, lookup_insert_ne, HG1, lookup_insert in Ex5 by lia. injection Ex5 as <-.
      rewrite HG4, lookup_insert in Ey5. injection Ey5 as <-. simpl in HG8. fold ys in HG8.
      assert (Hx9 : x9 = Gate kAtleast k ys).
      { rewrite HG8, lookup_insert_ne, lookup_insert in Ex9 by lia. injection Ex9 as <-.
        unfold with_args. simpl. now rewrite Et. }
      destruct (H9 Hx9 eq_refl) as [N' HG'].
      set (x' := Gate kOr k (set_insert a [nxt G])) in *.
      assert (L_i : gs G' !! i = Some x') by (rewrite HG', lookup_insert_ne, HG8, lookup_insert by lia; auto).
      assert (L_c : gs G' !! nxt G = Some (Gate t1 k ys)) by (rewrite HG', lookup_insert; auto).
      assert (L_o : forall j, j <> i -> j <> nxt G -> gs G' !! j = gs G !! j).
      { intros j J1 J2. rewrite HG', lookup_insert_ne, HG8, lookup_insert_ne, lookup_insert_ne,
          HG4, lookup_insert_ne, HG1, lookup_insert_ne by congruence. auto. }
      assert (Nn : nxt G' = nxt G + 1) by congruence.
      assert (Hfresh : ~ In a [nxt G]) by (simpl; lia).
      apply (changes_fresh G G' i a x x' (plus x a)
             (fun ν _ => k <=? count (map (lit ν) ys)) (fun _ => 1%nat)); auto.
      * split; [destruct W; lia|]. intros j y Ey. rewrite Nn.
        destruct (Z.eq_dec j i) as [->|J1]; [|destruct (Z.eq_dec j (nxt G)) as [->|J2]].
        -- rewrite L_i in Ey. injection Ey as <-. split; [lia|]. cbn [g_args].
           apply args_ok_insert; try (simpl; lia). apply args_ok_single; lia.
        -- rewrite L_c in Ey. injection Ey as <-. split; [lia|]. cbn [g_args]. eapply args_ok_mono; eauto. lia.
        -- rewrite L_o in Ey by auto. apply W in Ey as [? ?]. split; [lia|]. eapply args_ok_mono; eauto. lia.
      * lia.
      * intros j J1 J2. apply L_o; lia.
      * intros j Hj. replace j with (nxt G) by lia. eauto.
      * intros j y b Hj Ey Hb.
        destruct (Z.eq_dec j i) as [->|J1]; [|destruct (Z.eq_dec j (nxt G)) as [->|J2]].
        -- rewrite L_i in Ey. injection Ey as <-. apply (proj1 (set_insert_In _ _ _)) in Hb.
           destruct Hb as [->|[<-|[]]]; [auto|]. right; right. split; [lia|auto].
        -- rewrite L_c in Ey. injection Ey as <-. left. now apply HyIn.
        -- exfalso. rewrite L_o in Ey by auto. apply W in Ey. lia.
      * intros ν ν' H1 V1 V2. split.
        -- rewrite Hv. unfold gate_value, x'. cbn [g_type g_min g_args].
           rewrite (value_perm ν' kOr k _ (a :: [nxt G]) (set_insert_perm _ _ Hfresh)). simpl.
           rewrite (Hla ν ν'), (Hpos ν' (nxt G)), V2 by (auto; destruct W; lia).
           pose proof (count_bounds (map (lit ν) ys)) as Hcb.
           destruct (lit ν a); cbn [andb orb]; vbool.
        -- intros j y Hj Ey. destruct (Z.eq_dec j (nxt G)) as [->|J2].
           ++ rewrite L_c in Ey. injection Ey as <-. rewrite Vt1. now rewrite (Hag ν ν') by auto.
           ++ exfalso. rewrite L_o in Ey by lia. apply W in Ey. lia.
    + destruct (new_gate kAnd G4) as [G5 ag] eqn:E5. unfold new_gate in E5. injection E5 as <- <-.
      apply bind_inv in E8 as (G5 & E5 & E8). apply add_new_inv in E5 as (x5 & Ex5 & _ & _ & HG5 & N5).
      simpl in Ex5, HG5, N5. rewrite lookup_insert_ne, HG4, lookup_insert in Ex5 by lia. injection Ex5 as <-.
      simpl in HG5.
      apply bind_inv in E8 as (G6 & E6 & E8).
      apply transfer_new_inv in E6 as (x6 & y6 & Ex6 & Ey6 & _ & _ & _ & HG6 & N6); [|lia].
      rewrite HG5, lookup_insert_ne, lookup_insert_ne, HG4, lookup_insert_ne, HG1, lookup_insert in Ex6 by lia.
      injection Ex6 as <-.
      rewrite HG5, lookup_insert_ne, lookup_insert in Ey6 by lia. injection Ey6 as <-. simpl in HG6. fold ys in HG6.
      apply bind_inv in E8 as ([G7 c2] & E7 & E8).
      apply clone_inv in E7 as (x7 & Ex7 & _ & _ & -> & HG7 & N7).
      rewrite HG6, lookup_insert_ne, lookup_insert in Ex7 by lia. injection Ex7 as <-.
      apply bind_inv in E8 as (G7b & E7b & E8). apply set_min_inv in E7b as (x7b & Ex7b & HG7b & N7b).
      rewrite HG7, lookup_insert in Ex7b. injection Ex7b as <-. rewrite HG7, insert_insert in HG7b.
      apply bind_inv in E8 as (G7c & E7c & E8).
      set (t2 := if k - 2 =? 1 then kOr else kAtleast).
      assert (N4G : nxt G4 = nxt G + 1) by congruence.
      assert (N6G : nxt G6 = nxt G + 2) by lia.
      assert (H7c : nxt G7c = nxt G7b /\ gs G7c = <[nxt G6 := Gate t2 (k - 2) ys]> (gs G7b)).
      { assert (Hc : gs G7b !! nxt G6 = Some (Gate kAtleast (k - 2) ys)).
        { rewrite HG7b, lookup_insert. unfold with_args, with_min. simpl. now rewrite Et. }
        unfold t2. destruct (k - 2 =? 1).
        - apply set_type_spec in E7c as (z6 & Ez6 & HGz6 & Nz6). rewrite Hc in Ez6. injection Ez6 as <-. auto.
        - injection E7c as <-. split; [auto|]. now rewrite insert_id. }
      destruct H7c as [N7c HG7c].
      apply add_new_inv in E8 as (x8 & Ex8 & _ & _ & HG8 & N8).
      rewrite HG7c, lookup_insert_ne, HG7b, lookup_insert_ne, HG6, N4G, lookup_insert in Ex8 by lia.
      injection Ex8 as <-. simpl in HG8. rewrite N4G in HG8.
      assert (Hx9 : x9 = Gate kAtleast k ys).
      { rewrite HG8, lookup_insert_ne, HG7c, lookup_insert_ne, HG7b, lookup_insert_ne, HG6, lookup_insert_ne, lookup_insert in Ex9 by lia.
        injection Ex9 as <-. unfold with_args. simpl. now rewrite Et. }
      destruct (H9 Hx9 eq_refl) as [N' HG'].
      set (x' := Gate kOr k (set_insert (nxt G + 1) [nxt G])).
      set (xa := Gate kAnd 0 (set_insert (nxt G + 2) [a])).
      assert (L_i : gs G' !! i = Some x').
      { rewrite HG', lookup_insert_ne, HG8, lookup_insert_ne, HG7c, lookup_insert_ne, HG7b, lookup_insert_ne,
          HG6, lookup_insert_ne, lookup_insert_ne, HG5, lookup_insert, N4G by lia. reflexivity. }
      assert (L_c : gs G' !! nxt G = Some (Gate t1 k ys)) by (rewrite HG', lookup_insert; auto).
      assert (L_a : gs G' !! (nxt G + 1) = Some xa).
      { rewrite HG', lookup_insert_ne, HG8, lookup_insert by lia. unfold xa. now rewrite N6G. }
      assert (L_2 : gs G' !! (nxt G + 2) = Some (Gate t2 (k - 2) ys)).
      { rewrite HG', lookup_insert_ne, HG8, lookup_insert_ne, HG7c, N6G, lookup_insert by lia. auto. }
      assert (L_o : forall j, j <> i -> ~ (nxt G <= j <= nxt G + 2) -> gs G' !! j = gs G !! j).
      { intros j J1 J2. rewrite HG', lookup_insert_ne, HG8, lookup_insert_ne, HG7c, lookup_insert_ne, HG7b, lookup_insert_ne,
          HG6, lookup_insert_ne, lookup_insert_ne, HG5, lookup_insert_ne, lookup_insert_ne, HG4, lookup_insert_ne, HG1, lookup_insert_ne by lia.
        auto. }
      assert (Nn : nxt G' = nxt G + 3) by lia.
      assert (F1 : ~ In (nxt G + 1) [nxt G]) by (simpl; lia).
      assert (F2 : ~ In (nxt G + 2) [a]) by (simpl; lia).
      assert (Hcases : forall j y, gs G' !! j = Some y ->
        (j = i /\ y = x') \/ (j = nxt G /\ y = Gate t1 k ys) \/ (j = nxt G + 1 /\ y = xa) \/
        (j = nxt G + 2 /\ y = Gate t2 (k - 2) ys) \/ (j <> i /\ j < nxt G /\ gs G !! j = Some y)).
      { intros j y Ey. destruct (Z.eq_dec j i) as [->|J0]; [left; split; congruence|].
        destruct (Z.eq_dec j (nxt G)) as [->|J1]; [right; left; split; congruence|].
        destruct (Z.eq_dec j (nxt G + 1)) as [->|J2]; [right; right; left; split; congruence|].
        destruct (Z.eq_dec j (nxt G + 2)) as [->|J3]; [right; right; right; left; split; congruence|].
        right; right; right; right. rewrite L_o in Ey by lia. split; [auto|]. split; [|auto]. apply W in Ey. lia. }
      apply (changes_fresh G G' i a x x' (plus x a)
             (fun ν j => if j =? nxt G then k <=? count (map (lit ν) ys)
                         else if j =? nxt G + 1 then lit ν a && (k - 2 <=? count (map (lit ν) ys))
                         else k - 2 <=? count (map (lit ν) ys))
             (fun j => if j =? nxt G + 2 then 2%nat else 1%nat)); auto.
      * split; [destruct W; lia|]. intros j y Ey. rewrite Nn.
        destruct (Hcases j y Ey) as [[-> ->]|[[-> ->]|[[-> ->]|[[-> ->]|(J0 & J1 & Ey')]]]]; (split; [try lia|]); cbn [g_args].
        -- apply args_ok_insert; try (simpl; lia). apply args_ok_single; lia.
        -- eapply args_ok_mono; eauto. lia.
        -- apply args_ok_insert; try (simpl; lia). apply args_ok_single; lia.
        -- eapply args_ok_mono; eauto. lia.
        -- apply W in Ey'. lia.
        -- apply W in Ey' as [_ ?]. eapply args_ok_mono; eauto. lia.
      * lia.
      * intros j J1 J2. apply L_o; lia.
      * intros j Hj. assert (j = nxt G \/ j = nxt G + 1 \/ j = nxt G + 2) as [->|[->| ->]] by lia; eauto.
      * intros j. destruct (j =? nxt G + 2); lia.
      * intros j y b Hj Ey Hb.
        destruct (Hcases j y Ey) as [[-> ->]|[[-> ->]|[[-> ->]|[[-> ->]|(J0 & J1 & Ey')]]]].
        -- apply (proj1 (set_insert_In _ _ _)) in Hb. right; right.
           destruct Hb as [->|[<-|[]]]; (split; [lia|auto]).
        -- left. now apply HyIn.
        -- apply (proj1 (set_insert_In _ _ _)) in Hb. destruct Hb as [->|[<-|[]]]; [|auto].
           right; right. split; [lia|]. right. rewrite Z.abs_eq by lia.
           rewrite Z.eqb_refl. destruct (Z.eqb_spec (nxt G + 1) (nxt G + 2)); lia.
        -- left. now apply HyIn.
        -- lia.
      * intros ν ν' H1 V1 V2.
        assert (P0 : ν' (nxt G) = (k <=? count (map (lit ν) ys))) by (rewrite V2, Z.eqb_refl by lia; auto).
        assert (P1 : ν' (nxt G + 1) = lit ν a && (k - 2 <=? count (map (lit ν) ys))).
        { rewrite V2 by lia. destruct (Z.eqb_spec (nxt G + 1) (nxt G)); [lia|]. now rewrite Z.eqb_refl. }
        assert (P2 : ν' (nxt G + 2) = (k - 2 <=? count (map (lit ν) ys))).
        { rewrite V2 by lia. destruct (Z.eqb_spec (nxt G + 2) (nxt G)); [lia|].
          destruct (Z.eqb_spec (nxt G + 2) (nxt G + 1)); [lia|]. auto. }
        assert (W1 : 1 < nxt G) by apply W.
        split.
        -- rewrite Hv. unfold gate_value, x'. cbn [g_type g_min g_args].
           rewrite (value_perm ν' kOr k _ (nxt G + 1 :: [nxt G]) (set_insert_perm _ _ F1)). simpl.
           rewrite (Hpos ν' (nxt G)), (Hpos ν' (nxt G + 1)), P0, P1 by lia. now rewrite orb_false_r.
        -- intros j y Hj Ey. rewrite <- V2 by auto.
           destruct (Hcases j y Ey) as [[-> ->]|[[-> ->]|[[-> ->]|[[-> ->]|(J0 & J1 & Ey')]]]]; try lia.
           ++ rewrite Vt1, (Hag ν ν') by auto. auto.
           ++ unfold gate_value, xa. cbn [g_type g_min g_args].
              rewrite (value_perm ν' kAnd 0 _ (nxt G + 2 :: [a]) (set_insert_perm _ _ F2)). simpl.
              rewrite (Hpos ν' (nxt G + 2)), P2, P1, (Hla ν ν') by (auto; lia). rewrite andb_true_r. apply andb_comm.
           ++ rewrite P2. unfold gate_value. cbn [g_type g_min g_args]. rewrite (Hag ν ν') by auto.
              unfold t2. destruct (Z.eqb_spec (k - 2) 1) as [E|E]; simpl; auto. now rewrite existsb_count, E.
Qed.
