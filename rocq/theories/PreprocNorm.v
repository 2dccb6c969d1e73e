From stdpp Require Import gmap.
From Coq Require Import Lia Permutation.
From Verif Require Import Pdag PdagProofs PdagAdd PdagSem PdagKeeps Preproc PreprocProofs.
Open Scope Z_scope.

(** One gate gets new contents with fresh gates below it, same value. *)
Lemma keeps_fresh G G' i x x' (f : (Z -> bool) -> Z -> bool) (d : Z -> nat) :
  wf G -> gs G !! i = Some x -> wf G' -> nxt G <= nxt G' ->
  (forall j, j <> i -> j < nxt G -> gs G' !! j = gs G !! j) ->
  (forall j, nxt G <= j < nxt G' -> is_Some (gs G' !! j)) ->
  gs G' !! i = Some x' ->
  (forall j, (1 <= d j <= 3)%nat) ->
  (forall j y b, j = i \/ nxt G <= j -> gs G' !! j = Some y -> In b (g_args y) ->
     In (Z.abs b) (map Z.abs (g_args x)) \/ (nxt G <= Z.abs b /\ (j = i \/ (d j < d (Z.abs b))%nat))) ->
  (forall ν ν', ν 1 = true -> (forall j, j < nxt G -> ν' j = ν j) -> (forall j, nxt G <= j -> ν' j = f ν j) ->
     gate_value ν x = gate_value ν' x' /\ forall j y, nxt G <= j -> gs G' !! j = Some y -> f ν j = gate_value ν' y) ->
  keeps G G'.
Proof.
  intros W E W' Hn Ho Hf E' Hd Hsub HP.
  assert (Hi : 1 < i < nxt G) by (now apply W in E).
  constructor; auto.
  - intros j Hj. destruct (Z.eq_dec j i) as [->|J]; [rewrite E, E'; split; discriminate|]. rewrite Ho by (auto; lia). tauto.
  - intros ν [H1 Hc].
    set (ν' := fun j => if j <? nxt G then ν j else f ν j).
    assert (V1 : forall j, j < nxt G -> ν' j = ν j).
    { intros j Hj. unfold ν'. apply Z.ltb_lt in Hj. now rewrite Hj. }
    assert (V2 : forall j, nxt G <= j -> ν' j = f ν j).
    { intros j Hj. unfold ν'. apply Z.ltb_ge in Hj. now rewrite Hj. }
    destruct (HP ν ν' H1 V1 V2) as [HP1 HP2].
    exists ν'. split; [|auto]. split; [rewrite V1; auto; apply W|].
    intros j y Ey. destruct (Z.lt_ge_cases j (nxt G)) as [Hj|Hj].
    + destruct (Z.eq_dec j i) as [->|Hji].
      * rewrite E' in Ey. injection Ey as <-. rewrite V1 by auto. rewrite (Hc _ _ E). congruence.
      * rewrite Ho in Ey by auto. rewrite V1 by auto. rewrite (Hc j y Ey).
        unfold gate_value. f_equal. apply map_ext_in. intros b Hb. symmetry.
        eapply lit_agree; eauto. apply W in Ey as [_ [_ Hok]]. apply Hok. auto.
    + rewrite V2 by auto. auto.
  - intros [r Hr].
    set (r' := fun j => if j <? nxt G then (4 * r j + 4)%nat else (4 * r i + 4 - d j)%nat).
    assert (R1 : forall j, j < nxt G -> r' j = (4 * r j + 4)%nat).
    { intros j Hj. unfold r'. apply Z.ltb_lt in Hj. now rewrite Hj. }
    assert (R2 : forall j, nxt G <= j -> r' j = (4 * r i + 4 - d j)%nat).
    { intros j Hj. unfold r'. apply Z.ltb_ge in Hj. now rewrite Hj. }
    exists r'.
    assert (Hold : forall k, k < nxt G -> is_Some (gs G' !! k) -> is_Some (gs G !! k)).
    { intros k Hk Hs. destruct (Z.eq_dec k i) as [->|Hki]; [eauto|]. now rewrite Ho in Hs by auto. }
    assert (Hbelow : forall b, In (Z.abs b) (map Z.abs (g_args x)) -> is_Some (gs G' !! Z.abs b) ->
              (r' (Z.abs b) <= 4 * r i)%nat).
    { intros b Hin Hs. apply in_map_iff in Hin as (c & Hc & Hin). rewrite <- Hc in *.
      assert (L : Z.abs c < nxt G) by (apply W in E as [_ [_ Hok]]; apply Hok; auto).
      rewrite R1 by auto. pose proof (Hr i x c E Hin (Hold _ L Hs)). lia. }
    intros j y b Ey Hb Hs. destruct (Z.lt_ge_cases j (nxt G)) as [Hj|Hj].
    + rewrite (R1 j) by auto. destruct (Z.eq_dec j i) as [->|Hji].
      * destruct (Hsub i y b (or_introl eq_refl) Ey Hb) as [Hin|[Hab _]].
        -- pose proof (Hbelow b Hin Hs). lia.
        -- rewrite R2 by auto. specialize (Hd (Z.abs b)). lia.
      * rewrite Ho in Ey by auto.
        assert (L : Z.abs b < nxt G) by (apply W in Ey as [_ [_ Hok]]; apply Hok; auto).
        rewrite R1 by auto. pose proof (Hr j y b Ey Hb (Hold _ L Hs)). lia.
    + rewrite (R2 j) by auto. pose proof (Hd j).
      destruct (Hsub j y b (or_intror Hj) Ey Hb) as [Hin|[Hab [->|L]]].
      * pose proof (Hbelow b Hin Hs). lia.
      * lia.
      * rewrite R2 by auto. specialize (Hd (Z.abs b)). lia.
Qed.

Lemma add_arg_fresh i a G G' x : gs G !! i = Some x -> ~ In a (g_args x) -> ~ In (- a) (g_args x) ->
  add_arg i a G = Some G' ->
  gs G' = <[i := with_args x (set_insert a (g_args x))]> (gs G) /\ nxt G' = nxt G.
Proof.
  intros Ex H1 H2 H. unfold add_arg in H. rewrite Ex in H. cbn [mbind option_bind] in H.
  destruct (negb (add_asserts x) || (a =? 0)); [discriminate|].
  rewrite (proj2 (has_false a _) H1), (proj2 (has_false (-a) _) H2) in H.
  apply add_new_inv in H as (y & Ey & _ & _ & HG & HN). rewrite Ex in Ey. injection Ey as <-. auto.
Qed.
Lemma share_arg_inv i a j G G' : share_arg i a j G = Some G' -> add_arg j a G = Some G'.
Proof.
  unfold share_arg. intros H. apply bind_inv in H as (x & Ex & H).
  destruct (constant x || negb (has a (g_args x))); [discriminate|auto].
Qed.
Lemma negate_arg_inv i a G G' : negate_arg i a G = Some G' ->
  exists x, gs G !! i = Some x /\ gs G' = <[i := with_args x (set_insert (-a) (set_erase a (g_args x)))]> (gs G) /\ nxt G' = nxt G.
Proof.
  unfold negate_arg. intros H. apply bind_inv in H as (x & Ex & H).
  destruct (constant x || negb (has a (g_args x)) || has (-a) (g_args x)); [discriminate|].
  injection H as <-. eauto.
Qed.
Lemma set_type_inv i t G G' : set_type i t G = Some G' ->
  exists x, gs G !! i = Some x /\ gs G' = <[i := Gate t (g_min x) (g_args x)]> (gs G) /\ nxt G' = nxt G.
Proof. unfold set_type. destruct (gs G !! i) as [x|]; [|discriminate]. intros [= <-]. eauto. Qed.

(* lookups in concrete chains of insertions *)
Ltac look := repeat first [rewrite lookup_insert | rewrite lookup_insert_ne by lia].
Ltac look_in H := repeat first [rewrite lookup_insert in H | rewrite lookup_insert_ne in H by lia].

Lemma set_insert_two a b : a <> b -> Permutation (set_insert a (set_insert b [])) [a; b].
Proof. intros H. rewrite set_insert_perm; [now rewrite set_insert_perm by auto|]. rewrite set_insert_In. simpl. intros [?|[]]; auto. Qed.

(** What NormalizeXorGate leaves behind. *)
Definition xor_done (i : Z) (G G' : graph) (x : gate) : Prop :=
  exists a b l1 l2 l, g_args x = [a; b] /\ Permutation l1 [a; -b] /\ Permutation l2 [-a; b] /\
    Permutation l [nxt G; nxt G + 1] /\ nxt G' = nxt G + 2 /\
    gs G' !! i = Some (Gate kOr (g_min x) l) /\ gs G' !! nxt G = Some (Gate kAnd 0 l1) /\
    gs G' !! (nxt G + 1) = Some (Gate kAnd 0 l2) /\
    forall j, j <> i -> j <> nxt G -> j <> nxt G + 1 -> gs G' !! j = gs G !! j.
Lemma normalize_xor_spec i G G' x : wf G -> gs G !! i = Some x -> normalize_xor i G = Some G' ->
  xor_done i G G' x.
Proof.
  intros W Ex H. unfold normalize_xor in H. rewrite Ex in H. cbn [mbind option_bind] in H.
  destruct (W) as [W1 W2]. destruct (W2 _ _ Ex) as [Hi Hok].
  destruct (g_args x) as [|a [|b [|]]] eqn:Ea; try discriminate.
  destruct Hok as [Hnd Hok]. destruct (Hok a ltac:(left; auto)) as (Ha0 & Han & Hna).
  destruct (Hok b ltac:(right; left; auto)) as (Hb0 & Hbn & Hnb).
  assert (Hab : a <> b) by (intros Eab; inversion Hnd as [|? ? Hn0 _]; apply Hn0; left; auto).
  assert (Hab' : a <> - b) by (simpl in Hna; lia). clear Hnd Hok Hna Hnb.
  set (n := nxt G) in *. unfold new_gate in H. cbn [nxt gs nulls reg] in H. fold n in H.
  apply bind_inv in H as (G1 & E1 & H). apply set_type_inv in E1 as (x1 & Ex1 & HG1 & N1).
  cbn [gs nxt] in *. look_in Ex1. rewrite Ex in Ex1. injection Ex1 as <-. rewrite Ea in HG1.
  apply bind_inv in H as (G2 & E2 & H). apply share_arg_inv in E2.
  eapply (add_arg_fresh n) in E2 as [HG2 N2]; [|rewrite HG1; look; reflexivity|simpl; tauto|simpl; tauto].
  apply bind_inv in H as (G3 & E3 & H). apply share_arg_inv in E3.
  eapply (add_arg_fresh (n+1)) in E3 as [HG3 N3]; [|rewrite HG2, HG1; look; reflexivity|simpl; tauto|simpl; tauto].
  cbn [with_args g_type g_min g_args] in *.
  apply bind_inv in H as (G4 & E4 & H). apply negate_arg_inv in E4 as (x4 & Ex4 & HG4 & N4).
  rewrite HG3 in Ex4. look_in Ex4. injection Ex4 as <-. cbn [with_args g_type g_min g_args] in *.
  assert (S1 : set_insert (- a) (set_erase a (set_insert a [])) = [-a]).
  { unfold set_erase, set_insert. simpl. rewrite Z.eqb_refl. reflexivity. }
  rewrite S1 in HG4.
  apply bind_inv in H as (G5 & E5 & H). apply share_arg_inv in E5.
  eapply (add_arg_fresh n) in E5 as [HG5 N5]; [|rewrite HG4, HG3, HG2; look; reflexivity|..];
    cbn [with_args g_type g_min g_args] in *; [|rewrite set_insert_In; simpl; intros [?|[]]; congruence| rewrite set_insert_In; simpl; intros [?|[]]; lia].
  apply bind_inv in H as (G6 & E6 & H). apply negate_arg_inv in E6 as (x6 & Ex6 & HG6 & N6).
  rewrite HG5 in Ex6. look_in Ex6. injection Ex6 as <-. cbn [with_args g_type g_min g_args] in *.
  assert (S2 : Permutation (set_insert (- b) (set_erase b (set_insert b (set_insert a [])))) [a; -b]).
  { change (set_insert a []) with [a]. rewrite set_insert_perm.
    - rewrite perm_swap. apply perm_skip. apply (Permutation_cons_inv (a := b)).
      rewrite <- set_erase_perm; [apply set_insert_two; auto| |apply set_insert_In; auto].
      eapply Permutation_NoDup; [symmetry; apply set_insert_two; auto|]. repeat constructor; simpl; lia.
    - rewrite set_erase_In, set_insert_In. simpl. lia. }
  apply bind_inv in H as (G7 & E7 & H). apply share_arg_inv in E7.
  eapply (add_arg_fresh (n+1)) in E7 as [HG7 N7]; [|rewrite HG6, HG5, HG4; look; reflexivity|simpl; lia|simpl; lia].
  cbn [with_args g_type g_min g_args] in *.
  apply bind_inv in H as (G8 & E8 & H). apply erase_args_inv in E8 as (x8 & Ex8 & HG8 & N8).
  rewrite HG7, HG6, HG5, HG4, HG3, HG2, HG1 in Ex8. look_in Ex8. injection Ex8 as <-.
  apply bind_inv in H as (G9 & E9 & H).
  eapply (add_arg_fresh i) in E9 as [HG9 N9]; [|rewrite HG8; look; reflexivity|simpl; tauto|simpl; tauto].
  cbn [with_args g_type g_min g_args] in *.
  eapply (add_arg_fresh i) in H as [HG' N']; [|rewrite HG9; look; reflexivity|change (set_insert n []) with [n]; simpl; lia|change (set_insert n []) with [n]; simpl; lia].
  cbn [with_args g_type g_min g_args] in *.
  exists a, b, (set_insert (- b) (set_erase b (set_insert b (set_insert a [])))), (set_insert b [- a]), (set_insert (n+1) (set_insert n [])).
  split; [auto|]. split; [auto|]. split.
  { rewrite set_insert_perm by (simpl; lia). apply perm_swap. }
  split. { rewrite perm_swap. apply set_insert_two. lia. }
  split; [lia|]. rewrite HG', HG9, HG8, HG7, HG6, HG5, HG4, HG3, HG2, HG1.
  repeat split; look; auto.
  intros j J L L'. look. auto.
Qed.

Lemma count_map_perm ν l l' : Permutation l l' -> count (map (lit ν) l) = count (map (lit ν) l').
Proof. intros H. apply count_perm. now apply Permutation_map. Qed.
Lemma in_perm {A} (l l' : list A) a : Permutation l l' -> In a l -> In a l'.
Proof. intros H. now apply Permutation_in. Qed.

Lemma args_ok_two n c d l : Permutation l [c; d] -> c <> 0 -> d <> 0 -> c <> d -> c <> - d -> Z.abs c < n -> Z.abs d < n -> args_ok n l.
Proof.
  intros P Hc Hd H1 H2 Lc Ld. split.
  - eapply Permutation_NoDup; [symmetry; exact P|]. repeat constructor; simpl; lia.
  - intros e He. apply (in_perm _ _ e P) in He. repeat split; [simpl in He; lia|simpl in He; lia|].
    intros Hf. apply (in_perm _ _ _ P) in Hf. simpl in *; lia.
Qed.
Lemma xor_done_keeps i G G' x : wf G -> gs G !! i = Some x -> g_type x = kXor -> xor_done i G G' x -> keeps G G'.
Proof.
  intros W Ex Et (a & b & l1 & l2 & l & Ea & P1 & P2 & P & N & Ei & En & Em & Ho).
  destruct (proj2 W _ _ Ex) as [Hi Hok]. rewrite Ea in Hok.
  destruct Hok as [Hnd Hok]. destruct (Hok a ltac:(left; auto)) as (Ha0 & Han & Hna).
  destruct (Hok b ltac:(right; left; auto)) as (Hb0 & Hbn & Hnb).
  assert (Hab : a <> b) by (intros Eab; inversion Hnd as [|? ? Hn0 _]; apply Hn0; left; auto).
  assert (Hab' : a <> - b) by (simpl in Hna; lia).
  assert (Hcase : forall j y, gs G' !! j = Some y -> nxt G <= j -> j = nxt G \/ j = nxt G + 1).
  { intros j y Ey L. destruct (Z.eq_dec j (nxt G)); [auto|]. destruct (Z.eq_dec j (nxt G + 1)); [auto|].
    rewrite Ho in Ey by lia. apply W in Ey. lia. }
  assert (W' : wf G').
  { split; [lia|]. intros j y Ey. destruct (Z.eq_dec j i) as [->|J].
    { rewrite Ei in Ey. injection Ey as <-. split; [lia|]. simpl. eapply args_ok_two; eauto; lia. }
    destruct (Z.eq_dec j (nxt G)) as [->|J1].
    { rewrite En in Ey. injection Ey as <-. split; [lia|]. simpl. eapply args_ok_two; eauto; lia. }
    destruct (Z.eq_dec j (nxt G + 1)) as [->|J2].
    { rewrite Em in Ey. injection Ey as <-. split; [lia|]. simpl. eapply args_ok_two; eauto; lia. }
    rewrite Ho in Ey by auto. apply W in Ey as [? ?]. split; [lia|]. eapply args_ok_mono; eauto. lia. }
  eapply (keeps_fresh G G' i x _ (fun ν j => if j =? nxt G then lit ν a && negb (lit ν b) else negb (lit ν a) && lit ν b) (fun _ => 1%nat));
    [exact W|exact Ex|exact W'|lia| | |exact Ei|lia| |].
  - intros j J L. apply Ho; lia.
  - intros j Hj. destruct (Z.eq_dec j (nxt G)) as [->|]; [eauto|]. replace j with (nxt G + 1) by lia. eauto.
  - intros j y c Hj Ey Hc. assert (Hj' : j = i \/ j = nxt G \/ j = nxt G + 1) by (destruct Hj as [|L]; [auto|right; eauto]).
    rewrite Ea. simpl. destruct Hj' as [-> | [-> | ->]].
    + rewrite Ei in Ey. injection Ey as <-. simpl in Hc. apply (in_perm _ _ _ P) in Hc. simpl in Hc. right. lia.
    + rewrite En in Ey. injection Ey as <-. simpl in Hc. apply (in_perm _ _ _ P1) in Hc. simpl in Hc. left. lia.
    + rewrite Em in Ey. injection Ey as <-. simpl in Hc. apply (in_perm _ _ _ P2) in Hc. simpl in Hc. left. lia.
  - intros ν ν' H1 V1 V2.
    assert (La : lit ν' a = lit ν a) by (eapply lit_agree; eauto).
    assert (Lb : lit ν' b = lit ν b) by (eapply lit_agree; eauto).
    assert (Ln : forall j, nxt G <= j -> lit ν' j = ν' j).
    { intros j Hj. unfold lit. destruct (Z.ltb_spec j 0); [destruct W; lia|auto]. }
    split.
    + unfold gate_value. rewrite Et, Ea. cbn [g_type g_min g_args]. rewrite (value_perm ν' _ _ _ _ P). simpl.
      rewrite !Ln, !V2 by lia. rewrite Z.eqb_refl. destruct (Z.eqb_spec (nxt G + 1) (nxt G)); [lia|].
      unfold count. simpl. destruct (lit ν a), (lit ν b); reflexivity.
    + intros j y Hj Ey. unfold gate_value. destruct (Hcase j y Ey Hj) as [-> | ->].
      * rewrite En in Ey. injection Ey as <-. cbn [g_type g_min g_args]. rewrite (value_perm ν' _ _ _ _ P1). simpl.
        rewrite lit_opp, La, Lb, Z.eqb_refl, andb_true_r by auto. auto.
      * rewrite Em in Ey. injection Ey as <-. cbn [g_type g_min g_args]. rewrite (value_perm ν' _ _ _ _ P2). simpl.
        rewrite lit_opp, La, Lb, andb_true_r by auto. destruct (Z.eqb_spec (nxt G + 1) (nxt G)); [lia|]. auto.
Qed.

Lemma normalize_xor_keeps i G G' x : wf G -> gs G !! i = Some x -> g_type x = kXor -> normalize_xor i G = Some G' -> keeps G G'.
Proof. intros W Ex Et H. eapply xor_done_keeps; eauto. apply normalize_xor_spec; auto. Qed.

(** ** K/N gates *)
Lemma share_all_spec i l grand second : forall G G' y z,
  grand <> second -> gs G !! grand = Some y -> gs G !! second = Some z ->
  List.NoDup l -> (forall a, In a l -> ~ In a (g_args y) /\ ~ In (-a) (g_args y) /\ ~ In a (g_args z) /\ ~ In (-a) (g_args z)) ->
  (forall a, In a l -> a <> 0 /\ ~ In (- a) l) ->
  share_all i l grand second G = Some G' ->
  nxt G' = nxt G /\ (forall j, j <> grand -> j <> second -> gs G' !! j = gs G !! j) /\
  exists l1 l2, gs G' !! grand = Some (with_args y l1) /\ Permutation l1 (l ++ g_args y) /\
    gs G' !! second = Some (with_args z l2) /\ Permutation l2 (l ++ g_args z).
Proof.
  induction l as [|a l IH]; intros G G' y z Hgs Ey Ez Hnd Hni Hnn H; cbn [share_all] in H.
  - injection H as <-. split; [auto|]. split; [auto|]. exists (g_args y), (g_args z). destruct y, z. auto.
  - apply bind_inv in H as (G1 & E1 & H). apply bind_inv in H as (G2 & E2 & H).
    destruct (Hni a ltac:(left; auto)) as (A1 & A2 & A3 & A4).
    apply share_arg_inv in E1. eapply (add_arg_fresh grand) in E1 as [HG1 N1]; [|exact Ey|auto|auto].
    apply share_arg_inv in E2. eapply (add_arg_fresh second) in E2 as [HG2 N2];
      [|rewrite HG1, lookup_insert_ne by auto; exact Ez|auto|auto].
    inversion Hnd as [|? ? Hn0 Hnd']; subst.
    destruct (IH G2 G' (with_args y (set_insert a (g_args y))) (with_args z (set_insert a (g_args z)))) as (N & Ho & l1 & l2 & L1 & L2 & L3 & L4); auto.
    + rewrite HG2, HG1. rewrite lookup_insert_ne by auto. now rewrite lookup_insert.
    + rewrite HG2. now rewrite lookup_insert.
    + intros b Hb. cbn [g_args with_args]. rewrite !set_insert_In. destruct (Hni b ltac:(right; auto)) as (B1 & B2 & B3 & B4).
      destruct (Hnn b ltac:(right; auto)) as [B5 B6].
      assert (b <> a) by (intros ->; auto). assert (- b <> a) by (intros E; apply B6; left; auto). tauto.
    + intros b Hb. destruct (Hnn b ltac:(right; auto)) as [B5 B6]. split; [auto|]. intros Hc. apply B6. right; auto.
    + split; [lia|]. split.
      * intros j J1 J2. rewrite Ho by auto. rewrite HG2, HG1. now rewrite !lookup_insert_ne by auto.
      * exists l1, l2. cbn [with_args g_type g_min g_args] in *. repeat split; auto.
        -- rewrite L2, set_insert_perm by auto. symmetry. apply Permutation_middle.
        -- rewrite L4, set_insert_perm by auto. symmetry. apply Permutation_middle.
Qed.

Lemma atleast_split (v : bool) k c : 2 <= k -> 0 <= c ->
  (k <=? (if v then 1 else 0) + c) = (v && (k - 1 <=? c)) || (k <=? c).
Proof. intros. destruct v; cbn [andb orb]; destruct (Z.leb_spec k c), (Z.leb_spec (k-1) c); cbn [orb];
 try (destruct (Z.leb_spec k (1 + c)); lia || auto); destruct (Z.leb_spec k (0+c)); lia || auto. Qed.

Definition simple_type (t : conn) : Prop := t = kAnd \/ t = kOr.

(** What one unfolding of NormalizeAtleastGate leaves behind. *)
Definition atleast_done (i k a : Z) (G G' : graph) (gr se : Z) (x : gate) : Prop :=
  In a (g_args x) /\ gr = nxt G + 1 /\ se = nxt G + 2 /\ nxt G' = nxt G + 3 /\
  (forall j, j <> i -> j <> nxt G -> j <> nxt G + 1 -> j <> nxt G + 2 -> gs G' !! j = gs G !! j) /\
  exists l lf l1 l2, gs G' !! i = Some (Gate kOr (g_min x) l) /\ Permutation l [nxt G; nxt G + 2] /\
    gs G' !! nxt G = Some (Gate kAnd 0 lf) /\ Permutation lf [a; nxt G + 1] /\
    gs G' !! (nxt G + 1) = Some (Gate kAtleast (k - 1) l1) /\ Permutation l1 (set_erase a (g_args x)) /\
    gs G' !! (nxt G + 2) = Some (Gate kAtleast k l2) /\ Permutation l2 (set_erase a (g_args x)).
Lemma atleast_once_spec i k a G G' gr se x : wf G -> gs G !! i = Some x ->
  atleast_once i k a G = Some (G', gr, se) ->
  atleast_done i k a G G' gr se x.
Proof.
  intros W Ex H. destruct (proj2 W _ _ Ex) as [Hi [Hnd Hok]]. assert (W1 := proj1 W).
  set (n := nxt G) in *. unfold atleast_once, new_gate in H. cbn [nxt gs nulls reg] in H. fold n in H.
  apply bind_inv in H as (G1 & E1 & H). unfold transfer_arg in E1.
  apply bind_inv in E1 as (x0 & Ex0 & E1). cbn [gs] in Ex0. look_in Ex0. rewrite Ex in Ex0. injection Ex0 as <-.
  destruct (constant x) eqn:Ec; [discriminate|].
  apply bind_inv in E1 as (G0 & E0 & E1). apply erase_arg_inv in E0 as (x0 & Ex0 & Ha & HG0 & N0).
  cbn [gs nxt] in *. look_in Ex0. rewrite Ex in Ex0. injection Ex0 as <-.
  destruct (Hok a Ha) as (Ha0 & Han & Hna). fold n in Han.
  eapply (add_arg_fresh n) in E1 as [HG1 N1]; [|rewrite HG0; look; reflexivity|simpl; tauto|simpl; tauto].
  cbn [with_args g_type g_min g_args] in HG1.
  assert (Nn : nxt G1 = n + 1) by lia. rewrite Nn in H.
  apply bind_inv in H as (G2 & E2 & H).
  change (set_insert a []) with [a] in HG1.
  eapply (add_arg_fresh n) in E2 as [HG2 N2]; [|cbn [gs]; rewrite HG1; look; reflexivity|simpl; lia|simpl; lia].
  cbn [with_args g_type g_min g_args gs nxt] in *.
  apply bind_inv in H as (G3 & E3 & H). apply set_min_inv in E3 as (x3 & Ex3 & HG3 & N3).
  rewrite HG2 in Ex3. look_in Ex3. injection Ex3 as <-.
  assert (Nn2 : nxt G3 = n + 2) by lia. rewrite Nn2 in H.
  apply bind_inv in H as (G4 & E4 & H). apply set_min_inv in E4 as (x4 & Ex4 & HG4 & N4).
  cbn [gs nxt] in *. look_in Ex4. injection Ex4 as <-. cbn [with_min g_type g_min g_args] in *.
  apply bind_inv in H as (x5 & Ex5 & H).
  assert (Ex5' : gs G4 !! i = Some (with_args x (set_erase a (g_args x)))).
  { rewrite HG4, HG3, HG2, HG1, HG0. look. reflexivity. }
  rewrite Ex5' in Ex5. injection Ex5 as <-. cbn [with_args g_type g_min g_args] in *.
  apply bind_inv in H as (G5 & E5 & H).
  destruct (share_all_spec i (set_erase a (g_args x)) (n+1) (n+2) G4 G5 (Gate kAtleast (k-1) []) (Gate kAtleast k []))
    as (N5 & Ho5 & l1 & l2 & L1 & P1 & L2 & P2); auto; try lia.
  { rewrite HG4, HG3. look. reflexivity. } { rewrite HG4. look. reflexivity. }
  { now apply set_erase_NoDup. } 
  { intros b Hb. apply set_erase_In in Hb as [Hb _]. destruct (Hok b Hb) as (? & _ & Hb'). split; [auto|].
    rewrite set_erase_In. tauto. }
  cbn [with_args g_type g_min g_args] in *. rewrite app_nil_r in P1, P2.
  apply bind_inv in H as (G6 & E6 & H). apply set_type_inv in E6 as (x6 & Ex6 & HG6 & N6).
  rewrite Ho5, Ex5' in Ex6 by lia. injection Ex6 as <-.
  apply bind_inv in H as (G7 & E7 & H). apply erase_args_inv in E7 as (x7 & Ex7 & HG7 & N7).
  rewrite HG6 in Ex7. look_in Ex7. injection Ex7 as <-. cbn [with_args g_type g_min g_args] in *.
  apply bind_inv in H as (G8 & E8 & H).
  eapply (add_arg_fresh i) in E8 as [HG8 N8]; [|rewrite HG7; look; reflexivity|simpl; tauto|simpl; tauto].
  cbn [with_args g_type g_min g_args] in *. change (set_insert n []) with [n] in HG8.
  apply bind_inv in H as (G9 & E9 & H).
  eapply (add_arg_fresh i) in E9 as [HG9 N9]; [|rewrite HG8; look; reflexivity|simpl; lia|simpl; lia].
  cbn [with_args g_type g_min g_args] in *.
  injection H as <- <- <-. split; [auto|]. split; [auto|]. split; [auto|]. split; [lia|]. split.
  - intros j J J0 J1 J2. rewrite HG9, HG8, HG7, HG6. look. rewrite Ho5 by auto. rewrite HG4, HG3, HG2, HG1, HG0. look. auto.
  - exists (set_insert (n+2) [n]), (set_insert (n+1) [a]), l1, l2.
    rewrite HG9, HG8, HG7, HG6. look. split; [auto|].
    split. { rewrite set_insert_perm by (simpl; lia). apply perm_swap. }
    split. { rewrite Ho5 by lia. rewrite HG4, HG3, HG2. look. auto. }
    split. { rewrite set_insert_perm by (simpl; lia). apply perm_swap. }
    auto.
Qed.

Lemma atleast_done_keeps i k a G G' gr se x : wf G -> gs G !! i = Some x -> g_type x = kAtleast -> g_min x = k -> 2 <= k -> atleast_done i k a G G' gr se x -> keeps G G'.
Proof.
  intros W Ex Et Ek Hk (Ha & -> & -> & N & Ho & l & lf & l1 & l2 & Ei & P & Ef & Pf & Eg & Pg & Es & Ps).
  destruct (proj2 W _ _ Ex) as [Hi Hokx]. destruct (proj2 Hokx a Ha) as (Ha0 & Han & Hna). assert (W1 := proj1 W).
  set (n := nxt G) in *.
  assert (Hoke : args_ok n (set_erase a (g_args x))) by (now apply args_ok_erase).
  assert (Hokp : forall m, Permutation m (set_erase a (g_args x)) -> args_ok n m).
  { intros m Pm. destruct Hoke as [H1 H2]. split; [eapply Permutation_NoDup; [symmetry; exact Pm|auto]|].
    intros b Hb. apply (in_perm _ _ _ Pm) in Hb. destruct (H2 b Hb) as (? & ? & Hc). repeat split; auto.
    intros Hd. apply Hc. now apply (in_perm _ _ _ Pm) in Hd. }
  assert (W' : wf G').
  { split; [lia|]. intros j y Ey. rewrite N.
    destruct (Z.eq_dec j i) as [->|J].
    { rewrite Ei in Ey. injection Ey as <-. split; [lia|]. simpl. eapply args_ok_two; eauto; lia. }
    destruct (Z.eq_dec j n) as [->|J1].
    { rewrite Ef in Ey. injection Ey as <-. split; [lia|]. simpl. eapply args_ok_two; eauto; lia. }
    destruct (Z.eq_dec j (n + 1)) as [->|J2].
    { rewrite Eg in Ey. injection Ey as <-. split; [lia|]. simpl. eapply args_ok_mono; [now apply Hokp|]. lia. }
    destruct (Z.eq_dec j (n + 2)) as [->|J3].
    { rewrite Es in Ey. injection Ey as <-. split; [lia|]. simpl. eapply args_ok_mono; [now apply Hokp|]. lia. }
    rewrite Ho in Ey by auto. apply W in Ey as [? ?]. split; [fold n in H0; lia|]. eapply args_ok_mono; eauto. fold n. lia. }
  assert (Hcase : forall j y, gs G' !! j = Some y -> n <= j -> j = n \/ j = n + 1 \/ j = n + 2).
  { intros j y Ey L. destruct (Z.eq_dec j n); [auto|]. destruct (Z.eq_dec j (n + 1)); [auto|]. destruct (Z.eq_dec j (n + 2)); [auto|].
    rewrite Ho in Ey by lia. apply W in Ey. fold n in Ey. lia. }
  set (rest := fun ν => count (map (lit ν) (set_erase a (g_args x)))).
  eapply (keeps_fresh G G' i x _ (fun ν j => if j =? n then lit ν a && (k - 1 <=? rest ν) else if j =? n + 1 then k - 1 <=? rest ν else k <=? rest ν)
      (fun j => if j =? n then 1%nat else 2%nat));
    [exact W|exact Ex|exact W'|lia| | |exact Ei| | |].
  - intros j J L. apply Ho; fold n in L; lia.
  - fold n. intros j Hj. destruct (Z.eq_dec j n) as [->|]; [eauto|]. destruct (Z.eq_dec j (n+1)) as [->|]; [eauto|].
    replace j with (n + 2) by lia. eauto.
  - intros j. destruct (j =? n); lia.
  - intros j y c Hj Ey Hc. fold n. fold n in Hj.
    assert (Hj' : j = i \/ j = n \/ j = n + 1 \/ j = n + 2) by (destruct Hj as [|L]; [auto|right; eauto]).
    destruct Hj' as [-> | [-> | [-> | ->]]].
    + rewrite Ei in Ey. injection Ey as <-. simpl in Hc. apply (in_perm _ _ _ P) in Hc. simpl in Hc. right. lia.
    + rewrite Ef in Ey. injection Ey as <-. simpl in Hc. apply (in_perm _ _ _ Pf) in Hc. simpl in Hc.
      destruct Hc as [<-|[<-|[]]]; [left; now apply in_map|right]. split; [lia|]. right. rewrite Z.eqb_refl.
      destruct (Z.eqb_spec (Z.abs (n+1)) n); lia.
    + rewrite Eg in Ey. injection Ey as <-. simpl in Hc. apply (in_perm _ _ _ Pg) in Hc. left. apply in_map. now apply set_erase_In in Hc.
    + rewrite Es in Ey. injection Ey as <-. simpl in Hc. apply (in_perm _ _ _ Ps) in Hc. left. apply in_map. now apply set_erase_In in Hc.
  - intros ν ν' H1 V1 V2. fold n in V1, V2.
    assert (La : lit ν' a = lit ν a) by (eapply lit_agree; eauto).
    assert (Lr : map (lit ν') (set_erase a (g_args x)) = map (lit ν) (set_erase a (g_args x))).
    { apply map_ext_in. intros b Hb. eapply lit_agree; [exact V1|]. now apply Hoke in Hb. }
    assert (Ln : forall j, n <= j -> lit ν' j = ν' j).
    { intros j Hj. unfold lit. destruct (Z.ltb_spec j 0); [lia|auto]. }
    split.
    + unfold gate_value. rewrite Et, Ek. cbn [g_type g_min g_args].
      rewrite (value_perm ν _ _ _ _ (set_erase_perm a (g_args x) (proj1 Hokx) Ha)), (value_perm ν' _ _ _ _ P). cbn [map conn_value existsb].
      rewrite !Ln, !V2 by lia. rewrite Z.eqb_refl.
      destruct (Z.eqb_spec (n + 2) n); [lia|]. destruct (Z.eqb_spec (n + 2) (n + 1)); [lia|].
      rewrite count_cons, orb_false_r. apply atleast_split; [auto|]. apply count_bounds.
    + intros j y Hj Ey. unfold gate_value. destruct (Hcase j y Ey Hj) as [-> | [-> | ->]].
      * rewrite Ef in Ey. injection Ey as <-. cbn [g_type g_min g_args]. rewrite (value_perm ν' _ _ _ _ Pf). simpl.
        rewrite La, Ln, V2, Z.eqb_refl, andb_true_r by lia. destruct (Z.eqb_spec (n+1) n); [lia|]. now rewrite Z.eqb_refl.
      * rewrite Eg in Ey. injection Ey as <-. cbn [g_type g_min g_args]. rewrite (value_perm ν' _ _ _ _ Pg), Lr. simpl.
        destruct (Z.eqb_spec (n+1) n); [lia|]. now rewrite Z.eqb_refl.
      * rewrite Es in Ey. injection Ey as <-. cbn [g_type g_min g_args]. rewrite (value_perm ν' _ _ _ _ Ps), Lr. simpl.
        destruct (Z.eqb_spec (n+2) n); [lia|]. destruct (Z.eqb_spec (n+2) (n+1)); [lia|auto].
Qed.

Lemma atleast_once_keeps i k a G G' gr se x : wf G -> gs G !! i = Some x -> g_type x = kAtleast -> g_min x = k -> 2 <= k ->
  atleast_once i k a G = Some (G', gr, se) -> keeps G G'.
Proof. intros W Ex Et Ek Hk H. eapply atleast_done_keeps; eauto. eapply atleast_once_spec; eauto. Qed.

Lemma set_type_keeps i t G G' x : wf G -> gs G !! i = Some x ->
  (forall ν, gate_value ν (Gate t (g_min x) (g_args x)) = gate_value ν x) -> set_type i t G = Some G' -> keeps G G'.
Proof.
  intros W Ex Hv H. apply set_type_inv in H as (y & Ey & HG & N). rewrite Ex in Ey. injection Ey as <-.
  eapply keeps_put; [exact W|exact Ex|exact HG|exact N|apply (proj2 W _ _ Ex)|auto|].
  intros [r Hr]. exists r. split; [auto|]. intros c Hc Hs. eapply Hr; eauto.
Qed.

(** ** C04 for the K/N gate *)
Theorem normalize_atleast_correct pick : forall fuel i G G', wf G -> normalize_atleast fuel pick i G = Some G' ->
  keeps G G' /\ (forall j, j <> i -> j < nxt G -> gs G' !! j = gs G !! j) /\
  (forall j x, j = i \/ nxt G <= j -> gs G' !! j = Some x -> simple_type (g_type x) /\ 1 < size (g_args x)).
Proof.
  induction fuel as [|fuel IH]; intros i G G' W H; [discriminate|]. cbn [normalize_atleast] in H.
  apply bind_inv in H as (x & Ex & H).
  destruct (negb (conn_eqb (g_type x) kAtleast) || (g_min x <=? 0) || (size (g_args x) <=? 1)) eqn:Eg; [discriminate|].
  rewrite !orb_false_iff, negb_false_iff, !Z.leb_gt in Eg. destruct Eg as [[Et Hk] Hs].
  assert (Et' : g_type x = kAtleast) by (destruct (g_type x); try discriminate; auto).
  assert (Done : forall t, simple_type t -> (forall ν, gate_value ν (Gate t (g_min x) (g_args x)) = gate_value ν x) -> set_type i t G = Some G' ->
     keeps G G' /\ (forall j, j <> i -> j < nxt G -> gs G' !! j = gs G !! j) /\
     (forall j x, j = i \/ nxt G <= j -> gs G' !! j = Some x -> simple_type (g_type x) /\ 1 < size (g_args x))).
  { intros t Ht Hv HT. split; [eapply set_type_keeps; eauto|].
    apply set_type_inv in HT as (y & Ey & HG & N). rewrite Ex in Ey. injection Ey as <-. rewrite HG. split.
    - intros j J _. now rewrite lookup_insert_ne by auto.
    - intros j y Hj Ey. destruct (Z.eq_dec j i) as [->|J].
      + rewrite lookup_insert in Ey. injection Ey as <-. auto.
      + rewrite lookup_insert_ne in Ey by auto. destruct Hj as [|L]; [contradiction|]. apply W in Ey. lia. }
  destruct (Z.eqb_spec (size (g_args x)) (g_min x)) as [E1|E1].
  { apply (Done kAnd); [left; auto| |auto]. intros ν. unfold gate_value. rewrite Et'. simpl.
    rewrite forallb_count. f_equal. rewrite map_length. unfold size in E1. lia. }
  destruct (Z.eqb_spec (g_min x) 1) as [E2|E2].
  { apply (Done kOr); [right; auto| |auto]. intros ν. unfold gate_value. rewrite Et'. simpl. rewrite existsb_count. now rewrite E2. }
  apply bind_inv in H as ([[G1 gr] se] & E3 & H). apply bind_inv in H as (G2 & E4 & H).
  pose proof (atleast_once_keeps _ _ _ _ _ _ _ _ W Ex Et' eq_refl ltac:(lia) E3) as K1.
  destruct (atleast_once_spec _ _ _ _ _ _ _ _ W Ex E3) as (Ha & -> & -> & N1 & Ho & l & lf & l1 & l2 & Ei & P & Ef & Pf & Egr & Pg & Es & Ps).
  destruct (IH _ _ _ (k_wf _ _ K1) E4) as (K2 & O2 & S2).
  destruct (IH _ _ _ (k_wf _ _ K2) H) as (K3 & O3 & S3).
  pose proof (k_nxt _ _ K2). pose proof (k_nxt _ _ K3). assert (Hi : 1 < i < nxt G) by (now apply W in Ex).
  assert (Hsz : forall (m m' : list Z), Permutation m m' -> size m = size m') by (intros m m' Hp; unfold size; now rewrite (Permutation_length Hp)).
  split; [eapply keeps_trans; [exact K1|eapply keeps_trans; eauto]|]. split.
  - intros j J L. rewrite O3 by lia. rewrite O2 by lia. apply Ho; lia.
  - intros j y Hj Ey.
    destruct (Z.lt_ge_cases j (nxt G2)) as [L2|L2]; [|apply (S3 j); auto].
    destruct (Z.eq_dec j (nxt G + 2)) as [->|J2]; [apply (S3 (nxt G + 2)); auto|].
    rewrite O3 in Ey by auto.
    destruct (Z.eq_dec j (nxt G + 1)) as [->|J1]; [apply (S2 (nxt G + 1)); auto|].
    destruct (Z.lt_ge_cases j (nxt G1)) as [L1|L1]; [|apply (S2 j); auto].
    rewrite O2 in Ey by auto. destruct Hj as [->|Hj].
    + rewrite Ei in Ey. injection Ey as <-. simpl. split; [right; auto|]. rewrite (Hsz _ _ P). unfold size; simpl; lia.
    + assert (j = nxt G) as -> by lia. rewrite Ef in Ey. injection Ey as <-. simpl. split; [left; auto|].
      rewrite (Hsz _ _ Pf). unfold size; simpl; lia.
Qed.
