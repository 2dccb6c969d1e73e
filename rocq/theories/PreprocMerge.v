From stdpp Require Import gmap.
From Coq Require Import Lia Permutation.
From Verif Require Import Pdag PdagProofs PdagAdd PdagSem PdagKeeps Preproc PreprocProofs PreprocNorm.
Open Scope Z_scope.

(** A new gate [m] over existing arguments, and some gates above those arguments rewritten. *)
Lemma keeps_module G G' y : wf G -> wf G' -> nxt G' = nxt G + 1 ->
  gs G' !! nxt G = Some y -> (forall c, In c (g_args y) -> Z.abs c < nxt G) ->
  (forall j, j < nxt G -> (is_Some (gs G' !! j) <-> is_Some (gs G !! j))) ->
  (forall j x x', gs G !! j = Some x -> gs G' !! j = Some x' ->
     (forall c, In c (g_args x') -> In c (g_args x) \/ (Z.abs c = nxt G /\ forall d, In d (g_args y) -> In d (g_args x))) /\
     forall ν, ν (nxt G) = gate_value ν y -> gate_value ν x' = gate_value ν x) ->
  keeps G G'.
Proof.
  intros W W' N Ey Hy Hdom HG.
  assert (Wn : 1 < nxt G) by apply W.
  constructor; auto; try lia.
  - intros j Hj. specialize (Hdom j ltac:(lia)). destruct (gs G' !! j) eqn:E1, (gs G !! j) eqn:E2; split; intros; try congruence; exfalso.
    + destruct (proj1 Hdom) as [? ?]; [eauto|congruence].
    + destruct (proj2 Hdom) as [? ?]; [eauto|congruence].
  - intros j Hj. replace j with (nxt G) by lia. eauto.
  - intros ν [H1 Hc].
    set (ν' := fun j => if j =? nxt G then gate_value ν y else ν j).
    assert (V : forall j, j < nxt G -> ν' j = ν j) by (intros j Hj; unfold ν'; destruct (Z.eqb_spec j (nxt G)); [lia|auto]).
    assert (Vn : ν' (nxt G) = gate_value ν' y).
    { unfold ν' at 1. rewrite Z.eqb_refl. apply gate_value_ext. intros c Hcy. symmetry. apply V. auto. }
    exists ν'. split; [|auto]. split; [rewrite V; auto|].
    intros j x' Ex'. destruct (Z.eq_dec j (nxt G)) as [->|J].
    + rewrite Ey in Ex'. injection Ex' as <-. exact Vn.
    + assert (L : j < nxt G) by (apply W' in Ex'; lia).
      destruct (proj1 (Hdom j L)) as [x Ex]; [eauto|].
      destruct (HG j x x' Ex Ex') as [_ Hval]. rewrite Hval by auto. rewrite V by auto. rewrite (Hc _ _ Ex).
      apply gate_value_ext. intros c Hcx. symmetry. apply V. apply W in Ex as [_ [_ Hok]]. now apply Hok in Hcx.
  - intros A.
    set (G1 := Graph (<[nxt G := y]> (gs G)) (nxt G + 1) [] false).
    assert (A1 : acyclic G1).
    { destruct A as [r Hr].
      set (m := fold_right (fun a n => Nat.max (r (Z.abs a)) n) 0%nat (g_args y)).
      assert (Hma : forall a, In a (g_args y) -> (r (Z.abs a) <= m)%nat).
      { intros c. unfold m. clear. induction (g_args y) as [|d l IH]; intros []; simpl; [subst; lia|]. specialize (IH H). lia. }
      exists (fun j => if j =? nxt G then S m else r j). intros j x c Ex Hcx Hs. unfold G1 in *. cbn [gs] in *.
      assert (Lc : Z.abs c < nxt G).
      { destruct (Z.eq_dec j (nxt G)) as [->|J]; [rewrite lookup_insert in Ex; injection Ex as <-; auto|].
        rewrite lookup_insert_ne in Ex by auto. apply W in Ex as [_ [_ Hok]]. now apply Hok in Hcx. }
      destruct (Z.eqb_spec (Z.abs c) (nxt G)); [lia|]. destruct (Z.eqb_spec j (nxt G)) as [->|J].
      + rewrite lookup_insert in Ex. injection Ex as <-. specialize (Hma c Hcx). lia.
      + rewrite lookup_insert_ne in Ex by auto. rewrite lookup_insert_ne in Hs by auto. eapply Hr; eauto. }
    destruct (canonical_rank G1 A1) as (h & Hh & Hcan).
    exists (fun j => if j =? nxt G then (2 * h j)%nat else (2 * h j + 1)%nat).
    intros j x' c Ex' Hc Hs.
    assert (L1 : forall k, k < nxt G -> gs G1 !! k = gs G !! k).
    { intros k Hk. unfold G1. cbn [gs]. now rewrite lookup_insert_ne by lia. }
    assert (Hm : gs G1 !! nxt G = Some y) by (unfold G1; cbn [gs]; now rewrite lookup_insert).
    destruct (Z.eqb_spec j (nxt G)) as [->|J].
    + rewrite Ey in Ex'. injection Ex' as <-. pose proof (Hy c Hc). destruct (Z.eqb_spec (Z.abs c) (nxt G)); [lia|].
      assert (h (Z.abs c) < h (nxt G))%nat; [|lia]. eapply Hh; eauto. rewrite L1 by auto. apply Hdom; auto.
    + assert (L : j < nxt G) by (apply W' in Ex'; lia).
      destruct (proj1 (Hdom j L)) as [x Ex]; [eauto|]. destruct (HG j x x' Ex Ex') as [Hargs _].
      destruct (Hargs c Hc) as [Hcx|[Hcm Hsub]].
      * assert (Lc : Z.abs c < nxt G) by (apply W in Ex as [_ [_ Hok]]; now apply Hok in Hcx).
        destruct (Z.eqb_spec (Z.abs c) (nxt G)); [lia|].
        assert (h (Z.abs c) < h j)%nat; [|lia]. eapply Hh; [rewrite L1 by auto; exact Ex|exact Hcx|]. rewrite L1 by auto. apply Hdom; auto.
      * rewrite Hcm, Z.eqb_refl. assert (h (nxt G) <= h j)%nat; [|lia].
        eapply Hcan; [exact Hm|rewrite L1 by auto; exact Ex|auto].
Qed.

Lemma erase_in_all_spec a : forall ps G G', List.NoDup ps -> erase_in_all ps a G = Some G' ->
  nxt G' = nxt G /\ (forall j, ~ In j ps -> gs G' !! j = gs G !! j) /\
  forall p, In p ps -> exists x, gs G !! p = Some x /\ In a (g_args x) /\ gs G' !! p = Some (with_args x (set_erase a (g_args x))).
Proof.
  induction ps as [|p ps IH]; intros G G' Hnd H; cbn [erase_in_all] in H.
  - injection H as <-. split; [auto|]. split; [auto|]. intros p [].
  - inversion Hnd as [|? ? Hp Hnd']; subst. apply bind_inv in H as (G1 & E1 & H).
    apply erase_arg_inv in E1 as (x & Ex & Ha & HG1 & N1). destruct (IH G1 G' Hnd' H) as (N & Ho & Hin).
    split; [lia|]. split.
    + intros j Hj. rewrite Ho by (intros Hc; apply Hj; right; auto). rewrite HG1. apply lookup_insert_ne. intros ->. apply Hj. left; auto.
    + intros q [->|Hq].
      * exists x. split; [auto|]. split; [auto|]. rewrite Ho by auto. rewrite HG1. apply lookup_insert.
      * assert (q <> p) by (intros ->; auto). destruct (Hin q Hq) as (z & Ez & Hz & Ez'). rewrite HG1, lookup_insert_ne in Ez by auto. eauto.
Qed.

Definition erase_list (cs l : list Z) : list Z := List.filter (fun y => negb (has y cs)) l.
Lemma erase_list_cons a cs l : erase_list cs (set_erase a l) = erase_list (a :: cs) l.
Proof.
  unfold erase_list, set_erase. induction l as [|b l IH]; [auto|]. simpl. rewrite (Z.eqb_sym a b).
  destruct (Z.eqb_spec b a); simpl; [auto|]. destruct (has b cs); simpl; now rewrite IH.
Qed.
Lemma erase_list_In cs l b : In b (erase_list cs l) <-> In b l /\ ~ In b cs.
Proof. unfold erase_list. rewrite filter_In, negb_true_iff, has_false. tauto. Qed.

Lemma move_common_spec p0 m : forall cs ps G G' y, List.NoDup ps -> List.NoDup cs -> ~ In m ps -> gs G !! m = Some y ->
  (forall a, In a cs -> a <> 0 /\ ~ In (- a) cs /\ ~ In a (g_args y) /\ ~ In (-a) (g_args y)) ->
  (forall p, In p ps -> is_Some (gs G !! p)) ->
  move_common p0 cs ps m G = Some G' ->
  nxt G' = nxt G /\ (forall j, j <> m -> ~ In j ps -> gs G' !! j = gs G !! j) /\
  (exists l, gs G' !! m = Some (with_args y l) /\ Permutation l (cs ++ g_args y)) /\
  forall p, In p ps -> exists x, gs G !! p = Some x /\ (forall a, In a cs -> In a (g_args x)) /\
     gs G' !! p = Some (with_args x (erase_list cs (g_args x))).
Proof.
  induction cs as [|a cs IH]; intros ps G G' y Hps Hcs Hm Ey Hnn Hsome H; cbn [move_common] in H.
  - injection H as <-. split; [auto|]. split; [auto|]. split.
    + exists (g_args y). destruct y. auto.
    + intros p Hp. destruct (Hsome p Hp) as [x Ex]. exists x. split; [auto|]. split; [intros ? []|].
      rewrite Ex. f_equal. destruct x as [t k l]. unfold with_args. simpl. f_equal. unfold erase_list. simpl. clear. induction l; simpl; f_equal; auto.
  - inversion Hcs as [|? ? Ha Hcs']; subst. apply bind_inv in H as (G1 & E1 & H). apply bind_inv in H as (G2 & E2 & H).
    destruct (Hnn a ltac:(left; auto)) as (A0 & A1 & A2 & A3).
    apply share_arg_inv in E1. eapply (add_arg_fresh m) in E1 as [HG1 N1]; [|exact Ey|auto|auto].
    destruct (erase_in_all_spec a ps G1 G2 Hps E2) as (N2 & O2 & I2).
    destruct (IH ps G2 G' (with_args y (set_insert a (g_args y)))) as (N & Ho & (l & El & Pl) & Hin); auto.
    + rewrite O2 by auto. rewrite HG1. apply lookup_insert.
    + intros b Hb. destruct (Hnn b ltac:(right; auto)) as (B0 & B1 & B2 & B3). cbn [with_args g_args]. rewrite !set_insert_In.
      assert (b <> a) by (intros ->; auto). assert (- b <> a) by (intros Eb; apply B1; left; auto).
      split; [auto|]. split; [intros Hc; apply B1; right; auto|]. tauto.
    + intros p Hp. destruct (I2 p Hp) as (x & _ & _ & E). eauto.
    + split; [lia|]. split; [|split].
      * intros j J Hj. rewrite Ho by auto. rewrite O2 by auto. rewrite HG1. apply lookup_insert_ne; auto.
      * exists l. split; [auto|]. cbn [with_args g_args] in Pl. rewrite Pl, set_insert_perm by auto. symmetry. apply Permutation_middle.
      * intros p Hp. destruct (I2 p Hp) as (x & Ex & Hax & Ex2). assert (p <> m) by (intros ->; auto).
        rewrite HG1, lookup_insert_ne in Ex by auto. exists x. split; [auto|].
        destruct (Hin p Hp) as (x2 & Ex2' & Hx2 & Ex'). rewrite Ex2 in Ex2'. injection Ex2' as <-. cbn [with_args g_args] in *. split.
        -- intros b [->|Hb]; [auto|]. specialize (Hx2 b Hb). now apply set_erase_In in Hx2.
        -- rewrite Ex'. unfold with_args. cbn. now rewrite erase_list_cons.
Qed.

Lemma add_to_all_spec m : forall ps G G', List.NoDup ps -> 0 < m -> (forall p, In p ps -> exists x, gs G !! p = Some x /\ ~ In m (g_args x) /\ ~ In (- m) (g_args x)) ->
  add_to_all ps m G = Some G' ->
  nxt G' = nxt G /\ (forall j, ~ In j ps -> gs G' !! j = gs G !! j) /\
  forall p, In p ps -> exists x, gs G !! p = Some x /\
    ((g_args x <> [] /\ gs G' !! p = Some (with_args x (set_insert m (g_args x)))) \/ (g_args x = [] /\ gs G' !! p = Some (Gate kNull (g_min x) [m]))).
Proof.
  induction ps as [|p ps IH]; intros G G' Hnd Hm Hs H; cbn [add_to_all] in H.
  - injection H as <-. split; [auto|]. split; [auto|]. intros p [].
  - inversion Hnd as [|? ? Hp Hnd']; subst.
    destruct (Hs p ltac:(left; auto)) as (x & Ex & X1 & X2).
    apply bind_inv in H as (G1 & E1 & H). eapply (add_arg_fresh p) in E1 as [HG1 N1]; [|exact Ex|auto|auto].
    apply bind_inv in H as (x1 & Ex1 & H). rewrite HG1, lookup_insert in Ex1. injection Ex1 as <-.
    apply bind_inv in H as (G2 & E2 & H).
    assert (H2 : nxt G2 = nxt G /\ (forall j, j <> p -> gs G2 !! j = gs G !! j) /\
       ((g_args x <> [] /\ gs G2 !! p = Some (with_args x (set_insert m (g_args x)))) \/ (g_args x = [] /\ gs G2 !! p = Some (Gate kNull (g_min x) [m])))).
    { cbn [with_args g_args] in E2. assert (Hl : size (set_insert m (g_args x)) = size (g_args x) + 1).
      { unfold size. rewrite (Permutation_length (set_insert_perm m _ X1)). simpl. lia. }
      destruct (Z.eqb_spec (size (set_insert m (g_args x))) 1) as [E|E].
      - apply set_type_inv in E2 as (z & Ez & HG2 & N2). rewrite HG1, lookup_insert in Ez. injection Ez as <-. cbn [with_args g_min g_args] in HG2.
        assert (En : g_args x = []) by (destruct (g_args x); [auto|unfold size in *; simpl length in *; lia]).
        split; [lia|]. split; [intros j J; rewrite HG2, HG1; now rewrite !lookup_insert_ne by auto|].
        right. split; [auto|]. rewrite HG2, lookup_insert. now rewrite En.
      - injection E2 as <-. split; [lia|]. split; [intros j J; rewrite HG1; now rewrite lookup_insert_ne by auto|].
        left. split; [intros En; apply E; rewrite Hl, En; reflexivity|]. rewrite HG1. apply lookup_insert. }
    destruct H2 as (N2 & O2 & C2).
    destruct (IH G2 G') as (N & Ho & Hin); auto.
    { intros q Hq. assert (q <> p) by (intros ->; auto). rewrite O2 by auto. apply Hs. right; auto. }
    split; [lia|]. split.
    + intros j Hj. rewrite Ho by (intros Hc; apply Hj; right; auto). apply O2. intros ->. apply Hj. left; auto.
    + intros q [<-|Hq].
      * exists x. split; [auto|]. rewrite Ho by auto. auto.
      * assert (q <> p) by (intros ->; auto). destruct (Hin q Hq) as (z & Ez & Hz). rewrite O2 in Ez by auto. eauto.
Qed.

(** Moving the arguments [cs] of an AND/OR gate into a gate [m] of the absorbed type. *)
Lemma group_value ν t u k cs l l' m : coalesce_type t = Some u ->
  lit ν m = conn_value u 0 (map (lit ν) cs) ->
  (forall c, In c l' <-> c = m \/ (In c l /\ ~ In c cs)) -> (forall c, In c cs -> In c l) ->
  conn_value t k (map (lit ν) l') = conn_value t k (map (lit ν) l).
Proof.
  intros Ht Hm Hl' Hcs.
  assert (HA : u = kAnd -> forallb (fun b => b) (map (lit ν) l') = forallb (fun b => b) (map (lit ν) l)).
  { intros ->. simpl in Hm. apply eq_true_iff_eq. rewrite !forallb_forall. split; intros H v Hv; apply in_map_iff in Hv as (c & <- & Hc).
    - destruct (in_dec Z.eq_dec c cs) as [Hin|Hin].
      + assert (E : lit ν m = true) by (apply H; apply in_map; apply Hl'; auto). rewrite Hm, forallb_forall in E. apply E. now apply in_map.
      + apply H. apply in_map. apply Hl'. auto.
    - apply Hl' in Hc as [->|[Hc _]]; [|apply H; now apply in_map]. rewrite Hm. apply forallb_forall. intros v Hv.
      apply in_map_iff in Hv as (d & <- & Hd). apply H. apply in_map. auto. }
  assert (HO : u = kOr -> existsb (fun b => b) (map (lit ν) l') = existsb (fun b => b) (map (lit ν) l)).
  { intros ->. simpl in Hm. apply eq_true_iff_eq. rewrite !existsb_exists. split; intros (v & Hv & E); apply in_map_iff in Hv as (c & <- & Hc).
    - apply Hl' in Hc as [->|[Hc _]]; [|exists (lit ν c); split; [now apply in_map|auto]]. rewrite Hm in E. apply existsb_exists in E as (w & Hw & E).
      apply in_map_iff in Hw as (d & <- & Hd). exists (lit ν d). split; [apply in_map|]; auto.
    - destruct (in_dec Z.eq_dec c cs) as [Hin|Hin].
      + exists (lit ν m). split; [apply in_map, Hl'; auto|]. rewrite Hm. apply existsb_exists. exists (lit ν c). split; [now apply in_map|auto].
      + exists (lit ν c). split; [apply in_map, Hl'; auto|auto]. }
  destruct t; try discriminate; injection Ht as <-; simpl; auto; f_equal; auto.
Qed.

Lemma merge_common_keeps cs ps G G' t : wf G -> List.NoDup ps -> List.NoDup cs -> simple_type t ->
  (forall p, In p ps -> exists x, gs G !! p = Some x /\ g_type x = t /\ forall a, In a cs -> In a (g_args x)) ->
  merge_common cs ps G = Some G' -> keeps G G'.
Proof.
  intros W Hps Hcs Ht Hp H. unfold merge_common in H. destruct ps as [|p0 ps0] eqn:Eps; [discriminate|]. rewrite <- Eps in *.
  apply bind_inv in H as (x0 & Ex0 & H).
  assert (Hp0 : In p0 ps) by (rewrite Eps; left; auto).
  destruct (Hp p0 Hp0) as (x0' & Ex0' & Et0 & Hc0). rewrite Ex0 in Ex0'. injection Ex0' as <-.
  destruct (proj2 W _ _ Ex0) as [_ [Hnd0 Hok0]].
  unfold new_gate in H. cbn [nxt] in H. set (n := nxt G) in *.
  assert (Wn : 1 < n) by apply W.
  assert (Hlt : forall p, In p ps -> p < n) by (intros p Hpp; destruct (Hp p Hpp) as (x & Ex & _); now apply W in Ex).
  apply bind_inv in H as (G2 & E2 & H).
  set (G1 := Graph (<[n := Gate (g_type x0) 0 []]> (gs G)) (n + 1) (nulls G) (reg G)) in E2.
  destruct (move_common_spec p0 n cs ps G1 G2 (Gate (g_type x0) 0 []) Hps Hcs) as (N2 & O2 & (l & El & Pl) & I2); [| | | |exact E2|].
  { intros Hc. specialize (Hlt n Hc). lia. } { unfold G1; cbn [gs]. apply lookup_insert. }
  { intros a Ha. destruct (Hok0 a (Hc0 a Ha)) as (? & ? & Hn). simpl. split; [auto|]. split; [|auto]. intros Hc. apply Hn. auto. }
  { intros p Hpp. unfold G1; cbn [gs]. rewrite lookup_insert_ne by (specialize (Hlt p Hpp); lia). destruct (Hp p Hpp) as (x & -> & _). eauto. }
  unfold G1 in *; cbn [gs nxt with_args g_type g_min g_args] in *. rewrite app_nil_r in Pl.
  assert (Hg2 : forall p, In p ps -> exists x, gs G !! p = Some x /\ (forall a, In a cs -> In a (g_args x)) /\ g_type x = t /\
     gs G2 !! p = Some (with_args x (erase_list cs (g_args x)))).
  { intros p Hpp. destruct (I2 p Hpp) as (x & Ex & Hx & Ex2). rewrite lookup_insert_ne in Ex by (specialize (Hlt p Hpp); lia).
    destruct (Hp p Hpp) as (x' & Ex' & Etx & _). rewrite Ex in Ex'. injection Ex' as <-. eauto. }
  destruct (add_to_all_spec n ps G2 G' Hps) as (N & Ho & Hin); [lia| |exact H|].
  { intros p Hpp. destruct (Hg2 p Hpp) as (x & Ex & _ & _ & Ex2). eexists. split; [exact Ex2|]. cbn [with_args g_args]. rewrite !erase_list_In.
    destruct (proj2 W _ _ Ex) as [_ [_ Hok]]. split; intros [Hc _]; apply Hok in Hc; fold n in Hc; lia. }
  assert (Hnps : ~ In n ps) by (intros Hc; specialize (Hlt n Hc); lia).
  assert (Em : gs G' !! n = Some (Gate t 0 l)) by (rewrite Ho by auto; rewrite El; now rewrite Et0).
  assert (Hoth : forall j, j <> n -> ~ In j ps -> gs G' !! j = gs G !! j).
  { intros j J Hj. rewrite Ho, O2 by auto. apply lookup_insert_ne. auto. }
  assert (Hlin : forall c, In c l <-> In c cs) by (intros c; split; apply Permutation_in; [|symmetry]; auto).
  assert (Hnew : forall p, In p ps -> exists x x', gs G !! p = Some x /\ gs G' !! p = Some x' /\ g_type x = t /\ (forall a, In a cs -> In a (g_args x)) /\
     (forall c, In c (g_args x') <-> c = n \/ (In c (g_args x) /\ ~ In c cs)) /\ List.NoDup (g_args x') /\ g_min x' = g_min x /\ (g_type x' = t \/ (g_type x' = kNull /\ g_args x' = [n]))).
  { intros p Hpp. destruct (Hg2 p Hpp) as (x & Ex & Hx & Etx & Ex2). destruct (Hin p Hpp) as (x2 & Ex2' & Hcase). rewrite Ex2 in Ex2'. injection Ex2' as <-.
    cbn [with_args g_type g_min g_args] in Hcase. destruct (proj2 W _ _ Ex) as [_ [Hndx Hokx]].
    assert (Hni : ~ In n (erase_list cs (g_args x))) by (rewrite erase_list_In; intros [Hc _]; apply Hokx in Hc; fold n in Hc; lia).
    destruct Hcase as [[Hne E']|[Hem E']].
    - exists x. eexists. split; [auto|]. split; [exact E'|]. cbn [with_args g_type g_min g_args]. repeat split; auto.
      + rewrite set_insert_In, erase_list_In. tauto.
      + rewrite set_insert_In, erase_list_In. tauto.
      + eapply Permutation_NoDup; [symmetry; apply set_insert_perm; auto|]. constructor; [auto|]. now apply List.NoDup_filter.
    - exists x. eexists. split; [auto|]. split; [exact E'|]. cbn [g_type g_min g_args]. repeat split; auto.
      + intros [<-|[]]. auto.
      + intros [->|Hc]; [left; auto|]. rewrite <- erase_list_In, Hem in Hc. destruct Hc.
      + repeat constructor. simpl. tauto. }
  assert (Hcslt : forall c, In c cs -> c <> 0 /\ Z.abs c < n /\ ~ In (- c) cs).
  { intros c Hc. destruct (Hok0 c (Hc0 c Hc)) as (? & ? & Hn). repeat split; auto. }
  apply (keeps_module G G' (Gate t 0 l)); auto.
  - split; [lia|]. intros j y Ey. destruct (Z.eq_dec j n) as [->|J].
    { rewrite Em in Ey. injection Ey as <-. split; [lia|]. cbn [g_args]. split; [eapply Permutation_NoDup; [symmetry; exact Pl|auto]|].
      intros c Hc. apply Hlin in Hc. destruct (Hcslt c Hc) as (? & ? & ?). rewrite Hlin. repeat split; auto. lia. }
    destruct (in_dec Z.eq_dec j ps) as [Hj|Hj].
    + destruct (Hnew j Hj) as (x & x' & Ex & Ex' & _ & _ & Hargs & Hnd & _). rewrite Ex' in Ey. injection Ey as <-.
      destruct (proj2 W _ _ Ex) as [? [_ Hok]]. split; [lia|]. split; [auto|]. intros c Hc. apply Hargs in Hc as [->|[Hc _]].
      * repeat split; try lia. rewrite Hargs. intros [|[Hc _]]; [lia|]. apply Hok in Hc. fold n in Hc. lia.
      * destruct (Hok c Hc) as (? & ? & ?). repeat split; auto; [lia|]. rewrite Hargs. intros [E|[Hd _]]; [|auto]. fold n in H2. lia.
    + rewrite Hoth in Ey by auto. apply W in Ey as [? ?]. split; [lia|]. eapply args_ok_mono; eauto. lia.
  - cbn [nxt] in *. lia.
  - cbn [g_args]. intros c Hc. apply Hlin in Hc. now apply Hcslt.
  - fold n. intros j Hj. destruct (in_dec Z.eq_dec j ps) as [Hjp|Hjp].
    + destruct (Hnew j Hjp) as (x & x' & -> & -> & _). split; eauto.
    + rewrite Hoth by (auto; lia). tauto.
  - fold n. intros j x x' Ex Ex'. assert (J : j <> n) by (apply W in Ex; fold n in Ex; lia).
    destruct (in_dec Z.eq_dec j ps) as [Hj|Hj].
    + destruct (Hnew j Hj) as (z & z' & Ez & Ez' & Etz & Hcz & Hargs & _ & Hmin & Htype).
      rewrite Ex in Ez. injection Ez as <-. rewrite Ex' in Ez'. injection Ez' as <-. split.
      * intros c Hc. apply Hargs in Hc as [->|[Hc _]]; [|auto]. right. split; [lia|]. cbn [g_args]. intros d Hd. apply Hlin in Hd. auto.
      * intros ν Hν. assert (Hn : lit ν n = conn_value t 0 (map (lit ν) cs)).
        { unfold lit at 1. destruct (Z.ltb_spec n 0); [lia|]. rewrite Hν. unfold gate_value. cbn [g_type g_min g_args]. apply (value_perm ν _ _ _ _ Pl). }
        unfold gate_value. rewrite Hmin, Etz.
        assert (Hct : coalesce_type t = Some t) by (destruct Ht as [-> | ->]; auto).
        rewrite <- (group_value ν t t (g_min x) cs (g_args x) (g_args x') n Hct Hn Hargs Hcz).
        destruct Htype as [->|[-> ->]]; [auto|]. simpl. destruct Ht as [-> | ->]; simpl; [now rewrite andb_true_r|now rewrite orb_false_r].
    + rewrite Hoth, Ex in Ex' by auto. injection Ex' as <-. auto.
Qed.

(** ** New modules *)
Lemma transfer_all_spec i m : i <> m -> forall l G G' x y, gs G !! i = Some x -> gs G !! m = Some y -> List.NoDup l ->
  (forall a, In a l -> ~ In (- a) l /\ ~ In a (g_args y) /\ ~ In (-a) (g_args y)) ->
  transfer_all i l m G = Some G' ->
  nxt G' = nxt G /\ (forall j, j <> i -> j <> m -> gs G' !! j = gs G !! j) /\ (forall a, In a l -> In a (g_args x)) /\
  gs G' !! i = Some (with_args x (erase_list l (g_args x))) /\
  exists l', gs G' !! m = Some (with_args y l') /\ Permutation l' (l ++ g_args y).
Proof.
  intros Him. induction l as [|a l IH]; intros G G' x y Ex Ey Hnd Hnn H; cbn [transfer_all] in H.
  - injection H as <-. split; [auto|]. split; [auto|]. split; [intros ? []|]. split.
    + rewrite Ex. f_equal. destruct x as [t k l]. unfold with_args. simpl. f_equal. unfold erase_list. simpl. clear. induction l; simpl; f_equal; auto.
    + exists (g_args y). destruct y. auto.
  - inversion Hnd as [|? ? Ha Hnd']; subst. apply bind_inv in H as (G1 & E1 & H). unfold transfer_arg in E1. rewrite Ex in E1. cbn [mbind option_bind] in E1.
    destruct (constant x); [discriminate|]. apply bind_inv in E1 as (G0 & E0 & E1). apply erase_arg_inv in E0 as (x0 & Ex0 & Hax & HG0 & N0).
    rewrite Ex in Ex0. injection Ex0 as <-. destruct (Hnn a ltac:(left; auto)) as (A1 & A2 & A3).
    eapply (add_arg_fresh m) in E1 as [HG1 N1]; [|rewrite HG0, lookup_insert_ne by auto; exact Ey|auto|auto].
    destruct (IH G1 G' (with_args x (set_erase a (g_args x))) (with_args y (set_insert a (g_args y)))) as (N & Ho & Hin & Ei & l' & El & Pl); auto.
    + rewrite HG1, lookup_insert_ne by auto. rewrite HG0. apply lookup_insert.
    + rewrite HG1. apply lookup_insert.
    + intros b Hb. destruct (Hnn b ltac:(right; auto)) as (B1 & B2 & B3). cbn [with_args g_args]. rewrite !set_insert_In.
      assert (b <> a) by (intros ->; auto). assert (- b <> a) by (intros Eb; apply B1; left; auto).
      split; [intros Hc; apply B1; right; auto|]. tauto.
    + cbn [with_args g_type g_min g_args] in *. split; [lia|]. split; [|split; [|split]].
      * intros j J1 J2. rewrite Ho by auto. rewrite HG1, lookup_insert_ne by auto. rewrite HG0. apply lookup_insert_ne; auto.
      * intros b [->|Hb]; [auto|]. specialize (Hin b Hb). now apply set_erase_In in Hin.
      * rewrite Ei. unfold with_args. cbn. now rewrite erase_list_cons.
      * exists l'. split; [auto|]. rewrite Pl, set_insert_perm by auto. symmetry. apply Permutation_middle.
Qed.

Lemma create_module_keeps i l G G' x : wf G -> gs G !! i = Some x -> List.NoDup l -> (forall a, In a l -> In a (g_args x)) ->
  create_module i l G = Some G' -> keeps G G'.
Proof.
  intros W Ex Hnd Hsub H. unfold create_module in H. rewrite Ex in H. cbn [mbind option_bind] in H.
  destruct ((size l <=? 1) || (size (g_args x) <=? size l)); [injection H as <-; now apply keeps_refl|].
  destruct (coalesce_type (g_type x)) as [t|] eqn:Et; [|injection H as <-; now apply keeps_refl].
  unfold new_gate in H. cbn [nxt] in H. set (n := nxt G) in *. assert (Wn : 1 < n) by apply W.
  destruct (proj2 W _ _ Ex) as [Hi [Hndx Hokx]]. fold n in Hi.
  apply bind_inv in H as (G1 & E1 & H).
  set (G0 := Graph (<[n := Gate t 0 []]> (gs G)) (n + 1) (nulls G) (reg G)) in E1.
  destruct (transfer_all_spec i n ltac:(lia) l G0 G1 x (Gate t 0 [])) as (N1 & O1 & _ & Ei & l' & El & Pl); auto.
  { unfold G0; cbn [gs]. rewrite lookup_insert_ne by lia. exact Ex. } { unfold G0; cbn [gs]. apply lookup_insert. }
  { intros a Ha. destruct (Hokx a (Hsub a Ha)) as (? & ? & Hna). simpl. split; [intros Hc; apply Hna; auto|auto]. }
  unfold G0 in *; cbn [gs nxt with_args g_type g_min g_args] in *. rewrite app_nil_r in Pl.
  assert (Hni : forall b, In b (erase_list l (g_args x)) -> Z.abs b < n) by (intros b Hb; apply erase_list_In in Hb as [Hb _]; now apply Hokx in Hb).
  eapply (add_arg_fresh i) in H as [HG' N']; [|exact Ei|..]; cbn [with_args g_args g_type g_min] in *;
    [|intros Hc; apply Hni in Hc; lia|intros Hc; apply Hni in Hc; lia].
  assert (Hlin : forall c, In c l' <-> In c l) by (intros c; split; apply Permutation_in; [|symmetry]; auto).
  assert (Hargs : forall c, In c (set_insert n (erase_list l (g_args x))) <-> c = n \/ (In c (g_args x) /\ ~ In c l)).
  { intros c. rewrite set_insert_In, erase_list_In. tauto. }
  assert (Em : gs G' !! n = Some (Gate t 0 l')) by (rewrite HG', lookup_insert_ne by lia; exact El).
  assert (Ei' : gs G' !! i = Some (with_args x (set_insert n (erase_list l (g_args x))))) by (rewrite HG'; apply lookup_insert).
  assert (Hoth : forall j, j <> n -> j <> i -> gs G' !! j = gs G !! j).
  { intros j J1 J2. rewrite HG', lookup_insert_ne by auto. rewrite O1 by auto. apply lookup_insert_ne; auto. }
  assert (Ht : t = kAnd \/ t = kOr) by (destruct (g_type x); try discriminate; injection Et as <-; auto).
  apply (keeps_module G G' (Gate t 0 l')); auto.
  - split; [lia|]. intros j y Ey. destruct (Z.eq_dec j n) as [->|J].
    { rewrite Em in Ey. injection Ey as <-. split; [lia|]. cbn [g_args]. split; [eapply Permutation_NoDup; [symmetry; exact Pl|auto]|].
      intros c Hc. apply Hlin in Hc. destruct (Hokx c (Hsub c Hc)) as (? & ? & Hd). rewrite Hlin. repeat split; auto. lia. }
    destruct (Z.eq_dec j i) as [->|Hj].
    + rewrite Ei' in Ey. injection Ey as <-. split; [lia|]. cbn [with_args g_args]. apply args_ok_insert; try lia.
      * eapply args_ok_mono; [|instantiate (1 := n); lia]. split; [now apply List.NoDup_filter|]. intros c Hc. apply erase_list_In in Hc as [Hc _].
        destruct (Hokx c Hc) as (? & ? & Hd). rewrite erase_list_In. tauto.
      * intros Hc. apply Hni in Hc. lia.
      * intros Hc. apply Hni in Hc. lia.
    + rewrite Hoth in Ey by auto. apply W in Ey as [? ?]. split; [lia|]. eapply args_ok_mono; eauto. lia.
  - lia.
  - cbn [g_args]. intros c Hc. apply Hlin in Hc. now apply Hokx, Hsub.
  - fold n. intros j Hj. destruct (Z.eq_dec j i) as [->|Hji]; [rewrite Ei', Ex; split; eauto|]. rewrite Hoth by (auto; lia). tauto.
  - fold n. intros j z z' Ez Ez'. assert (J : j <> n) by (apply W in Ez; fold n in Ez; lia).
    destruct (Z.eq_dec j i) as [->|Hj].
    + rewrite Ex in Ez. injection Ez as <-. rewrite Ei' in Ez'. injection Ez' as <-. cbn [with_args g_args]. split.
      * intros c Hc. apply Hargs in Hc as [->|[Hc _]]; [|auto]. right. split; [lia|]. intros d Hd. apply Hlin in Hd. auto.
      * intros ν Hν. unfold gate_value. cbn [with_args g_type g_min g_args]. apply (group_value ν _ t _ l (g_args x) _ n Et); auto.
        unfold lit at 1. destruct (Z.ltb_spec n 0); [lia|]. rewrite Hν. unfold gate_value. cbn [g_type g_min g_args]. apply (value_perm ν _ _ _ _ Pl).
    + rewrite Hoth, Ez in Ez' by auto. injection Ez' as <-. auto.
Qed.
