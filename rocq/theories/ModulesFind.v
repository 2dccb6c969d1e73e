(** Module detection is right. *)
From stdpp Require Import gmap.
From Coq Require Import List ZArith Lia Bool Permutation Sorted.
Import ListNotations.
From Verif Require Import Pdag PdagProofs PdagAdd PdagSem PdagKeeps ZbddGraph ZbddModules ZbddModulesProofs Preproc PreprocProofs PreprocNorm PreprocMerge Order Modules ModulesTiming ModulesGraph ModulesStatic.
Open Scope Z_scope.

(** ** The rounds of FilterModularArgs *)
Lemma filter_perm (f : Z -> bool) l : Permutation l (List.filter f l ++ List.filter (fun a => negb (f a)) l).
Proof.
  induction l as [|a l IH]; [constructor|]. simpl. destruct (f a); simpl; [constructor; auto|]. rewrite IH at 1. apply Permutation_middle.
Qed.
Lemma overlap_sym u v : overlap u v = overlap v u.
Proof. unfold overlap. apply andb_comm. Qed.
Lemma filter_modular_spec rg : forall fuel M check, (length M < fuel)%nat \/ check = [] ->
  exists T, Permutation M (filter_modular fuel rg M check ++ T) /\
    forall a b, In a (filter_modular fuel rg M check) -> In b (check ++ T) -> overlap (rg (Z.abs a)) (rg (Z.abs b)) = false.
Proof.
  induction fuel as [|fuel IH]; intros M check F.
  - destruct F as [F| ->]; [lia|]. exists []. rewrite app_nil_r. split; [reflexivity|]. intros a b _ [].
  - cbn [filter_modular]. destruct check as [|c check]; [exists []; rewrite app_nil_r; split; [reflexivity|intros a b _ []]|].
    set (ok := fun a => negb (existsb (fun b => overlap (rg (Z.abs a)) (rg (Z.abs b))) (c :: check))).
    change (List.filter (fun a => negb (existsb (fun b => overlap (rg (Z.abs a)) (rg (Z.abs b))) (c :: check))) M) with (List.filter ok M).
    pose proof (filter_perm ok M) as P. set (M1 := List.filter ok M) in *. set (M2 := List.filter (fun a => negb (ok a)) M) in *.
    assert (F' : (length M1 < fuel)%nat \/ M2 = []).
    { destruct M2 as [|m M3]; auto. left. apply Permutation_length in P. rewrite app_length in P. simpl in P. destruct F as [F|F]; [lia|discriminate]. }
    destruct (IH M1 M2 F') as (T & PT & AT). set (R := filter_modular fuel rg M1 M2) in *.
    exists (M2 ++ T). split.
    + change (Permutation M (R ++ M2 ++ T)). etransitivity; [exact P|]. etransitivity; [apply Permutation_app_tail; exact PT|]. rewrite <- app_assoc. apply Permutation_app_head, Permutation_app_comm.
    + intros a b A B. apply in_app_iff in B as [B|B]; [|apply AT; auto].
      assert (A1 : In a M1) by (exact (Permutation_in _ (Permutation_sym PT) (in_or_app _ _ _ (or_introl A)))).
      apply filter_In in A1 as [_ O]. unfold ok in O. apply negb_true_iff in O. destruct (overlap (rg (Z.abs a)) (rg (Z.abs b))) eqn:OV; auto.
      exfalso. rewrite <- not_true_iff_false in O. apply O. apply existsb_exists. exists b. auto.
Qed.

(** ** The groups of GroupModularArgs *)
Lemma gather_spec rg : forall l current mn, current <> [] -> (forall a, In a current -> mn <= (rg (Z.abs a)).1) ->
  StronglySorted (fun a b => (rg (Z.abs b)).2 <= (rg (Z.abs a)).2) l ->
  concat (gather_groups rg current mn l) = current ++ l /\ (forall g, In g (gather_groups rg current mn l) -> g <> []) /\
  ForallOrdPairs (fun g1 g2 => forall a b, In a g1 -> In b g2 -> (rg (Z.abs b)).2 < (rg (Z.abs a)).1) (gather_groups rg current mn l).
Proof.
  induction l as [|a l IH]; intros current mn NE MN SO; cbn [gather_groups].
  - simpl. split; [auto|]. split; [intros g [<-|[]]; auto|]. repeat constructor.
  - inversion SO as [|? ? SO' FA]; subst. destruct (Z.leb_spec mn (rg (Z.abs a)).2) as [L|L].
    + destruct (IH (current ++ [a]) (Z.min mn (rg (Z.abs a)).1)) as (A & B & C0); auto.
      { destruct current; discriminate. }
      { intros b B. apply in_app_iff in B as [B|[<-|[]]]; [specialize (MN b B); lia|lia]. }
      rewrite <- app_assoc in A. auto.
    + destruct (IH [a] (rg (Z.abs a)).1) as (A & B & C0); auto; [intros b [<-|[]]; lia|].
      cbn [concat]. rewrite A. split; [auto|]. split; [intros g [<-|J]; auto|]. constructor; auto.
      apply Forall_forall. intros g J u v Iu Iv. specialize (MN u Iu).
      assert (K : In v (a :: l)) by (change (In v ([a] ++ l)); rewrite <- A; apply in_concat; eauto).
      destruct K as [<-|K]; [lia|]. rewrite Forall_forall in FA. specialize (FA v K). simpl in FA. lia.
Qed.
Lemma group_spec sort rg M : sorts sort -> (forall a, In a M -> (rg (Z.abs a)).1 <= (rg (Z.abs a)).2) ->
  Permutation (concat (group_modular sort rg M)) M /\
  ForallOrdPairs (fun g1 g2 => forall a b, In a g1 -> In b g2 -> overlap (rg (Z.abs a)) (rg (Z.abs b)) = false) (group_modular sort rg M).
Proof.
  intros SS OK. destruct (SS rg M OK) as [P SO]. unfold group_modular. destruct (sort rg M) as [|a l] eqn:E.
  - split; [exact P|constructor].
  - assert (OK' : forall b, In b (a :: l) -> (rg (Z.abs b)).1 <= (rg (Z.abs b)).2) by (intros b B; apply OK; exact (Permutation_in _ P B)).
    assert (SO' : StronglySorted (fun a b => (rg (Z.abs b)).2 <= (rg (Z.abs a)).2) (a :: l)).
    { clear E P. revert OK'. induction SO as [|b m SO IH FA]; intros OK'; constructor.
      - apply IH. intros c J. apply OK'. right. auto.
      - apply Forall_forall. intros c J. rewrite Forall_forall in FA. specialize (FA c J).
        pose proof (OK' b ltac:(left; auto)). pose proof (OK' c ltac:(right; auto)). unfold comes_before in FA.
        destruct (Z.ltb_spec (rg (Z.abs b)).2 (rg (Z.abs c)).1); [discriminate|]. destruct (Z.ltb_spec (rg (Z.abs c)).2 (rg (Z.abs b)).1); [lia|].
        destruct (Z.ltb_spec (rg (Z.abs b)).2 (rg (Z.abs c)).2); [discriminate|lia]. }
    inversion SO' as [|? ? SO2 FA]; subst.
    destruct (gather_spec rg l [a] (rg (Z.abs a)).1) as (A & _ & C0); auto; [intros b [<-|[]]; lia|].
    rewrite A. split; [exact P|]. clear -C0. induction C0 as [|g gs F C0 IH]; constructor; auto. eapply Forall_impl; [|exact F]. simpl. intros h Hh u v Iu Iv. specialize (Hh u v Iu Iv).
    unfold overlap. apply andb_false_iff. left. apply Z.leb_gt. auto.
Qed.

Section Find.
Context (G : graph) (root : Z) (r : Z -> nat) (RK : ranked G r) (V : times) (T : timed G root V) (W : wf G).
Context (ALL : forall i, is_Some (gs G !! i) -> under G root i) (ROOT : is_Some (gs G !! root)).
Context (NC : forall i x, gs G !! i = Some x -> constant x = false /\ 0 <= g_min x).
Context (parents : Z -> nat) (PAR : forall v, parents v = 1%nat -> forall p q, edge G p v -> edge G q v -> p = q).
Context (sort : (Z -> Z * Z) -> list Z -> list Z) (SORT : sorts sort).
Notation en := (enter_time V). Notation ex := (exit_time V). Notation last := (last_visit V).
Notation covers := (covers G V).

Record good (s : detection) : Prop := {
  i_keeps : keeps G (d_graph s);
  i_gate : forall g x, gs G !! g = Some x -> d_range s !! g = None -> gs (d_graph s) !! g = Some x /\
    forall l, (forall a, In a l -> In a (g_args x)) -> closed G g l -> closed (d_graph s) g l;
  i_range : forall g ab, d_range s !! g = Some ab -> is_Some (gs G !! g) /\ is_Some (d_mark s !! g) /\ covers g ab;
  i_down : forall g c, is_Some (d_range s !! g) -> edge G g c -> is_Some (gs G !! c) -> is_Some (d_range s !! c);
  i_flag : forall m, d_module s m = true -> is_Some (gs (d_graph s) !! m) /\ modular (d_graph s) m /\ (m < nxt G -> modular G m);
  i_modular : forall m, m < nxt G -> modular G m -> modular (d_graph s) m;
  i_found : forall g, is_Some (d_range s !! g) -> modular G g -> d_module s g = true;
  i_new : forall m, nxt G <= m < nxt (d_graph s) -> d_module s m = true;
  i_reach : forall m, is_Some (gs (d_graph s) !! m) -> under (d_graph s) root m }.

Lemma arg_lt g x a : gs G !! g = Some x -> In a (g_args x) -> 1 < Z.abs a < nxt G.
Proof.
  intros Ex J. destruct (proj2 W _ _ Ex) as [_ [_ OK]]. destruct (OK a J) as (A & B & _). destruct (NC g x Ex) as [C _].
  unfold constant in C. apply orb_false_iff in C as [C1 C2]. rewrite has_false in C1, C2. assert (a <> 1) by congruence. assert (a <> -1) by congruence. lia.
Qed.
Lemma gate_lt g : is_Some (gs G !! g) -> 1 < g < nxt G.
Proof. intros [x Ex]. apply W in Ex. tauto. Qed.
Lemma gate_of s j : good s -> 1 < j < nxt G -> (is_Some (gs (d_graph s) !! j) <-> is_Some (gs G !! j)).
Proof.
  intros I L. pose proof (k_vars _ _ (i_keeps s I) j L) as [A B]. rewrite <- !not_eq_None_Some. tauto.
Qed.

(** ** Creating a module *)
Lemma new_module_ok s i x l : good s -> gs (d_graph s) !! i = Some x -> constant x = false -> 0 <= g_min x -> List.NoDup l -> (forall a, In a l -> In a (g_args x)) ->
  closed (d_graph s) i l -> (is_Some (gs G !! i) -> is_Some (d_range s !! i)) ->
  exists s' m, new_module i l s = Some (s', m) /\ good s' /\ d_range s' = d_range s /\ (forall g, g < nxt G -> d_mark s' !! g = d_mark s !! g) /\ keeps (d_graph s) (d_graph s') /\
    (forall g, g < nxt G -> d_module s' g = d_module s g) /\
    ((m = None /\ d_graph s' = d_graph s /\ (size l <= 1 \/ size (g_args x) <= size l \/ coalesce_type (g_type x) = None)) \/
     (m = Some (nxt (d_graph s)) /\ created i l (d_graph s) (d_graph s') x)).
Proof.
  intros I Ex Cx Mx ND SUB CL PROC. pose proof (k_wf _ _ (i_keeps s I)) as WH. pose proof (k_nxt _ _ (i_keeps s I)) as NX.
  destruct (create_module_run i l (d_graph s) x WH Ex Cx Mx ND SUB) as (H' & E & K & CASE). unfold new_module. rewrite E. cbn [mbind option_bind].
  destruct CASE as [[-> WHY]|[C _]].
  - rewrite Z.eqb_refl. exists (with_graph s (d_graph s)), None. split; [auto|]. assert (with_graph s (d_graph s) = s) as -> by (destruct s; auto). repeat (split; [auto|]). auto.
  - rewrite (c_nxt _ _ _ _ _ C). rewrite (proj2 (Z.eqb_neq (nxt (d_graph s) + 1) (nxt (d_graph s)))) by lia.
    set (n := nxt (d_graph s)) in *. eexists _, (Some n). split; [reflexivity|]. cbn [d_graph d_range d_mark d_module with_mark with_module with_graph].
    split; [|split; [auto|split; [|split; [auto|split; [|right; auto]]]]].
    2:{ intros g L. apply lookup_insert_ne. lia. } 2:{ intros g L. destruct (Z.eqb_spec g n); [lia|auto]. }
    split; cbn [d_graph d_range d_mark d_module with_mark with_module with_graph].
    + exact (keeps_trans _ _ _ (i_keeps s I) K).
    + intros g y Ey N. destruct (i_gate s I g y Ey N) as [A B]. assert (NE : g <> i) by (intros ->; destruct (PROC ltac:(eauto)); congruence). pose proof (gate_lt g ltac:(eauto)). split.
      * rewrite (c_other _ _ _ _ _ C); auto. fold n. lia.
      * intros l0 L0 CL0. apply (closed_step (d_graph s) H' i l x WH Ex C SUB); auto.
        intros a J. pose proof (arg_lt g y a Ey (L0 a J)). fold n. lia.
    + intros g ab R. destruct (i_range s I g ab R) as (A & B & D). split; [auto|]. split; [|auto]. rewrite lookup_insert_ne; auto. pose proof (gate_lt g A). lia.
    + apply (i_down s I).
    + intros m. destruct (Z.eqb_spec m n) as [->|NE].
      * intros _. split; [destruct (c_new _ _ _ _ _ C) as (t & l' & Q & _); fold n in Q; eauto|]. split; [apply (modular_new (d_graph s) H' i l x); auto|]. lia.
      * intros F. destruct (i_flag s I m F) as (A & B & D). split; [|split; [apply (modular_step (d_graph s) H' i l x); auto|auto]].
        destruct (Z.eq_dec m i) as [->|]; [rewrite (c_gate _ _ _ _ _ C); eauto|]. rewrite (c_other _ _ _ _ _ C); auto.
    + intros m L M. apply (modular_step (d_graph s) H' i l x); auto; [fold n; lia|]. apply (i_modular s I); auto.
    + intros g R M. pose proof (i_found s I g R M) as F. destruct (Z.eqb_spec g n); auto.
    + intros m. rewrite (c_nxt _ _ _ _ _ C). fold n. intros L. destruct (Z.eqb_spec m n); auto. apply (i_new s I). fold n. lia.
    + intros m SM. destruct (Z.eq_dec m n) as [->|NE].
      * apply (under_to_new (d_graph s) H' i l x); auto. apply (i_reach s I). eauto.
      * apply (under_forth (d_graph s) H' i l x); auto. apply (i_reach s I). destruct (Z.eq_dec m i) as [->|]; [eauto|]. rewrite (c_other _ _ _ _ _ C) in SM; auto.
Qed.
Lemma created_constant H H' i l x : wf H -> constant x = false -> created i l H H' x -> constant (with_args x (set_insert (nxt H) (erase_list l (g_args x)))) = false.
Proof.
  intros WH Cx _. pose proof (proj1 WH). unfold constant in *. apply orb_false_iff in Cx as [C1 C2]. apply orb_false_iff. cbn [with_args g_args]. rewrite !has_false in *. rewrite !set_insert_In, !erase_list_In.
  split; intros [Q|[Q _]]; auto; lia.
Qed.

Definition later (s s' : detection) : Prop :=
  good s' /\ d_range s' = d_range s /\ (forall g, g < nxt G -> d_mark s' !! g = d_mark s !! g) /\ (forall g, g < nxt G -> d_module s' g = d_module s g).
Lemma later_refl s : good s -> later s s. Proof. intros I. split; auto. Qed.
Lemma later_trans a b c : later a b -> later b c -> later a c.
Proof. intros (A1 & A2 & A3 & A4) (B1 & B2 & B3 & B4). split; [auto|]. split; [congruence|]. split; intros g L; [rewrite B3, A3|rewrite B4, A4]; auto. Qed.
Lemma new_groups_ok m : forall groups s x, good s -> gs (d_graph s) !! m = Some x -> constant x = false -> 0 <= g_min x -> (is_Some (gs G !! m) -> is_Some (d_range s !! m)) ->
  List.NoDup (concat groups) -> (forall a, In a (concat groups) -> In a (g_args x)) -> (forall l, In l groups -> closed (d_graph s) m l) ->
  exists s', new_groups (Some m) groups s = Some s' /\ later s s'.
Proof.
  induction groups as [|l groups IH]; intros s x I Ex Cx Mx PROC ND SUB CL; cbn [new_groups].
  - exists s. split; [auto|apply later_refl; auto].
  - cbn [concat] in ND, SUB.
    assert (ND1 : List.NoDup l /\ List.NoDup (concat groups) /\ forall a, In a l -> ~ In a (concat groups)).
    { clear -ND. induction l as [|b l IHl]; [split; [constructor|split; [exact ND|intros a []]]|]. simpl in ND. inversion ND as [|? ? N1 N2]; subst. destruct (IHl N2) as (A & B & C). rewrite in_app_iff in N1.
      split; [constructor; tauto|]. split; [auto|]. intros a [<-|J]; [tauto|auto]. }
    destruct ND1 as (ND1 & ND2 & DIS). pose proof (k_wf _ _ (i_keeps s I)) as WH.
    assert (SUBl : forall a, In a l -> In a (g_args x)) by (intros a J; apply SUB; rewrite in_app_iff; auto).
    destruct (new_module_ok s m x l I Ex Cx Mx ND1 SUBl (CL l ltac:(left; auto)) PROC) as (s1 & o & E & I1 & R1 & M1 & K1 & F1 & CASE).
    rewrite E. cbn [mbind option_bind]. 
    assert (LA : later s s1) by (split; auto).
    assert (NEXT : exists x1, gs (d_graph s1) !! m = Some x1 /\ constant x1 = false /\ 0 <= g_min x1 /\ (forall a, In a (concat groups) -> In a (g_args x1)) /\ forall l, In l groups -> closed (d_graph s1) m l).
    { destruct CASE as [(_ & -> & _)|(_ & C)].
      - exists x. split; [auto|]. split; [auto|]. split; [auto|]. split; [intros a J; apply SUB; rewrite in_app_iff; auto|intros l' J; apply CL; right; auto].
      - eexists. split; [apply (c_gate _ _ _ _ _ C)|]. split; [eapply created_constant; eauto|]. cbn [with_args g_args g_min]. split; [auto|]. split.
        + intros a J. rewrite set_insert_In, erase_list_In. right. split; [apply SUB; rewrite in_app_iff; auto|]. intros Q. exact (DIS a Q J).
        + intros l' J. apply (closed_step (d_graph s) (d_graph s1) m l x WH Ex C SUBl).
          * intros a Ja. assert (AA : In a (g_args x)) by (apply SUB; rewrite in_app_iff; right; apply in_concat; eauto). destruct (proj2 WH _ _ Ex) as [_ [_ OK]]. apply OK in AA. lia.
          * intros _ a b Ja Jb Q. assert (A1 : In a (concat groups)) by (apply in_concat; eauto). assert (A2 : In a (g_args x)) by (apply SUB; rewrite in_app_iff; auto).
            apply (abs_inj (d_graph s) m x WH Ex) in Q; auto. subst b. exact (DIS a Jb A1).
          * apply CL. right. auto. }
    destruct NEXT as (x1 & Ex1 & Cx1 & Mx1 & SUB1 & CL1).
    destruct (IH s1 x1 I1 Ex1 Cx1 Mx1) as (s2 & E2 & L2); auto; [intros SG; rewrite R1; auto|].
    exists s2. split; [auto|]. eapply later_trans; eauto.
Qed.

Lemma pairs_split {A} (R : A -> A -> Prop) (SYM : forall u v, R u v -> R v u) pre g post : ForallOrdPairs R (pre ++ g :: post) -> forall h, In h (pre ++ post) -> R g h.
Proof.
  induction pre as [|p pre IH]; simpl; intros F h J; inversion F as [|? ? F1 F2]; subst.
  - rewrite List.Forall_forall in F1. auto.
  - destruct J as [<-|J]; [|auto]. apply SYM. rewrite List.Forall_forall in F1. apply F1. rewrite in_app_iff. right. left. auto.
Qed.
Lemma process_ok s g x own_args M oth : good s -> gs G !! g = Some x -> gs (d_graph s) !! g = Some x -> is_Some (d_range s !! g) ->
  (forall l, (forall a, In a l -> In a (g_args x)) -> closed G g l -> closed (d_graph s) g l) ->
  Permutation (g_args x) (own_args ++ M ++ oth) -> (forall a, In a own_args -> own G V parents a) ->
  (forall a, In a (M ++ oth) -> covers (Z.abs a) (range V s (Z.abs a))) ->
  (forall a, In a M -> en g < (range V s (Z.abs a)).1 /\ (range V s (Z.abs a)).2 < ex g) ->
  exists s', process_modular V sort g own_args M oth s = Some s' /\ later s s'.
Proof.
  intros I Ex EH RG CLT P OWN COV IN. unfold process_modular. rewrite EH. cbn [mbind option_bind].
  destruct (coalesce_type (g_type x)) as [ty|] eqn:Ety; [|exists s; split; [auto|apply later_refl; auto]].
  set (rg := range V s) in *. destruct (NC g x Ex) as [Cx Mx].
  assert (ND : List.NoDup (own_args ++ M ++ oth)) by (eapply Permutation_NoDup; [exact P|]; apply (proj2 W _ _ Ex)).
  assert (ARG : forall b, In b (own_args ++ M ++ oth) -> In b (g_args x)) by (intros b B; exact (Permutation_in _ (Permutation_sym P) B)).
  assert (OWNSUB : forall a, In a own_args -> In a (g_args x)) by (intros a J; apply ARG; rewrite in_app_iff; auto).
  (* the filter *)
  destruct (filter_modular_spec rg (S (length M)) M oth ltac:(left; lia)) as (R & PR & AR). set (M' := filter_modular (S (length M)) rg M oth) in *.
  assert (P' : Permutation (g_args x) (own_args ++ M' ++ R ++ oth)).
  { etransitivity; [exact P|]. apply Permutation_app_head. rewrite app_assoc. apply Permutation_app_tail. exact PR. }
  assert (COV' : forall a, In a (M' ++ R ++ oth) -> covers (Z.abs a) (rg (Z.abs a))).
  { intros a J. apply COV. rewrite app_assoc in J. rewrite in_app_iff in *. destruct J as [J|J]; auto. left. exact (Permutation_in _ (Permutation_sym PR) J). }
  assert (IN' : forall a, In a M' -> en g < (rg (Z.abs a)).1 /\ (rg (Z.abs a)).2 < ex g).
  { intros a J. apply IN. apply (Permutation_in _ (Permutation_sym PR)). rewrite in_app_iff. auto. }
  assert (OK' : forall a, In a M' -> (rg (Z.abs a)).1 <= (rg (Z.abs a)).2).
  { intros a J. destruct (cov_all _ _ _ _ (COV' a ltac:(rewrite in_app_iff; auto)) (Z.abs a) (under_refl _ _)) as [A B].
    assert (UA : under G root (Z.abs a)).
    { apply (edge_under G root g); [|apply ALL; eauto]. exists x, a. split; auto. split; auto. apply (Permutation_in _ (Permutation_sym P')). rewrite !in_app_iff. auto. }
    pose proof (en_last G root V T _ UA). lia. }
  destruct (group_spec sort rg M' SORT OK') as [PG FG]. set (groups := group_modular sort rg M') in *.
  (* closed *)
  assert (CO : closed G g own_args).
  { apply (own_closed G root r RK V T ALL parents PAR). intros a J. split; auto. exists x, a. auto. }
  assert (CM : closed G g M').
  { apply (group_closed G root r RK V T W ALL parents PAR g x own_args M' (R ++ oth) rg); auto. intros a b A B. apply AR; auto. rewrite in_app_iff in *. tauto. }
  assert (CG : forall l, In l groups -> closed G g l).
  { intros l J. destruct (in_split _ _ J) as (pre & post & EG). 
    assert (PL : Permutation M' (l ++ concat (pre ++ post))).
    { etransitivity; [symmetry; exact PG|]. rewrite EG, !concat_app. cbn [concat]. rewrite !app_assoc. apply Permutation_app_tail. apply Permutation_app_comm. }
    apply (group_closed G root r RK V T W ALL parents PAR g x own_args l (concat (pre ++ post) ++ R ++ oth) rg); auto.
    - etransitivity; [exact P'|]. apply Permutation_app_head. rewrite (app_assoc l). apply Permutation_app_tail. exact PL.
    - intros a Ja. apply COV'. rewrite !in_app_iff in *. destruct Ja as [Ja|[Ja|Ja]]; auto; left; apply (Permutation_in _ (Permutation_sym PL)); rewrite in_app_iff; auto.
    - intros a Ja. apply IN'. apply (Permutation_in _ (Permutation_sym PL)). rewrite in_app_iff. auto.
    - intros a b Ja Jb. rewrite !in_app_iff in Jb. unfold apart. destruct Jb as [Jb|Jb].
      + apply in_concat in Jb as (h & Jh & Jb). rewrite EG in FG.
        set (Q := fun g1 g2 : list Z => forall a b, In a g1 -> In b g2 -> overlap (rg (Z.abs a)) (rg (Z.abs b)) = false) in FG.
        assert (SYM : forall u v, Q u v -> Q v u) by (intros u v K c d Jc Jd; rewrite overlap_sym; auto).
        exact (pairs_split Q SYM pre l post FG h Jh a b Ja Jb).
      + apply AR; [|rewrite in_app_iff; tauto]. apply (Permutation_in _ (Permutation_sym PL)). rewrite in_app_iff. auto. }
  assert (MSUB : forall a, In a M' -> In a (g_args x)) by (intros a J; apply (Permutation_in _ (Permutation_sym P')); rewrite !in_app_iff; auto).
  assert (GSUB : forall a, In a (concat groups) -> In a M') by (intros a J; exact (Permutation_in _ PG J)).
  assert (LSUB : forall l a, In l groups -> In a l -> In a M') by (intros l a J Ja; apply GSUB, in_concat; eauto).
  pose proof (Permutation_NoDup P' (proj1 (proj2 (proj2 W _ _ Ex)))) as ND'.
  assert (NDO : List.NoDup own_args /\ List.NoDup M' /\ forall a, In a own_args -> ~ In a M').
  { clear -ND'. revert ND'. generalize (R ++ oth). intros Q. induction own_args as [|b l IHl]; simpl; intros ND'.
    - split; [constructor|]. split; [|intros a []]. clear -ND'. induction M' as [|c m IHm]; [constructor|]. simpl in ND'. inversion ND' as [|? ? N1 N2]; subst. constructor; auto. rewrite in_app_iff in N1. tauto.
    - inversion ND' as [|? ? N1 N2]; subst. destruct (IHl N2) as (A & B & C). rewrite !in_app_iff in N1. split; [constructor; tauto|]. split; auto. intros a [<-|J]; [tauto|auto]. }
  destruct NDO as (NDO & NDM & DIS).
  assert (NDG : List.NoDup (concat groups)) by (exact (Permutation_NoDup (Permutation_sym PG) NDM)).
  (* the non-shared arguments *)
  pose proof (k_wf _ _ (i_keeps s I)) as WH.
  destruct (new_module_ok s g x own_args I EH Cx Mx NDO OWNSUB (CLT _ OWNSUB CO) (fun _ => RG)) as (s1 & o & E & I1 & R1 & M1 & K1 & F1 & CASE).
  rewrite E. cbn [mbind option_bind]. assert (LA : later s s1) by (split; auto).
  assert (NEXT : exists x1, gs (d_graph s1) !! g = Some x1 /\ constant x1 = false /\ 0 <= g_min x1 /\ g_type x1 = g_type x /\ (forall a, In a M' -> In a (g_args x1)) /\
    (forall l, (forall a, In a l -> In a M') -> closed (d_graph s) g l -> closed (d_graph s1) g l)).
  { destruct CASE as [(_ & -> & _)|(_ & C)].
    - exists x. split; [auto|]. split; [auto|]. split; [auto|]. split; [auto|]. split; auto.
    - eexists. split; [apply (c_gate _ _ _ _ _ C)|]. split; [eapply created_constant; eauto|]. cbn [with_args g_args g_min g_type]. split; [auto|]. split; [auto|]. split.
      + intros a J. rewrite set_insert_In, erase_list_In. right. split; [auto|]. intros Q. exact (DIS a Q J).
      + intros l SL CL. apply (closed_step (d_graph s) (d_graph s1) g own_args x WH EH C OWNSUB); auto.
        * intros a Ja. pose proof (MSUB a (SL a Ja)) as AA. destruct (proj2 WH _ _ EH) as [_ [_ OK]]. apply OK in AA. lia.
        * intros _ a b Ja Jb Q. apply (abs_inj (d_graph s) g x WH EH) in Q; auto. subst b. exact (DIS a Jb (SL a Ja)). }
  destruct NEXT as (x1 & Ex1 & Cx1 & Mx1 & Ty1 & SUB1 & CL1).
  assert (CM1 : closed (d_graph s1) g M') by (apply CL1; auto).
  assert (CG1 : forall l, In l groups -> closed (d_graph s1) g l).
  { intros l J. apply CL1; [intros a Ja; apply (LSUB l); auto|]. apply CLT; auto. intros a Ja. apply MSUB, (LSUB l); auto. }
  assert (RG1 : is_Some (d_range s1 !! g)) by (rewrite R1; auto).
  unfold new_modules. destruct M' as [|m0 M0] eqn:EM; [exists s1; auto|]. rewrite <- EM in *. rewrite Ex1. cbn [mbind option_bind].
  destruct ((size M' =? size (g_args x1)) && Nat.eqb (length groups) 1); [exists s1; auto|].
  destruct (Z.eqb_spec (size M') (size (g_args x1))) as [SZ|SZ].
  - destruct (new_groups_ok g groups s1 x1 I1 Ex1 Cx1 Mx1 (fun _ => RG1) NDG ltac:(auto) CG1) as (s2 & E2 & L2). exists s2. split; auto. eapply later_trans; eauto.
  - destruct (new_module_ok s1 g x1 M' I1 Ex1 Cx1 Mx1 NDM SUB1 CM1 (fun _ => RG1)) as (s2 & o2 & E2 & I2 & R2 & M2 & K2 & F2 & CASE2).
    rewrite E2. cbn [mbind option_bind]. assert (LA2 : later s s2) by (eapply later_trans; [exact LA|]; split; auto).
    pose proof (k_wf _ _ (i_keeps s1 I1)) as WH1.
    destruct CASE2 as [(-> & EG2 & WHY)|(-> & C)].
    + assert (S1 : size M' <= 1).
      { destruct WHY as [|[Q|Q]]; auto; [|rewrite Ty1 in Q; congruence]. exfalso. unfold size in *. pose proof (List.NoDup_incl_length NDM (fun a J => SUB1 a J)). lia. }
      assert (SG : forall l, In l groups -> size l <= 1).
      { intros l J. destruct (in_split _ _ J) as (pre & post & EG). apply Permutation_length in PG. rewrite EG, concat_app, app_length in PG. cbn [concat] in PG. rewrite app_length in PG. unfold size in *. lia. }
      exists s2. split; auto. clear -SG. induction groups as [|l gs IH]; cbn [new_groups]; auto. pose proof (SG l ltac:(left; auto)) as Q. apply Z.leb_le in Q. rewrite Q. apply IH. intros; apply SG; right; auto.
    + destruct (c_new _ _ _ _ _ C) as (t & l' & En & Pl & Tt). set (n := nxt (d_graph s1)) in *.
      assert (NG : ~ is_Some (gs G !! n)). { intros SN. apply gate_lt in SN. pose proof (k_nxt _ _ (i_keeps s1 I1)). unfold n in SN. lia. }
      destruct (new_groups_ok n groups s2 (Gate t 0 l') I2 En) as (s3 & E3 & L3); cbn [g_min g_args]; auto; try lia; try tauto.
      * unfold constant in *. cbn [g_args]. apply orb_false_iff in Cx1 as [C1 C2]. apply orb_false_iff. rewrite !has_false in *. split; intros Q; apply (Permutation_in _ Pl) in Q; auto.
      * intros a J. apply (Permutation_in _ (Permutation_sym Pl)). auto.
      * intros l J. apply (closed_inside (d_graph s1) (d_graph s2) g M' x1 WH1 Ex1 C SUB1); [intros a Ja; apply (LSUB l); auto|auto].
      * exists s3. split; auto. eapply later_trans; eauto.
Qed.

(** ** The arguments of a gate *)
Record kind (s : detection) (g : Z) (done : list Z) (c : args_of) : Prop := {
  q_perm : Permutation done (in_own c ++ in_modular c ++ in_other c);
  q_own : forall a, In a (in_own c) -> own G V parents a;
  q_in : forall a, In a (in_modular c) -> en g < (range V s (Z.abs a)).1 /\ (range V s (Z.abs a)).2 < ex g;
  q_other : forall a, In a (in_other c) -> within (range V s (Z.abs a)) (en g) (ex g) = false /\ lo c <= (range V s (Z.abs a)).1 /\ (range V s (Z.abs a)).2 <= hi c;
  q_lo : lo c <= en g;
  q_hi : ex g <= hi c;
  q_lo_at : lo c = en g \/ exists a, In a (in_other c) /\ lo c = (range V s (Z.abs a)).1;
  q_hi_at : hi c = ex g \/ exists a, In a (in_other c) /\ hi c = (range V s (Z.abs a)).2;
  q_cov : forall a, In a done -> covers (Z.abs a) (range V s (Z.abs a)) }.
Lemma kind_start s g : kind s g [] (Args [] [] [] (en g) (ex g)).
Proof. split; cbn [in_own in_modular in_other lo hi]; auto; try lia; try (intros a []). Qed.
Lemma classify_ok s g done c a shared : kind s g done c -> (shared = false -> own G V parents a) -> covers (Z.abs a) (range V s (Z.abs a)) ->
  kind s g (done ++ [a]) (classify V s shared (en g) (ex g) a c).
Proof.
  intros K OW CV. unfold classify. destruct shared; cbn [negb]; [destruct (within (range V s (Z.abs a)) (en g) (ex g)) eqn:WI|]; split; cbn [in_own in_modular in_other lo hi];
    try (apply K; fail);
    try (intros b B; apply in_app_iff in B as [B|[<-|[]]]; [apply (q_cov _ _ _ _ K); auto|auto]; fail).
  - rewrite (q_perm _ _ _ _ K), <- !app_assoc. apply Permutation_app_head, Permutation_app_head. apply Permutation_app_comm.
  - intros b B. apply in_app_iff in B as [B|[<-|[]]]; [apply K; auto|]. unfold within in WI. apply andb_true_iff in WI as [A B]. apply Z.ltb_lt in A, B. auto.
  - rewrite (q_perm _ _ _ _ K), <- !app_assoc. auto.
  - intros b B. apply in_app_iff in B as [B|[<-|[]]]; [destruct (q_other _ _ _ _ K b B) as (A1 & A2 & A3)|]; split; auto; lia.
  - pose proof (q_lo _ _ _ _ K). lia.
  - pose proof (q_hi _ _ _ _ K). lia.
  - destruct (Z.min_spec (lo c) (range V s (Z.abs a)).1) as [[_ ->]|[_ ->]].
    + destruct (q_lo_at _ _ _ _ K) as [|(b & B & E)]; auto. right. exists b. rewrite in_app_iff. auto.
    + right. exists a. rewrite in_app_iff. simpl. auto.
  - destruct (Z.max_spec (hi c) (range V s (Z.abs a)).2) as [[_ ->]|[_ ->]].
    + right. exists a. rewrite in_app_iff. simpl. auto.
    + destruct (q_hi_at _ _ _ _ K) as [|(b & B & E)]; auto. right. exists b. rewrite in_app_iff. auto.
  - rewrite (q_perm _ _ _ _ K), <- !app_assoc. apply Permutation_app_head. rewrite (app_assoc (in_modular c)). apply Permutation_app_comm.
  - intros b B. apply in_app_iff in B as [B|[<-|[]]]; [apply K; auto|auto].
Qed.
Lemma kind_move s s' g done c : kind s g done c -> (forall a, In a done -> range V s' (Z.abs a) = range V s (Z.abs a)) -> kind s' g done c.
Proof.
  intros K E. pose proof (q_perm _ _ _ _ K) as P.
  assert (E1 : forall a, In a (in_modular c) -> range V s' (Z.abs a) = range V s (Z.abs a)) by (intros a J; apply E; apply (Permutation_in _ (Permutation_sym P)); rewrite !in_app_iff; auto).
  assert (E2 : forall a, In a (in_other c) -> range V s' (Z.abs a) = range V s (Z.abs a)) by (intros a J; apply E; apply (Permutation_in _ (Permutation_sym P)); rewrite !in_app_iff; auto).
  split; try (apply K; fail).
  - intros a J. rewrite E1 by auto. apply K. auto.
  - intros a J. rewrite E2 by auto. apply K. auto.
  - destruct (q_lo_at _ _ _ _ K) as [|(b & B & Q)]; auto. right. exists b. rewrite E2 by auto. auto.
  - destruct (q_hi_at _ _ _ _ K) as [|(b & B & Q)]; auto. right. exists b. rewrite E2 by auto. auto.
  - intros a J. rewrite E by auto. apply K. auto.
Qed.

Lemma kind_bounds s g x c : gs G !! g = Some x -> kind s g (g_args x) c -> forall j, under G g j -> j <> g -> lo c <= en j /\ last j <= hi c.
Proof.
  intros Ex K j U N. destruct (under_step G g x j Ex U) as [|(a & J & Ua)]; [contradiction|]. pose proof (q_lo _ _ _ _ K). pose proof (q_hi _ _ _ _ K).
  pose proof (cov_all _ _ _ _ (q_cov _ _ _ _ K a J) j Ua) as [C1 C2].
  pose proof (Permutation_in _ (q_perm _ _ _ _ K) J) as J'. rewrite !in_app_iff in J'. destruct J' as [J'|[J'|J']].
  - destruct (own_inside G root r RK V T ALL ROOT parents PAR g a j (q_own _ _ _ _ K a J') ltac:(exists x, a; auto) Ua). lia.
  - destruct (q_in _ _ _ _ K a J'). lia.
  - destruct (q_other _ _ _ _ K a J') as (_ & A & B). lia.
Qed.
Lemma kind_covers s g x c : gs G !! g = Some x -> kind s g (g_args x) c -> covers g (lo c, Z.max (hi c) (last g)).
Proof.
  intros Ex K. pose proof (kind_bounds s g x c Ex K) as B. pose proof (q_lo _ _ _ _ K). pose proof (q_hi _ _ _ _ K). pose proof (ex_last G root V T g (ALL g ltac:(eauto))).
  assert (SUB : forall a, In a (in_other c) -> In a (g_args x)) by (intros a J; apply (Permutation_in _ (Permutation_sym (q_perm _ _ _ _ K))); rewrite !in_app_iff; auto).
  split; cbn [fst snd].
  - intros j U. destruct (Z.eq_dec j g) as [->|N]; [lia|]. destruct (B j U N). lia.
  - destruct (q_lo_at _ _ _ _ K) as [->|(a & J & ->)]; [exists g; split; [constructor|auto]|].
    destruct (cov_lo _ _ _ _ (q_cov _ _ _ _ K a (SUB a J))) as (j & U & E). exists j. split; auto. apply (under_trans G g (Z.abs a)); auto. eapply under_child; eauto.
  - destruct (Z.max_spec (hi c) (last g)) as [[_ ->]|[L ->]]; [exists g; split; [constructor|auto]|].
    destruct (q_hi_at _ _ _ _ K) as [Q|(a & J & ->)]; [exists g; split; [constructor|lia]|].
    destruct (cov_hi _ _ _ _ (q_cov _ _ _ _ K a (SUB a J))) as (j & U & E). exists j. split; auto. apply (under_trans G g (Z.abs a)); auto. eapply under_child; eauto.
Qed.
Lemma kind_modular s g x c : gs G !! g = Some x -> kind s g (g_args x) c -> (modular G g <-> lo c = en g /\ hi c = ex g).
Proof.
  intros Ex K. pose proof (kind_bounds s g x c Ex K) as B. split.
  - intros M. destruct (in_other c) as [|a l] eqn:EO.
    + pose proof (q_lo_at _ _ _ _ K) as A1. pose proof (q_hi_at _ _ _ _ K) as A2. rewrite EO in A1, A2. destruct A1 as [A1|(? & [] & _)], A2 as [A2|(? & [] & _)]. auto.
    + exfalso. assert (J : In a (in_other c)) by (rewrite EO; left; auto). destruct (q_other _ _ _ _ K a J) as (WI & _).
      assert (JA : In a (g_args x)) by (apply (Permutation_in _ (Permutation_sym (q_perm _ _ _ _ K))); rewrite !in_app_iff; auto).
      assert (EG : edge G g (Z.abs a)) by (exists x, a; auto).
      assert (INS : forall j, under G (Z.abs a) j -> en g < en j /\ last j < ex g).
      { intros j U. apply (module_last G root r RK V T ALL g j); eauto; [apply (under_trans G g (Z.abs a)); auto; eapply under_child; eauto|].
        intros ->. exact (no_cycle G r RK g _ EG U). }
      destruct (cov_lo _ _ _ _ (q_cov _ _ _ _ K a JA)) as (j & U & E). destruct (cov_hi _ _ _ _ (q_cov _ _ _ _ K a JA)) as (j' & U' & E').
      pose proof (INS j U). pose proof (INS j' U'). unfold within in WI. apply andb_false_iff in WI as [Q|Q]; apply Z.ltb_ge in Q; lia.
  - intros [E1 E2]. apply (flag_modular G root V T ALL); [eauto|]. intros j U N. specialize (B j U N). lia.
Qed.
Lemma find_S fuel g s : find_modules V parents sort (S fuel) g s =
  match d_mark s !! g with
  | Some _ => Some s
  | None =>
      let s := with_mark s g in
      x ← gs (d_graph s) !! g;
      let gate a := gate_at (d_graph s) (Z.abs a) in
      '(s, c) ← (fix go (l : list Z) (s : detection) (c : args_of) : option (detection * args_of) :=
                   match l with
                   | [] => Some (s, c)
                   | a :: l =>
                       s ← find_modules V parents sort fuel (Z.abs a) s;
                       go l s (classify V s (negb (d_module s (Z.abs a) && negb (revisited V (Z.abs a)))) (en g) (ex g) a c)
                   end) (List.filter gate (g_args x)) s (Args [] [] [] (en g) (ex g));
      let c := fold_left (fun c a => classify V s (negb (Nat.eqb (parents (Z.abs a)) 1)) (en g) (ex g) a c)
                 (List.filter (fun a => negb (gate a)) (g_args x)) c in
      let s := if negb (d_module s g) && (lo c =? en g) && (hi c =? ex g) then with_module s g else s in
      let s := with_range s g (lo c, Z.max (hi c) (last g)) in
      process_modular V sort g (in_own c) (in_modular c) (in_other c) s
  end.
Proof. reflexivity. Qed.

Definition open_at (s : detection) (g : Z) (strict : bool) : Prop :=
  forall k, is_Some (gs G !! k) -> is_Some (d_mark s !! k) -> d_range s !! k = None -> under G k g /\ (strict = true -> k <> g).
Definition moves (g : Z) (s s' : detection) : Prop :=
  (forall k ab, d_range s !! k = Some ab -> d_range s' !! k = Some ab) /\ (forall k, ~ under G g k -> d_range s' !! k = d_range s !! k) /\
  (forall k, is_Some (gs G !! k) -> is_Some (d_mark s' !! k) -> d_range s' !! k = None -> is_Some (d_mark s !! k) /\ d_range s !! k = None) /\
  (forall k, k < nxt G -> is_Some (d_mark s !! k) -> is_Some (d_mark s' !! k)).
Lemma moves_trans g a b c : moves g a b -> moves g b c -> moves g a c.
Proof.
  intros (A1 & A2 & A3 & A4) (B1 & B2 & B3 & B4). split; [auto|]. split; [|split; [|auto]].
  - intros k N. rewrite B2, A2; auto.
  - intros k SK M N. destruct (B3 k SK M N). auto.
Qed.
Lemma moves_up g c s s' : under G g c -> moves c s s' -> moves g s s'.
Proof. intros U (A1 & A2 & A3 & A4). split; [auto|]. split; [|auto]. intros k N. apply A2. intros Q. apply N. eapply under_trans; eauto. Qed.
Lemma range_gate s j : good s -> is_Some (gs G !! j) -> range V s j = default (0, 0) (d_range s !! j).
Proof. intros I SJ. unfold range. pose proof (proj2 (gate_of s j I (gate_lt j SJ)) SJ) as [y ->]. auto. Qed.
Lemma range_variable s j : good s -> 1 < j < nxt G -> gs G !! j = None -> range V s j = (en j, last j).
Proof. intros I L N. unfold range. destruct (gs (d_graph s) !! j) eqn:E; auto. exfalso. assert (is_Some (gs G !! j)) as [? ?] by (apply (gate_of s j I L); eauto). congruence. Qed.
Lemma range_moves s s' g j : good s -> good s' -> moves g s s' -> 1 < j < nxt G -> (gs G !! j = None \/ is_Some (d_range s !! j)) -> range V s' j = range V s j.
Proof.
  intros I I' (M1 & _) L [N|[ab R]].
  - rewrite !range_variable; auto.
  - destruct (i_range s I j ab R) as (SJ & _). rewrite !range_gate by auto. rewrite (M1 j ab R), R. auto.
Qed.
Lemma find_ok : forall fuel g s, (r g < fuel)%nat -> is_Some (gs G !! g) -> good s -> open_at s g true ->
  exists s', find_modules V parents sort fuel g s = Some s' /\ good s' /\ is_Some (d_range s' !! g) /\ moves g s s'.
Proof.
  induction fuel as [|fuel IH]; intros g s F [x Ex] I OP; [lia|]. rewrite find_S.
  destruct (d_mark s !! g) as [[]|] eqn:MK.
  { exists s. split; [auto|]. split; [auto|]. split; [|split; [auto|split; [auto|split; auto]]].
    destruct (d_range s !! g) eqn:R; [eauto|]. destruct (OP g ltac:(eauto) ltac:(rewrite MK; eauto) R) as [_ Q]. elim (Q eq_refl). auto. }
  cbv zeta. cbn [with_mark d_graph].
  assert (R0 : d_range s !! g = None).
  { destruct (d_range s !! g) as [ab|] eqn:R; auto. destruct (i_range s I g ab R) as (_ & [? Q] & _). congruence. }
  destruct (i_gate s I g x Ex R0) as [EH CLT0]. rewrite EH. cbn [mbind option_bind]. set (H := d_graph s) in *.
  set (s1 := with_mark s g).
  assert (I1 : good s1).
  { destruct I as [J1 J2 J3 J4 J5 J6 J7 J8 J9]. split; cbn [s1 with_mark d_graph d_range d_mark d_module]; auto.
    intros k ab R. destruct (J3 k ab R) as (A & B & C). split; auto. split; auto. destruct (Z.eq_dec k g) as [->|N]; [rewrite lookup_insert; eauto|]. rewrite lookup_insert_ne by auto. auto. }
  assert (OP1 : open_at s1 g false).
  { intros k SK M R. split; [|discriminate]. destruct (Z.eq_dec k g) as [->|N]; [constructor|]. cbn [s1 with_mark d_mark] in M. rewrite lookup_insert_ne in M by auto. apply (OP k SK M R). }
  assert (GATE : forall a, In a (g_args x) -> gate_at H (Z.abs a) = true <-> is_Some (gs G !! Z.abs a)).
  { intros a J. rewrite <- (gate_of s (Z.abs a) I (arg_lt g x a Ex J)). fold H. unfold gate_at. destruct (gs H !! Z.abs a); split; eauto; intros Q; [discriminate|destruct Q; discriminate]. }
  set (go := fix go (l : list Z) (s : detection) (c : args_of) : option (detection * args_of) :=
                   match l with
                   | [] => Some (s, c)
                   | a :: l =>
                       s ← find_modules V parents sort fuel (Z.abs a) s;
                       go l s (classify V s (negb (d_module s (Z.abs a) && negb (revisited V (Z.abs a)))) (en g) (ex g) a c)
                   end).
  assert (LOOP : forall l s done c, (forall a, In a (done ++ l) -> In a (g_args x) /\ is_Some (gs G !! Z.abs a)) -> good s -> open_at s g false -> d_range s !! g = None ->
      kind s g done c -> (forall a, In a done -> is_Some (d_range s !! Z.abs a)) ->
      exists s' c', go l s c = Some (s', c') /\ good s' /\ open_at s' g false /\ d_range s' !! g = None /\ kind s' g (done ++ l) c' /\
        (forall a, In a (done ++ l) -> is_Some (d_range s' !! Z.abs a)) /\ moves g s s').
  { induction l as [|a l IHl]; intros s0 done c SUB I0 O0 N0 K0 D0; cbn [go].
    - rewrite app_nil_r in *. exists s0, c. do 6 (split; [auto|]). split; [auto|]. split; [auto|]. split; auto.
    - destruct (SUB a ltac:(rewrite in_app_iff; right; left; auto)) as [JA SA].
      assert (EG : edge G g (Z.abs a)) by (exists x, a; auto).
      destruct (IH (Z.abs a) s0) as (s2 & E2 & I2 & R2 & M2); auto.
      { pose proof (RK g x a Ex JA SA). lia. }
      { intros k SK M R. destruct (O0 k SK M R) as [U _]. split; [exact (edge_under G k g _ EG U)|]. intros _ ->. exact (no_cycle G r RK g _ EG U). }
      rewrite E2. cbn [mbind option_bind].
      assert (UA : under G g (Z.abs a)) by (eapply under_child; eauto).
      pose proof (moves_up g (Z.abs a) s0 s2 UA M2) as M2'.
      assert (O2 : open_at s2 g false). { intros k SK M R. destruct M2 as (_ & _ & M3 & _). destruct (M3 k SK M R). apply O0; auto. }
      assert (N2 : d_range s2 !! g = None). { destruct M2 as (_ & M3 & _). rewrite M3; auto. intros Q. exact (no_cycle G r RK g _ EG Q). }
      assert (K2 : kind s2 g done c).
      { apply (kind_move s0 s2); auto. intros b B. apply (range_moves s0 s2 g); auto. destruct (SUB b ltac:(rewrite in_app_iff; auto)). apply (arg_lt g x); auto. }
      destruct R2 as [ab R2]. destruct (i_range s2 I2 _ ab R2) as (_ & _ & CV).
      destruct (IHl s2 (done ++ [a]) (classify V s2 (negb (d_module s2 (Z.abs a) && negb (revisited V (Z.abs a)))) (en g) (ex g) a c)) as (s3 & c3 & E3 & I3 & O3 & N3 & K3 & D3 & M3); auto.
      + intros b B. apply SUB. rewrite <- app_assoc in B. auto.
      + apply classify_ok; auto.
        * intros Q. apply negb_false_iff, andb_true_iff in Q as [Q1 Q2]. left. split; auto. split; [|apply negb_true_iff; auto]. apply (i_flag s2 I2 _ Q1). apply (arg_lt g x); auto.
        * rewrite range_gate, R2 by auto. auto.
      + intros b B. apply in_app_iff in B as [B|[<-|[]]]; [|eauto]. destruct (D0 b B) as [ab' Q]. destruct M2 as (M4 & _). eauto.
      + rewrite <- app_assoc in K3, D3. exists s3, c3. split; [exact E3|]. do 5 (split; [auto|]). eapply moves_trans; eauto. }
  destruct (LOOP (List.filter (fun a => gate_at H (Z.abs a)) (g_args x)) s1 [] (Args [] [] [] (en g) (ex g))) as (s2 & c2 & E2 & I2 & O2 & N2 & K2 & D2 & M2); auto.
  { intros a J. apply filter_In in J as [J Q]. split; auto. apply GATE; auto. }
  { apply kind_start. } { intros a []. }
  fold H. rewrite E2. cbn [mbind option_bind]. clear LOOP go E2. cbn [app] in K2, D2.
  set (gates := List.filter (fun a => gate_at H (Z.abs a)) (g_args x)) in *. set (vars := List.filter (fun a => negb (gate_at H (Z.abs a))) (g_args x)) in *.
  assert (VARS : forall l done c, (forall a, In a l -> In a (g_args x) /\ gs G !! Z.abs a = None) -> kind s2 g done c ->
    kind s2 g (done ++ l) (fold_left (fun c a => classify V s2 (negb (Nat.eqb (parents (Z.abs a)) 1)) (en g) (ex g) a c) l c)).
  { induction l as [|a l IHl]; intros done c SUB K; cbn [fold_left]; [rewrite app_nil_r; auto|]. destruct (SUB a ltac:(left; auto)) as [JA NA].
    replace (done ++ a :: l) with ((done ++ [a]) ++ l) by (rewrite <- app_assoc; auto). apply IHl; [intros b B; apply SUB; right; auto|]. apply classify_ok; auto.
    - intros Q. apply negb_false_iff, Nat.eqb_eq in Q. right. auto.
    - rewrite range_variable by (auto; apply (arg_lt g x); auto). apply covers_variable. auto. }
  assert (VS : forall a, In a vars -> In a (g_args x) /\ gs G !! Z.abs a = None).
  { intros a J. apply filter_In in J as [J Q]. split; auto. apply negb_true_iff in Q. destruct (gs G !! Z.abs a) eqn:E; auto. rewrite (proj2 (GATE a J)) in Q by eauto. discriminate. }
  pose proof (VARS vars gates c2 VS K2) as K3. set (c := fold_left _ vars c2) in *. clear VARS.
  assert (K : kind s2 g (g_args x) c).
  { pose proof (filter_perm (fun a => gate_at H (Z.abs a)) (g_args x)) as P. fold gates in P. change (List.filter (fun a => negb (gate_at H (Z.abs a))) (g_args x)) with vars in P.
    destruct K3 as [P1 P2 P3 P4 P5 P6 P7 P8 P9]. split; auto; [etransitivity; eauto|]. intros a J. apply P9. exact (Permutation_in _ P J). }
  clear K2 K3.
  destruct (i_gate s2 I2 g x Ex N2) as [EH2 CLT].
  pose proof (kind_covers s2 g x c Ex K) as CV. pose proof (kind_modular s2 g x c Ex K) as MOD.
  set (s3 := if negb (d_module s2 g) && (lo c =? en g) && (hi c =? ex g) then with_module s2 g else s2).
  set (ab := (lo c, Z.max (hi c) (last g))) in *. set (s4 := with_range s3 g ab).
  assert (S3 : d_graph s3 = d_graph s2 /\ d_range s3 = d_range s2 /\ d_mark s3 = d_mark s2) by (unfold s3; destruct (negb (d_module s2 g) && (lo c =? en g) && (hi c =? ex g)); auto).
  destruct S3 as (S31 & S32 & S33).
  assert (FL : forall m, d_module s3 m = true <-> d_module s2 m = true \/ (m = g /\ modular G g)).
  { intros m. unfold s3. destruct (d_module s2 g) eqn:DG; cbn [negb andb].
    - split; auto. intros [|[-> _]]; auto.
    - rewrite MOD. destruct (Z.eqb_spec (lo c) (en g)), (Z.eqb_spec (hi c) (ex g)); cbn [andb with_module d_module]; try (split; [auto|intros [|[-> [? ?]]]; [auto|congruence]]).
      destruct (Z.eqb_spec m g) as [->|]; [tauto|]. split; [auto|intros [|[? _]]; [auto|contradiction]]. }
  assert (MKg : is_Some (d_mark s2 !! g)).
  { apply M2; [apply gate_lt; eauto|]. cbn [s1 with_mark d_mark]. rewrite lookup_insert. eauto. }
  assert (I4 : good s4).
  { split; cbn [s4 with_range d_graph d_range d_mark d_module]; rewrite ?S31, ?S32, ?S33.
    - apply I2.
    - intros k y Ey R. destruct (Z.eq_dec k g) as [->|NK]; [rewrite lookup_insert in R; discriminate|]. rewrite lookup_insert_ne in R by auto. apply (i_gate s2 I2); auto.
    - intros k ab' R. destruct (Z.eq_dec k g) as [->|NK].
      + rewrite lookup_insert in R. injection R as <-. split; [eauto|]. split; auto.
      + rewrite lookup_insert_ne in R by auto. apply (i_range s2 I2 _ _ R).
    - intros k e R E SE. destruct (Z.eq_dec e g) as [->|NE]; [rewrite lookup_insert; eauto|]. rewrite lookup_insert_ne by auto.
      destruct (Z.eq_dec k g) as [->|NK]; [|rewrite lookup_insert_ne in R by auto; apply (i_down s2 I2 k e); auto].
      destruct E as (y & a & Ey & J & <-). rewrite Ex in Ey. injection Ey as <-. apply D2. apply filter_In. split; auto. apply GATE; auto.
    - intros m Q. apply FL in Q as [Q|[-> Q]]; [apply (i_flag s2 I2); auto|]. split; [rewrite EH2; eauto|]. split; [|auto]. apply (i_modular s2 I2); auto. apply gate_lt. eauto.
    - apply (i_modular s2 I2).
    - intros k R M. apply FL. destruct (Z.eq_dec k g) as [->|NK]; [auto|]. left. rewrite lookup_insert_ne in R by auto. apply (i_found s2 I2); auto.
    - intros m L. apply FL. left. apply (i_new s2 I2 m L).
    - apply (i_reach s2 I2). }
  assert (M4 : moves g s s4).
  { destruct M2 as (A1 & A2 & A3 & A4). split; [|split; [|split]].
    - intros k ab' R. cbn [s4 with_range d_range]. rewrite S32. destruct (Z.eq_dec k g) as [->|NK]; [congruence|]. rewrite lookup_insert_ne by auto. apply A1. auto.
    - intros k NU. cbn [s4 with_range d_range]. rewrite S32, lookup_insert_ne by (intros ->; apply NU; constructor). rewrite A2; auto.
    - intros k SK. cbn [s4 with_range d_range d_mark]. rewrite S32, S33. intros M R. destruct (Z.eq_dec k g) as [->|NK]; [rewrite lookup_insert in R; discriminate|]. rewrite lookup_insert_ne in R by auto.
      destruct (A3 k SK M R) as [B1 B2]. cbn [s1 with_mark d_mark d_range] in B1, B2. rewrite lookup_insert_ne in B1 by auto. auto.
    - intros k L Q. cbn [s4 with_range d_mark]. rewrite S33. apply A4; auto. cbn [s1 with_mark d_mark]. destruct (Z.eq_dec k g) as [->|NK]; [rewrite lookup_insert; eauto|]. rewrite lookup_insert_ne by auto. auto. }
  assert (RG : forall a, In a (g_args x) -> range V s4 (Z.abs a) = range V s2 (Z.abs a)).
  { intros a J. unfold range. cbn [s4 with_range d_graph d_range]. rewrite S31, S32. rewrite lookup_insert_ne; auto. intros Q. apply (no_cycle G r RK g (Z.abs a)); [exists x, a; auto|]. rewrite <- Q. constructor. }
  assert (SUB : forall a, In a (in_modular c ++ in_other c) -> In a (g_args x)) by (intros a J; apply (Permutation_in _ (Permutation_sym (q_perm _ _ _ _ K))); rewrite !in_app_iff in *; tauto).
  destruct (process_ok s4 g x (in_own c) (in_modular c) (in_other c)) as (s5 & E5 & I5 & R5 & MK5 & F5); auto.
  { cbn [s4 with_range d_graph]. rewrite S31. exact EH2. } { cbn [s4 with_range d_range]. rewrite lookup_insert. eauto. }
  { cbn [s4 with_range d_graph]. rewrite S31. exact CLT. } { apply K. } { apply K. }
  { intros a J. rewrite RG by auto. apply K. auto. } { intros a J. rewrite RG by (apply SUB; rewrite in_app_iff; auto). apply K. auto. }
  exists s5. split; [exact E5|]. split; [auto|]. rewrite R5. cbn [s4 with_range d_range]. rewrite lookup_insert. split; [eauto|].
  destruct M4 as (A1 & A2 & A3 & A4). unfold moves. rewrite R5. split; [auto|]. split; [auto|]. split.
  - intros k SK. rewrite MK5 by (apply gate_lt; auto). auto.
  - intros k L. rewrite MK5 by auto. auto.
Qed.
End Find.

Lemma parent_unique G v p q : parent_count G v = 1%nat -> edge G p v -> edge G q v -> p = q.
Proof.
  unfold parent_count. set (f := fun _ => _). intros L (x & a & Ex & Ja & Ea) (y & b & Ey & Jb & Eb).
  assert (MEM : forall i z c, gs G !! i = Some z -> In c (g_args z) -> Z.abs c = v -> In (i, z) (List.filter f (map_to_list (gs G)))).
  { intros i z c E J Q. apply filter_In. split; [apply elem_of_list_In, elem_of_map_to_list; auto|]. simpl. apply existsb_exists. exists c. split; auto. apply Z.eqb_eq. auto. }
  pose proof (MEM p x a Ex Ja Ea) as P. pose proof (MEM q y b Ey Jb Eb) as Q. destruct (List.filter f (map_to_list (gs G))) as [|h [|h' l]]; try discriminate.
  destruct P as [P|[]], Q as [Q|[]]. congruence.
Qed.
Theorem detect_ok G root r sort fuel module : wf G -> ranked G r -> is_Some (gs G !! root) -> (forall i, is_Some (gs G !! i) -> under G root i) ->
  (forall i x, gs G !! i = Some x -> constant x = false /\ 0 <= g_min x) -> sorts sort -> (r root < fuel)%nat ->
  (forall m, module m = true -> is_Some (gs G !! m) /\ modular G m) ->
  exists H flags, detect_modules sort fuel root module G = Some (H, flags) /\ keeps G H /\
    (forall m, flags m = true -> is_Some (gs H !! m) /\ modular H m) /\
    (forall g, is_Some (gs G !! g) -> (flags g = true <-> modular G g)) /\
    (forall m, nxt G <= m < nxt H -> flags m = true) /\ (forall m, is_Some (gs H !! m) -> under H root m).
Proof.
  intros W RK SR ALL NC SS F MO. destruct (assign_root G root r RK (fun i x E => proj1 (NC i x E)) fuel F SR ALL) as (t & V & ET & TM).
  unfold detect_modules. rewrite ET. cbn [mbind option_bind].
  set (s0 := Detection G ∅ module ∅).
  assert (I0 : good G root V s0).
  { split; cbn [s0 d_graph d_range d_mark d_module].
    - apply keeps_refl. auto.
    - intros g x E _. auto.
    - intros g ab E. elim (lookup_empty_Some (M := gmap Z) g ab E).
    - intros g c [ab E]. elim (lookup_empty_Some (M := gmap Z) g ab E).
    - intros m E. destruct (MO m E). auto.
    - auto.
    - intros g [ab E]. elim (lookup_empty_Some (M := gmap Z) g ab E).
    - lia.
    - auto. }
  destruct (find_ok G root r RK V TM W ALL SR NC (parent_count G) (fun v Q p q => parent_unique G v p q Q) sort SS fuel root s0 F SR I0) as (s & E & I & R & M).
  { intros k _ [u Q]. elim (lookup_empty_Some (M := gmap Z) k u Q). }
  rewrite E. cbn [mbind option_bind]. exists (d_graph s), (d_module s). split; [auto|]. split; [apply I|]. split; [|split; [|split]].
  - intros m Q. destruct (i_flag _ _ _ s I m Q) as (A & B & _). auto.
  - intros g SG. split.
    + intros Q. apply (i_flag _ _ _ s I g Q). destruct SG as [x Ex]. apply W in Ex. lia.
    + apply (i_found _ _ _ s I). pose proof (ALL g SG) as U. clear -R U I SG. revert SG. induction U as [|k y e U IH Ek Je]; intros SG; auto. assert (RK' : is_Some (d_range s !! k)) by (apply IH; auto; eauto). apply (i_down _ _ _ s I k); auto. exists y, e. auto.
  - apply (i_new _ _ _ s I).
  - apply (i_reach _ _ _ s I).
Qed.
