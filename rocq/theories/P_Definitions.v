(** C03: ProcessMultipleDefinitions (/repo/src/preprocessor.cc:747-800, 2331-2340, 338-341) as a whole, MultiDef.v. *)
From stdpp Require Import gmap.
From Coq Require Import Lia Permutation List.
From Verif Require Import Pdag PdagProofs PdagAdd PdagSem PdagKeeps Preproc PreprocProofs P_Preproc P_Preprocess.
From Verif Require Import Rooted BoolOptProofs Shaped ShapedOps NullGates NullGatesProofs MultiDef MultiDefProofs.
Import ListNotations.
Open Scope Z_scope.

(** What the code knows about its containers: parents() are gates with the node among their arguments; args<Gate>() has the arguments that
    are gates; the hash map has the pairs that were put into it. *)
Record containers (parents : graph -> Z -> list Z) (order : graph -> Z -> list Z) (arranged : list (Z * Z) -> list (Z * Z)) : Prop := {
  co_parents G g p : In p (parents G g) -> exists x, gs G !! p = Some x /\ arg_in g x;
  co_order G i x a : gs G !! i = Some x -> In a (g_args x) -> is_Some (gs G !! Z.abs a) -> In a (order G i);
  co_arranged l : Permutation (arranged l) l }.
(** A graph in which no K/N gate with three arguments meets two gates of one definition, and no NULL gate clashes (C01_duplicate_refuted). *)
Definition unclashed (G : graph) : Prop := forall H, rtc (merges G) G H -> ~ merge_clash G H /\ forall H', rtc joins (unregistered H) H' -> no_clash H'.
(** Gates below the root that are not modules have different definitions. *)
Definition all_different (module : Z -> bool) (root : Z) (G : graph) : Prop :=
  forall i j x y, reach G root i -> reach G root j -> gs G !! i = Some x -> gs G !! j = Some y -> module i = false -> module j = false -> i <> j -> ~ same_definition x y.

Lemma preprocess_trans r c G r1 c1 G1 r2 c2 G2 : preprocess r c G r1 c1 G1 -> preprocess r1 c1 G1 r2 c2 G2 -> preprocess r c G r2 c2 G2.
Proof. induction 1; [auto|]. intros K. eapply pre_phase; [eassumption|auto]. Qed.
Section Definitions.
Context (parents : graph -> Z -> list Z) (expired : graph -> Z -> bool) (order : graph -> Z -> list Z) (module : Z -> bool) (arranged : list (Z * Z) -> list (Z * Z)).
Hypothesis CO : containers parents order arranged.
Lemma round_preprocess fuel root comp G b G' : wf G -> acyclic G -> unclashed G ->
  process_multiple_definitions parents expired order module arranged fuel root G = Some (b, G') -> preprocess root comp G root comp G'.
Proof.
  intros W A NC E. unfold process_multiple_definitions in E. destruct (nulls G) as [|]; [|discriminate]. apply bind_inv in E as (x & Ex & E). destruct (constant x); [injection E as <- <-; constructor|].
  apply bind_inv in E as (F & EF & E). destruct (f_pairs F) as [|q l] eqn:EP; [injection E as <- <-; constructor|].
  apply bind_inv in E as (H & EH & E). apply bind_inv in E as (H2 & E2 & E). injection E as <- <-.
  assert (PO : pairs_ok G F) by (eapply detect_ok; [|exact EF]; intros u d []).
  assert (D : during G H).
  { eapply (replace_each_during parents expired (co_parents _ _ _ CO) G W A); [intros K RK; apply (NC K RK)| |apply during_start; auto|exact EH]. intros u d J. apply PO. rewrite EP. eapply Permutation_in; [apply (co_arranged _ _ _ CO)|exact J]. }
  assert (S : preprocess root comp G root comp H).
  { pose proof (du_steps _ _ D) as S. clear - S. induction S as [|G1 G2 G3 S _ IH]; [constructor|]. eapply pre_phase; [apply phase_step, S|exact IH]. }
  assert (P2 : preprocess root comp H root comp H2).
  { eapply pre_phase; [|constructor]. eapply phase_null; [|exact E2]. apply (NC H (du_merges _ _ D)). }
  eapply preprocess_trans; eauto.
Qed.
(** One pass is a sequence of the rewritings of C03_preprocess, so the value of the graph stays. *)
Theorem C03_definitions fuel root comp G b G' : wf G -> acyclic G -> roomy G -> unclashed G ->
  process_multiple_definitions parents expired order module arranged fuel root G = Some (b, G') ->
  preprocess root comp G root comp G' /\ (forall σ v, node_value G' σ root (xorb v comp) <-> node_value G σ root (xorb v comp)) /\
  (b = false -> G' = G).
Proof.
  intros W A R NC E. pose proof (round_preprocess fuel root comp G b G' W A NC E) as P. split; [exact P|].
  unfold process_multiple_definitions in E. destruct (nulls G) as [|]; [|discriminate]. apply bind_inv in E as (x & Ex & E). split; [apply (C03_preprocess root comp G root comp G'); eauto|].
  intros ->. destruct (constant x); [congruence|]. apply bind_inv in E as (F & _ & E). destruct (f_pairs F); [congruence|]. apply bind_inv in E as (H & _ & E). apply bind_inv in E as (H2 & _ & E). discriminate E.
Qed.
Lemma nothing_different fuel root G G' x : gs G !! root = Some x -> constant x = false ->
  process_multiple_definitions parents expired order module arranged fuel root G = Some (false, G') -> all_different module root G.
Proof.
  intros Ex CN E. unfold process_multiple_definitions in E. destruct (nulls G) as [|]; [|discriminate]. rewrite Ex in E. cbn [mbind option_bind] in E. rewrite CN in E.
  apply bind_inv in E as (F & EF & E). destruct (f_pairs F) as [|q l] eqn:EP; [|apply bind_inv in E as (? & _ & E); apply bind_inv in E as (? & _ & E); discriminate E].
  destruct (detect_nothing order module G (fun i y a => co_order _ _ _ CO G i y a) fuel root (Found ∅ [] []) F EP EF) as [_ K]. destruct K as (N & M & U); [intros i j []|].
  assert (RM : forall j, reach G root j -> is_Some (gs G !! j) -> j ∈ f_marks F).
  { intros j RJ. induction RJ as [|j y a RJ IH Ey Ia]; [auto|]. intros Sa. destruct (no_black _ _ _ _ N j (IH ltac:(eauto))) as [B|B]; [cbn in B; set_solver|]. eapply B; eauto. }
  intros i j y z Ri Rj Ei Ej Mi Mj D SD. destruct (no_unique _ _ _ _ N i (RM i Ri ltac:(eauto))) as [B|[B|Ui]]; [cbn in B; set_solver|congruence|]. destruct (no_unique _ _ _ _ N j (RM j Rj ltac:(eauto))) as [B|[B|Uj]]; [cbn in B; set_solver|congruence|].
  apply (U j i Uj Ui ltac:(auto)). exists z, y. auto.
Qed.
(** The pass is repeated until nothing changes. *)
Definition round (root : Z) (G G' : graph) : Prop := exists fuel, process_multiple_definitions parents expired order module arranged fuel root G = Some (true, G').
Theorem C03_definitions_loop rounds fuel root comp G G' : wf G -> acyclic G -> roomy G -> (forall H, rtc (round root) G H -> unclashed H) ->
  definitions_loop parents expired order module arranged rounds fuel root G = Some G' ->
  preprocess root comp G root comp G' /\ (forall σ v, node_value G' σ root (xorb v comp) <-> node_value G σ root (xorb v comp)) /\
  ((exists x, gs G' !! root = Some x /\ constant x = true) \/ all_different module root G').
Proof.
  revert G. induction rounds as [|rounds IH]; intros G W A R NC E; [discriminate|]. cbn [definitions_loop] in E. apply bind_inv in E as ([ch G1] & E1 & E).
  destruct (C03_definitions fuel root comp G ch G1 W A R (NC G (rtc_refl _ _)) E1) as (P & V & Z). destruct ch.
  - assert (Sr : is_Some (gs G !! root)). { unfold process_multiple_definitions in E1. destruct (nulls G); [|discriminate]. apply bind_inv in E1 as (x & Ex & _). eauto. }
    destruct (C03_preprocess root comp G root comp G1 W A R Sr P) as (_ & _ & W1 & A1 & R1 & _).
    destruct (IH G1 W1 A1 R1) as (P2 & V2 & D); [intros H RH; apply NC; eapply rtc_l; [exists fuel; exact E1|exact RH]|exact E|]. split; [eapply preprocess_trans; eauto|]. split; [|exact D]. intros σ v. rewrite V2, V. tauto.
  - injection E as <-. rewrite (Z eq_refl) in *. split; [constructor|]. split; [tauto|]. assert (Sr := E1). unfold process_multiple_definitions in Sr. destruct (nulls G); [|discriminate]. apply bind_inv in Sr as (x & Ex & _).
    destruct (constant x) eqn:C; [left; eauto|right]. eapply nothing_different; eauto.
Qed.
End Definitions.
(** Without K/N gates nothing clashes. *)
Lemma replace_no_atleast p g g' G G' : no_atleast G -> replace_in_parent p g g' G = Some G' -> no_atleast G'.
Proof.
  intros N Q. unfold replace_in_parent in Q. apply bind_inv in Q as (x & Ex & Q). set (a := arg_of x g) in *. apply bind_inv in Q as (G1 & E1 & Q2). apply erase_arg_inv in E1 as (x0 & Ex0 & _ & HG1 & HN1). rewrite Ex in Ex0. injection Ex0 as <-.
  set (x1 := with_args x (set_erase a (g_args x))) in *. assert (Ex1 : gs G1 !! p = Some x1) by (rewrite HG1; apply lookup_insert). assert (T1 : g_type x1 <> kAtleast) by (apply (N p x Ex)).
  assert (N1 : no_atleast G1) by (eapply put_no_atleast; [exact N|exact T1|exact HG1]). clear HG1.
  assert (MC : forall s G3, make_constant p s G1 = Some G3 -> no_atleast G3) by (intros s G3 K; apply make_constant_spec in K as (w & _ & _ & HG & _); eapply put_no_atleast; [exact N1| |exact HG]; cbn; discriminate).
  assert (ST : forall t G3, t <> kAtleast -> set_type p t G1 = Some G3 -> no_atleast G3) by (intros t G3 Ht K; apply set_type_spec in K as (w & _ & HG & _); eapply put_no_atleast; [exact N1| |exact HG]; cbn; auto).
  unfold add_arg in Q2. rewrite Ex1 in Q2. cbn [mbind option_bind] in Q2. destruct (_ || _); [discriminate|]. destruct (has _ _).
  + unfold process_duplicate in Q2. rewrite Ex1 in Q2. cbn [mbind option_bind] in Q2. destruct (g_type x1) eqn:TT; try congruence; try (eapply MC; exact Q2); (destruct (_ =? 1); [first [eapply ST; [|exact Q2]; discriminate|eapply MC; exact Q2]|injection Q2 as <-; auto]).
  + destruct (has _ _).
    * unfold process_complement in Q2. rewrite Ex1 in Q2. cbn [mbind option_bind] in Q2. destruct (g_type x1) eqn:TT; try congruence; try discriminate; eapply MC; exact Q2.
    * apply add_new_inv in Q2 as (w & Ew & _ & _ & HG & _). rewrite Ex1 in Ew. injection Ew as <-. eapply put_no_atleast; [exact N1| |exact HG]. exact T1.
Qed.
Lemma merges_no_atleast G0 G H : no_atleast G -> rtc (merges G0) G H -> no_atleast H.
Proof. intros N J. induction J as [|G1 G2 G3 (p & u & d & _ & E) _ IH]; [auto|]. apply IH. eapply replace_no_atleast; eauto. Qed.
Lemma no_atleast_unclashed G : no_atleast G -> unclashed G.
Proof.
  intros N H J. assert (NH := merges_no_atleast G G H N J). split; [intros (p & x & u & d & _ & Ex & T & _); exact (NH p x Ex T)|]. apply no_atleast_clash. exact NH.
Qed.
Lemma round_no_atleast parents expired order module arranged root G H : containers parents order arranged -> wf G -> acyclic G -> roomy G -> no_atleast G ->
  round parents expired order module arranged root G H -> wf H /\ acyclic H /\ roomy H /\ no_atleast H.
Proof.
  intros CO W A R N (fuel & E). assert (U := no_atleast_unclashed G N). pose proof (round_preprocess parents expired order module arranged CO fuel root false G true H W A U E) as P.
  unfold process_multiple_definitions in E. destruct (nulls G) as [|]; [|discriminate]. apply bind_inv in E as (x & Ex & E).
  destruct (C03_preprocess root false G root false H W A R ltac:(eauto) P) as (_ & _ & W1 & A1 & R1 & _). split; [auto|]. split; [auto|]. split; [auto|].
  destruct (constant x); [discriminate|]. apply bind_inv in E as (F & EF & E). destruct (f_pairs F) as [|q l] eqn:EP; [discriminate|].
  apply bind_inv in E as (G1 & E1 & E). apply bind_inv in E as (G2 & E2 & E). injection E as <-.
  assert (PO : pairs_ok G F) by (eapply detect_ok; [|exact EF]; intros u d []).
  assert (D : during G G1).
  { eapply (replace_each_during parents expired (co_parents _ _ _ CO) G W A); [intros K RK; apply (U K RK)| |apply during_start; auto|exact E1]. intros u d J. apply PO. rewrite EP. eapply Permutation_in; [apply (co_arranged _ _ _ CO)|exact J]. }
  assert (N1 := merges_no_atleast _ _ _ N (du_merges _ _ D)). unfold remove_null_gates in E2. apply bind_inv in E2 as (G3 & E3 & E2). injection E2 as <-.
  assert (RS : roomy G1). { clear - R D. pose proof (du_steps _ _ D) as S. clear D. induction S as [|K1 K2 K3 S _ IH]; [exact R|]. apply IH. eapply step_roomy; eauto. }
  assert (Wu : wf (unregistered G1)) by (apply (k_wf _ _ (du_keeps _ _ D))).
  assert (Au : acyclic (unregistered G1)) by (apply (k_acyclic _ _ (du_keeps _ _ D) A)).
  destruct (propagate_each_keeps parents expired (unregistered G1) fuel (no_atleast_clash (unregistered G1) N1) (nulls G1) (unregistered G1) G3 (rtc_refl _ _) Wu Au RS E3) as (_ & _ & J).
  assert (N3 : no_atleast G3). { clear - N1 J. remember (unregistered G1) as K eqn:EK. assert (NK : no_atleast K) by (subst K; exact N1). clear EK N1. induction J as [|K1 K2 K3 (p & a & E) _ IH]; [exact NK|]. apply IH. eapply join_no_atleast; eauto. }
  exact N3.
Qed.
(** Graphs without K/N gates: the passes never change the value of the graph and leave no two gates of one definition. *)
Theorem C03_definitions_no_voting parents expired order module arranged rounds fuel root comp G G' :
  containers parents order arranged -> wf G -> acyclic G -> roomy G -> (forall j x, gs G !! j = Some x -> g_type x <> kAtleast) ->
  definitions_loop parents expired order module arranged rounds fuel root G = Some G' ->
  preprocess root comp G root comp G' /\ (forall σ v, node_value G' σ root (xorb v comp) <-> node_value G σ root (xorb v comp)) /\
  ((exists x, gs G' !! root = Some x /\ constant x = true) \/ all_different module root G').
Proof.
  intros CO W A R N E. eapply C03_definitions_loop; eauto. intros H J. apply no_atleast_unclashed.
  enough (wf H /\ acyclic H /\ roomy H /\ no_atleast H) by tauto. clear E. induction J as [|G1 G2 G3 R1 _ IH]; [auto|].
  destruct (round_no_atleast _ _ _ _ _ _ _ _ CO W A R N R1) as (W2 & A2 & R2 & N2). auto.
Qed.

(** ** Concrete containers *)
Definition dead (G : graph) (d : Z) : bool := match holders G d with [] => true | _ => false end.
Lemma plain_containers : containers holders list_order (fun l => l).
Proof.
  split.
  - intros G g p H. apply holders_In in H. exact H.
  - intros G i x a E I S. rewrite (list_order_gates G i x E). apply List.filter_In. split; [exact I|]. unfold is_gate. destruct S as [w ->]. reflexivity.
  - intros l. apply Permutation_refl.
Qed.
Definition true_at (G : graph) (ν : Z -> bool) : bool := forallb (fun p => eqb (ν p.1) (gate_value ν p.2)) (map_to_list (gs G)).
Lemma true_at_value G ν i : ν 1 = true -> true_at G ν = true -> node_value G ν i (ν i).
Proof.
  intros N H. exists ν. split; [|auto]. split; [exact N|]. intros j x E. unfold true_at in H. rewrite forallb_forall in H. apply eqb_prop. apply (H (j, x)). apply elem_of_list_In, elem_of_map_to_list. exact E.
Qed.
(** (2 and 3 or 4) and (2 and 3 or 5) with two gates for 2 and 3; 12 is the root. *)
Definition d0 : graph := Graph {[ 6 := Gate kAnd 0 [2; 3]; 7 := Gate kAnd 0 [2; 3]; 8 := Gate kOr 0 [4; 6]; 9 := Gate kOr 0 [5; 7]; 12 := Gate kAnd 0 [8; 9] ]} 13 [] true.
Definition d_run := definitions_loop holders dead list_order (fun _ => false) (fun l => l) 5 20 12 d0.
Example d_view : (G ← d_run; Some (view G [6; 8; 9; 12])) = Some [Some (kAnd, [2; 3]); Some (kOr, [4; 6]); Some (kOr, [5; 6]); Some (kAnd, [8; 9])].
Proof. vm_compute. reflexivity. Qed.
Lemma d0_cases i x : gs d0 !! i = Some x -> i = 6 /\ x = Gate kAnd 0 [2; 3] \/ i = 7 /\ x = Gate kAnd 0 [2; 3] \/ i = 8 /\ x = Gate kOr 0 [4; 6] \/ i = 9 /\ x = Gate kOr 0 [5; 7] \/ i = 12 /\ x = Gate kAnd 0 [8; 9].
Proof. unfold d0. cbn [gs]. intros E. repeat (apply lookup_insert_Some in E as [[<- <-]|[_ E]]; [tauto|]). apply lookup_singleton_Some in E as [<- <-]. tauto. Qed.
Lemma d0_wf : wf d0.
Proof. split; [reflexivity|]. intros i x E. apply d0_cases in E as [[-> ->]|[[-> ->]|[[-> ->]|[[-> ->]|[-> ->]]]]]; (split; [cbn; lia|]); (split; [repeat constructor; cbn; lia|]); cbn; intros a Ha; repeat destruct Ha as [<-|Ha]; try destruct Ha; cbn; lia. Qed.
Lemma d0_acyclic : acyclic d0.
Proof. exists Z.to_nat. intros i x a E Ia _. apply d0_cases in E as [[-> ->]|[[-> ->]|[[-> ->]|[[-> ->]|[-> ->]]]]]; cbn in Ia; repeat destruct Ia as [<-|Ia]; try destruct Ia; cbn; lia. Qed.
Lemma d0_roomy : roomy d0.
Proof.
  split; [|reflexivity]. intros i x E. apply d0_cases in E as [[-> ->]|[[-> ->]|[[-> ->]|[[-> ->]|[-> ->]]]]]; (split; [cbn; lia|]); (split; [split; cbn; [intros [Q|Q]; discriminate Q|intros Q; discriminate Q]|]; split; [intros C; discriminate C|repeat constructor; cbn; lia]).
Qed.
Example C03_definitions_nonvacuous : exists G, d_run = Some G /\ preprocess 12 false d0 12 false G /\ all_different (fun _ => false) 12 G /\ ~ all_different (fun _ => false) 12 d0.
Proof.
  assert (OK : ok d_run = true) by (vm_compute; reflexivity). assert (V := d_view). destruct d_run as [G|] eqn:E; [|discriminate OK]. cbn [mbind option_bind] in V. exists G. split; [auto|].
  destruct (C03_definitions_no_voting holders dead list_order (fun _ => false) (fun l => l) 5 20 12 false d0 G plain_containers d0_wf d0_acyclic d0_roomy) as (P & _ & D).
  - intros j x Ej T. apply d0_cases in Ej as [[-> ->]|[[-> ->]|[[-> ->]|[[-> ->]|[-> ->]]]]]; discriminate T.
  - exact E.
  - split; [exact P|]. split.
    + destruct D as [(x & Ex & C)|D]; [exfalso|exact D]. injection V as _ _ _ V. cbn [mbind option_bind] in V. rewrite Ex in V. injection V as T A. unfold constant in C. rewrite A in C. discriminate C.
    + intros AD. apply (AD 6 7 (Gate kAnd 0 [2; 3]) (Gate kAnd 0 [2; 3])); try reflexivity; try discriminate.
      * apply (reach_next d0 12 6 (Gate kAnd 0 [8; 9]) 8); [reflexivity|cbn; auto|]. apply (reach_next d0 8 6 (Gate kOr 0 [4; 6]) 6); [reflexivity|cbn; auto|constructor].
      * apply (reach_next d0 12 7 (Gate kAnd 0 [8; 9]) 9); [reflexivity|cbn; auto|]. apply (reach_next d0 9 7 (Gate kOr 0 [5; 7]) 7); [reflexivity|cbn; auto|constructor].
      * split; [reflexivity|]. split; [reflexivity|]. intros T. discriminate T.
Qed.
(** Two gates of one definition below a gate "two of three": 8 is 2-of-3 of 4, (2 and 3), (2 and 3), which is (2 and 3); the pass makes it 4
    (/repo/src/pdag.cc:367-371 keeps the other argument; the comment there says @(2, [x, x, z]) = x). *)
Definition g1 : graph := Graph {[ 5 := Gate kAnd 0 [2; 3]; 6 := Gate kAnd 0 [2; 3]; 8 := Gate kAtleast 2 [4; 5; 6] ]} 9 [] true.
Definition g_run := process_multiple_definitions holders dead list_order (fun _ => false) (fun l => l) 20 8 g1.
Definition not4 (j : Z) : bool := negb (j =? 4).
Lemma g1_cases i x : gs g1 !! i = Some x -> i = 5 /\ x = Gate kAnd 0 [2; 3] \/ i = 6 /\ x = Gate kAnd 0 [2; 3] \/ i = 8 /\ x = Gate kAtleast 2 [4; 5; 6].
Proof. unfold g1. cbn [gs]. intros E. repeat (apply lookup_insert_Some in E as [[<- <-]|[_ E]]; [tauto|]). apply lookup_singleton_Some in E as [<- <-]. tauto. Qed.
Theorem C03_definitions_refuted : wf g1 /\ acyclic g1 /\ roomy g1 /\ containers holders list_order (fun l => l) /\ exists G σ,
  g_run = Some (true, G) /\ node_value g1 σ 8 true /\ node_value G σ 8 false /\ ~ node_value G σ 8 true.
Proof.
  assert (W : wf g1).
  { split; [reflexivity|]. intros i x E. apply g1_cases in E as [[-> ->]|[[-> ->]|[-> ->]]]; (split; [cbn; lia|]); (split; [repeat constructor; cbn; lia|]); cbn; intros a Ha; repeat destruct Ha as [<-|Ha]; try destruct Ha; cbn; lia. }
  assert (A : acyclic g1).
  { exists Z.to_nat. intros i x a E Ia _. apply g1_cases in E as [[-> ->]|[[-> ->]|[-> ->]]]; cbn in Ia; repeat destruct Ia as [<-|Ia]; try destruct Ia; cbn; lia. }
  split; [exact W|]. split; [exact A|]. split.
  { split; [|reflexivity]. intros i x E. apply g1_cases in E as [[-> ->]|[[-> ->]|[-> ->]]]; (split; [cbn; lia|]); (split; [split; cbn; [intros [Q|Q]; discriminate Q|intros Q; discriminate Q]|]; split; [intros C; discriminate C|repeat constructor; cbn; lia]). }
  split; [apply plain_containers|].
  assert (OK : ok g_run = true) by (vm_compute; reflexivity). assert (B : (r ← g_run; Some (r.1, gs r.2 !! 8)) = Some (true, Some (Gate kNull 2 [4]))) by (vm_compute; reflexivity).
  assert (C : (r ← g_run; Some (bool_decide (nxt r.2 = 9), true_at r.2 (fun j => negb ((j =? 4) || (j =? 8))))) = Some (true, true)) by (vm_compute; reflexivity).
  destruct g_run as [[b G]|] eqn:E; [|discriminate OK]. cbn [mbind option_bind fst snd] in B, C. injection B as -> B. injection C as N C. apply bool_decide_eq_true in N.
  exists G, not4. split; [reflexivity|]. split; [apply (true_at_value g1 not4 8); [reflexivity|vm_compute; reflexivity]|].
  assert (F : forall b, node_value G not4 8 b -> b = false).
  { intros b (ν & [_ Cν] & S & <-). rewrite (Cν 8 _ B). unfold gate_value. cbn. unfold lit. cbn. rewrite S; [reflexivity|lia|].
    assert (gs G !! 4 = None); [|assumption].
    assert (K : (r ← g_run; Some (gs r.2 !! 4)) = Some None) by (vm_compute; reflexivity). rewrite E in K. cbn in K. injection K as K. exact K. }
  split; [|intros Q; apply F in Q; discriminate Q].
  assert (K4 : gs G !! 4 = None).
  { assert (K : (r ← g_run; Some (gs r.2 !! 4)) = Some None) by (vm_compute; reflexivity). rewrite E in K. cbn in K. injection K as K. exact K. }
  set (ν := fun j => negb ((j =? 4) || (j =? 8))) in *. exists ν. split; [destruct (true_at_value G ν 8 eq_refl C) as (_ & _ & _ & _)|].
  - split; [reflexivity|]. intros j x Ej. unfold true_at in C. rewrite forallb_forall in C. apply eqb_prop, (C (j, x)). apply elem_of_list_In, elem_of_map_to_list. exact Ej.
  - split; [|reflexivity]. intros j _ Ej. unfold ν, not4. destruct (Z.eqb_spec j 8) as [->|]; [rewrite B in Ej; discriminate Ej|]. rewrite orb_false_r. reflexivity.
Qed.
Print Assumptions C03_definitions_no_voting.
Print Assumptions C03_definitions_refuted.
