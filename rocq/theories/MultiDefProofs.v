(** The pass over gates with the same definition (MultiDef.v) is a sequence of replacements of equal gates. *)
From stdpp Require Import gmap.
From Coq Require Import Lia Permutation List.
From Verif Require Import Pdag PdagProofs PdagAdd PdagSem PdagKeeps Preproc PreprocProofs BoolOptProofs P_Preproc NullGates NullGatesProofs MultiDef.
Import ListNotations.
Open Scope Z_scope.

(** Two gates with the same definition. *)
Definition same (G : graph) (u d : Z) : Prop := exists y y', gs G !! u = Some y /\ gs G !! d = Some y' /\ same_definition y' y.
Lemma same_gate_definition x y : same_gate x y = true -> same_definition x y.
Proof.
  unfold same_gate. intros K. apply andb_true_iff in K as [K K3]. apply andb_true_iff in K as [K1 K2]. apply conn_eqb_eq in K1. apply bool_decide_eq_true in K2.
  split; [auto|]. split; [auto|]. intros T. apply orb_true_iff in K3 as [K3|K3]; [|apply Z.eqb_eq in K3; auto]. apply negb_true_iff in K3. rewrite <- not_true_iff_false in K3. exfalso. apply K3, conn_eqb_eq, T.
Qed.
Section Detect.
Context (order : graph -> Z -> list Z) (module : Z -> bool) (G : graph).
Definition pairs_ok (F : found) : Prop := forall u d, In (u, d) (f_pairs F) -> same G u d.
Lemma each_ok go l : (forall a F F', pairs_ok F -> go a F = Some F' -> pairs_ok F') -> forall F F', pairs_ok F -> each go l F = Some F' -> pairs_ok F'.
Proof.
  intros Hgo. induction l as [|a l IH]; cbn [each]; intros F F' K E; [injection E as <-; auto|]. apply bind_inv in E as (F1 & E1 & E). eapply IH; [|exact E]. eapply Hgo; eauto.
Qed.
Lemma detect_ok fuel : forall i F F', pairs_ok F -> detect order module fuel G i F = Some F' -> pairs_ok F'.
Proof.
  induction fuel as [|fuel IH]; intros i F F' K E; [discriminate|]. cbn [detect] in E. destruct (bool_decide _); [injection E as <-; auto|].
  apply bind_inv in E as (x & Ex & E). destruct (constant x); [discriminate|]. cbv zeta in E. destruct (module i); [eapply each_ok; [exact IH| |exact E]; exact K|].
  destruct (lookup_gate G x (f_unique F)) as [u|] eqn:L; [injection E as <-|eapply each_ok; [exact IH| |exact E]; exact K].
  intros v d J. cbn [f_pairs] in J. apply in_app_or in J as [J|[[= <- <-]|[]]]; [apply K, J|].
  unfold lookup_gate in L. apply List.find_some in L as [_ L]. destruct (gs G !! u) as [y|] eqn:Ey; [|discriminate]. exists y, x. split; [auto|]. split; [auto|]. apply same_gate_definition, L.
Qed.
End Detect.

(** Ranks after a replacement. *)
Lemma replace_ranks p g g' G G' x r : wf G -> ranked G r -> gs G !! p = Some x ->
  (In g (g_args x) \/ In (- g) (g_args x)) -> 0 < g -> 0 < g' < nxt G -> (is_Some (gs G !! g') -> r g' < r p)%nat ->
  ~ (g_type x = kAtleast /\ length (g_args x) = 3%nat /\ (In g' (g_args x) \/ In (- g') (g_args x))) ->
  replace_in_parent p g g' G = Some G' ->
  exists r', ranked G' r' /\ forall j k, j < nxt G -> k < nxt G -> (r j < r k)%nat <-> (r' j < r' k)%nat.
Proof.
  intros W Hr Ex Hg Hg0 Hg' Hrk Hbug H. unfold replace_in_parent in H. rewrite Ex in H. cbn [mbind option_bind] in H.
  set (a := arg_of x g) in *.
  assert (Ha : In a (g_args x) /\ (a = g \/ a = - g)).
  { unfold a, arg_of. destruct (has g (g_args x)) eqn:E; [apply has_In in E; auto|].
    apply has_false in E. destruct Hg as [|]; [contradiction|auto]. }
  destruct Ha as [Hin Hag].
  set (b := if a <? 0 then - g' else g') in *.
  apply bind_inv in H as (G1 & E1 & H). apply erase_arg_inv in E1 as (x0 & Ex0 & _ & HG1 & N1).
  rewrite Ex in Ex0. injection Ex0 as <-.
  assert (Hok : args_ok (nxt G) (g_args x)) by (now apply W in Ex).
  set (x1 := with_args x (set_erase a (g_args x))) in *.
  assert (Hperm : Permutation (g_args x) (a :: g_args x1)).
  { apply set_erase_perm; auto. apply Hok. }
  assert (Hlen : length (g_args x) = S (length (g_args x1))) by (rewrite (Permutation_length Hperm); auto).
  assert (W1 : wf G1).
  { split; [destruct W; lia|]. intros j z Ez. rewrite HG1 in Ez. rewrite N1. destruct (Z.eq_dec j p) as [->|J].
    - rewrite lookup_insert in Ez. injection Ez as <-. split; [now apply W in Ex|]. now apply args_ok_erase.
    - rewrite lookup_insert_ne in Ez by auto. now apply W. }
  assert (Habs : Z.abs b = g') by (unfold b; destruct (a <? 0); lia).
  assert (C : changes G1 G' p b (plus x1 b)).
  { eapply add_arg_changes; [exact W1|now rewrite HG1, lookup_insert| | |exact H].
    - split; [unfold b; destruct (a <? 0); lia|lia].
    - intros (T1 & T2 & T3). apply Hbug. split; [exact T1|]. split; [unfold size in T2; lia|].
      assert (In b (g_args x)) by (eapply Permutation_in; [symmetry; exact Hperm|right; exact T3]).
      unfold b in H0. destruct (a <? 0); auto. }
  assert (Hsome : forall k, is_Some (gs G1 !! k) <-> is_Some (gs G !! k)).
  { intros k. rewrite HG1. destruct (Z.eq_dec k p) as [->|]; [rewrite lookup_insert, Ex; split; eauto|].
    now rewrite lookup_insert_ne by auto. }
  rewrite <- N1. apply (ch_rank _ _ _ _ _ C r).
  - intros j y c Ey Hc Hs. apply Hsome in Hs. rewrite HG1 in Ey. destruct (Z.eq_dec j p) as [->|J].
    + rewrite lookup_insert in Ey. injection Ey as <-. apply set_erase_In in Hc as [Hc _]. eapply Hr; eauto.
    + rewrite lookup_insert_ne in Ey by auto. eapply Hr; eauto.
  - intros Hs. rewrite Habs in *. apply Hrk. now apply Hsome.
Qed.

(** The graph [H] in the middle of the pass over [G]. *)
Definition merges (G H H' : graph) : Prop := exists p u d, same G u d /\ replace_in_parent p d u H = Some H'.
Definition merge_clash (G H : graph) : Prop :=
  exists p x u d, same G u d /\ gs H !! p = Some x /\ g_type x = kAtleast /\ length (g_args x) = 3%nat /\ arg_in u x /\ arg_in d x.
Record during (G H : graph) : Prop := {
  du_keeps : keeps G H;
  du_steps : rtc step G H;
  du_merges : rtc (merges G) G H;
  du_rank : exists r, ranked H r /\ forall u d, same G u d -> r u = r d }.
Lemma during_start G : wf G -> acyclic G -> during G G.
Proof.
  intros W A. constructor; [apply keeps_refl, W|constructor|constructor|]. destruct (canonical_rank G A) as (r & R & C). exists r. split; [exact R|].
  intros u d (y & y' & Ey & Ey' & S1 & S2 & S3). apply Nat.le_antisymm; eapply C; eauto; rewrite S2; auto.
Qed.
Lemma same_value G H u d : wf G -> acyclic G -> keeps G H -> same G u d -> forall ν, consistent H ν -> ν u = ν d.
Proof.
  intros W A K (y & y' & Ey & Ey' & S1 & S2 & S3) μ Hμ. assert (Lu : 1 < u < nxt G) by (now apply W in Ey). assert (Ld : 1 < d < nxt G) by (now apply W in Ey').
  assert (V : forall j, 1 < j < nxt G -> node_value G μ j (μ j)). { intros j Lj. apply (keeps_value G H W A K μ j); [lia|]. exists μ. split; [exact Hμ|]. split; [auto|reflexivity]. }
  destruct (V u Lu) as (ν & Hν & Vν & Eu). assert (Q : ν u = ν d).
  { rewrite (keeps_sem_gate G u y ν Hν Ey), (keeps_sem_gate G d y' ν Hν Ey'). unfold gate_value. rewrite S1, S2. destruct (g_type y'); auto. simpl. now rewrite S3. }
  assert (Vd : node_value G μ d (ν d)) by (exists ν; auto). rewrite <- Eu, Q. eapply (node_value_unique G μ d); eauto. lia.
Qed.
Lemma during_step G H H' p u d x : wf G -> acyclic G -> (forall H, rtc (merges G) G H -> ~ merge_clash G H) -> during G H -> same G u d ->
  gs H !! p = Some x -> arg_in d x -> replace_in_parent p d u H = Some H' -> during G H'.
Proof.
  intros W A NC D SM Ex IN E. pose proof SM as (y & y' & Ey & Ey' & _). assert (Lu : 1 < u < nxt G) by (now apply W in Ey). assert (Ld : 1 < d < nxt G) by (now apply W in Ey').
  destruct D as [K S M (r & R & Q)]. pose proof (k_nxt _ _ K) as Ln.
  assert (Zu : exists z, gs H !! u = Some z). { destruct (gs H !! u) eqn:Z; [eauto|]. apply (k_vars _ _ K) in Z; [congruence|lia]. } destruct Zu as [z Ez].
  assert (Zd : exists z, gs H !! d = Some z). { destruct (gs H !! d) eqn:Z; [eauto|]. apply (k_vars _ _ K) in Z; [congruence|lia]. } destruct Zd as [z' Ez'].
  assert (LT : (r u < r p)%nat). { rewrite (Q u d SM). unfold arg_in in IN. destruct IN as [IN|IN]; pose proof (R p x _ Ex IN) as LT; rewrite ?Z.abs_opp, Z.abs_eq in LT by lia; eauto. }
  assert (BUG : ~ (g_type x = kAtleast /\ length (g_args x) = 3%nat /\ (In u (g_args x) \/ In (- u) (g_args x)))).
  { intros (T1 & T2 & T3). apply (NC H M). exists p, x, u, d. auto 10. }
  assert (SV : forall ν, consistent H ν -> ν u = ν d) by (apply (same_value G H u d W A K SM)).
  assert (ST : step H H') by (apply (step_equal H H' p d u x z' z r); auto).
  assert (K1 : keeps H H') by (apply (step_keeps H H' (k_wf _ _ K)); [exists r; auto|auto]).
  destruct (replace_ranks p d u H H' x r (k_wf _ _ K) R Ex IN ltac:(lia) ltac:(lia) (fun _ => LT) BUG E) as (r' & R' & O).
  constructor.
  - eapply keeps_trans; eauto.
  - eapply rtc_r; eauto.
  - eapply rtc_r; [exact M|]. exists p, u, d. auto.
  - exists r'. split; [exact R'|]. intros u' d' SM'. pose proof (Q u' d' SM') as Q'. destruct SM' as (w & w' & Ew & Ew' & _). apply W in Ew as [Lw _]. apply W in Ew' as [Lw' _].
    pose proof (O u' d' ltac:(lia) ltac:(lia)). pose proof (O d' u' ltac:(lia) ltac:(lia)). lia.
Qed.
Section Replace.
Context (parents : graph -> Z -> list Z) (expired : graph -> Z -> bool).
Hypothesis PS : forall G g p, In p (parents G g) -> exists x, gs G !! p = Some x /\ arg_in g x.
Context (G : graph) (W : wf G) (A : acyclic G).
Hypothesis NC : forall H, rtc (merges G) G H -> ~ merge_clash G H.
Lemma replace_parents_during fuel u d : same G u d -> forall H H', during G H -> replace_parents parents fuel d u H = Some H' -> during G H'.
Proof.
  intros SM. induction fuel as [|fuel IH]; intros H H' D E; [discriminate|]. cbn [replace_parents] in E. destruct (parents H d) as [|p ps] eqn:P; [injection E as <-; exact D|].
  apply bind_inv in E as (H1 & E1 & E). destruct (PS H d p) as (x & Ex & IN); [rewrite P; now left|]. eapply IH; [|exact E]. eapply during_step; eauto.
Qed.
Lemma replace_each_during fuel l : (forall u d, In (u, d) l -> same G u d) -> forall H H', during G H -> replace_each parents expired fuel l H = Some H' -> during G H'.
Proof.
  induction l as [|[u d] l IH]; intros SM H H' D E; cbn [replace_each] in E; [injection E as <-; exact D|]. apply bind_inv in E as (H1 & E1 & E).
  eapply IH; [intros; apply SM; now right| |exact E]. destruct (expired H d); [injection E1 as <-; exact D|]. unfold replace_gate in E1. destruct (parents H d) eqn:P; [discriminate|].
  eapply replace_parents_during; [apply SM; now left|exact D|exact E1].
Qed.
End Replace.

(** The traversal that finds nothing has seen every gate below the root. *)
Section Done.
Context (order : graph -> Z -> list Z) (module : Z -> bool) (G : graph).
Hypothesis ORDER : forall i x a, gs G !! i = Some x -> In a (g_args x) -> is_Some (gs G !! Z.abs a) -> In a (order G i).
Definition closed_at (C : gset Z) (j : Z) : Prop := forall x a, gs G !! j = Some x -> In a (g_args x) -> is_Some (gs G !! Z.abs a) -> Z.abs a ∈ C.
Record nothing (F F' : found) : Prop := {
  no_more : f_marks F ⊆ f_marks F';
  no_black : forall j, j ∈ f_marks F' -> j ∈ f_marks F \/ closed_at (f_marks F') j;
  no_unique : forall j, j ∈ f_marks F' -> j ∈ f_marks F \/ module j = true \/ In j (f_unique F');
  no_incl : forall j, In j (f_unique F) -> In j (f_unique F') }.
Definition unlike (l : list Z) : Prop := forall i j, In i l -> In j l -> i <> j -> ~ same G i j.
Lemma nothing_refl F : nothing F F. Proof. constructor; auto. Qed.
Lemma nothing_trans F1 F2 F3 : nothing F1 F2 -> nothing F2 F3 -> nothing F1 F3.
Proof.
  intros [a b c d] [a' b' c' d']. constructor; [set_solver| | |auto].
  - intros j J. destruct (b' j J) as [K|K]; [|auto]. destruct (b j K) as [K2|K2]; [auto|]. right. intros x y Ex Iy Sy. apply a'. eapply K2; eauto.
  - intros j J. destruct (c' j J) as [K|K]; [|auto]. destruct (c j K) as [K2|[K2|K2]]; auto.
Qed.
Definition goes (go : Z -> found -> option found) (i : Z) : Prop := forall F F', f_pairs F' = [] -> go i F = Some F' ->
  f_pairs F = [] /\ (unlike (f_unique F) -> nothing F F' /\ i ∈ f_marks F' /\ unlike (f_unique F')).
Lemma each_nothing go l : (forall a, In a l -> goes go (Z.abs a)) -> forall F F', f_pairs F' = [] -> each go l F = Some F' ->
  f_pairs F = [] /\ (unlike (f_unique F) -> nothing F F' /\ (forall a, In a l -> Z.abs a ∈ f_marks F') /\ unlike (f_unique F')).
Proof.
  induction l as [|a l IH]; intros Hg F F' N E; cbn [each] in E.
  - injection E as <-. split; [auto|]. intros U. split; [apply nothing_refl|]. split; [intros a []|auto].
  - apply bind_inv in E as (F1 & E1 & E). destruct (IH (fun b J => Hg b (or_intror J)) F1 F' N E) as [N1 K]. destruct (Hg a (or_introl eq_refl) F F1 N1 E1) as [N0 K0]. split; [auto|].
    intros U. destruct (K0 U) as (A0 & M0 & U0). destruct (K U0) as (A1 & M1 & U1). split; [eapply nothing_trans; eauto|]. split; [|auto]. intros b [<-|J]; [apply (no_more _ _ A1), M0|apply M1, J].
Qed.
Lemma detect_nothing fuel : forall i, goes (detect order module fuel G) i.
Proof.
  induction fuel as [|fuel IH]; intros i F F' N E; [discriminate|]. cbn [detect] in E. destruct (bool_decide _) eqn:M.
  { injection E as <-. apply bool_decide_eq_true in M. split; [auto|]. intros U. split; [apply nothing_refl|auto]. }
  apply bool_decide_eq_false in M. apply bind_inv in E as (x & Ex & E). destruct (constant x); [discriminate|]. cbv zeta in E.
  assert (CL : forall l1, each (detect order module fuel G) (order G i) (Found ({[i]} ∪ f_marks F) l1 (f_pairs F)) = Some F' -> (module i = true \/ In i l1) -> incl (f_unique F) l1 -> (unlike (f_unique F) -> unlike l1) ->
    f_pairs F = [] /\ (unlike (f_unique F) -> nothing F F' /\ i ∈ f_marks F' /\ unlike (f_unique F'))).
  { intros l1 E1 MU IN UL. destruct (each_nothing _ _ (fun a _ => IH (Z.abs a)) _ _ N E1) as [N0 K]. cbn [f_pairs f_unique] in *. split; [auto|]. intros U. destruct (K (UL U)) as (A0 & M0 & U0).
    assert (Mi : i ∈ f_marks F') by (apply (no_more _ _ A0); cbn; set_solver). split; [|auto]. constructor.
    - pose proof (no_more _ _ A0) as B. cbn in B. set_solver.
    - intros j J. destruct (decide (j = i)) as [->|D]; [right; intros y a Ey Ia Sa; apply M0; eapply ORDER; eauto|]. destruct (no_black _ _ A0 j J) as [B|B]; [cbn in B; left; set_solver|auto].
    - intros j J. destruct (decide (j = i)) as [->|D]; [right; destruct MU as [MU|MU]; [auto|right; apply (no_incl _ _ A0), MU]|]. destruct (no_unique _ _ A0 j J) as [B|B]; [cbn in B; left; set_solver|auto].
    - intros j J. apply (no_incl _ _ A0), IN, J. }
  destruct (module i) eqn:MO.
  - eapply CL; [exact E|auto|apply incl_refl|auto].
  - destruct (lookup_gate G x (f_unique F)) as [u|] eqn:L.
    { injection E as <-. cbn in N. destruct (f_pairs F); discriminate N. }
    eapply CL; [exact E| | |].
    + right. apply in_or_app. right. now left.
    + intros j J. apply in_or_app. auto.
    + intros U. assert (NL : forall k, In k (f_unique F) -> ~ same G k i /\ ~ same G i k).
      { intros k Ik. unfold lookup_gate in L. pose proof (List.find_none _ _ L k Ik) as Q. cbn in Q.
        assert (X : forall y, gs G !! k = Some y -> ~ (g_type x = g_type y /\ g_args x = g_args y /\ (g_type x = kAtleast -> g_min x = g_min y))).
        { intros y Ey (T1 & T2 & T3). rewrite Ey in Q. unfold same_gate in Q. rewrite (proj2 (conn_eqb_eq _ _) T1), T2, bool_decide_eq_true_2 in Q by reflexivity. cbn in Q.
          destruct (conn_eqb (g_type x) kAtleast) eqn:T; [|discriminate Q]. apply conn_eqb_eq in T. rewrite (T3 T), Z.eqb_refl in Q. discriminate Q. }
        split; intros (y & y' & Ey & Ey' & S1 & S2 & S3).
        * rewrite Ex in Ey'. injection Ey' as <-. apply (X y Ey). split; [congruence|]. split; [congruence|]. intros T. symmetry. apply S3, T.
        * rewrite Ex in Ey. injection Ey as <-. apply (X y' Ey'). split; [auto|]. split; [auto|]. intros T. apply S3. congruence. }
      intros a b Ia Ib D. apply in_app_or in Ia as [Ia|[<-|[]]]; apply in_app_or in Ib as [Ib|[<-|[]]]; [apply U; auto|apply NL; auto|apply NL; auto|congruence].
Qed.
End Done.
