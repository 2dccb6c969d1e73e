(** C06 (detection of modules).
    Vocabulary: [graph], [node_value] (Pdag.v); [under G m i] (ZbddModules.v): node i is m or below
    it; [detect_modules] (Modules.v): what Preprocessor::DetectModules does to the graph and to the
    module flags of its gates; [sorts] (Modules.v): what std::sort promises. *)
From stdpp Require Import gmap.
From Coq Require Import List ZArith Lia Bool Permutation Sorted.
Import ListNotations.
From Verif Require Import Pdag PdagProofs PdagSem PdagKeeps ZbddGraph ZbddModules ZbddModulesProofs Order Modules ModulesTiming ModulesGraph ModulesStatic ModulesFind P_BddProducts P_Prob.
Open Scope Z_scope.

(** A path from node i down to node j, with the nodes on it. *)
Inductive path (G : graph) (i : Z) : Z -> list Z -> Prop :=
| path_here : path G i i [i]
| path_down p l x a : path G i p l -> gs G !! p = Some x -> In a (g_args x) -> path G i (Z.abs a) (l ++ [Z.abs a]).
(** Module: from the root nothing in it is reached but through it. *)
Definition is_module (G : graph) (root m : Z) : Prop := forall j l, under G m j -> path G root j l -> In m l.

Lemma path_under G i j l : path G i j l -> forall k, In k l -> under G k j.
Proof.
  induction 1 as [|p l x a P IH E J]; intros k K.
  - destruct K as [<-|[]]. constructor.
  - apply in_app_iff in K as [K|[<-|[]]]; [|constructor]. exact (under_arg G k p x a (IH k K) E J).
Qed.
Lemma under_path G i j : under G i j -> exists l, path G i j l.
Proof. induction 1 as [|p x a U [l P] E J]; [exists [i]; constructor|]. exists (l ++ [Z.abs a]). econstructor; eauto. Qed.
Lemma module_iff G root m : Pdag.acyclic G -> (forall i, is_Some (gs G !! i) -> under G root i) -> is_Some (gs G !! m) -> (is_module G root m <-> modular G m).
Proof.
  intros [r RK] ALL SM. split.
  - intros M i x a E J U. destruct (under_path G root i (ALL i ltac:(eauto))) as [l P].
    pose proof (M (Z.abs a) (l ++ [Z.abs a]) U (path_down G root i l x a P E J)) as I. apply in_app_iff in I as [I|[I|[]]]; [|auto]. right. eapply path_under; eauto.
  - intros M j l U P. revert U. induction P as [|p l x a P IH E J]; intros U.
    + left. apply (under_antisym G r RK); auto.
    + apply in_app_iff. destruct (M p x a E J U) as [<-|Up]; [right; left; auto|left; auto].
Qed.

(** Detection ends, with any order that std::sort may leave; no node of the graph changes its value;
    every flagged gate of the result is a module; the gates that the detection creates are flagged;
    a gate of the original graph is flagged exactly when it was a module there. *)
Theorem C06_modules G root module sort : PdagProofs.wf G -> Pdag.acyclic G -> is_Some (gs G !! root) ->
  (forall i, is_Some (gs G !! i) -> under G root i) ->
  (forall i x, gs G !! i = Some x -> constant x = false /\ 0 <= g_min x) ->
  (forall m, module m = true -> is_Some (gs G !! m) /\ is_module G root m) -> sorts sort ->
  exists fuel, forall f, (fuel <= f)%nat -> exists H flags, detect_modules sort f root module G = Some (H, flags) /\
    PdagProofs.wf H /\ Pdag.acyclic H /\
    (forall ρ j b, 0 < j < nxt G -> (node_value H ρ j b <-> node_value G ρ j b)) /\
    (forall m, flags m = true -> is_Some (gs H !! m) /\ is_module H root m) /\
    (forall m, is_Some (gs H !! m) -> gs G !! m = None -> flags m = true) /\
    (forall g, is_Some (gs G !! g) -> (flags g = true <-> is_module G root g)).
Proof.
  intros W AC SR ALL NC MO SS. pose proof AC as [r RK]. exists (S (r root)). intros f F.
  destruct (detect_ok G root r sort f module W RK SR ALL NC SS ltac:(lia)) as (H & flags & E & K & A & B & C & D).
  { intros m Q. destruct (MO m Q) as [S1 S2]. split; auto. apply (module_iff G root m); auto. }
  pose proof (k_acyclic _ _ K AC) as AH. exists H, flags. split; [auto|]. split; [apply K|]. split; [auto|]. split; [|split; [|split]].
  - intros ρ j b L. apply (keeps_value G H W AC K ρ j b L).
  - intros m Q. destruct (A m Q) as [S1 S2]. split; auto. apply module_iff; auto.
  - intros m [y S1] N. apply C. apply (k_wf _ _ K) in S1 as L. destruct L as [L _]. split; [|lia]. destruct (Z.lt_ge_cases m (nxt G)) as [L'|L']; auto.
    apply (k_vars _ _ K m ltac:(lia)) in N. congruence.
  - intros g SG. rewrite (B g SG). symmetry. apply module_iff; auto.
Qed.

(** ** The hypotheses are met by non-trivial cases *)
(* a sort *)
Fixpoint place (rg : Z -> Z * Z) (a : Z) (l : list Z) : list Z :=
  match l with [] => [a] | b :: l => if comes_before (rg (Z.abs a)) (rg (Z.abs b)) then b :: place rg a l else a :: b :: l end.
Definition by_insertion (rg : Z -> Z * Z) (l : list Z) : list Z := fold_right (place rg) [] l.
Lemma place_perm rg a l : Permutation (place rg a l) (a :: l).
Proof. induction l as [|b l IH]; simpl; auto. destruct comes_before; auto. rewrite IH. constructor. Qed.
Lemma before_spec a b : a.1 <= a.2 -> b.1 <= b.2 -> (comes_before a b = false <-> b.2 < a.2 \/ (a.2 = b.2 /\ a.1 <= b.1)).
Proof.
  intros A B. unfold comes_before. destruct (Z.ltb_spec a.2 b.1), (Z.ltb_spec b.2 a.1), (Z.ltb_spec a.2 b.2), (Z.ltb_spec b.2 a.2), (Z.ltb_spec b.1 a.1); split; intros; try discriminate; try lia; auto.
Qed.
Lemma by_insertion_sorts : sorts by_insertion.
Proof.
  intros rg l. induction l as [|a l IH]; intros OK; simpl; [split; [constructor|constructor]|].
  destruct IH as [P S]; [intros b B; apply OK; right; auto|]. split; [etransitivity; [apply place_perm|constructor; auto]|].
  assert (OK' : forall b, In b (by_insertion rg l) -> (rg (Z.abs b)).1 <= (rg (Z.abs b)).2) by (intros b B; apply OK; right; exact (Permutation_in _ P B)).
  pose proof (OK a ltac:(left; auto)) as OA. clear OK P. induction S as [|b m S IH FA]; simpl; [repeat constructor|].
  assert (OB : (rg (Z.abs b)).1 <= (rg (Z.abs b)).2) by (apply OK'; left; auto).
  destruct (comes_before (rg (Z.abs a)) (rg (Z.abs b))) eqn:C.
  - constructor; [apply IH; intros c J; apply OK'; right; auto|]. apply List.Forall_forall. intros c J. apply (Permutation_in _ (place_perm rg a m)) in J as [<-|J]; [|rewrite List.Forall_forall in FA; auto].
    apply before_spec; auto. rewrite <- not_false_iff_true, before_spec in C by auto. lia.
  - constructor; [constructor; auto|]. constructor; [auto|]. rewrite List.Forall_forall in *. intros c J. specialize (FA c J). pose proof (OK' c ltac:(right; auto)).
    rewrite before_spec in * by auto. lia.
Qed.
(* 10 = 2 or 3 or 8 or not 9, 8 = 4 and 5, 9 = 4 and 6: no gate but the root is a module; 2 and 3 make one, 8 and 9 another *)
Definition m_g : graph := Graph {[8 := Gate kAnd 0 [4; 5]; 9 := Gate kAnd 0 [4; 6]; 10 := Gate kOr 0 [-9; 2; 3; 8]]} 11 [] true.
Lemma m_gates i x : gs m_g !! i = Some x -> (i = 8 /\ x = Gate kAnd 0 [4; 5]) \/ (i = 9 /\ x = Gate kAnd 0 [4; 6]) \/ (i = 10 /\ x = Gate kOr 0 [-9; 2; 3; 8]).
Proof. unfold m_g. cbn [gs]. intros E. gate_cases E. Qed.
Example m_hypotheses : PdagProofs.wf m_g /\ Pdag.acyclic m_g /\ is_Some (gs m_g !! 10) /\ (forall i, is_Some (gs m_g !! i) -> under m_g 10 i) /\
  (forall i x, gs m_g !! i = Some x -> constant x = false /\ 0 <= g_min x) /\ sorts by_insertion.
Proof.
  split; [|split; [|split; [|split; [|split]]]].
  - split; [simpl; lia|]. intros i x E. destruct (m_gates i x E) as [[-> ->]|[[-> ->]|[-> ->]]]; (split; [simpl; lia|]); (split; [simpl; repeat constructor; simpl; intuition lia|]);
      intros a Ha; simpl in Ha; simpl; intuition (subst; simpl; lia).
  - exists (fun j => if j =? 10 then 1%nat else 0%nat). intros i x a E Ha [y Hy].
    destruct (m_gates i x E) as [[-> ->]|[[-> ->]|[-> ->]]]; destruct (m_gates _ y Hy) as [[Ey _]|[[Ey _]|[Ey _]]]; simpl in Ha; rewrite Ey; simpl; lia.
  - vm_compute. eauto.
  - intros i [x E]. assert (A : forall a, In a [-9; 2; 3; 8] -> under m_g 10 (Z.abs a)) by (intros a J; apply (under_arg m_g 10 10 (Gate kOr 0 [-9; 2; 3; 8]) a); [constructor|reflexivity|auto]).
    destruct (m_gates i x E) as [[-> _]|[[-> _]|[-> _]]]; [apply (A 8); simpl; auto|apply (A (-9)); simpl; auto|constructor].
  - intros i x E. destruct (m_gates i x E) as [[-> ->]|[[-> ->]|[-> ->]]]; split; try reflexivity; simpl; lia.
  - apply by_insertion_sorts.
Qed.
Example m_run : option_map (fun r => (map (fun i => option_map (fun x => (g_type x, g_args x)) (gs r.1 !! i)) [8; 9; 10; 11; 12], map r.2 [8; 9; 10; 11; 12]))
    (detect_modules by_insertion 9 10 (fun _ => false) m_g) =
  Some ([Some (kAnd, [4; 5]); Some (kAnd, [4; 6]); Some (kOr, [11; 12]); Some (kOr, [2; 3]); Some (kOr, [-9; 8])], [false; false; true; true; true]).
Proof. vm_compute. reflexivity. Qed.
Print Assumptions C06_modules.
