(** C53: undo and redo in the GUI.  See Undo.v for the model of the code and UndoSpec.v for the specification. *)
From stdpp Require Import gmap strings list.
From Coq Require Import List String.
From Verif Require Import Undo UndoSpec UndoProofs UndoRuns UndoKeeps UndoKeeps2 UndoBack UndoStack.
Import ListNotations.

(** Every session of allowed edits, macros, undos, redos and saves runs to its end, whatever the limit of the stack, and leaves the model
    of an editor that restores whole copies; what can be undone and redone is what that editor can go back and forward to. *)
Theorem C53_undo_redo (lim : nat) (acts : list action) (s : model) (E : editor) :
  consistent s -> plain_flavors s -> history lim acts (loaded s) E ->
  exists q, runs (session acts (new_stack lim)) s q (now E) /\
    (pending E = None -> List.length (done q) = List.length (past E) /\ List.length (undone q) = List.length (future E)).
Proof.
  intros C P H. destruct (follows_history lim acts (new_stack lim) (loaded s) E) as (q & R & F); [apply follows_loaded; split; assumption|exact H|].
  exists q. split; [exact R|]. intros N. pose proof (fo_stack _ _ _ F) as St. rewrite N in St. destruct (open q); [destruct St|]. destruct St as [D U].
  split; symmetry; [eapply dones_length|eapply undones_length]; eauto.
Qed.
(** A stack that says it is clean has the model that was loaded or last saved. *)
Theorem C53_clean (lim : nat) (acts : list action) (s : model) (E : editor) (q : stack) (t : model) :
  consistent s -> plain_flavors s -> history lim acts (loaded s) E -> runs (session acts (new_stack lim)) s q t ->
  is_clean q = true -> t = saved E.
Proof.
  intros C P H R K. destruct (follows_history lim acts (new_stack lim) (loaded s) E) as (q' & R' & F); [apply follows_loaded; split; assumption|exact H|].
  destruct (runs_det _ _ _ _ _ _ R R') as [<- ->]. pose proof (fo_stack _ _ _ F) as St. unfold is_clean in K. destruct (open q); [discriminate|]. destruct (clean q) as [i|] eqn:Q; [|discriminate].
  apply Nat.eqb_eq in K. destruct (pending E) eqn:N; [destruct St|]. destruct St as [D _]. pose proof (fo_clean _ _ _ F i Q) as T. unfold timeline in T. rewrite N in T.
  rewrite lookup_app_r in T by (rewrite rev_length, (dones_length _ _ _ D); unfold index in K; lia). replace (i - List.length (rev (past E))) with 0 in T by (rewrite rev_length, (dones_length _ _ _ D); unfold index in K; lia).
  cbn in T. congruence.
Qed.
(** What one edit does: redo makes the edited model, undo gives the model back, redo once more makes the edited model again. *)
Theorem C53_edit (s : model) (c : command) :
  consistent s -> plain_flavors s -> allowed c s ->
  exists c1 c2, runs (redo c) s c1 (edited c s) /\ runs (undo c1) (edited c s) c2 s /\ runs (redo c2) s c1 (edited c s).
Proof.
  intros C P A. destruct (undo_edited s c C P A) as (c2 & R1 & R2). exists (next c s), c2. split; [apply redo_edited; assumption|]. auto.
Qed.
Theorem C53_consistent (s : model) (c : command) : consistent s -> plain_flavors s -> allowed c s -> consistent (edited c s) /\ plain_flavors (edited c s).
Proof. apply edited_keeps. Qed.

(** Edits one after another. *)
Inductive applied : model -> list command -> model -> Prop :=
| applied_nil s : applied s [] s
| applied_cons s c l t : allowed c s -> applied (edited c s) l t -> applied s (c :: l) t.
Lemma applied_history s l t : applied s l t -> forall pa sv, exists ps, List.length ps = List.length l /\ history 0 (map Push l) (Editor pa s [] None sv) (Editor (ps ++ pa) t [] None sv) /\
  forall fu, exists fs, history 0 (repeat Undo (List.length l)) (Editor (ps ++ pa) t fu None sv) (Editor pa s (fs ++ fu) None sv) /\
  history 0 (repeat Redo (List.length l)) (Editor pa s (fs ++ fu) None sv) (Editor (ps ++ pa) t fu None sv).
Proof.
  induction 1 as [s|s c l t A _ IH]; intros pa sv.
  - exists []. split; [reflexivity|]. split; [constructor|]. intros fu. exists []. split; constructor.
  - destruct (IH (s :: pa) sv) as (ps & L & H & B). exists (ps ++ [s]). rewrite <- app_assoc. cbn [app]. split; [rewrite app_length; cbn; lia|]. split.
    + cbn [map]. econstructor; [apply (e_push 0 c (Editor pa s [] None sv)); [reflexivity|exact A]|]. exact H.
    + intros fu. destruct (B fu) as (fs & U & R). exists (edited c s :: fs). cbn [List.length app].
      assert (RU : forall l E1 E2 E3, history 0 l E1 E2 -> edits 0 Undo E2 E3 -> history 0 (l ++ [Undo]) E1 E3).
      { intros k E1 E2 E3 K K2. induction K; cbn; econstructor; eauto. constructor. }
      split.
      * replace (repeat Undo (S (List.length l))) with (repeat Undo (List.length l) ++ [Undo]) by (rewrite <- repeat_cons; reflexivity).
        eapply RU; [exact U|]. apply (e_undo 0 (Editor (s :: pa) (edited c s) (fs ++ fu) None sv) s pa); reflexivity.
      * cbn [repeat]. econstructor; [apply (e_redo 0 (Editor pa s (edited c s :: fs ++ fu) None sv) (edited c s) (fs ++ fu)); reflexivity|]. exact R.
Qed.
(** On a stack without a limit, undoing all the edits gives back the model they started from, and the stack is clean; redoing them all
    gives the edited model. *)
Lemma clean_pushes l : forall q s q' s', limit q = 0 -> open q = None -> clean q = Some 0 -> runs (session (map Push l) q) s q' s' -> limit q' = 0 /\ open q' = None /\ clean q' = Some 0.
Proof.
  induction l as [|c l IH]; cbn [map session]; intros q s q' s' L O Cq R.
  - apply runs_ret in R as [-> _]. auto.
  - apply runs_bind in R as (q1 & s1 & R1 & R2). cbn [act] in R1. apply runs_bind in R1 as (c1 & s2 & _ & R1). rewrite O in R1. apply runs_ret in R1 as [-> ->]. eapply IH; [| | |exact R2]; cbn; unfold cut; cbn; rewrite L; cbn; auto. rewrite Cq. destruct (index q); reflexivity.
Qed.
Lemma clean_undos n : forall q s q' s', clean q = Some 0 -> open q = None -> runs (session (repeat Undo n) q) s q' s' -> clean q' = Some 0 /\ open q' = None.
Proof.
  induction n as [|n IH]; cbn [repeat session]; intros q s q' s' Cq O R.
  - apply runs_ret in R as [-> _]. auto.
  - apply runs_bind in R as (q1 & s1 & R1 & R2). cbn [act] in R1. rewrite O in R1. destruct (done q) as [|e d].
    + apply runs_ret in R1 as [-> ->]. eapply IH; eauto.
    + apply runs_bind in R1 as (c1 & s2 & _ & R1). apply runs_ret in R1 as [-> ->]. refine (IH _ _ _ _ _ _ R2); [exact Cq|reflexivity].
Qed.
Lemma session_app l1 l2 q s q2 s2 : runs (session (l1 ++ l2) q) s q2 s2 <-> exists q1 s1, runs (session l1 q) s q1 s1 /\ runs (session l2 q1) s1 q2 s2.
Proof.
  revert q s. induction l1 as [|x l1 IH]; intros q s; cbn [app session].
  - split; [intros K; exists q, s; split; [apply runs_ret; auto|exact K]|]. intros (q1 & s1 & K & K2). apply runs_ret in K as [-> ->]. exact K2.
  - rewrite runs_bind. setoid_rewrite IH. split.
    + intros (q1 & s1 & K & q3 & s3 & K2 & K3). exists q3, s3. split; [apply runs_bind; eauto|exact K3].
    + intros (q3 & s3 & K & K3). apply runs_bind in K as (q1 & s1 & K & K2). exists q1, s1. split; [exact K|]. eauto.
Qed.
Theorem C53_undo_all (s t : model) (l : list command) :
  consistent s -> plain_flavors s -> applied s l t ->
  exists q q2, runs (session (map Push l ++ repeat Undo (List.length l)) (new_stack 0)) s q s /\ is_clean q = true /\
    runs (session (repeat Redo (List.length l)) q) s q2 t.
Proof.
  intros C P A. destruct (applied_history s l t A [] s) as (ps & L & H & B). destruct (B []) as (fs & U & R). rewrite !app_nil_r in *.
  destruct (follows_history 0 _ (new_stack 0) (loaded s) _ (follows_loaded 0 s (conj C P)) H) as (q0 & R0 & F0).
  destruct (follows_history 0 _ q0 _ _ F0 U) as (q1 & R1 & F1). destruct (follows_history 0 _ q1 _ _ F1 R) as (q2 & R2 & F2). cbn [now loaded] in *.
  exists q1, q2. split; [apply session_app; eauto|]. split; [|exact R2].
  destruct (clean_pushes l (new_stack 0) s q0 t eq_refl eq_refl eq_refl R0) as (_ & O & K). destruct (clean_undos _ _ _ _ _ K O R1) as [K1 O1].
  unfold is_clean. rewrite K1, O1. pose proof (fo_stack _ _ _ F1) as St. rewrite O1 in St. cbn in St. destruct St as [D _]. unfold index. rewrite <- (dones_length _ _ _ D). reflexivity.
Qed.

(** A session: from an empty model, a fault tree with a gate over two basic events; then a new name, a flavor, and a macro that turns a
    basic event into a house event. *)
Definition empty_model : model := Model kDefaultName ∅ ∅ ∅ ∅ ∅.
Lemma empty_good : consistent empty_model /\ plain_flavors empty_model.
Proof.
  split; [split|]; cbn; try (intros * K; rewrite lookup_empty in K; discriminate).
  - intros k n a. rewrite lookup_empty. split; [discriminate|]. intros (e & K & _). rewrite lookup_empty in K. discriminate.
  - split; [discriminate|vm_compute; reflexivity].
  - intros k a. rewrite lookup_empty. split; [intros [x K]; discriminate|]. intros (e & K & _). rewrite lookup_empty in K. discriminate.
  - intros n f. rewrite lookup_empty. split; [discriminate|]. intros (t & K & _). rewrite lookup_empty in K. discriminate.
  - intros f f' a (t & n & K & _). cbn in K. rewrite lookup_empty in K. discriminate.
  - intros a e fl K. cbn in K. rewrite lookup_empty in K. discriminate.
Qed.
Definition ex_basic (n : string) : event := Event n "" ∅ (DBasic None).
Definition ex_gate : event := Event "top" "" ∅ (DGate (Formula COr 0 [(false, 1); (true, 2)])).
Definition ex_house : event := Event "e2" "" ∅ (DHouse false).
Definition ex_build : list command :=
  [AddFaultTree false 10 (Some (Tree "FT" ∅)); AddEvent false KBasic 1 (Some (ex_basic "e1", Basic)) None;
   AddEvent false KBasic 2 (Some (ex_basic "e2", Basic)) None; AddEvent false KGate 0 (Some (ex_gate, Basic)) (Some 10)].
Definition ex_model : model := fold_left (fun s c => edited c s) ex_build empty_model.
Definition ex_edits : list action :=
  [Push (SetId KGate 0 "g" (Some 10)); Push (SetFlavor 1 Undeveloped); BeginMacro;
   Push (ChangeEventType KBasic KHouse (2, Some (3, ex_house, Basic)) (3, None) None [0]); Push (SetState 3 true); EndMacro; Save; Undo; Undo; Redo].
Lemma free_by_map s n : valid_name n -> bool_decide (map_Forall (fun (_ : addr) e => e_name e <> n) (events s)) = true -> free_name s n.
Proof. intros V K. apply bool_decide_eq_true_1 in K. split; [exact V|]. exact K. Qed.
Ltac fresh_name := apply free_by_map; [split; [discriminate|vm_compute; reflexivity]|vm_compute; reflexivity].
Lemma ex_applied : applied empty_model ex_build ex_model.
Proof.
  unfold ex_model, ex_build. cbn [fold_left]. repeat (constructor; [|]); [| | | |constructor]; cbn [allowed].
  - eexists. repeat split; vm_compute; reflexivity.
  - eexists _, _. split; [reflexivity|]. split; [vm_compute; reflexivity|]. split; [fresh_name|]. split; [|intros K; discriminate K]. split; [reflexivity|]. split; [intros f K; discriminate K|reflexivity].
  - eexists _, _. split; [reflexivity|]. split; [vm_compute; reflexivity|]. split; [fresh_name|]. split; [|intros K; discriminate K]. split; [reflexivity|]. split; [intros f K; discriminate K|reflexivity].
  - eexists _, _. split; [reflexivity|]. split; [vm_compute; reflexivity|]. split; [fresh_name|]. split.
    + split; [reflexivity|]. split; [|intros K; discriminate K]. intros f [= <-]. split; [repeat constructor; cbn; intuition congruence|]. split; [|intros [K|K]; discriminate K].
      cbn [f_args map snd]. intros b [<-|[<-|[]]]; vm_compute; eauto.
    + intros _. exists 10. eexists. split; [reflexivity|]. vm_compute. reflexivity.
Qed.
Definition parents_b (a : addr) (s : model) (gates : list addr) : bool :=
  forallb (fun p => match e_data (snd p) with DGate f => negb (existsb (Nat.eqb a) (map snd (f_args f))) || existsb (Nat.eqb (fst p)) gates | _ => true end) (map_to_list (events s)).
Lemma parents_by_map a s gates : parents_b a s gates = true -> forall g, is_parent a s g -> In g gates.
Proof.
  intros K g [_ (e & f & L & D & H)]. unfold parents_b in K. rewrite forallb_forall in K. specialize (K (g, e)). cbn in K. rewrite D in K.
  assert (In (g, e) (map_to_list (events s))) as Q by (apply elem_of_list_In, elem_of_map_to_list, L). specialize (K Q). apply orb_true_iff in K as [K|K].
  - apply negb_true_iff in K. rewrite <- not_true_iff_false in K. exfalso. apply K, existsb_exists. exists a. split; [exact H|apply Nat.eqb_refl].
  - apply existsb_exists in K as (x & Hx & Q2). apply Nat.eqb_eq in Q2. congruence.
Qed.
Example C53_nonvacuous : consistent empty_model /\ plain_flavors empty_model /\ applied empty_model ex_build ex_model /\
  exists E, history 10 ex_edits (loaded ex_model) E /\ List.length (past E) = 2 /\ List.length (future E) = 1 /\
    (exists e, events (now E) !! 0 = Some e /\ e_name e = "g"%string /\ args_of e = [1; 2]) /\ proxies (now E) !! (KBasic, 1) = Some Undeveloped /\
    (exists e, events (saved E) !! 0 = Some e /\ args_of e = [1; 3]) /\ tables (saved E) !! (KHouse, "e2"%string) = Some 3.
Proof.
  split; [apply empty_good|]. split; [apply empty_good|]. split; [apply ex_applied|].
  eexists. split.
  - unfold ex_edits.
    eapply h_cons; [apply e_push; [reflexivity|]|].
    { cbn [now allowed]. split; [eexists; split; vm_compute; reflexivity|]. split; [left; fresh_name|]. intros _. exists 10. split; [reflexivity|]. eexists _, "top"%string. split; vm_compute; reflexivity. }
    eapply h_cons; [apply e_push; [reflexivity|]|].
    { cbn [now allowed]. eexists; split; vm_compute; reflexivity. }
    eapply h_cons; [apply e_begin; reflexivity|].
    eapply h_cons; [eapply e_push_macro; [reflexivity|]|].
    { cbn [now allowed]. eexists _, _, _, _. cbn [fst snd]. split; [reflexivity|]. split; [discriminate|]. split; [vm_compute; reflexivity|]. split; [reflexivity|]. split; [reflexivity|]. split; [vm_compute; reflexivity|].
      split. { split; [reflexivity|]. split; [intros f K; discriminate K|intros K; discriminate K]. }
      split; [intros []|]. split. { intros (e & f & K & D & _). vm_compute in K. injection K as <-. discriminate D. }
      split; [repeat constructor; intros []|]. split.
      { intros g. split; [|apply parents_by_map; vm_compute; reflexivity]. intros [<-|[]]. split; [vm_compute; eauto|]. eexists _, _. split; [vm_compute; reflexivity|]. split; [vm_compute; reflexivity|]. vm_compute. auto. }
      split; intros K; discriminate K. }
    eapply h_cons; [eapply e_push_macro; [reflexivity|]|].
    { cbn [now allowed]. eexists; split; vm_compute; reflexivity. }
    eapply h_cons; [eapply e_end; reflexivity|].
    eapply h_cons; [apply e_save; reflexivity|].
    eapply h_cons; [eapply e_undo; [reflexivity|cbn [past keep Nat.eqb firstn]; reflexivity]|].
    eapply h_cons; [eapply e_undo; [reflexivity|cbn [past keep Nat.eqb firstn]; reflexivity]|].
    cbn [past now future pending saved]. eapply h_cons; [eapply e_redo; [reflexivity|cbn [past now future pending saved]; reflexivity]|]. cbn [past now future pending saved]. apply h_nil.
  - cbn [past future now saved]. split; [reflexivity|]. split; [reflexivity|]. split; [eexists; split; [vm_compute; reflexivity|split; vm_compute; reflexivity]|]. split; [vm_compute; reflexivity|].
    split; [eexists; split; vm_compute; reflexivity|vm_compute; reflexivity].
Qed.

(** A flavor attribute that the GUI does not write itself is lost by an edit of the flavor and its undo. *)
Definition ex_external : model :=
  Model kDefaultName {[0 := Event "e" "" {["flavor"%string := ("external"%string, ""%string)]} (DBasic None)]} {[(KBasic, "e"%string) := 0]} ∅ ∅ {[(KBasic, 0) := Basic]}.
Theorem C53_flavor_refuted : exists s c q t, consistent s /\ allowed c s /\ runs (session [Push c; Undo] (new_stack 0)) s q t /\ is_clean q = true /\
  (exists e, events s !! 0 = Some e /\ e_attrs e !! "flavor"%string = Some ("external"%string, ""%string)) /\ exists e, events t !! 0 = Some e /\ e_attrs e !! "flavor"%string = None.
Proof.
  exists ex_external, (SetFlavor 0 Undeveloped).
  assert (C : consistent ex_external).
  { split; cbn [tables events trees tree_table proxies m_name ex_external].
    - intros k n a. rewrite lookup_singleton_Some. split.
      + intros [[= <- <-] <-]. eexists. split; [apply lookup_singleton|split; reflexivity].
      + intros (e & K & <- & <-). apply lookup_singleton_Some in K as [<- <-]. split; reflexivity.
    - intros a b e e' K K'. apply lookup_singleton_Some in K as [<- _]. apply lookup_singleton_Some in K' as [<- _]. reflexivity.
    - intros a e K. apply lookup_singleton_Some in K as [_ <-]. split; [discriminate|vm_compute; reflexivity].
    - split; [discriminate|vm_compute; reflexivity].
    - intros a e K. apply lookup_singleton_Some in K as [_ <-]. split; [constructor|intros b []].
    - intros a e f K D. apply lookup_singleton_Some in K as [_ <-]. discriminate D.
    - intros k a. split.
      + intros [x K]. apply lookup_singleton_Some in K as [[= <- <-] _]. eexists. split; [apply lookup_singleton|reflexivity].
      + intros (e & K & <-). apply lookup_singleton_Some in K as [<- <-]. eexists. apply lookup_singleton.
    - intros n f. rewrite lookup_empty. split; [discriminate|]. intros (t & K & _). rewrite lookup_empty in K. discriminate.
    - intros f t n a K. rewrite lookup_empty in K. discriminate.
    - intros a e K. apply lookup_singleton_Some in K as [_ <-]. discriminate.
    - intros f f' a (t & n & K & _). cbn in K. rewrite lookup_empty in K. discriminate. }
  eexists _, _. split; [exact C|]. split. { eexists. split; [apply lookup_singleton|reflexivity]. }
  split. { eexists. vm_compute. reflexivity. }
  split; [reflexivity|]. split; [eexists; split; vm_compute; reflexivity|]. eexists. split; vm_compute; reflexivity.
Qed.
(** A new name for a gate, and its undo, leave the gate with the model, not its fault tree, as its container. *)
Theorem C53_container_refuted : exists s m c q l, consistent s /\ plain_flavors s /\ allowed c s /\
  (forall f a, in_tree s f a -> container m !! a = Some (OTree f)) /\ session [Push c; Undo] (new_stack 0) s = Some (q, s, l) /\
  in_tree s 10 0 /\ container (mark_all l m) !! 0 = Some OModel.
Proof.
  assert (G : forall s l t, applied s l t -> consistent s -> plain_flavors s -> consistent t /\ plain_flavors t).
  { induction 1 as [s|s c l t A _ IH]; intros C P; [auto|]. destruct (edited_keeps s c C P A). auto. }
  destruct (G _ _ _ ex_applied (proj1 empty_good) (proj2 empty_good)) as [C P]. set (c := SetId KGate 0 "g" (Some 10)).
  assert (A : allowed c ex_model).
  { split; [eexists; split; vm_compute; reflexivity|]. split; [left; fresh_name|]. intros _. exists 10. split; [reflexivity|]. eexists _, "top"%string. split; vm_compute; reflexivity. }
  destruct (C53_undo_all ex_model _ [c] C P (applied_cons _ _ _ _ A (applied_nil _))) as (q & _ & (l & R) & _). cbn [map app repeat List.length] in R.
  exists ex_model, (Marks {[0 := OTree 10; 1 := OModel; 2 := OModel]} ∅ ∅), c, q, l. split; [exact C|]. split; [exact P|]. split; [exact A|]. split; [|split; [exact R|split]].
  - intros f a (t & n & L & K). cbn [container]. destruct (c_gates _ C _ _ _ _ L K) as (e & Ke & _ & Kk).
    assert (bool_decide (map_Forall (fun a e => kind_of e = KGate -> a = 0) (events ex_model)) = true) as B by (vm_compute; reflexivity). apply bool_decide_eq_true_1 in B. rewrite (B a e Ke Kk) in *. clear B.
    assert (bool_decide (map_Forall (fun f (_ : tree) => f = 10) (trees ex_model)) = true) as B by (vm_compute; reflexivity). apply bool_decide_eq_true_1 in B. rewrite (B f t L). reflexivity.
  - eexists _, "top"%string. split; vm_compute; reflexivity.
  - assert (K : option_map (fun r => container (mark_all (snd r) (Marks {[0 := OTree 10; 1 := OModel; 2 := OModel]} ∅ ∅)) !! 0) (session [Push c; Undo] (new_stack 0) ex_model) = Some (Some OModel)) by (vm_compute; reflexivity).
    rewrite R in K. cbn [option_map snd] in K. congruence.
Qed.
