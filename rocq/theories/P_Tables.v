(** C54: the tables of the GUI show the model.  See Tables.v for the model of the code, Undo.v for the commands and UndoSpec.v for the
    editor that keeps whole copies. *)
From stdpp Require Import gmap strings list.
From Coq Require Import List String.
From Verif Require Import Undo UndoSpec UndoProofs UndoRuns UndoKeeps UndoKeeps2 UndoBack UndoStack P_Undo Tables TablesProofs TablesRuns TablesBelow.
Import ListNotations.

(** ** A new table *)
Lemma fill_shows l : forall t,
  (forall i a, rows t !! i = Some a <-> position t !! a = Some i) -> (forall a, a ∈ wired t <-> In a (rows t)) -> List.NoDup (rows t ++ l) ->
  let t' := fill l t in t_kind t' = t_kind t /\ rows t' = rows t ++ l /\
  (forall i a, rows t' !! i = Some a <-> position t' !! a = Some i) /\ (forall a, a ∈ wired t' <-> In a (rows t')).
Proof.
  induction l as [|a l IH]; intros t P W N; cbn [fill]; [rewrite app_nil_r; auto|].
  replace (rows t ++ a :: l) with ((rows t ++ [a]) ++ l) in * by (rewrite <- app_assoc; reflexivity).
  assert (NI : ~ In a (rows t)).
  { intros I. rewrite <- app_assoc in N. cbn in N. apply NoDup_remove_2 in N. apply N, in_app_iff. auto. }
  assert (PN : position t !! a = None).
  { destruct (position t !! a) as [i|] eqn:E; [|reflexivity]. apply P in E. destruct NI. apply in_lookup. eauto. }
  set (t1 := Table _ _ _ _). destruct (IH t1) as (K1 & K2 & K3 & K4); subst t1; cbn [t_kind rows position wired] in *; auto.
  - intros i x. rewrite lookup_snoc_iff. unfold emplace. rewrite PN. split.
    + intros [Q|[-> ->]]; [|apply lookup_insert]. rewrite lookup_insert_ne; [apply P, Q|]. intros ->. apply P in Q. congruence.
    + intros Q. destruct (decide (x = a)) as [->|D]; [rewrite lookup_insert in Q; right; split; congruence|]. rewrite lookup_insert_ne in Q by congruence. left. apply P, Q.
  - intros x. rewrite elem_of_union, elem_of_singleton, W, in_app_iff. cbn. intuition congruence.
Qed.
Theorem C54_initial (k : kind) (s : model) (l : list addr) :
  sound s -> List.NoDup l -> (forall a, In a l <-> listed s k a) ->
  exists v, read_all s (new_table k l) = Some v /\ shows k s (new_table k l) v.
Proof.
  intros So N L. destruct (fill_shows l (Table k [] ∅ ∅)) as (K1 & K2 & K3 & K4); cbn [rows position wired].
  - intros i a. rewrite lookup_nil, lookup_empty. split; discriminate.
  - intros a. split; [intros Q; destruct (not_elem_of_empty (C:=gset addr) a Q)|intros []].
  - exact N.
  - fold (new_table k l) in *. cbn [t_kind rows app] in K1, K2.
    destruct (read_all_shows k s (new_table k l) K1) as (v & R & F).
    + intros a I. apply sound_cells; [exact So|]. apply L. rewrite <- K2. exact I.
    + exists v. split; [exact R|]. split; auto. intros a. rewrite K2. apply L.
Qed.
(** An event has one row. *)
Theorem C54_once (k : kind) (s : model) (t : table) (v : list row) : shows k s t v -> List.NoDup (rows t).
Proof. apply shows_once. Qed.

(** ** Histories *)
(** Whatever a run of edits, macros, undos, redos and saves does, allowed or not, a table that showed the model before shows it after,
    and so does a view that only reads what the table tells it to. *)
Theorem C54_any_run (acts : list action) (q : stack) (s : model) (q' : stack) (s' : model) (l : list (signal * model)) :
  sound s -> typed_stack q -> Forall typed_action acts -> session_s acts q s = Some (q', s', l) ->
  forall k t v, shows k s t v -> exists t' v', follow l t v = Some (t', v') /\ shows k s' t' v'.
Proof. intros So Tq Ta R. exact (proj1 (session_handles acts q Tq Ta s q' s' l So R)). Qed.
Lemma new_stack_typed lim : typed_stack (new_stack lim).
Proof. split; cbn; try constructor. Qed.
(** Every history of allowed edits, macros, undos, redos and saves from a loaded model runs to its end, makes the model of the editor that
    keeps copies, and leaves every table and its view with that model. *)
Theorem C54_tables (lim : nat) (acts : list action) (s : model) (E : editor) :
  consistent s -> plain_flavors s -> Forall typed_action acts -> history lim acts (loaded s) E ->
  exists q l, session_s acts (new_stack lim) s = Some (q, now E, l) /\
    forall k t v, shows k s t v -> exists t' v', follow l t v = Some (t', v') /\ shows k (now E) t' v'.
Proof.
  intros C P T H. destruct (C53_undo_redo lim acts s E C P H) as (q & R & _). apply mirrors_session in R as [l R]. exists q, l. split; [exact R|].
  exact (C54_any_run acts (new_stack lim) s q (now E) l (consistent_sound s C) (new_stack_typed lim) T R).
Qed.
(** The same for a table made when the model is loaded, whatever the order of its rows. *)
Theorem C54_loaded (lim : nat) (acts : list action) (s : model) (E : editor) (k : kind) (rs : list addr) :
  consistent s -> plain_flavors s -> Forall typed_action acts -> history lim acts (loaded s) E -> List.NoDup rs -> (forall a, In a rs <-> is_event s k a) ->
  exists q l v t' v', session_s acts (new_stack lim) s = Some (q, now E, l) /\ read_all s (new_table k rs) = Some v /\ follow l (new_table k rs) v = Some (t', v') /\
    (forall a, In a (rows t') <-> is_event (now E) k a) /\ List.NoDup (rows t') /\ Forall2 (fun a r => cells k (now E) a = Some (fst r)) (rows t') v'.
Proof.
  intros C P T H N L. destruct (C54_tables lim acts s E C P T H) as (q & l & R & F).
  destruct (C54_initial k s rs (consistent_sound s C) N) as (v & Rv & S0); [intros a; rewrite L; symmetry; apply (c_proxy _ C)|].
  destruct (F _ _ _ S0) as (t' & v' & Fo & S1). exists q, l, v, t', v'. split; [exact R|]. split; [exact Rv|]. split; [exact Fo|].
  destruct (follows_history lim acts (new_stack lim) (loaded s) E (follows_loaded lim s (conj C P)) H) as (q2 & _ & F2). destruct (fo_good _ _ _ F2) as [C2 _].
  split; [|split; [apply (shows_once _ _ _ _ S1)|apply (sh_view _ _ _ _ S1)]]. intros a. rewrite (sh_rows _ _ _ _ S1 a). apply (c_proxy _ C2).
Qed.

(** ** The session of P_Undo.v: its tables and views at the end *)
Definition shown (k : kind) (rs : list addr) (acts : list action) (s : model) : option (list addr * list row) :=
  match session_s acts (new_stack 10) s, read_all s (new_table k rs) with
  | Some (_, _, l), Some v => option_map (fun r => (rows (fst r), snd r)) (follow l (new_table k rs) v)
  | _, _ => None
  end.
Lemma ex_good : consistent ex_model /\ plain_flavors ex_model.
Proof.
  assert (G : forall s l t, applied s l t -> consistent s -> plain_flavors s -> consistent t /\ plain_flavors t).
  { induction 1 as [s|s c l t A _ IH]; intros C P; [auto|]. destruct (edited_keeps s c C P A). auto. }
  exact (G _ _ _ ex_applied (proj1 empty_good) (proj2 empty_good)).
Qed.
Lemma ex_typed : Forall typed_action ex_edits.
Proof. unfold ex_edits. repeat match goal with |- Forall _ (_ :: _) => apply List.Forall_cons end; try exact I; [|constructor]. split; [split; [reflexivity|discriminate]|exact I]. Qed.
Example C54_nonvacuous : consistent ex_model /\ plain_flavors ex_model /\ Forall typed_action ex_edits /\ (exists E, history 10 ex_edits (loaded ex_model) E) /\
  shown KGate [0] ex_edits ex_model = Some ([0], [([Text "g"; Connected COr; Counted 2; Text ""], [Some "e1"; Some "e2"])])%string /\
  shown KBasic [2; 1] ex_edits ex_model = Some ([1; 2], [([Text "e1"; Flavored Undeveloped; Valued None; Text ""], []); ([Text "e2"; Flavored Basic; Valued None; Text ""], [])])%string /\
  shown KHouse [] ex_edits ex_model = Some ([], []) /\
  shown KBasic [2; 1] (ex_edits ++ [Redo]) ex_model = Some ([1], [([Text "e1"; Flavored Undeveloped; Valued None; Text ""], [])])%string /\
  shown KHouse [] (ex_edits ++ [Redo]) ex_model = Some ([3], [([Text "e2"; Stated true; Text ""], [])])%string.
Proof.
  split; [apply ex_good|]. split; [apply ex_good|]. split; [exact ex_typed|]. split; [destruct C53_nonvacuous as (_ & _ & _ & E & H & _); eauto|].
  repeat (split; [vm_compute; reflexivity|]). vm_compute. reflexivity.
Qed.

(** ** The rows below a gate *)
(** A new formula reads all the rows again, with the arguments of all the gates. *)
Theorem C54_new_formula (s : model) (t : table) (v : list row) (a : addr) :
  sound s -> shows KGate s t v -> listed s KGate a ->
  exists v', follow [(FormulaChanged a, s)] t v = Some (t, v') /\ Forall2 (fun a r => cells KGate s a = Some (fst r) /\ children KGate s a = snd r) (rows t) v'.
Proof.
  intros So K L. destruct K as [K1 K2 K3 K4 K5]. assert (C : forall a, In a (rows t) -> is_Some (cells KGate s a)) by (intros x I; apply sound_cells; [exact So|apply K2, I]).
  assert (I : In a (rows t)) by (apply K2, L). destruct (proj1 (in_lookup _ _) I) as [i Hi]. pose proof (proj1 (K3 i a) Hi) as Pi.
  destruct (Forall2_lookup_l _ _ _ _ _ K5 Hi) as (r & Hr & Cr).
  assert (All : exists v', read_all s t = Some v' /\ Forall2 (fun a r => cells KGate s a = Some (fst r) /\ children KGate s a = snd r) (rows t) v').
  { assert (B : forall n m, m + n <= List.length (rows t) -> exists v, read_rows s t (seq m n) = Some v /\
      Forall2 (fun a r => cells KGate s a = Some (fst r) /\ children KGate s a = snd r) (firstn n (skipn m (rows t))) v).
    { induction n as [|n IH]; intros m Le; [exists []; split; [reflexivity|constructor]|]. cbn [seq read_rows]. destruct (IH (1 + m)) as (w & E & F); [lia|].
      destruct (lookup_lt_is_Some_2 (rows t) m) as [b Hb]; [lia|]. destruct (C b) as [c Hc]; [apply in_lookup; eauto|]. unfold read_row at 1. rewrite Hb. cbn [mbind option_bind]. rewrite K1, Hc. cbn [mbind option_bind].
      cbn in E. rewrite E. cbn [mbind option_bind]. eexists. split; [reflexivity|]. erewrite drop_S by exact Hb. cbn [firstn]. constructor; [split; [exact Hc|reflexivity]|exact F]. }
    destruct (B (List.length (rows t)) 0) as (w & E & F); [lia|]. exists w. split; [exact E|]. cbn [skipn] in F. rewrite firstn_all in F. exact F. }
  destruct All as (v' & R & F). exists v'. split; [|exact F]. eapply follow_one.
  - cbn [react]. rewrite K1. unfold cell_change. rewrite decide_True by (apply K4, I). rewrite Pi. cbn [mbind option_bind map]. reflexivity.
  - cbn [watch_all watch snd]. unfold read_row. rewrite Hi. cbn [mbind option_bind]. rewrite K1, Cr. cbn [mbind option_bind]. rewrite Hr. cbn [mbind option_bind]. rewrite R. reflexivity.
Qed.
(** Whatever the history, the rows below the gates are the present names of their arguments if they were at the start, unless an event was
    renamed or a gate was removed since the last new formula. *)
Theorem C54_children (lim : nat) (acts : list action) (s : model) (E : editor) :
  consistent s -> plain_flavors s -> Forall typed_action acts -> history lim acts (loaded s) E ->
  exists q l, session_s acts (new_stack lim) s = Some (q, now E, l) /\
    forall t v, shows KGate s t v -> below s t v ->
      exists t' v', follow l t v = Some (t', v') /\ shows KGate (now E) t' v' /\ (fresh l true = true -> below (now E) t' v').
Proof.
  intros C P T H. destruct (C54_tables lim acts s E C P T H) as (q & l & R & _). exists q, l. split; [exact R|]. intros t v S0 B.
  destruct (history_tracks lim acts (loaded s) E H (new_stack lim) q (now E) l (follows_loaded lim s (conj C P)) (new_stack_typed lim) T R) as [U _]. exact (U t v true S0 (fun _ => B)).
Qed.
Theorem C54_children_initial (s : model) (l : list addr) (v : list row) : read_all s (new_table KGate l) = Some v -> below s (new_table KGate l) v.
Proof.
  apply read_all_exact. unfold new_table. assert (K : forall m t, t_kind (fill m t) = t_kind t) by (intros m; induction m as [|a l' IH]; intros t; cbn [fill]; [reflexivity|rewrite IH; reflexivity]). apply K.
Qed.
Example C54_children_nonvacuous : exists q t l, session_s ex_edits (new_stack 10) ex_model = Some (q, t, l) /\ List.length l = 12 /\ fresh l true = true.
Proof.
  assert (K : option_map (fun r => (List.length (snd r), fresh (snd r) true)) (session_s ex_edits (new_stack 10) ex_model) = Some (12, true)) by (vm_compute; reflexivity).
  destruct (session_s ex_edits (new_stack 10) ex_model) as [[[q t] l]|]; [|discriminate K]. exists q, t, l. cbn [option_map snd] in K. injection K as K1 K2. auto.
Qed.
(** A new name of an argument does not reach the rows below the gates: they keep the old name. *)
Theorem C54_children_refuted : exists s acts E, consistent s /\ plain_flavors s /\ Forall typed_action acts /\ history 0 acts (loaded s) E /\
  exists q l v t v', session_s acts (new_stack 0) s = Some (q, now E, l) /\ read_all s (new_table KGate [0]) = Some v /\ follow l (new_table KGate [0]) v = Some (t, v') /\
    map snd v' = [[Some "e1"; Some "e2"]]%string /\ map (children KGate (now E)) (rows t) = [[Some "new"; Some "e2"]]%string.
Proof.
  assert (A : allowed (SetId KBasic 1 "new" None) ex_model).
  { split; [eexists; split; vm_compute; reflexivity|]. split; [left; fresh_name|]. intros K. discriminate K. }
  exists ex_model, [Push (SetId KBasic 1 "new" None)], (Editor [ex_model] (edited (SetId KBasic 1 "new" None) ex_model) [] None ex_model).
  split; [apply ex_good|]. split; [apply ex_good|]. split; [repeat constructor|].
  assert (H : history 0 [Push (SetId KBasic 1 "new" None)] (loaded ex_model) (Editor [ex_model] (edited (SetId KBasic 1 "new" None) ex_model) [] None ex_model)).
  { eapply h_cons; [apply (e_push 0 _ (loaded ex_model)); [reflexivity|exact A]|apply h_nil]. }
  split; [exact H|].
  destruct (C54_loaded 0 [Push (SetId KBasic 1 "new" None)] ex_model _ KGate [0] (proj1 ex_good) (proj2 ex_good) ltac:(repeat constructor) H) as (q & l & v & t & v' & R & Rv & F & _).
  - repeat constructor. intros [].
  - intros a. split.
    + intros [<-|[]]. eexists. split; vm_compute; reflexivity.
    + intros (e & L & K). assert (B : bool_decide (map_Forall (fun a e => kind_of e = KGate -> a = 0) (events ex_model)) = true) by (vm_compute; reflexivity).
      apply bool_decide_eq_true_1 in B. left. symmetry. exact (B a e L K).
  - exists q, l, v, t, v'. split; [exact R|]. split; [exact Rv|]. split; [exact F|].
    assert (K : (match session_s [Push (SetId KBasic 1 "new" None)] (new_stack 0) ex_model, read_all ex_model (new_table KGate [0]) with
      | Some (_, s', l), Some v => option_map (fun r => (map snd (snd r), map (children KGate s') (rows (fst r)))) (follow l (new_table KGate [0]) v) | _, _ => None end)
      = Some ([[Some "e1"; Some "e2"]], [[Some "new"; Some "e2"]])%string) by (vm_compute; reflexivity).
    rewrite R, Rv, F in K. cbn [option_map fst snd] in K. split; congruence.
Qed.
(** When a gate is removed, the last gate takes its row, and the rows below it are still those of the removed gate. *)
Definition ex_other : event := Event "other" "" ∅ (DGate (Formula CAnd 0 [(false, 2)])).
Theorem C54_moved_refuted : exists s acts E, consistent s /\ plain_flavors s /\ Forall typed_action acts /\ history 0 acts (loaded s) E /\
  exists q l v t v', session_s acts (new_stack 0) s = Some (q, now E, l) /\ read_all s (new_table KGate [0; 5]) = Some v /\ follow l (new_table KGate [0; 5]) v = Some (t, v') /\
    rows t = [5] /\ map snd v' = [[Some "e1"; Some "e2"]]%string /\ map (children KGate (now E)) (rows t) = [[Some "e2"]]%string.
Proof.
  set (c0 := AddEvent false KGate 5 (Some (ex_other, Basic)) (Some 10)).
  assert (A0 : allowed c0 ex_model).
  { eexists _, _. split; [reflexivity|]. split; [vm_compute; reflexivity|]. split; [fresh_name|]. split.
    + split; [reflexivity|]. split; [|intros K; discriminate K]. intros f [= <-]. split; [repeat constructor; cbn; intuition congruence|]. split; [|intros [K|K]; discriminate K].
      cbn [f_args map snd]. intros b [<-|[]]; vm_compute; eauto.
    + intros _. exists 10. eexists. split; [reflexivity|]. vm_compute. reflexivity. }
  set (s := edited c0 ex_model). destruct (edited_keeps ex_model c0 (proj1 ex_good) (proj2 ex_good) A0) as [C P].
  set (c := AddEvent true KGate 0 None (Some 10)).
  assert (A : allowed c s).
  { split; [eexists; split; vm_compute; reflexivity|]. split.
    - intros g (e & f & L & D & I). assert (B : parents_b 0 s [] = true) by (vm_compute; reflexivity). 
      assert (Pg : is_parent 0 s g) by (split; [apply (c_proxy _ C); exists e; split; [exact L|unfold kind_of; rewrite D; reflexivity]|exists e, f; auto]). exact (parents_by_map 0 s [] B g Pg).
    - intros _. exists 10. split; [reflexivity|]. eexists _, "top"%string. split; vm_compute; reflexivity. }
  exists s, [Push c], (Editor [s] (edited c s) [] None s). split; [exact C|]. split; [exact P|]. split; [repeat constructor|].
  assert (H : history 0 [Push c] (loaded s) (Editor [s] (edited c s) [] None s)).
  { eapply h_cons; [apply (e_push 0 _ (loaded s)); [reflexivity|exact A]|apply h_nil]. }
  split; [exact H|].
  destruct (C54_loaded 0 [Push c] s _ KGate [0; 5] C P ltac:(repeat constructor) H) as (q & l & v & t & v' & R & Rv & F & _).
  - repeat constructor; cbn; intuition congruence.
  - intros a. split.
    + intros [<-|[<-|[]]]; (eexists; split; vm_compute; reflexivity).
    + intros (e & L & K). assert (B : bool_decide (map_Forall (fun a e => kind_of e = KGate -> a = 0 \/ a = 5) (events s)) = true) by (vm_compute; reflexivity).
      apply bool_decide_eq_true_1 in B. destruct (B a e L K) as [->| ->]; cbn; auto.
  - exists q, l, v, t, v'. split; [exact R|]. split; [exact Rv|]. split; [exact F|].
    assert (K : (match session_s [Push c] (new_stack 0) s, read_all s (new_table KGate [0; 5]) with
      | Some (_, s', l), Some v => option_map (fun r => (rows (fst r), map snd (snd r), map (children KGate s') (rows (fst r)))) (follow l (new_table KGate [0; 5]) v) | _, _ => None end)
      = Some ([5], [[Some "e1"; Some "e2"]], [[Some "e2"]])%string) by (vm_compute; reflexivity).
    rewrite R, Rv, F in K. cbn [option_map fst snd] in K. repeat split; congruence.
Qed.
