(** C55: the tree of the GUI shows the model.  See ModelTree.v for the model of the code, Tables.v for the signals, Undo.v for the commands
    and UndoSpec.v for the editor that keeps whole copies. *)
From stdpp Require Import gmap strings list.
From Coq Require Import List String Sorted Lia.
From Verif Require Import Undo UndoSpec UndoProofs UndoRuns UndoKeeps UndoKeeps2 UndoBack UndoStack P_Undo Tables TablesProofs TablesRuns TablesBelow P_Tables ModelTree ModelTreeProofs.
Import ListNotations.

(** ** What the user sees, in terms of the model *)
(** Names in strictly increasing order, one for each fault tree; the number of fault trees, gates, basic events and house events. *)
Record displayed (s : model) (v : tree_view) : Prop := {
  di_sorted : StronglySorted (fun a b => String.ltb a b = true) (names v);
  di_names n : In n (names v) <-> exists f t, trees s !! f = Some t /\ t_name t = n;
  di_numbers (ts gs bs hs : list addr) :
    List.NoDup ts -> (forall a, In a ts <-> is_Some (trees s !! a)) ->
    List.NoDup gs -> (forall a, In a gs <-> is_event s KGate a) ->
    List.NoDup bs -> (forall a, In a bs <-> is_event s KBasic a) ->
    List.NoDup hs -> (forall a, In a hs <-> is_event s KHouse a) ->
    numbers v = [List.length ts; List.length gs; List.length bs; List.length hs] }.
Lemma consistent_tree_sound s : consistent s -> tree_sound s.
Proof.
  intros C n f. rewrite (c_tree_table _ C). unfold tree_name. destruct (trees s !! f) as [t|]; cbn; (split; [intros (t' & Q & N); congruence|]); [intros [= <-]; eauto|discriminate].
Qed.
Lemma count_length s k l : consistent s -> List.NoDup l -> (forall a, In a l <-> is_event s k a) -> count s k = List.length l.
Proof.
  intros C N L. unfold count, size, set_size. cbn. rewrite <- (map_length (fun a => (k, a)) l). apply Permutation_length. apply NoDup_Permutation.
  - apply NoDup_elements.
  - apply NoDup_ListNoDup. apply FinFun.Injective_map_NoDup; [intros x y [= ->]; reflexivity|exact N].
  - intros [k' a]. rewrite elem_of_elements, elem_of_filter, elem_of_dom, elem_of_list_In, in_map_iff. cbn [fst]. split.
    + intros [-> P]. exists a. split; [reflexivity|]. apply L, (c_proxy _ C), P.
    + intros (x & [= <- <-] & I). split; [reflexivity|]. apply (c_proxy _ C), L, I.
Qed.
Lemma shows_length s t v : tree_sound s -> tree_shows s t v -> size (tree_table s) = List.length t.
Proof.
  intros So H. rewrite (Forall2_length _ _ _ (tr_names _ _ _ H)). rewrite <- (size_dom (D:=gset string)). unfold size, set_size. cbn. apply Permutation_length. apply NoDup_Permutation.
  - apply NoDup_elements.
  - apply NoDup_ListNoDup, sorted_nodup, (tr_sorted _ _ _ H).
  - intros n. rewrite elem_of_elements, elem_of_dom, elem_of_list_In. split.
    + intros [f F]. apply So in F. assert (I : In f t) by (apply (tr_all _ _ _ H), tree_name_some; eauto). apply in_lookup in I as [i I]. destruct (shown_name _ _ _ _ _ H I) as (m & M & Q). rewrite F in Q. injection Q as <-. apply in_lookup. eauto.
    + intros I. apply in_lookup in I as [i I]. destruct (shown_at _ _ _ _ _ H I) as (f & _ & Q). apply So in Q. eauto.
Qed.
Theorem C55_displayed (s : model) (t : list addr) (v : tree_view) : consistent s -> tree_shows s t v -> displayed s v /\ List.length t = List.length (names v).
Proof.
  intros C H. pose proof (consistent_tree_sound s C) as So. split; [|eapply Forall2_length; apply (tr_names _ _ _ H)]. split.
  - apply (tr_sorted _ _ _ H).
  - intros n. split.
    + intros I. apply in_lookup in I as [i I]. destruct (shown_at _ _ _ _ _ H I) as (f & _ & Q). unfold tree_name in Q. destruct (trees s !! f) as [x|] eqn:E; [|discriminate]. injection Q as <-. eauto.
    + intros (f & x & E & <-). assert (I : In f t) by (apply (tr_all _ _ _ H); eauto). apply in_lookup in I as [i I]. destruct (shown_name _ _ _ _ _ H I) as (m & M & Q). unfold tree_name in Q. rewrite E in Q. injection Q as <-. apply in_lookup. eauto.
  - intros ts gs bs hs N1 L1 N2 L2 N3 L3 N4 L4. rewrite (tr_numbers _ _ _ H), (shows_length s t v So H), (count_length s KGate gs C N2 L2), (count_length s KBasic bs C N3 L3), (count_length s KHouse hs C N4 L4).
    f_equal. apply Permutation_length. apply NoDup_Permutation; [|apply NoDup_ListNoDup, N1|intros a; rewrite !elem_of_list_In, (tr_all _ _ _ H); symmetry; apply L1].
    apply NoDup_alt. intros i j f I J. destruct (shown_name _ _ _ _ _ H I) as (n & Ni & Q). destruct (shown_name _ _ _ _ _ H J) as (m & Nj & Q'). rewrite Q in Q'. injection Q' as <-.
    pose proof (sorted_nodup _ (tr_sorted _ _ _ H)) as D. apply NoDup_ListNoDup in D. eapply NoDup_alt; eauto.
Qed.

(** ** A new tree *)
Lemma flat_fill_shows s l : tree_sound s -> forall m r, List.NoDup (m ++ l) -> (forall f, In f (m ++ l) -> is_Some (trees s !! f)) -> sorted r -> Forall2 (fun f n => tree_name s f = Some n) m r ->
  exists m' r', flat_fill s l m = Some m' /\ (forall f, In f m' <-> In f (m ++ l)) /\ sorted r' /\ Forall2 (fun f n => tree_name s f = Some n) m' r'.
Proof.
  intros So. induction l as [|f l IH]; intros m r N P S0 F; cbn [flat_fill]; [rewrite app_nil_r in *; exists m, r; split; [reflexivity|split; [reflexivity|auto]]|].
  destruct (proj2 (tree_name_some s f) (P f ltac:(apply in_or_app; right; left; reflexivity))) as [n Nf].
  assert (NI : ~ In n r).
  { intros I. apply in_lookup in I as [i I]. destruct (Forall2_lookup_r _ _ _ _ _ F I) as (x & X & Q). assert (x = f) as -> by (eapply tree_unique; eauto). apply NoDup_remove_2 in N. apply N, in_or_app. left. apply in_lookup. eauto. }
  unfold flat_insert. rewrite Nf. cbn [mbind option_bind]. rewrite (place_lower _ _ _ F n). cbn [mbind option_bind]. set (i := place n r).
  assert (Ins : insert_at (tree_name s) n i f m = Some (firstn i m ++ f :: skipn i m)).
  { unfold insert_at. destruct (m !! i) as [x|] eqn:X; [|reflexivity]. destruct (Forall2_lookup_l _ _ _ _ _ F X) as (y & Y & Q). rewrite Q. cbn [mbind option_bind].
    destruct (String.ltb n y) eqn:E; [reflexivity|]. destruct NI. rewrite (ltb_total n y E (place_next n _ y Y)). apply in_lookup. eauto. }
  rewrite Ins. cbn [mbind option_bind]. assert (Same : forall x, In x ((firstn i m ++ f :: skipn i m) ++ l) <-> In x (m ++ f :: l)).
  { intros x. assert (D : In x m <-> In x (firstn i m ++ skipn i m)) by (rewrite firstn_skipn; reflexivity). rewrite !in_app_iff in *. cbn. tauto. }
  destruct (IH (firstn i m ++ f :: skipn i m) (firstn i r ++ n :: skipn i r)) as (m' & r' & K1 & K2 & K3 & K4).
  - eapply Permutation.Permutation_NoDup; [|exact N]. rewrite <- (firstn_skipn i m) at 1. rewrite <- !app_assoc. apply Permutation.Permutation_app_head. cbn. symmetry. apply Permutation.Permutation_middle.
  - intros x I. apply P, Same, I.
  - apply sorted_insert; assumption.
  - apply Forall2_app; [apply Forall2_take, F|]. constructor; [exact Nf|apply Forall2_drop, F].
  - exists m', r'. split; [exact K1|]. split; [|auto]. intros x. rewrite K2. apply Same.
Qed.
Lemma read_names_all s t r : Forall2 (fun f n => tree_name s f = Some n) t r -> read_names s t = Some r.
Proof. induction 1 as [|f n t r E F IH]; cbn; [reflexivity|]. rewrite E. cbn. rewrite IH. reflexivity. Qed.
Theorem C55_initial (s : model) (l : list addr) : tree_sound s -> List.NoDup l -> (forall f, In f l <-> is_Some (trees s !! f)) ->
  exists t v, new_tree s l = Some t /\ read_tree s t = Some v /\ tree_shows s t v.
Proof.
  intros So N L. destruct (flat_fill_shows s l So [] [] N (fun f I => proj1 (L f) I) (SSorted_nil _) (List.Forall2_nil _)) as (t & r & K1 & K2 & K3 & K4).
  exists t. exists (TreeView [size (tree_table s); count s KGate; count s KBasic; count s KHouse] r). split; [exact K1|]. split; [unfold read_tree; rewrite (read_names_all _ _ _ K4); reflexivity|].
  split; cbn [names numbers]; auto. intros f. rewrite K2. apply L.
Qed.

(** ** Histories *)
(** Whatever a run of edits, macros, undos, redos and saves does, allowed or not. *)
Theorem C55_any_run (acts : list action) (q : stack) (s : model) (q' : stack) (s' : model) (l : list (signal * model)) :
  tree_sound s -> session_s acts q s = Some (q', s', l) -> forall t v, tree_shows s t v -> exists t' v', tree_follow l t v = Some (t', v') /\ tree_shows s' t' v'.
Proof. intros So R. exact (proj1 (handled_session acts q s q' s' l So R)). Qed.
(** Every history of allowed edits, macros, undos, redos and saves of a loaded model, with a tree made when it was loaded and a view that
    only reads what the tree tells it to: at the end the view displays the model of the editor that keeps copies. *)
Theorem C55_tree (lim : nat) (acts : list action) (s : model) (E : editor) (fs : list addr) :
  consistent s -> plain_flavors s -> history lim acts (loaded s) E -> List.NoDup fs -> (forall f, In f fs <-> is_Some (trees s !! f)) ->
  exists q l t v t' v', session_s acts (new_stack lim) s = Some (q, now E, l) /\ new_tree s fs = Some t /\ read_tree s t = Some v /\ displayed s v /\
    tree_follow l t v = Some (t', v') /\ displayed (now E) v' /\ List.length t' = List.length (names v').
Proof.
  intros C P H N L. destruct (C53_undo_redo lim acts s E C P H) as (q & R & _). apply mirrors_session in R as [l R].
  destruct (C55_initial s fs (consistent_tree_sound s C) N L) as (t & v & Nt & Rv & Sh). destruct (C55_any_run acts _ s q (now E) l (consistent_tree_sound s C) R t v Sh) as (t' & v' & F & Sh').
  destruct (follows_history lim acts (new_stack lim) (loaded s) E (follows_loaded lim s (conj C P)) H) as (q2 & _ & F2). destruct (fo_good _ _ _ F2) as [C2 _].
  exists q, l, t, v, t', v'. split; [exact R|]. split; [exact Nt|]. split; [exact Rv|]. split; [apply (C55_displayed s t v C Sh)|]. split; [exact F|]. exact (C55_displayed (now E) t' v' C2 Sh').
Qed.

(** ** A session on the model of P_Undo.v: its tree at the end *)
Definition ex_trees : list action :=
  [Push (AddFaultTree false 20 (Some (Tree "A" ∅))); Push (AddFaultTree false 21 (Some (Tree "Z" ∅))); Push (AddFaultTree false 22 (Some (Tree "M" ∅)));
   Push (AddEvent false KBasic 5 (Some (ex_basic "e5", Basic)) None); Push (AddFaultTree true 21 None); Undo].
Definition tree_shown (fs : list addr) (acts : list action) (s : model) : option (list addr * tree_view) :=
  match session_s acts (new_stack 10) s, new_tree s fs with
  | Some (_, _, l), Some t => match read_tree s t with Some v => tree_follow l t v | None => None end
  | _, _ => None
  end.
Example C55_nonvacuous : consistent ex_model /\ plain_flavors ex_model /\ (exists E, history 10 ex_trees (loaded ex_model) E) /\
  List.NoDup [10] /\ (forall f, In f [10] <-> is_Some (trees ex_model !! f)) /\
  tree_shown [10] [] ex_model = Some ([10], TreeView [1; 1; 2; 0] ["FT"])%string /\
  tree_shown [10] ex_trees ex_model = Some ([20; 10; 22; 21], TreeView [4; 1; 3; 0] ["A"; "FT"; "M"; "Z"])%string /\
  tree_shown [10] (ex_trees ++ [Redo]) ex_model = Some ([20; 10; 22], TreeView [3; 1; 3; 0] ["A"; "FT"; "M"])%string /\
  tree_shown [10] (ex_trees ++ [Undo; Undo]) ex_model = Some ([20; 10; 21], TreeView [3; 1; 2; 0] ["A"; "FT"; "Z"])%string /\
  tree_shown [10] ex_edits ex_model = Some ([10], TreeView [1; 1; 2; 0] ["FT"])%string.
Proof.
  split; [apply ex_good|]. split; [apply ex_good|]. split.
  { eexists. unfold ex_trees.
    eapply h_cons; [apply e_push; [reflexivity|]; cbn [now allowed]; eexists; repeat split; vm_compute; reflexivity|].
    eapply h_cons; [apply e_push; [reflexivity|]; cbn [now allowed]; eexists; repeat split; vm_compute; reflexivity|].
    eapply h_cons; [apply e_push; [reflexivity|]; cbn [now allowed]; eexists; repeat split; vm_compute; reflexivity|].
    eapply h_cons; [apply e_push; [reflexivity|]; cbn [now allowed]; eexists _, _; split; [reflexivity|]; split; [vm_compute; reflexivity|]; split; [fresh_name|]; split; [|intros K; discriminate K]; split; [reflexivity|]; split; [intros f K; discriminate K|reflexivity]|].
    eapply h_cons; [apply e_push; [reflexivity|]; cbn [now allowed]; eexists; split; vm_compute; reflexivity|].
    eapply h_cons; [eapply e_undo; [reflexivity|cbn [past keep Nat.eqb firstn]; reflexivity]|]. apply h_nil. }
  split; [repeat constructor; intros []|]. split.
  { intros f. split; [intros [<-|[]]; vm_compute; eauto|]. intros [t K]. assert (B : bool_decide (map_Forall (fun f (_ : tree) => f = 10) (trees ex_model)) = true) by (vm_compute; reflexivity).
    apply bool_decide_eq_true_1 in B. left. symmetry. exact (B f t K). }
  repeat (split; [vm_compute; reflexivity|]). vm_compute. reflexivity.
Qed.
