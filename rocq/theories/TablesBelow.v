(** C54, the rows below the gates: what makes them stale and what refreshes them. *)
From stdpp Require Import gmap strings list.
From Coq Require Import List String.
From Verif Require Import Undo UndoSpec UndoProofs UndoRuns UndoKeeps UndoKeeps2 UndoBack UndoStack Tables TablesProofs TablesRuns.
Import ListNotations.

(** The view shows the present arguments of the gates below their rows. *)
Definition below (s : model) (t : table) (v : list row) : Prop := Forall2 (fun a r => children KGate s a = snd r) (rows t) v.
(** Signals after which the rows below the gates may be stale, and the signal that makes the table read them all again. *)
Definition fresh_after (x : signal) (b : bool) : bool :=
  match x with IdChanged _ | Removed KGate _ => false | FormulaChanged _ => true | _ => b end.
Definition fresh (l : list (signal * model)) (b : bool) : bool := fold_left (fun b x => fresh_after (fst x) b) l b.
Definition tracks (s : model) (l : list (signal * model)) (s' : model) : Prop :=
  forall t v (b : bool), shows KGate s t v -> (b = true -> below s t v) ->
    exists t' v', follow l t v = Some (t', v') /\ shows KGate s' t' v' /\ (fresh l b = true -> below s' t' v').
Lemma tracks_app s l1 s1 l2 s2 : tracks s l1 s1 -> tracks s1 l2 s2 -> tracks s (l1 ++ l2) s2.
Proof.
  intros K1 K2 t v b H B. destruct (K1 t v b H B) as (t1 & v1 & E1 & H1 & B1). destruct (K2 t1 v1 (fresh l1 b) H1 B1) as (t2 & v2 & E2 & H2 & B2).
  exists t2, v2. split; [rewrite (follow_app _ _ _ _ _ _ E1); exact E2|]. split; [exact H2|]. unfold fresh in *. rewrite fold_left_app. exact B2.
Qed.
Lemma tracks_nil s : tracks s [] s.
Proof. intros t v b H B. exists t, v. auto. Qed.

(** ** One signal *)
Definition mild (x : signal) : Prop := match x with IdChanged _ | Removed KGate _ | FormulaChanged _ => False | _ => True end.
Lemma follow_cons x s l t v t' v' : follow ((x, s) :: l) t v = Some (t', v') -> exists r v1, react x t = Some r /\ watch_all s (snd r) v = Some v1 /\ follow l (fst r) v1 = Some (t', v').
Proof.
  cbn [follow]. destruct (react x t) as [r|]; [|discriminate]. cbn [mbind option_bind]. destruct (watch_all s (snd r) v) as [v1|] eqn:W; [|discriminate]. cbn [mbind option_bind]. eauto.
Qed.
Lemma changed_below (ch : addr -> list (option string)) s t i c d v v' :
  watch_all s [(Changed i c d, t)] v = Some v' -> Forall2 (fun a r => ch a = snd r) (rows t) v -> Forall2 (fun a (r : row) => ch a = snd r) (rows t) v'.
Proof.
  cbn. destruct (read_row s t i) as [r|] eqn:R; [|discriminate]. cbn. destruct (v !! i) as [o|] eqn:O; [|discriminate]. cbn. intros [= <-] F.
  unfold read_row in R. destruct (rows t !! i) as [a|] eqn:A; [|discriminate]. rewrite <- (list_insert_id (rows t) i a A). apply Forall2_insert; [exact F|]. cbn. eapply Forall2_lookup_lr in F; eauto.
Qed.
Lemma cell_change_below ch s a c d t r v v' : cell_change a c d [] t = Some r -> watch_all s (snd r) v = Some v' ->
  Forall2 (fun a r => ch a = snd r) (rows t) v -> Forall2 (fun a (r : row) => ch a = snd r) (rows (fst r)) v'.
Proof.
  unfold cell_change. destruct (decide _); [|intros [= <-]; cbn; intros [= <-]; auto]. destruct (position t !! a) as [i|]; [|discriminate]. cbn [mbind option_bind map]. intros [= <-]. cbn [fst snd]. apply changed_below.
Qed.
Lemma mild_below (ch : addr -> list (option string)) x s t r v v' :
  t_kind t = KGate -> mild x -> (forall a, x = Added KGate a -> ch a = children KGate s a) -> List.length v = List.length (rows t) ->
  react x t = Some r -> watch_all s (snd r) v = Some v' ->
  Forall2 (fun a r => ch a = snd r) (rows t) v -> Forall2 (fun a (r : row) => ch a = snd r) (rows (fst r)) v'.
Proof.
  intros T M A L R W F. destruct x as [k a|k a|a|a|a|a|a|a|f|f n]; cbn [react mild] in *; rewrite ?T in R; try contradiction.
  - destruct (decide (k = KGate)) as [->|N]; [|injection R as <-; cbn in W; injection W as <-; exact F]. injection R as <-. unfold add_element in *. cbn [fst snd rows watch_all watch] in *.
    replace (1 + List.length (rows t) - List.length (rows t)) with 1 in W by lia. cbn [seq read_rows] in W. unfold read_row in W. cbn [rows t_kind] in W. rewrite T in W.
    rewrite lookup_app_r in W by lia. rewrite Nat.sub_diag in W. cbn in W. destruct (cells KGate s a) as [c|]; [|discriminate]. cbn in W. injection W as <-.
    rewrite <- L, firstn_all, skipn_all. apply Forall2_app; [exact F|]. constructor; [exact (A a eq_refl)|constructor].
  - destruct k; [destruct M| |]; rewrite decide_False in R by discriminate; injection R as <-; cbn in W; injection W as <-; exact F.
  - eapply cell_change_below; eauto.
  - injection R as <-. cbn in W. injection W as <-. exact F.
  - injection R as <-. cbn in W. injection W as <-. exact F.
  - injection R as <-. cbn in W. injection W as <-. exact F.
  - injection R as <-. cbn in W. injection W as <-. exact F.
  - injection R as <-. cbn in W. injection W as <-. exact F.
Qed.
Lemma follow_mild ch l : forall t v t' v', t_kind t = KGate -> Forall (fun x => mild (fst x)) l -> (forall a s, In (Added KGate a, s) l -> ch a = children KGate s a) ->
  follow l t v = Some (t', v') -> Forall2 (fun a r => ch a = snd r) (rows t) v -> Forall2 (fun a (r : row) => ch a = snd r) (rows t') v'.
Proof.
  induction l as [|[x s] l IH]; intros t v t' v' T M A F H; [cbn in F; injection F as <- <-; exact H|]. apply follow_cons in F as (r & v1 & R & W & F). inversion M as [|? ? M1 M2]; subst; cbn [fst] in M1.
  refine (IH _ _ _ _ _ M2 _ F _).
  - destruct x as [k a|k a|a|a|a|a|a|a|f|f n]; cbn [react fst mild] in *; rewrite ?T in R; try contradiction; unfold cell_change in R.
    + destruct (decide _); injection R as <-; exact T.
    + destruct k; [destruct M1| |]; rewrite decide_False in R by discriminate; injection R as <-; exact T.
    + destruct (decide _); [|injection R as <-; exact T]. destruct (position t !! a); [|discriminate]. injection R as <-. exact T.
    + injection R as <-. exact T.
    + injection R as <-. exact T.
    + injection R as <-. exact T.
    + injection R as <-. exact T.
    + injection R as <-. exact T.
  - intros a s1 I. apply A. right. exact I.
  - refine (mild_below ch x s t r v v1 T M1 _ _ R W H); [intros a ->; apply A; left; reflexivity|]. symmetry. eapply Forall2_length; exact H.
Qed.

Lemma read_rows_exact s t : t_kind t = KGate -> forall n m v, read_rows s t (seq m n) = Some v -> m + n <= List.length (rows t) ->
  Forall2 (fun a (r : row) => children KGate s a = snd r) (firstn n (skipn m (rows t))) v.
Proof.
  intros T. induction n as [|n IH]; intros m v R L; cbn [seq read_rows] in R; [injection R as <-; constructor|].
  unfold read_row in R at 1. destruct (rows t !! m) as [a|] eqn:A; [|discriminate]. cbn [mbind option_bind] in R. rewrite T in R. destruct (cells KGate s a) as [c|]; [|discriminate]. cbn [mbind option_bind] in R.
  destruct (read_rows s t (seq (S m) n)) as [v1|] eqn:R1; [|discriminate]. cbn [mbind option_bind] in R. injection R as <-. erewrite drop_S by exact A. cbn [firstn]. constructor; [reflexivity|]. apply IH; [exact R1|lia].
Qed.
Lemma read_all_exact s t v : t_kind t = KGate -> read_all s t = Some v -> below s t v.
Proof. intros T R. pose proof (read_rows_exact s t T _ 0 v R) as F. cbn [skipn] in F. rewrite firstn_all in F. apply F. lia. Qed.
Lemma formula_tracks s g : sound s -> listed s KGate g -> tracks s [(FormulaChanged g, s)] s.
Proof.
  intros So L t v b H _. destruct (formula_keeps s g So KGate t v H) as (t' & v' & F & H'). exists t', v'. split; [exact F|]. split; [exact H'|]. intros _.
  apply follow_cons in F as (r & v1 & R & W & F). cbn [follow] in F. injection F as <- <-. cbn [react] in R. rewrite (sh_kind _ _ _ _ H) in R. unfold cell_change in R.
  rewrite decide_True in R by (apply (sh_wired _ _ _ _ H), (sh_rows _ _ _ _ H), L). destruct (position t !! g) as [i|]; [|discriminate]. cbn [mbind option_bind map] in R. injection R as <-. cbn [fst snd watch_all] in *.
  destruct (watch s (Changed i 1 2) t v) as [v2|]; [|discriminate]. cbn [mbind option_bind watch] in W. destruct (read_all s t) as [v3|] eqn:R3; [|discriminate]. cbn [mbind option_bind] in W. injection W as <-.
  apply read_all_exact; [apply (sh_kind _ _ _ _ H)|exact R3].
Qed.
Lemma formulas_track s gs : sound s -> (forall g, In g gs -> listed s KGate g) -> tracks s (map (fun n => (n, s)) (map FormulaChanged gs)) s.
Proof.
  intros So. induction gs as [|g gs IH]; intros L; cbn [map]; [apply tracks_nil|]. apply (tracks_app s [(FormulaChanged g, s)] s); [apply formula_tracks; [exact So|apply L; left; reflexivity]|]. apply IH. intros x I. apply L. right. exact I.
Qed.
Lemma fresh_formulas (s : model) gs b : gs <> [] -> fresh (map (fun n => (n, s)) (map FormulaChanged gs)) b = true.
Proof.
  intros N. unfold fresh. destruct gs as [|g gs]; [congruence|]. cbn [map fold_left fst fresh_after]. clear N. induction gs as [|x gs IH]; [reflexivity|]. exact IH.
Qed.
Lemma tracks_reset s l s1 gs : keeps_up s l s1 -> sound s1 -> gs <> [] -> (forall g, In g gs -> listed s1 KGate g) -> tracks s (l ++ map (fun n => (n, s1)) (map FormulaChanged gs)) s1.
Proof.
  intros K So N L t v b H _. destruct (K KGate t v H) as (t1 & v1 & F1 & H1). destruct (formulas_track s1 gs So L t1 v1 false H1 ltac:(discriminate)) as (t2 & v2 & F2 & H2 & B2).
  exists t2, v2. split; [rewrite (follow_app _ _ _ _ _ _ F1); exact F2|]. split; [exact H2|]. intros _. apply B2, fresh_formulas, N.
Qed.
Lemma fresh_mild l b : Forall (fun x => mild (fst x)) l -> fresh l b = b.
Proof.
  intros M. induction M as [|[x s] l M _ IH]; [reflexivity|]. unfold fresh in *. cbn [fold_left fst]. replace (fresh_after x b) with b; [exact IH|]. destruct x as [k a|k a|a|a|a|a|a|a|f|f n]; cbn in *; try reflexivity; try contradiction. destruct k; [contradiction|reflexivity..].
Qed.
Lemma tracks_mild s l s' : keeps_up s l s' -> Forall (fun x => mild (fst x)) l -> (forall a, listed s KGate a -> children KGate s' a = children KGate s a) ->
  (forall a s1, In (Added KGate a, s1) l -> children KGate s' a = children KGate s1 a) -> tracks s l s'.
Proof.
  intros K M C A t v b H B. destruct (K KGate t v H) as (t' & v' & F & H'). exists t', v'. split; [exact F|]. split; [exact H'|]. rewrite (fresh_mild l b M). intros E. specialize (B E).
  refine (follow_mild (children KGate s') l t v t' v' (sh_kind _ _ _ _ H) M A F _). unfold below in B.
  apply Forall2_same_length_lookup_2; [eapply Forall2_length; exact B|]. intros i a r Ha Hr. rewrite C; [eapply Forall2_lookup_lr in B; eauto|]. apply (sh_rows _ _ _ _ H), in_lookup. eauto.
Qed.
Lemma tracks_stale s l s' : keeps_up s l s' -> (forall b, fresh l b = false) -> tracks s l s'.
Proof. intros K N t v b H _. destruct (K KGate t v H) as (t' & v' & F & H'). exists t', v'. split; [exact F|]. split; [exact H'|]. rewrite N. discriminate. Qed.

(** ** The rows below a gate are the names of its arguments *)
Definition name_at (s : model) (a : addr) : option string := option_map e_name (events s !! a).
Lemma children_args s a : children KGate s a = match events s !! a with Some e => map (name_at s) (args_of e) | None => [] end.
Proof.
  unfold children, args_of. destruct (events s !! a) as [e|]; [|reflexivity]. destruct (e_data e) as [f| |]; try reflexivity. rewrite map_map. apply map_ext. intros x. unfold name_at. destruct (events s !! snd x); reflexivity.
Qed.
Lemma children_put s s' a e e' : events s !! a = Some e -> events s' = <[a := e']> (events s) -> e_name e' = e_name e -> args_of e' = args_of e -> forall x, children KGate s' x = children KGate s x.
Proof.
  intros Ev E N A x. rewrite !children_args. assert (Nm : forall y, name_at s' y = name_at s y).
  { intros y. unfold name_at. rewrite E. destruct (decide (y = a)) as [->|D]; [rewrite lookup_insert, Ev; cbn; congruence|rewrite lookup_insert_ne by congruence; reflexivity]. }
  rewrite E. destruct (decide (x = a)) as [->|D]; [rewrite lookup_insert, Ev, A; apply map_ext, Nm|]. rewrite lookup_insert_ne by congruence. destruct (events s !! x); [apply map_ext, Nm|reflexivity].
Qed.
Lemma children_same s s' x : events s' !! x = events s !! x -> (forall e, events s !! x = Some e -> forall y, In y (args_of e) -> events s' !! y = events s !! y) -> children KGate s' x = children KGate s x.
Proof.
  intros E A. rewrite !children_args, E. destruct (events s !! x) as [e|]; [|reflexivity]. apply map_ext_in. intros y I. unfold name_at. rewrite (A e eq_refl y I). reflexivity.
Qed.
Lemma children_events s s' x : events s' = events s -> children KGate s' x = children KGate s x.
Proof. intros E. apply children_same; [rewrite E; reflexivity|]. intros e _ y _. rewrite E. reflexivity. Qed.
Lemma consistent_sound s : consistent s -> sound s.
Proof. intros C k a L. apply (c_proxy _ C). exact L. Qed.

(** ** The commands *)
Lemma involution_tracks c s y s' l : consistent s -> consistent s' -> sends (involution_s c) s y s' l -> tracks s l s'.
Proof.
  intros C C' K. destruct (involution_handles c s y s' l (consistent_sound s C) K) as (U & S' & _). revert U.
  destruct c as [a lb|k a n ft|a x|a fl|a b|a f|n|i f t|i k a o ft|E T to from ft gs]; cbn [involution_s] in K.
  - sb K e s1 l1 l2. apply sends_quiet in H0 as [Ev ->]. apply runs_read in Ev as [Ev ->]. destruct (decide (lb = e_label e)); [apply sends_ret in K as (-> & -> & ->); intros _; apply tracks_nil|].
    sb K u s2 l3 l4. apply sends_quiet in H0 as [R ->]. apply runs_modify in R as ->. sb K u' s3 l5 l6. apply sends_emit in H0 as [-> ->]. apply sends_ret in K as (-> & -> & ->). cbn [app]. intros U.
    apply tracks_mild; [exact U|repeat constructor| |intros ? ? [Q|[]]; discriminate Q]. intros z _. apply (children_put s _ a e (with_label lb e)); try reflexivity. exact Ev.
  - sb K e s1 l1 l2. apply sends_quiet in H0 as [Ev ->]. apply runs_read in Ev as [Ev ->]. destruct (decide (n = e_name e)); [apply sends_ret in K as (-> & -> & ->); intros _; apply tracks_nil|].
    sb K u s2 l3 l4. apply sends_quiet in H0 as [R ->]. sb K p s3 l5 l6. apply sends_quiet in H0 as [R1 ->].
    sb K u1 s4 l7 l8. apply sends_quiet in H0 as [R2 ->]. sb K u2 s5 l9 l10. apply sends_quiet in H0 as [R3 ->]. sb K u3 s6 l11 l12. apply sends_quiet in H0 as [R4 ->].
    sb K u4 s7 l13 l14. apply sends_emit in H0 as [-> ->]. apply sends_ret in K as (-> & -> & ->). cbn [app]. intros U. apply tracks_stale; [exact U|reflexivity].
  - sb K e s1 l1 l2. apply sends_quiet in H0 as [Ev ->]. apply runs_read in Ev as [Ev ->]. destruct (e_data e) as [|z|] eqn:D; try (apply sends_quiet in K as [K _]; destruct (proj1 (runs_fail _ _ _) K)).
    destruct (decide (x = z)); [apply sends_ret in K as (-> & -> & ->); intros _; apply tracks_nil|].
    sb K u s2 l3 l4. apply sends_quiet in H0 as [R ->]. apply runs_modify in R as ->. sb K u' s3 l5 l6. apply sends_emit in H0 as [-> ->]. apply sends_ret in K as (-> & -> & ->). cbn [app]. intros U.
    apply tracks_mild; [exact U|repeat constructor| |intros ? ? [Q|[]]; discriminate Q]. intros q _. apply (children_put s _ a e (with_data (DBasic x) e)); try reflexivity; [exact Ev|]. unfold args_of. cbn. rewrite D. reflexivity.
  - sb K cur s1 l1 l2. apply sends_quiet in H0 as [Pv ->]. apply runs_read in Pv as [Pv ->]. destruct (decide (fl = cur)); [apply sends_ret in K as (-> & -> & ->); intros _; apply tracks_nil|].
    sb K e s2 l3 l4. apply sends_quiet in H0 as [Ev ->]. apply runs_read in Ev as [Ev ->]. sb K u s3 l5 l6. apply sends_quiet in H0 as [R ->]. apply runs_modify in R as ->. sb K u1 s4 l7 l8. apply sends_quiet in H0 as [R ->]. apply runs_modify in R as ->.
    sb K u2 s5 l9 l10. apply sends_emit in H0 as [-> ->]. apply sends_ret in K as (-> & -> & ->). cbn [app]. intros U.
    apply tracks_mild; [exact U|repeat constructor| |intros ? ? [Q|[]]; discriminate Q]. intros q _. set (e' := with_attrs _ e) in *. apply (children_put s _ a e e'); try reflexivity. exact Ev.
  - sb K e s1 l1 l2. apply sends_quiet in H0 as [Ev ->]. apply runs_read in Ev as [Ev ->]. destruct (e_data e) as [| |z] eqn:D; try (apply sends_quiet in K as [K _]; destruct (proj1 (runs_fail _ _ _) K)).
    destruct (decide (b = z)); [apply sends_ret in K as (-> & -> & ->); intros _; apply tracks_nil|].
    sb K u s2 l3 l4. apply sends_quiet in H0 as [R ->]. apply runs_modify in R as ->. sb K u' s3 l5 l6. apply sends_emit in H0 as [-> ->]. apply sends_ret in K as (-> & -> & ->). cbn [app]. intros U.
    apply tracks_mild; [exact U|repeat constructor| |intros ? ? [Q|[]]; discriminate Q]. intros q _. apply (children_put s _ a e (with_data (DHouse b) e)); try reflexivity; [exact Ev|]. unfold args_of. cbn. rewrite D. reflexivity.
  - sb K e s1 l1 l2. apply sends_quiet in H0 as [Ev ->]. apply runs_read in Ev as [Ev ->]. destruct (e_data e) as [z| |] eqn:D; try (apply sends_quiet in K as [K _]; destruct (proj1 (runs_fail _ _ _) K)).
    sb K u s2 l3 l4. apply sends_quiet in H0 as [R ->]. apply runs_modify in R as ->. sb K u' s3 l5 l6. apply sends_emit in H0 as [-> ->]. apply sends_ret in K as (-> & -> & ->). cbn [app]. intros U.
    match goal with |- tracks s [(_, ?s1)] _ => set (t1 := s1) in * end. assert (L : listed t1 KGate a).
    { apply (c_proxy _ C'). exists (with_data (DGate f) e). split; [unfold t1; cbn; apply lookup_insert|reflexivity]. }
    intros t v b H _. destruct (U KGate t v H) as (t' & v' & F & H'). exists t', v'. split; [exact F|]. split; [exact H'|]. intros _.
    apply follow_cons in F as (r & v1 & R & W & F). cbn [follow] in F. injection F as <- <-. cbn [react] in R. rewrite (sh_kind _ _ _ _ H) in R. unfold cell_change in R.
    rewrite decide_True in R; [|apply (sh_wired _ _ _ _ H), (sh_rows _ _ _ _ H); unfold listed in *; unfold t1 in L; exact L]. destruct (position t !! a) as [i|]; [|discriminate]. cbn [mbind option_bind map] in R. injection R as <-. cbn [fst snd watch_all] in *.
    destruct (watch t1 (Changed i 1 2) t v) as [v2|]; [|discriminate]. cbn [mbind option_bind watch] in W. destruct (read_all t1 t) as [v3|] eqn:R3; [|discriminate]. cbn [mbind option_bind] in W. injection W as <-.
    apply read_all_exact; [apply (sh_kind _ _ _ _ H)|exact R3].
  - apply sends_quiet in K as [K ->]. cbn [involution] in K. apply runs_bind in K as (cur & s1 & K1 & K). apply runs_read in K1 as [_ ->].
    match type of K with runs (if ?b then _ else _) _ _ _ => destruct b end; [apply runs_ret in K as [-> ->]; intros _; apply tracks_nil|]. cbv zeta in K.
    apply runs_bind in K as (u & s2 & K2 & K). apply runs_check in K2 as [_ ->]. apply runs_bind in K as (u1 & s3 & K3 & K). apply runs_modify in K3 as ->. apply runs_ret in K as [-> ->]. intros U.
    apply tracks_mild; [exact U|constructor| |intros ? ? []]. intros z _. apply children_events. reflexivity.
  - apply sends_quiet in K as [K _]. destruct (proj1 (runs_fail _ _ _) K).
  - apply sends_quiet in K as [K _]. destruct (proj1 (runs_fail _ _ _) K).
  - apply sends_quiet in K as [K _]. destruct (proj1 (runs_fail _ _ _) K).
Qed.
Lemma args_in s x e y : consistent s -> events s !! x = Some e -> In y (args_of e) -> is_Some (events s !! y).
Proof. intros C Ev I. apply (proj2 (c_args _ C x e Ev) y I). Qed.
Lemma add_tracks k a o ft s y s' l : event_kind k o -> consistent s -> consistent s' -> sends (add_event_s k a o ft) s y s' l -> tracks s l s'.
Proof.
  intros T C C' K. destruct (add_handles k a o ft T s y s' l (consistent_sound s C) K) as (U & S' & _). revert U. unfold add_event_s in K. sb K p s1 l1 l2. apply sends_quiet in H0 as [R ->]. apply runs_take in R as [-> ->]. destruct p as [e fl]. cbn [fst snd event_kind] in *.
  sb K u s2 l3 l4. apply sends_quiet in H0 as [R ->]. apply runs_model_add in R as (_ & N & ->). sb K u1 s3 l5 l6. apply sends_quiet in H0 as [R ->]. apply runs_proxy_add in R as [_ ->].
  sb K u2 s4 l7 l8. apply sends_emit in H0 as [-> ->]. sb K u3 s5 l9 l10. apply sends_quiet in H0 as [R ->]. apply sends_ret in K as (-> & -> & ->). apply runs_tree_add in R as [_ ->]. cbn [app]. intros U.
  apply tracks_mild; [exact U|repeat constructor| |].
  - intros x L. destruct (proj1 (c_proxy _ C KGate x) L) as (e0 & E0 & _). apply children_same; cbn [events with_trees with_proxies]; [apply lookup_insert_ne; congruence|].
    intros e1 E1 z I. apply lookup_insert_ne. intros ->. destruct (args_in _ _ _ _ C E1 I). congruence.
  - intros x s1 [Q|[]]. injection Q as _ _ <-. apply children_events. reflexivity.
Qed.
Lemma remove_tracks k a ft s y s' l : consistent s -> consistent s' -> sends (remove_event_s k a ft) s y s' l -> tracks s l s'.
Proof.
  intros C C' K. destruct (remove_handles k a ft s y s' l (consistent_sound s C) K) as (U & S' & _). revert U. unfold remove_event_s in K. sb K e s1 l1 l2. apply sends_quiet in H0 as [R ->]. apply runs_model_remove in R as (Ev & Tb & ->). sb K fl s2 l3 l4. apply sends_quiet in H0 as [R ->]. apply runs_proxy_extract in R as [Px ->].
  sb K u s3 l5 l6. apply sends_emit in H0 as [-> ->]. sb K u1 s4 l7 l8. apply sends_quiet in H0 as [R ->]. apply sends_ret in K as (-> & -> & ->). apply runs_tree_remove in R as [_ ->]. cbn [app]. intros U.
  destruct (decide (k = KGate)) as [->|NK]; [apply tracks_stale; [exact U|reflexivity]|].
  assert (Kd : kind_of e = k). { cbn [proxies] in Px. destruct (proj1 (c_proxy _ C k a)) as (e0 & E0 & Q); [cbn in Px; eauto|]. cbn in Ev. congruence. }
  apply tracks_mild; [exact U|constructor; [destruct k; [congruence|exact I..]|constructor]| |intros ? ? [Q|[]]; discriminate Q].
  intros x L. destruct (proj1 (c_proxy _ C KGate x) L) as (e0 & E0 & Kx). assert (NX : x <> a) by (intros ->; congruence).
  match goal with |- children KGate ?m x = _ => assert (E' : events m = delete a (events s)) by reflexivity; revert C' E'; generalize m end. intros s' C' E'.
  assert (Ex : events s' !! x = events s !! x) by (rewrite E'; apply lookup_delete_ne; congruence). apply children_same; [exact Ex|].
  intros e1 E1 z I. rewrite E'. apply lookup_delete_ne. intros <-. rewrite <- Ex in E1. destruct (args_in _ _ _ _ C' E1 I) as [q Q]. rewrite E', lookup_delete in Q. discriminate Q.
Qed.
Lemma alike_gate s s' g : alike s s' -> (exists e, events s !! g = Some e /\ kind_of e = KGate) -> exists e, events s' !! g = Some e /\ kind_of e = KGate.
Proof. intros [_ A] (e & E & K). specialize (A g). rewrite E in A. destruct (events s' !! g) as [e'|]; [|contradiction]. exists e'. split; [reflexivity|]. destruct A as [A _]. congruence. Qed.
Lemma swap_event_gate a b g s y s' : runs (swap_event a b g) s y s' -> exists e, events s !! g = Some e /\ kind_of e = KGate.
Proof.
  unfold swap_event, event_of. intros K. apply runs_bind in K as (x & s1 & K1 & K). apply runs_read in K1 as [Ex ->]. exists x. split; [exact Ex|]. unfold kind_of. destruct (e_data x) as [f| |]; [reflexivity|destruct (proj1 (runs_fail _ _ _) K)..].
Qed.
Lemma swap_events_gates a b gs : forall s y s', runs (swap_events a b gs) s y s' -> forall g, In g gs -> exists e, events s' !! g = Some e /\ kind_of e = KGate.
Proof.
  induction gs as [|x gs IH]; intros s y s' K g I; [destruct I|]. cbn [swap_events] in K. apply runs_bind in K as (u & s1 & K1 & K). destruct I as [<-|I]; [|eapply IH; eauto].
  eapply alike_gate; [eapply alike_trans; [eapply swap_event_alike; exact K1|eapply swap_events_alike; exact K]|]. eapply swap_event_gate; exact K1.
Qed.
Lemma switch_tracks C N sw ft gs s y s' l : owned_kind N sw -> consistent s -> consistent s' -> sends (switch_s C N sw ft gs) s y s' l -> tracks s l s'.
Proof.
  intros T Cs C' K. pose proof (consistent_sound s Cs) as H. destruct (switch_handles C N sw ft gs T s y s' l H K) as (U & _ & _). unfold switch_s in K. cbv zeta in K. set (a := fst sw) in *. sb K e s1 l1 l2. apply sends_quiet in H0 as [R ->]. apply runs_model_remove in R as (Ev & _ & ->). sb K fl s2 l3 l4. apply sends_quiet in H0 as [R ->]. apply runs_proxy_extract in R as [Px ->].
  sb K u s3 l5 l6. apply sends_emit in H0 as [-> ->].
  match goal with K : sends _ ?s1 _ _ _ |- _ => set (t1 := s1) in * end. destruct (removed_keeps s t1 C a e fl H Ev Px) as (U1 & U2 & Ke); [reflexivity|reflexivity|].
  assert (Et1 : events t1 = delete a (events s)) by reflexivity. clearbody t1.
  sb K p s4 l7 l8. apply sends_quiet in H0 as [R ->]. apply runs_take in R as [Q ->]. unfold owned_kind in T. rewrite Q in T. destruct p as [[b e2] fl2]. cbn [fst snd] in *. destruct T as [T Ap]. fold a in Ap. clearbody a.
  sb K u1 s5 l9 l10. apply sends_quiet in H0 as [R ->]. apply runs_model_add in R as (_ & Nb & ->). sb K u2 s6 l11 l12. apply sends_quiet in H0 as [R ->]. apply runs_proxy_add in R as [_ ->].
  sb K u3 s7 l13 l14. apply sends_emit in H0 as [-> ->].
  match goal with K : sends _ ?s1 _ _ _ |- _ => set (t2 := s1) in * end. destruct (added_keeps t1 t2 N b e2 fl2 U2 Nb T) as (V1 & V2); [reflexivity|reflexivity|].
  assert (Et2 : events t2 = <[b := e2]> (events t1)) by reflexivity. clearbody t2.
  sb K u4 s8 l15 l16. apply sends_quiet in H0 as [R1 ->]. pose proof R1 as A1. apply tree_remove_alike in A1. apply runs_tree_remove in R1 as [_ Q1]. sb K u5 s9 l17 l18. apply sends_quiet in H0 as [R2 ->]. pose proof R2 as A2. apply tree_add_alike in A2. apply runs_tree_add in R2 as [_ Q2].
  sb K u6 s10 l19 l20. apply sends_quiet in H0 as [R3 ->]. pose proof R3 as A3. apply swap_events_alike in A3.
  assert (A : alike t2 s10) by (eapply alike_trans; [exact A1|eapply alike_trans; [exact A2|exact A3]]). assert (S3 : sound s10) by (eapply alike_sound; eauto).
  assert (E9 : events s9 = events t2) by (rewrite Q2, Q1; reflexivity).
  sb K u7 s11 l21 l22. apply sends_emit_all in H0 as [-> ->]. apply sends_ret in K as (-> & -> & ->). cbn [app] in *. rewrite app_nil_r in *.
  destruct gs as [|g gs].
  - cbn [map] in *. destruct (decide (C = KGate)) as [->|NC]; [apply tracks_stale; [exact U|reflexivity]|]. cbn [swap_events] in R3. apply runs_ret in R3 as [_ ->].
    assert (E10 : events s9 = <[b := e2]> (delete a (events s))) by congruence. assert (Nb' : events s !! b = None) by (rewrite Et1, lookup_delete_ne in Nb by congruence; exact Nb).
    apply tracks_mild; [exact U|repeat constructor; destruct C; [congruence|exact I..]| |].
    + intros x L. destruct (proj1 (c_proxy _ Cs KGate x) L) as (e0 & E0 & Kx). assert (NX : x <> a) by (intros ->; congruence). assert (NX2 : x <> b) by (intros ->; congruence).
      assert (Ex : events s9 !! x = events s !! x) by (rewrite E10, lookup_insert_ne, lookup_delete_ne by congruence; reflexivity). apply children_same; [exact Ex|].
      intros e1 E1 z I. destruct (decide (z = b)) as [->|Nz]; [destruct (args_in _ _ _ _ Cs E1 I); congruence|]. rewrite E10, lookup_insert_ne by congruence. apply lookup_delete_ne. intros <-.
      rewrite <- Ex in E1. destruct (args_in _ _ _ _ C' E1 I) as [q Q3]. rewrite E10, lookup_insert_ne, lookup_delete in Q3 by congruence. discriminate Q3.
    + intros x sx [K|[K|[]]]; [discriminate K|]. injection K as _ _ <-. apply children_events. exact E9.
  - refine (tracks_reset s [(Removed C a, t1); (Added N b, t2)] s10 (g :: gs) _ S3 _ _); [|discriminate|].
    + apply (keeps_up_app s [(Removed C a, t1)] t1); [exact U1|]. apply (keeps_up_app t1 [(Added N b, t2)] t2 []); [exact V1|apply alike_keeps_up, A].
    + intros x I. apply (c_proxy _ C'). exact (swap_events_gates _ _ _ _ _ _ R3 x I).
Qed.
Lemma quiet_tracks {A} (m : M A) s x s' l : sends (quiet m) s x s' l -> (forall y s', runs m s y s' -> alike s s' /\ events s' = events s) -> tracks s l s'.
Proof.
  intros K Q. apply sends_quiet in K as [R ->]. destruct (Q _ _ R) as [Al E]. apply tracks_mild; [apply alike_keeps_up, Al|constructor| |intros ? ? []]. intros a _. apply children_events, E.
Qed.
Lemma add_tree_events f t s y s' : runs (add_tree f t) s y s' -> events s' = events s.
Proof.
  unfold add_tree. intros K. apply runs_bind in K as (t' & s1 & K1 & K). apply runs_take in K1 as [_ ->]. apply runs_bind in K as (u & s2 & K1 & K). apply runs_check in K1 as [_ ->].
  apply runs_bind in K as (u1 & s3 & K1 & K). apply runs_check in K1 as [_ ->]. apply runs_bind in K as (u2 & s4 & K1 & K). apply runs_modify in K1 as ->. apply runs_bind in K as (u3 & s5 & K1 & K). apply runs_note in K1 as ->. apply runs_ret in K as [_ ->]. reflexivity.
Qed.
Lemma remove_tree_events f s y s' : runs (remove_tree f) s y s' -> events s' = events s.
Proof.
  unfold remove_tree, tree_of. intros K. apply runs_bind in K as (t' & s1 & K1 & K). apply runs_read in K1 as [_ ->]. apply runs_bind in K as (u & s2 & K1 & K). apply runs_check in K1 as [_ ->].
  apply runs_bind in K as (u1 & s3 & K1 & K). apply runs_note in K1 as ->. apply runs_bind in K as (u2 & s4 & K1 & K). apply runs_modify in K1 as ->. apply runs_ret in K as [_ ->]. reflexivity.
Qed.
Lemma tree_signals_track s l : Forall of_tree l -> tracks s (map (fun n => (n, s)) l) s.
Proof.
  intros F. apply tracks_mild; [apply tree_signals_keep, F| |reflexivity|].
  - apply List.Forall_forall. intros x I. apply in_map_iff in I as (y & <- & I). rewrite List.Forall_forall in F. specialize (F y I). destruct y; try destruct F; exact Logic.I.
  - intros a s1 I. apply in_map_iff in I as (y & Q & I). injection Q as -> <-. reflexivity.
Qed.
Lemma tree_command_tracks (r b : bool) i f t m s x s' l : (if b then m = add_tree f t else m = remove_tree f) ->
  sends (t' <~ quiet m;;; emit_all (tree_signal r f t') ~;; sret (AddFaultTree i f t')) s x s' l -> tracks s l s'.
Proof.
  intros B K. apply sends_bind in K as (t' & s1 & l1 & l2 & K1 & K & ->). apply sends_bind in K as (u & s2 & l3 & l4 & K2 & K & ->). apply sends_ret in K as (_ & -> & ->). apply sends_emit_all in K2 as [-> ->]. rewrite app_nil_r.
  eapply tracks_app; [|apply tree_signals_track, tree_signal_of_tree]. eapply quiet_tracks; [exact K1|]. clear K1. intros y s' K.
  destruct b; subst m; (split; [first [eapply add_tree_alike; exact K|eapply remove_tree_alike; exact K]|first [eapply add_tree_events; exact K|eapply remove_tree_events; exact K]]).
Qed.
Lemma redo_tracks c s y s' l : typed c -> consistent s -> consistent s' -> sends (redo_s c) s y s' l -> tracks s l s'.
Proof.
  intros T C C' K. destruct c as [| | | | | | |i f t|i k a o ft|E N to from ft gs]; try exact (involution_tracks _ _ _ _ _ C C' K).
  - cbn [redo_s] in K. destruct i; [exact (tree_command_tracks _ false _ f t _ _ _ _ _ eq_refl K)|exact (tree_command_tracks _ true _ f t _ _ _ _ _ eq_refl K)].
  - cbn [redo_s] in K. apply sends_bind in K as (x & s1 & l1 & l2 & K & K2 & ->). apply sends_ret in K2 as (-> & -> & ->). rewrite app_nil_r. destruct i; [exact (remove_tracks _ _ _ _ _ _ _ C C' K)|exact (add_tracks _ _ _ _ _ _ _ _ T C C' K)].
  - cbn [redo_s] in K. apply sends_bind in K as (x & s1 & l1 & l2 & K & K2 & ->). apply sends_ret in K2 as (-> & -> & ->). rewrite app_nil_r. destruct T as [T1 T2]. exact (switch_tracks _ _ _ _ _ _ _ _ _ T1 C C' K).
Qed.
Lemma undo_tracks c s y s' l : typed c -> consistent s -> consistent s' -> sends (undo_s c) s y s' l -> tracks s l s'.
Proof.
  intros T C C' K. destruct c as [| | | | | | |i f t|i k a o ft|E N to from ft gs]; try exact (involution_tracks _ _ _ _ _ C C' K).
  - cbn [undo_s] in K. destruct i; [exact (tree_command_tracks _ true _ f t _ _ _ _ _ eq_refl K)|exact (tree_command_tracks _ false _ f t _ _ _ _ _ eq_refl K)].
  - cbn [undo_s] in K. apply sends_bind in K as (x & s1 & l1 & l2 & K & K2 & ->). apply sends_ret in K2 as (-> & -> & ->). rewrite app_nil_r. destruct i; [exact (add_tracks _ _ _ _ _ _ _ _ T C C' K)|exact (remove_tracks _ _ _ _ _ _ _ C C' K)].
  - cbn [undo_s] in K. apply sends_bind in K as (x & s1 & l1 & l2 & K & K2 & ->). apply sends_ret in K2 as (-> & -> & ->). rewrite app_nil_r. destruct T as [T1 T2]. exact (switch_tracks _ _ _ _ _ _ _ _ _ T2 C C' K).
Qed.
(** A sent command runs as in Undo.v, so it ends where the run does. *)
Lemma sends_runs {A} (ms : SM A) m s x s' l y t : mirrors ms m -> sends ms s x s' l -> runs m s y t -> x = y /\ s' = t.
Proof. intros M S R. eapply runs_det; [apply M; eauto|exact R]. Qed.
Lemma undo_entry_tracks e e2 s t : entry e e2 s t -> consistent s -> consistent t -> Forall typed e -> forall y s' l, sends (undo_all_s e) t y s' l -> tracks t l s'.
Proof.
  induction 1 as [s|c c2 e e2 s1 s2 s3 G R1 R2 En IH]; intros C C' T y s' l K; cbn [undo_all_s] in K; [apply sends_ret in K as (-> & -> & ->); apply tracks_nil|].
  inversion T as [|? ? Tc Te]; subst. assert (C2 : consistent s2) by (inversion En as [|? ? ? ? ? ? ? G2]; subst; [exact C'|apply G2]).
  apply sends_bind in K as (y1 & t1 & l1 & l2 & K1 & K & ->). destruct (sends_runs _ _ _ _ _ _ _ _ (mirrors_undo_all e) K1 (entry_undo _ _ _ _ En)) as [-> ->].
  apply sends_bind in K as (y2 & t2 & l3 & l4 & K2 & K & ->). destruct (sends_runs _ _ _ _ _ _ _ _ (mirrors_undo c) K2 R1) as [-> ->]. apply sends_ret in K as (-> & -> & ->). rewrite app_nil_r.
  eapply tracks_app; [exact (IH C2 C' Te _ _ _ K1)|]. eapply undo_tracks; [exact Tc|exact C2|apply G|exact K2].
Qed.
Lemma redo_entry_tracks e e2 s t : entry e e2 s t -> consistent s -> consistent t -> Forall typed e2 -> forall y s' l, sends (redo_all_s e2) s y s' l -> tracks s l s'.
Proof.
  induction 1 as [s|c c2 e e2 s1 s2 s3 G R1 R2 En IH]; intros C C' T y s' l K; cbn [redo_all_s] in K; [apply sends_ret in K as (-> & -> & ->); apply tracks_nil|].
  inversion T as [|? ? Tc Te]; subst. assert (C2 : consistent s2) by (inversion En as [|? ? ? ? ? ? ? G2]; subst; [exact C'|apply G2]).
  apply sends_bind in K as (y2 & t2 & l3 & l4 & K2 & K & ->). destruct (sends_runs _ _ _ _ _ _ _ _ (mirrors_redo c2) K2 R2) as [-> ->].
  apply sends_bind in K as (y1 & t1 & l1 & l2 & K1 & K & ->). apply sends_ret in K as (-> & -> & ->). rewrite app_nil_r.
  eapply tracks_app; [eapply redo_tracks; [exact Tc|apply G|exact C2|exact K2]|]. exact (IH C2 C' Te _ _ _ K1).
Qed.
Lemma quiet_same {A} (m : M A) s x s' l : sends (quiet m) s x s' l -> (forall y t, runs m s y t -> t = s) -> tracks s l s'.
Proof. intros K Q. apply sends_quiet in K as [R ->]. rewrite (Q _ _ R). apply tracks_nil. Qed.
Lemma act_tracks lim x q E E1 q1 s1 l : follows lim q E -> edits lim x E E1 -> typed_stack q -> typed_action x -> sends (act_s x q) (now E) q1 s1 l ->
  tracks (now E) l s1 /\ s1 = now E1 /\ follows lim q1 E1 /\ typed_stack q1.
Proof.
  intros F Ed Tq Tx K. destruct (follows_step _ _ _ _ _ F Ed) as (q2 & R & F2). destruct (sends_runs _ _ _ _ _ _ _ _ (mirrors_act x q) K R) as [-> ->].
  pose proof (consistent_sound _ (proj1 (fo_good _ _ _ F))) as So. destruct (act_handles x q Tq Tx _ _ _ _ So K) as (_ & _ & Tq2). split; [|auto].
  pose proof (proj1 (fo_good _ _ _ F)) as C. pose proof (proj1 (fo_good _ _ _ F2)) as C2. pose proof (fo_stack _ _ _ F) as St. destruct Tq as [T1 T2 T3].
  destruct x as [c| | | | |]; cbn [act_s] in K.
  - apply sends_bind in K as (c' & t1 & l1 & l2 & K1 & K & ->). assert (now E1 = t1 /\ l2 = []) as [<- ->] by (destruct (open q); cbv zeta in K; apply sends_ret in K as (_ & -> & ->); auto). rewrite app_nil_r. eapply redo_tracks; eassumption.
  - eapply quiet_same; [exact K|]. intros y t Q. cbn [act] in Q. destruct (open q); [destruct (proj1 (runs_fail _ _ _) Q)|]. cbv zeta in Q. apply runs_ret in Q as [_ ->]. reflexivity.
  - eapply quiet_same; [exact K|]. intros y t Q. cbn [act] in Q. destruct (open q); apply runs_ret in Q as [_ ->]; reflexivity.
  - destruct (open q) as [m|]; [apply sends_ret in K as (_ & -> & ->); apply tracks_nil|]. destruct (pending E); [destruct St|]. destruct St as [D U].
    inversion D as [d0|e e2 d p s0 pa En Gp D' D1]; subst; rewrite <- ?H, <- ?D1 in *; [apply sends_ret in K as (_ & -> & ->); apply tracks_nil|]. cbn match in K.
    apply sends_bind in K as (y1 & t1 & l1 & l2 & K1 & K & ->). apply sends_ret in K as (_ & Q & ->). rewrite app_nil_r, Q. inversion T1 as [|? ? Te _]; subst.
    eapply undo_entry_tracks; [exact En|apply Gp|exact C|exact Te|exact K1].
  - destruct (open q) as [m|]; [apply sends_ret in K as (_ & -> & ->); apply tracks_nil|]. destruct (pending E); [destruct St|]. destruct St as [D U].
    inversion U as [d0|e e2 d p s0 pa En Gp D' D1]; subst; rewrite <- ?H, <- ?D1 in *; [apply sends_ret in K as (_ & -> & ->); apply tracks_nil|]. cbn match in K.
    apply sends_bind in K as (y1 & t1 & l1 & l2 & K1 & K & ->). apply sends_ret in K as (_ & Q & ->). rewrite app_nil_r, Q. inversion T2 as [|? ? Te _]; subst.
    eapply redo_entry_tracks; [exact En|exact C|apply Gp|exact Te|exact K1].
  - eapply quiet_same; [exact K|]. intros y t Q. cbn [act] in Q. destruct (open q); apply runs_ret in Q as [_ ->]; reflexivity.
Qed.
Lemma history_tracks lim acts E E' : history lim acts E E' -> forall q q' s' l, follows lim q E -> typed_stack q -> Forall typed_action acts -> sends (session_s acts q) (now E) q' s' l ->
  tracks (now E) l s' /\ s' = now E'.
Proof.
  induction 1 as [E|x acts E E1 E2 Ed H IH]; intros q q' s' l F Tq Ta K; cbn [session_s] in K; [apply sends_ret in K as (-> & -> & ->); split; [apply tracks_nil|reflexivity]|].
  inversion Ta as [|? ? Tx Tas]; subst. apply sends_bind in K as (q1 & s1 & l1 & l2 & K1 & K & ->). destruct (act_tracks _ _ _ _ _ _ _ _ F Ed Tq Tx K1) as (U & -> & F1 & Tq1).
  destruct (IH q1 q' s' l2 F1 Tq1 Tas K) as [U2 ->]. split; [|reflexivity]. eapply tracks_app; eassumption.
Qed.
