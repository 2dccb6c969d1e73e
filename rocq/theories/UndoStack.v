(** The command stack against the editor that keeps copies (UndoSpec.v). *)
From stdpp Require Import gmap strings list.
From Coq Require Import List String.
From Verif Require Import Undo UndoSpec UndoProofs UndoRuns UndoKeeps UndoKeeps2 UndoBack.
Import ListNotations.

Definition good_model (s : model) : Prop := consistent s /\ plain_flavors s.
(** [l] after its redo, [l2] before it: from the model [s] to the model [t]. *)
Inductive entry : list command -> list command -> model -> model -> Prop :=
| entry_nil s : entry [] [] s s
| entry_cons c c2 l l2 s1 s2 s3 : good_model s1 -> runs (undo c) s2 c2 s1 -> runs (redo c2) s1 c s2 -> entry l l2 s2 s3 -> entry (c :: l) (c2 :: l2) s1 s3.
Lemma entry_app l l2 m m2 s t u : entry l l2 s t -> entry m m2 t u -> entry (l ++ m) (l2 ++ m2) s u.
Proof. induction 1; cbn; intros K; [exact K|]. econstructor; eauto. Qed.
Lemma entry_undo l l2 s t : entry l l2 s t -> runs (undo_all l) t l2 s.
Proof.
  induction 1 as [s|c c2 l l2 s1 s2 s3 _ U _ _ IH]; cbn [undo_all]; [apply runs_ret; auto|]. apply runs_bind. exists l2, s2. split; [exact IH|].
  apply runs_bind. exists c2, s1. split; [exact U|]. apply runs_ret. auto.
Qed.
Lemma entry_redo l l2 s t : entry l l2 s t -> runs (redo_all l2) s l t.
Proof.
  induction 1 as [s|c c2 l l2 s1 s2 s3 _ _ U _ IH]; cbn [redo_all]; [apply runs_ret; auto|]. apply runs_bind. exists c, s2. split; [exact U|].
  apply runs_bind. exists l, s3. split; [exact IH|]. apply runs_ret. auto.
Qed.
Inductive dones : list (list command) -> model -> list model -> Prop :=
| dones_nil s : dones [] s []
| dones_cons l l2 d p s past : entry l l2 p s -> good_model p -> dones d p past -> dones (l :: d) s (p :: past).
Inductive undones : list (list command) -> model -> list model -> Prop :=
| undones_nil s : undones [] s []
| undones_cons l l2 u p s future : entry l l2 s p -> good_model p -> undones u p future -> undones (l2 :: u) s (p :: future).
Lemma dones_length d s p : dones d s p -> List.length p = List.length d.
Proof. induction 1; cbn; congruence. Qed.
Lemma undones_length d s p : undones d s p -> List.length p = List.length d.
Proof. induction 1; cbn; congruence. Qed.
Lemma dones_firstn n d s p : dones d s p -> dones (firstn n d) s (firstn n p).
Proof. intros K. revert n. induction K as [s|l l2 d p s past E G K IH]; intros [|n]; cbn; try constructor. econstructor; eauto. Qed.

Definition timeline (E : editor) : list model := rev (past E) ++ (match pending E with Some p => p | None => now E end) :: future E.
Record follows (lim : nat) (q : stack) (E : editor) : Prop := {
  fo_limit : limit q = lim;
  fo_good : good_model (now E);
  fo_clean i : clean q = Some i -> timeline E !! i = Some (saved E);
  fo_stack : match open q, pending E with
             | None, None => dones (done q) (now E) (past E) /\ undones (undone q) (now E) (future E)
             | Some l, Some p => (exists l2, entry (rev l) l2 p (now E)) /\ good_model p /\ dones (done q) p (past E) /\ undone q = [] /\ future E = []
             | _, _ => False
             end }.
Lemma follows_loaded lim s : good_model s -> follows lim (new_stack lim) (loaded s).
Proof. intros G. split; cbn; auto; [intros i [= <-]; reflexivity|]. split; constructor. Qed.

Lemma lookup_firstn_rev (n : nat) (l : list model) x f i : n <= List.length l -> List.length l - n <= i ->
  (rev l ++ x :: f) !! i = (rev (firstn n l) ++ x :: f) !! (i - (List.length l - n)).
Proof.
  intros K Ki. rewrite <- (firstn_skipn n l) at 1. rewrite rev_app_distr, <- app_assoc. assert (L : List.length (rev (skipn n l)) = List.length l - n) by (rewrite rev_length, skipn_length; reflexivity).
  rewrite lookup_app_r by (rewrite L; exact Ki). rewrite L. reflexivity.
Qed.
(** A new entry on top of the stack. *)
Lemma follows_new lim d l l2 cl p pa t v :
  dones d p pa -> entry l l2 p t -> good_model p -> good_model t ->
  (forall i, cl = Some i -> (rev pa ++ [p]) !! i = Some v) ->
  follows lim (cut (Stack (l :: d) [] None cl lim)) (Editor (keep lim (p :: pa)) t [] None v).
Proof.
  intros D En Gp Gt Cl. assert (D' : dones (l :: d) t (p :: pa)) by (econstructor; eauto). assert (Lp : List.length pa = List.length d) by (eapply dones_length; eauto).
  assert (Cl' : forall i, cl = Some i -> (rev (p :: pa) ++ [t]) !! i = Some v).
  { intros i Q. apply Cl in Q. cbn [rev]. rewrite lookup_app_l; [exact Q|]. apply lookup_lt_Some in Q. exact Q. }
  unfold cut, keep. cbn [limit done undone open clean]. destruct (lim =? 0) eqn:L0; cbn [orb].
  { split; cbn; auto. split; [exact D'|constructor]. }
  destruct (List.length (l :: d) <=? lim) eqn:L1.
  { apply Nat.leb_le in L1. rewrite firstn_all2 by (cbn in *; lia). split; cbn; auto. split; [exact D'|constructor]. }
  apply Nat.leb_gt in L1. set (del := List.length (l :: d) - lim) in *. split; cbn [limit now clean saved timeline done undone open past future pending]; auto.
  - intros i Q. destruct cl as [j|]; [|cbn in Q; discriminate Q]. destruct (j <? del) eqn:Lj; [cbn in Q; discriminate Q|]. apply Nat.ltb_ge in Lj. injection Q as <-. unfold timeline. cbn [past pending now future].
    rewrite <- (Cl' j eq_refl). unfold del in *. assert (Q2 : List.length (l :: d) = List.length (p :: pa)) by (cbn; congruence). rewrite Q2 in *. rewrite (lookup_firstn_rev lim (p :: pa) t [] j); [reflexivity| |]; lia.
  - split; [apply dones_firstn; exact D'|constructor].
Qed.
Lemma clean_forget q E i : (forall i, clean q = Some i -> timeline E !! i = Some (saved E)) -> pending E = None -> index q = List.length (past E) -> clean (forget q) = Some i ->
  (rev (past E) ++ [now E]) !! i = Some (saved E).
Proof.
  intros C P L Q. unfold forget in Q. cbn [clean] in Q. destruct (clean q) as [j|]; [|discriminate]. destruct (index q <? j) eqn:Lj; [discriminate|]. apply Nat.ltb_ge in Lj. injection Q as <-. specialize (C j eq_refl). unfold timeline in C. rewrite P in C.
  assert (W : rev (past E) ++ now E :: future E = (rev (past E) ++ [now E]) ++ future E) by (rewrite <- app_assoc; reflexivity). rewrite W in C.
  rewrite lookup_app_l in C; [exact C|]. rewrite app_length, rev_length. cbn. lia.
Qed.
Lemma follows_step lim x q E E' : follows lim q E -> edits lim x E E' -> exists q', runs (act x q) (now E) q' (now E') /\ follows lim q' E'.
Proof.
  intros [Fl Fg Fc Fs] S. destruct S as [c E N A|c E p N A|E N|E p N|E p l N Pa|E p l N Fu|E N|E N|E H|E H|E N].
  - (* push *) rewrite N in Fs. destruct (open q) as [?|] eqn:Op; [destruct Fs|]. destruct Fs as [D U]. destruct Fg as [C P]. destruct (edited_keeps _ _ C P A) as [C' P']. destruct (undo_edited _ _ C P A) as (c2 & R1 & R2).
    eexists. split.
    + cbn [act now]. apply runs_bind. exists (next c (now E)), (edited c (now E)). split; [apply redo_edited; assumption|]. rewrite Op. apply runs_ret. split; reflexivity.
    + rewrite <- Fl at 2. cbv zeta. cbn [forget done limit clean]. rewrite Fl. apply (follows_new lim _ [next c (now E)] [c2]); [exact D| |split; assumption|split; assumption|].
      { econstructor; [split; assumption|exact R1|exact R2|constructor]. }
      intros i Q. apply (clean_forget q); auto. unfold index. symmetry. eapply dones_length; eauto.
  - (* push in a macro *) rewrite N in Fs. destruct (open q) as [m|] eqn:Op; [|destruct Fs]. destruct Fs as ((m2 & En) & Gp & D & U & F). destruct Fg as [C P]. destruct (edited_keeps _ _ C P A) as [C' P']. destruct (undo_edited _ _ C P A) as (c2 & R1 & R2).
    eexists. split.
    + cbn [act now]. apply runs_bind. exists (next c (now E)), (edited c (now E)). split; [apply redo_edited; assumption|]. rewrite Op. apply runs_ret. split; reflexivity.
    + split; cbn [limit open clean done undone now past future pending saved]; auto; [split; assumption| |].
      * intros i Q. specialize (Fc i Q). unfold timeline in *. cbn [past pending future]. rewrite N in Fc. exact Fc.
      * split; [|auto]. exists (m2 ++ [c2]). cbn [rev]. eapply entry_app; [exact En|]. econstructor; [split; assumption|exact R1|exact R2|constructor].
  - (* begin *) rewrite N in Fs. destruct (open q) as [?|] eqn:Op; [destruct Fs|]. destruct Fs as [D U]. eexists. split.
    + cbn [act now]. rewrite Op. apply runs_ret. split; reflexivity.
    + split; cbn [limit open clean done undone now past future pending saved forget]; auto.
      * intros i Q. unfold timeline. cbn [past pending future]. apply (clean_forget q); auto. unfold index. symmetry. eapply dones_length; eauto.
      * split; [exists []; constructor|]. auto.
  - (* end *) rewrite N in Fs. destruct (open q) as [m|] eqn:Op; [|destruct Fs]. destruct Fs as ((m2 & En) & Gp & D & U & F). eexists. split.
    + cbn [act now]. rewrite Op. apply runs_ret. split; reflexivity.
    + rewrite U, F, Fl. eapply follows_new; eauto. intros i Q. specialize (Fc i Q). unfold timeline in Fc. rewrite N, F in Fc. exact Fc.
  - (* undo *) rewrite N in Fs. destruct (open q) as [?|] eqn:Op; [destruct Fs|]. rewrite Pa in Fs. destruct Fs as [D U]. inversion D as [|e e2 d p' s past' En Gp D' E1 E2]. subst. eexists. split.
    + cbn [act now]. rewrite Op. rewrite <- E1. apply runs_bind. exists e2, p. split; [apply (entry_undo _ _ _ _ En)|]. apply runs_ret. split; reflexivity.
    + split; cbn [limit open clean done undone now past future pending saved]; auto.
      * intros i Q. specialize (Fc i Q). unfold timeline in *. cbn [past pending now future]. rewrite N, Pa in Fc. cbn [rev] in Fc. rewrite <- app_assoc in Fc. exact Fc.
      * split; [assumption|]. econstructor; eauto.
  - (* redo *) rewrite N in Fs. destruct (open q) as [?|] eqn:Op; [destruct Fs|]. rewrite Fu in Fs. destruct Fs as [D U]. inversion U as [|e e2 d p' s past' En Gp D' E1 E2]. subst. eexists. split.
    + cbn [act now]. rewrite Op. rewrite <- E1. apply runs_bind. exists e, p. split; [apply (entry_redo _ _ _ _ En)|]. apply runs_ret. split; reflexivity.
    + split; cbn [limit open clean done undone now past future pending saved]; auto.
      * intros i Q. specialize (Fc i Q). unfold timeline in *. cbn [past pending now future]. rewrite N, Fu in Fc. cbn [rev]. rewrite <- app_assoc. exact Fc.
      * split; [|assumption]. econstructor; eauto.
  - (* save *) rewrite N in Fs. destruct (open q) as [?|] eqn:Op; [destruct Fs|]. destruct Fs as [D U]. eexists. split.
    + cbn [act now]. rewrite Op. apply runs_ret. split; reflexivity.
    + split; cbn [limit open clean done undone now past future pending saved]; auto.
      intros i [= <-]. unfold timeline, index. cbn [past pending now future]. rewrite <- (dones_length _ _ _ D), <- rev_length. apply list_lookup_middle. reflexivity.
  - rewrite N in Fs. destruct (open q) as [?|] eqn:Op; [destruct Fs|]. exists q. split; [cbn [act]; rewrite Op; apply runs_ret; auto|]. split; auto. rewrite N, Op. exact Fs.
  - exists q. split; [|split; auto]. cbn [act]. destruct (open q) as [m|] eqn:Op; [apply runs_ret; auto|]. destruct (pending E) eqn:N'; [destruct Fs|]. destruct H as [H|H]; [congruence|]. rewrite H in Fs. destruct Fs as [D _]. inversion D. apply runs_ret. auto.
  - exists q. split; [|split; auto]. cbn [act]. destruct (open q) as [m|] eqn:Op; [apply runs_ret; auto|]. destruct (pending E) eqn:N'; [destruct Fs|]. destruct H as [H|H]; [congruence|]. rewrite H in Fs. destruct Fs as [_ U]. inversion U. apply runs_ret. auto.
  - exists q. split; [|split; auto]. cbn [act]. destruct (open q) as [m|] eqn:Op; [apply runs_ret; auto|]. destruct (pending E) eqn:N'; [destruct Fs|congruence].
Qed.
Lemma follows_history lim l q E E' : follows lim q E -> history lim l E E' -> exists q', runs (session l q) (now E) q' (now E') /\ follows lim q' E'.
Proof.
  intros F H. revert q F. induction H as [E|x l E E1 E2 S H IH]; intros q F.
  - exists q. split; [apply runs_ret; auto|exact F].
  - destruct (follows_step _ _ _ _ _ F S) as (q1 & R1 & F1). destruct (IH q1 F1) as (q2 & R2 & F2). exists q2. split; [|exact F2]. cbn [session]. apply runs_bind. eauto.
Qed.
