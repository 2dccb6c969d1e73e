(** RiskAnalysis::Analyze and RiskAnalysis::RunAnalysis(context), src/risk_analysis.cc:34-124,
    as far as they touch the model: mission times and house-event states.
    Simplifications: names are numbers; the analyses of gates and sequences are one step that
    observes the state and may move the model's mission time over the time grid but puts it back
    to its value (CalculateProbabilityOverTime, probability_analysis.cc:193-216, ends with
    update(total_time)); times are of an arbitrary type with a product (no arithmetic law is
    used, so floating-point is covered). *)
From Coq Require Import List Arith Lia Bool.
Import ListNotations.

Section Times.
Context {T : Type} (mul : T -> T -> T).

Record mstate := mkM {
  houses : nat -> option bool;    (* model_->table<HouseEvent>() *)
  model_time : T;                 (* model_->mission_time().value() *)
  settings_time : T }.            (* Analysis::settings().mission_time() *)
Record phase := mkPhase { fraction : T; instructions : list (nat * bool) }.
Definition set_house (h : nat) (b : bool) (f : nat -> option bool) : nat -> option bool :=
  fun x => if Nat.eqb x h then Some b else f x.

(** risk_analysis.cc:72-83; None: the assertion "Invalid instruction" fails.  The second
    component is the vector of (event, old state). *)
Fixpoint apply_instructions (l : list (nat * bool)) (f : nat -> option bool) (saved : list (nat * bool))
  : option ((nat -> option bool) * list (nat * bool)) :=
  match l with
  | [] => Some (f, saved)
  | (h, b) :: l =>
      match f h with
      | None => None
      | Some old =>
          if Bool.eqb old b then apply_instructions l f saved
          else apply_instructions l (set_house h b f) (saved ++ [(h, old)])
      end
  end.
(** risk_analysis.cc:61-62: the saved states are put back from the front of the vector. *)
Definition restore (saved : list (nat * bool)) (f : nat -> option bool) : nat -> option bool :=
  fold_left (fun f e => set_house (fst e) (snd e) f) saved f.

(** RunAnalysis(context): the state seen by the analyses, and the state left behind. *)
Definition run_phase (c : option phase) (s : mstate) : option (mstate * mstate) :=
  let init_time := model_time s in
  match c with
  | None => Some (s, mkM (houses s) init_time init_time)
  | Some p =>
      let t := mul (fraction p) (model_time s) in
      match apply_instructions (instructions p) (houses s) [] with
      | None => None
      | Some (f, saved) => Some (mkM f t t, mkM (restore saved f) init_time init_time)
      end
  end.
(** Analyze: the states in which the successive analyses run, and the final state. *)
Fixpoint run_phases (ps : list phase) (s : mstate) : option (list mstate * mstate) :=
  match ps with
  | [] => Some ([], s)
  | p :: ps =>
      match run_phase (Some p) s with
      | None => None
      | Some (seen, s1) =>
          match run_phases ps s1 with None => None | Some (l, s2) => Some (seen :: l, s2) end
      end
  end.
Definition analyze_model (alignments : list (list phase)) (s : mstate) : option (list mstate * mstate) :=
  match alignments with
  | [] => match run_phase None s with Some (seen, s1) => Some ([seen], s1) | None => None end
  | _ => run_phases (concat alignments) s
  end.

(** ** Specification *)
(** The house states a phase asks for: the last instruction for a name wins. *)
Fixpoint wanted (l : list (nat * bool)) (f : nat -> option bool) (h : nat) : option bool :=
  match l with
  | [] => f h
  | (h', b) :: l => wanted l (fun x => if Nat.eqb x h' then Some b else f x) h
  end.
Definition same (s s' : mstate) : Prop :=
  (forall h, houses s h = houses s' h) /\ model_time s = model_time s' /\ settings_time s = settings_time s'.
Definition known (l : list (nat * bool)) (f : nat -> option bool) : Prop := forall h b, In (h, b) l -> f h <> None.
(** [seen] is what a phase should be analysed with when the model is [s]. *)
Definition phase_view (p : phase) (s seen : mstate) : Prop :=
  (forall h, houses seen h = wanted (instructions p) (houses s) h) /\
  model_time seen = mul (fraction p) (model_time s) /\ settings_time seen = mul (fraction p) (model_time s).

(** ** Proofs *)
Lemma wanted_ext l : forall f g, (forall h, f h = g h) -> forall h, wanted l f h = wanted l g h.
Proof.
  induction l as [|[h' b] l IH]; intros f g E h; simpl; auto. apply IH. intros x. destruct (Nat.eqb x h'); auto.
Qed.
Lemma apply_view l : forall f saved f' saved', apply_instructions l f saved = Some (f', saved') ->
  forall h, f' h = wanted l f h.
Proof.
  induction l as [|[h' b] l IH]; intros f saved f' saved' H h; simpl in *.
  - inversion H; auto.
  - destruct (f h') as [old|] eqn:E; [|discriminate]. destruct (Bool.eqb old b) eqn:B.
    + apply eqb_prop in B. subst. rewrite (IH _ _ _ _ H h). apply wanted_ext. intros x.
      destruct (Nat.eqb_spec x h'); subst; auto.
    + rewrite (IH _ _ _ _ H h). reflexivity.
Qed.
Lemma apply_total l : forall f saved, known l f -> apply_instructions l f saved <> None.
Proof.
  induction l as [|[h b] l IH]; intros f saved K; simpl; [discriminate|].
  destruct (f h) as [old|] eqn:E; [|elim (K h b); simpl; auto].
  destruct (Bool.eqb old b); apply IH.
  - intros h' b' I. apply (K h' b'). simpl; auto.
  - intros h' b' I. unfold set_house. destruct (Nat.eqb_spec h' h); [discriminate|]. apply (K h' b'). simpl; auto.
Qed.
Lemma restore_app a b f : restore (a ++ b) f = restore b (restore a f).
Proof. unfold restore. apply fold_left_app. Qed.
Lemma restore_other l : forall f h, ~ In h (map fst l) -> restore l f h = f h.
Proof.
  induction l as [|[h' b] l IH]; intros f h N; simpl; auto. change (restore l (set_house h' b f) h = f h). rewrite IH.
  - unfold set_house. destruct (Nat.eqb_spec h h'); auto. subst. elim N. simpl; auto.
  - simpl in N. tauto.
Qed.
Lemma apply_saved l : forall f saved f' saved', NoDup (map fst l) ->
  apply_instructions l f saved = Some (f', saved') ->
  exists new, saved' = saved ++ new /\ (forall h, In h (map fst new) -> In h (map fst l)) /\
    forall h, restore new f' h = f h.
Proof.
  induction l as [|[h b] l IH]; intros f saved f' saved' D H; simpl in *.
  - inversion H; subst. exists []. rewrite app_nil_r. simpl. auto.
  - destruct (f h) as [old|] eqn:E; [|discriminate]. inversion D; subst. destruct (Bool.eqb old b) eqn:B.
    + destruct (IH _ _ _ _ H3 H) as (new & A1 & A2 & A3). exists new. auto.
    + destruct (IH _ _ _ _ H3 H) as (new & A1 & A2 & A3). exists ((h, old) :: new). rewrite A1, <- app_assoc. split; auto.
      split; [intros x [<-|I]; simpl; auto|]. intros x. simpl.
      change (restore new (set_house h old f') x = f x).
      destruct (in_dec Nat.eq_dec x (map fst new)) as [I|I].
      * assert (x <> h) by (intros ->; apply H2, A2, I).
        (* the value written for x by [new] does not depend on the start *)
        assert (G : forall l g g', In x (map fst l) -> restore l g x = restore l g' x).
        { clear. induction l as [|[y b] l IH]; intros g g' I; simpl in *; [tauto|].
          change (restore l (set_house y b g) x = restore l (set_house y b g') x).
          destruct (in_dec Nat.eq_dec x (map fst l)); [now apply IH|].
          rewrite !restore_other by auto. destruct I as [->|I]; [|tauto]. unfold set_house. now rewrite Nat.eqb_refl. }
        rewrite (G new _ f' I), A3. unfold set_house. destruct (Nat.eqb_spec x h); [contradiction|auto].
      * rewrite restore_other by auto. unfold set_house. destruct (Nat.eqb_spec x h) as [->|N]; [congruence|].
        rewrite <- (restore_other new f' x I), A3. unfold set_house. destruct (Nat.eqb_spec x h); [contradiction|auto].
Qed.
End Times.
Arguments mstate : clear implicits.
Arguments phase : clear implicits.
