(** Properties C35 and C36: event-tree analysis. *)
From Coq Require Import List Arith QArith Lia Bool Sorted.
From Verif Require Import EventTree.
Import ListNotations.
Local Open Scope nat_scope.

(** ** Specification *)

(** Truth of a formula when some house events are overridden. *)
Fixpoint t_ev (s : sets) (env : nat -> bool) (e : ev) : bool :=
  match e with
  | EBasic n => env n
  | EHouse id st => match s id with Some b => b | None => st end
  | EGate f => t_form s env f
  end
with t_form (s : sets) (env : nat -> bool) (f : form) : bool := match f with Form c l => c (t_evs s env l) end
with t_evs (s : sets) (env : nat -> bool) (l : evs) : list bool :=
  match l with ENil => [] | ECons c e l => xorb c (t_ev s env e) :: t_evs s env l end.

(** What happens along a path. *)
Inductive act := AHouse (h : nat) (b : bool) | AExpr (e : nat) | AFormula (f : form).

(** The paths of a tree: [leads b x acts s] - from branch b with functional-event states x
    there is a path to sequence s along which [acts] happen in order.  An if-then-else takes
    the arm its condition selects; a link continues in the linked tree, where the functional
    events start afresh, and a sequence that follows a link is not an end state itself. *)
Inductive execs : instrs -> context -> list act -> bool -> Prop :=
  | ex_nil x : execs INil x [] false
  | ex_cons i is x a1 l1 a2 l2 : exec i x a1 l1 -> execs is x a2 l2 -> execs (ICons i is) x (a1 ++ a2) (l1 || l2)
with exec : instr -> context -> list act -> bool -> Prop :=
  | ex_set h b x : exec (ISet h b) x [AHouse h b] false
  | ex_expr e x : exec (IExpr e) x [AExpr e] false
  | ex_formula f x : exec (IFormula f) x [AFormula f] false
  | ex_link b x : exec (ILink b) x [] true
  | ex_yes c y n x a l : c x = true -> execs y x a l -> exec (IIf c y n) x a l
  | ex_no c y n x a l : c x = false -> execs n x a l -> exec (IIf c y n) x a l
  | ex_block is x a l : execs is x a l -> exec (IBlock is) x a l.
Inductive leads : branch -> context -> list act -> nat -> Prop :=
  | l_divert is t x a s : diverts is x a s -> leads (Branch is t) x a s
  | l_target is t x a1 l a2 s : execs is x a1 l -> arrives t x a2 s -> leads (Branch is t) x (a1 ++ a2) s
with arrives : target -> context -> list act -> nat -> Prop :=
  | a_seq s is x a : execs is x a false -> arrives (TSeq s is) x a s
  | a_divert s is x a s' : diverts is x a s' -> arrives (TSeq s is) x a s'
  | a_fork fe ps st b x a s : in_paths st b ps -> leads b (set_context fe st x) a s -> arrives (TFork fe ps) x a s
  | a_named b x a s : leads b x a s -> arrives (TNamed b) x a s
with diverts : instrs -> context -> list act -> nat -> Prop :=
  | d_here i is x a s : divert1 i x a s -> diverts (ICons i is) x a s
  | d_later i is x a1 l a2 s : exec i x a1 l -> diverts is x a2 s -> diverts (ICons i is) x (a1 ++ a2) s
with divert1 : instr -> context -> list act -> nat -> Prop :=
  | d_link b x a s : leads b no_context a s -> divert1 (ILink b) x a s
  | d_yes c y n x a s : c x = true -> diverts y x a s -> divert1 (IIf c y n) x a s
  | d_no c y n x a s : c x = false -> diverts n x a s -> divert1 (IIf c y n) x a s
  | d_block is x a s : diverts is x a s -> divert1 (IBlock is) x a s
with in_paths : nat -> branch -> paths -> Prop :=
  | p_here st b ps : in_paths st b (PCons st b ps)
  | p_later st b st' b' ps : in_paths st b ps -> in_paths st b (PCons st' b' ps).

(** Does a path occur under an assignment: every formula collected holds with the house
    events set so far. *)
Fixpoint occurs (env : nat -> bool) (a : list act) (s : sets) : Prop :=
  match a with
  | [] => True
  | AHouse h b :: a => occurs env a (add_set h b s)
  | AExpr _ :: a => occurs env a s
  | AFormula f :: a => t_form s env f = true /\ occurs env a s
  end.
(** The product of the expressions of a path. *)
Fixpoint path_value (v : nat -> Q) (a : list act) : Q :=
  match a with
  | [] => 1
  | AExpr e :: a => (v e * path_value v a)%Q
  | _ :: a => path_value v a
  end.
Definition has_formula (a : list act) : Prop := exists f, In (AFormula f) a.
Definition has_expr (a : list act) : Prop := exists e, In (AExpr e) a.

(** ** Cloning *)
Lemma clone_correct s empty env : (empty = true -> forall h, s h = None) ->
  (forall e, t_ev no_sets env (clone_ev s empty e) = t_ev s env e) /\
  (forall f, t_form no_sets env (clone_form s empty f) = t_form s env f) /\
  (forall l, t_evs no_sets env (clone_evs s empty l) = t_evs s env l).
Proof.
  intros E.
  assert (EXT : (forall h, s h = None) -> 
    (forall e, t_ev no_sets env e = t_ev s env e) /\ (forall f, t_form no_sets env f = t_form s env f) /\
    (forall l, t_evs no_sets env l = t_evs s env l)).
  { intros N. apply ev_form_ind; intros; simpl in *; try congruence. now rewrite N. }
  apply ev_form_ind; intros; simpl in *; try congruence.
  - destruct (s id) as [b|] eqn:S; simpl; auto. destruct (Bool.eqb b state) eqn:Q; simpl; auto.
    apply Bool.eqb_prop in Q. auto.
  - destruct empty; simpl; auto. now apply EXT, E.
Qed.

(** ** The collector follows the paths *)
(** The collector state after some actions. *)
Definition act_apply (a : act) (p : collector) : collector :=
  match a with
  | AHouse h b => mkPC (pc_exprs p) (pc_formulas p) (add_set h b (pc_sets p)) true
  | AExpr e => mkPC (pc_exprs p ++ [e]) (pc_formulas p) (pc_sets p) (pc_any p)
  | AFormula f => mkPC (pc_exprs p) (pc_formulas p ++ [clone_form (pc_sets p) (negb (pc_any p)) f]) (pc_sets p) (pc_any p)
  end.
Definition acts_apply (a : list act) (p : collector) : collector := fold_left (fun p a => act_apply a p) a p.
Lemma acts_apply_app a b p : acts_apply (a ++ b) p = acts_apply b (acts_apply a p).
Proof. apply fold_left_app. Qed.

(** unique execution *)
Definition P_i (i : instr) := forall x p, match c_instr i x p with
  | None => True
  | Some (p', l, o) => exists a, (forall a' l', exec i x a' l' <-> a' = a /\ l' = l) /\ p' = acts_apply a p /\
      (forall s q, In (s, q) o <-> exists a', divert1 i x a' s /\ q = acts_apply a' p)
  end.
Definition P_is (is : instrs) := forall x p, match c_instrs is x p with
  | None => True
  | Some (p', l, o) => exists a, (forall a' l', execs is x a' l' <-> a' = a /\ l' = l) /\ p' = acts_apply a p /\
      (forall s q, In (s, q) o <-> exists a', diverts is x a' s /\ q = acts_apply a' p)
  end.
Definition P_b (b : branch) := forall x p, match c_branch b x p with
  | None => True
  | Some o => forall s q, In (s, q) o <-> exists a', leads b x a' s /\ q = acts_apply a' p
  end.
Definition P_t (t : target) := forall x p, match c_target t x p with
  | None => True
  | Some o => forall s q, In (s, q) o <-> exists a', arrives t x a' s /\ q = acts_apply a' p
  end.
Definition P_ps (ps : paths) := forall fe x p, match c_paths fe ps x p with
  | None => True
  | Some o => forall s q, In (s, q) o <-> exists st b a', in_paths st b ps /\ leads b (set_context fe st x) a' s /\ q = acts_apply a' p
  end.

Lemma collect_ok : (forall i, P_i i) /\ (forall is, P_is is) /\ (forall b, P_b b) /\ (forall t, P_t t) /\ (forall ps, P_ps ps).
Proof.
  apply tree_ind; unfold P_i, P_is, P_b, P_t, P_ps; simpl.
  - (* set *) intros h b x p. exists [AHouse h b]. split; [|split; [reflexivity|]].
    + intros a' l'. split; [inversion 1; auto|intros [-> ->]; constructor].
    + intros s q. split; [contradiction|]. intros (a' & H & _). inversion H.
  - (* expr *) intros e x p. exists [AExpr e]. split; [|split; [reflexivity|]].
    + intros a' l'. split; [inversion 1; auto|intros [-> ->]; constructor].
    + intros s q. split; [contradiction|]. intros (a' & H & _). inversion H.
  - (* formula *) intros f x p. exists [AFormula f]. split; [|split; [reflexivity|]].
    + intros a' l'. split; [inversion 1; auto|intros [-> ->]; constructor].
    + intros s q. split; [contradiction|]. intros (a' & H & _). inversion H.
  - (* link *) intros b IH x p. specialize (IH no_context p). destruct (c_branch b no_context p) as [o|]; auto.
    exists []. split; [|split; [reflexivity|]].
    + intros a' l'. split; [inversion 1; auto|intros [-> ->]; constructor].
    + intros s q. rewrite IH. split; intros (a' & H & ->); exists a'; split; auto; [constructor; auto|inversion H; auto].
  - (* if *) intros c y IHy n IHn x p. destruct (c x) eqn:C.
    + specialize (IHy x p). destruct (c_instrs y x p) as [[[p' l] o]|]; auto. destruct IHy as (a & H1 & H2 & H3).
      exists a. split; [|split; auto].
      * intros a' l'. rewrite <- H1. split; [inversion 1; subst; congruence || auto|constructor; auto].
      * intros s q. rewrite H3. split; intros (a' & H & ->); exists a'; split; auto; [constructor; auto|inversion H; subst; congruence || auto].
    + specialize (IHn x p). destruct (c_instrs n x p) as [[[p' l] o]|]; auto. destruct IHn as (a & H1 & H2 & H3).
      exists a. split; [|split; auto].
      * intros a' l'. rewrite <- H1. split; [inversion 1; subst; congruence || auto|intros; apply ex_no; auto].
      * intros s q. rewrite H3. split; intros (a' & H & ->); exists a'; split; auto; [apply d_no; auto|inversion H; subst; congruence || auto].
  - (* block *) intros is IH x p. specialize (IH x p). destruct (c_instrs is x p) as [[[p' l] o]|]; auto.
    destruct IH as (a & H1 & H2 & H3). exists a. split; [|split; auto].
    + intros a' l'. rewrite <- H1. split; [inversion 1; auto|constructor; auto].
    + intros s q. rewrite H3. split; intros (a' & H & ->); exists a'; split; auto; [constructor; auto|inversion H; auto].
  - (* nil *) intros x p. exists []. split; [|split; [reflexivity|]].
    + intros a' l'. split; [inversion 1; auto|intros [-> ->]; constructor].
    + intros s q. split; [contradiction|]. intros (a' & H & _). inversion H.
  - (* cons *) intros i IHi is IHis x p. specialize (IHi x p). destruct (c_instr i x p) as [[[p1 l1] o1]|]; auto.
    destruct IHi as (a1 & A1 & -> & A3). specialize (IHis x (acts_apply a1 p)).
    destruct (c_instrs is x (acts_apply a1 p)) as [[[p2 l2] o2]|]; auto. destruct IHis as (a2 & B1 & -> & B3).
    exists (a1 ++ a2). split; [|split; [now rewrite acts_apply_app|]].
    + intros a' l'. split.
      * inversion 1; subst.
        match goal with E : exec i x _ _, F : execs is x _ _ |- _ => apply A1 in E; apply B1 in F; destruct E as [-> ->], F as [-> ->] end.
        auto.
      * intros [-> ->]. constructor; [now apply A1|now apply B1].
    + intros s q. rewrite in_app_iff, A3, B3. split.
      * intros [(a' & H & ->)|(a' & H & ->)].
        -- exists a'. split; auto. now constructor.
        -- exists (a1 ++ a'). split; [|now rewrite acts_apply_app]. apply d_later with l1; auto. now apply A1.
      * intros (a' & H & ->). inversion H; subst.
        -- left. eauto.
        -- right. match goal with E : exec i x _ _ |- _ => apply A1 in E; destruct E as [-> ->] end.
           eexists. split; eauto. now rewrite acts_apply_app.
  - (* branch *) intros is IHis t IHt x p. specialize (IHis x p). destruct (c_instrs is x p) as [[[p1 l1] o1]|]; auto.
    destruct IHis as (a1 & A1 & -> & A3). specialize (IHt x (acts_apply a1 p)).
    destruct (c_target t x (acts_apply a1 p)) as [o2|]; auto.
    intros s q. rewrite in_app_iff, A3, IHt. split.
    + intros [(a' & H & ->)|(a' & H & ->)].
      * exists a'. split; auto. now constructor.
      * exists (a1 ++ a'). split; [|now rewrite acts_apply_app]. apply l_target with l1; auto. now apply A1.
    + intros (a' & H & ->). inversion H; subst.
      * left. eauto.
      * right. match goal with E : execs is x _ _ |- _ => apply A1 in E; destruct E as [-> ->] end.
        eexists. split; eauto. now rewrite acts_apply_app.
  - (* seq *) intros s0 is IH x p. specialize (IH x p). destruct (c_instrs is x p) as [[[p1 l] o1]|]; auto.
    destruct IH as (a & A1 & -> & A3). intros s q. destruct l.
    + rewrite A3. split; intros (a' & H & ->); exists a'; (split; [|reflexivity]).
      * now constructor.
      * inversion H; subst; auto. match goal with E : execs is x _ false |- _ => apply A1 in E; destruct E; discriminate end.
    + rewrite in_app_iff, A3. simpl. split.
      * intros [(a' & H & ->)|[[= <- <-]|[]]].
        -- exists a'. split; auto. now constructor.
        -- exists a. split; auto. constructor. now apply A1.
      * intros (a' & H & ->). inversion H; subst.
        -- right. left. match goal with E : execs is x _ false |- _ => apply A1 in E; destruct E as [-> _] end. reflexivity.
        -- left. eauto.
  - (* fork *) intros fe ps IH x p. destruct (x fe) as [st|]; [exact I|]. specialize (IH fe x p).
    destruct (c_paths fe ps x p) as [o|]; auto. intros s q. rewrite IH. split.
    + intros (st & b & a' & H1 & H2 & ->). exists a'. split; auto. econstructor; eauto.
    + intros (a' & H & ->). inversion H; subst. eauto 8.
  - (* named *) intros b IH x p. specialize (IH x p). destruct (c_branch b x p) as [o|]; auto.
    intros s q. rewrite IH. split; intros (a' & H & ->); exists a'; (split; [|reflexivity]); [now constructor|now inversion H].
  - (* no paths *) intros fe x p s q. split; [contradiction|]. intros (st & b & a' & H & _). inversion H.
  - (* paths *) intros st b IHb ps IHps fe x p. specialize (IHb (set_context fe st x) p).
    destruct (c_branch b (set_context fe st x) p) as [o1|]; auto. specialize (IHps fe x p).
    destruct (c_paths fe ps x p) as [o2|]; auto. intros s q. rewrite in_app_iff, IHb, IHps. split.
    + intros [(a' & H & ->)|(st' & b' & a' & H1 & H2 & ->)].
      * exists st, b, a'. split; [constructor|]. auto.
      * exists st', b', a'. split; [constructor; auto|]. auto.
    + intros (st' & b' & a' & H1 & H2 & ->). inversion H1; subst; [left; eauto|right; eauto 8].
Qed.

(** ** Meaning of a collected path *)
Definition any_ok (p : collector) := pc_any p = false -> forall h, pc_sets p h = None.
Lemma acts_meaning env : forall a p, any_ok p ->
  (forallb (t_form no_sets env) (pc_formulas (acts_apply a p)) = true <->
   forallb (t_form no_sets env) (pc_formulas p) = true /\ occurs env a (pc_sets p)).
Proof.
  induction a as [|[h b|e|f] a IH]; intros p A; simpl.
  - tauto.
  - rewrite IH; [simpl; tauto|]. intros X; discriminate X.
  - rewrite IH; [simpl; tauto|exact A].
  - rewrite IH; [|exact A]. simpl. rewrite forallb_app. simpl. rewrite andb_true_r, andb_true_iff.
    destruct (clone_correct (pc_sets p) (negb (pc_any p)) env) as (_ & C & _).
    { intros N. apply A. now apply negb_true_iff. }
    rewrite C. tauto.
Qed.
Lemma acts_formulas_nil : forall a p, pc_formulas (acts_apply a p) = [] <-> pc_formulas p = [] /\ ~ has_formula a.
Proof.
  induction a as [|[h b|e|f] a IH]; intros p; simpl.
  - split; [intros ->; split; auto; intros (f & [])|tauto].
  - rewrite IH. simpl. unfold has_formula. simpl. split; intros [H1 H2]; split; auto; intros (f & H); apply H2; [destruct H as [H|H]; [discriminate|eauto]|eauto].
  - rewrite IH. simpl. unfold has_formula. simpl. split; intros [H1 H2]; split; auto; intros (f & H); apply H2; [destruct H as [H|H]; [discriminate|eauto]|eauto].
  - rewrite IH. simpl. split.
    + intros [H _]. destruct (pc_formulas p); discriminate.
    + intros [_ H]. exfalso. apply H. exists f. simpl. auto.
Qed.
Lemma acts_exprs : forall a p, pc_exprs (acts_apply a p) = pc_exprs p ++ flat_map (fun x => match x with AExpr e => [e] | _ => [] end) a.
Proof.
  induction a as [|[h b|e|f] a IH]; intros p; simpl; rewrite ?app_nil_r; auto; rewrite IH; simpl; auto.
  now rewrite <- app_assoc.
Qed.

Lemma gates_truth env l : t_evs no_sets env (gates_of l) = map (t_form no_sets env) l.
Proof. induction l as [|f l IH]; simpl; auto. rewrite IH. f_equal. apply xorb_false_l. Qed.
Lemma forallb_map {X} (f : X -> bool) l : forallb (fun b => b) (map f l) = forallb f l.
Proof. induction l; simpl; auto. now rewrite IHl. Qed.
Lemma existsb_map {X} (f : X -> bool) l : existsb (fun b => b) (map f l) = existsb f l.
Proof. induction l; simpl; auto. now rewrite IHl. Qed.

Lemma path_formula_truth env p : pc_formulas p <> [] ->
  exists f, path_formula p = [f] /\ t_form no_sets env f = forallb (t_form no_sets env) (pc_formulas p).
Proof.
  intros N. unfold path_formula. destruct (pc_formulas p) as [|f [|g l]]; [congruence| |].
  - exists f. split; auto. simpl. now rewrite andb_true_r.
  - eexists. split; [reflexivity|]. cbn [t_form]. rewrite gates_truth. unfold conj. now rewrite forallb_map.
Qed.

(** The gate of a sequence whose paths all collect a formula (and no expression): it holds
    exactly if some path to that sequence occurs. *)
Theorem C35_formulas b s r env : analyze b s = Some r ->
  (exists a, leads b no_context a s) ->
  (forall a, leads b no_context a s -> has_formula a /\ ~ has_expr a) ->
  exists f, r = RFormula f /\
    (t_form no_sets env f = true <-> exists a, leads b no_context a s /\ occurs env a no_sets).
Proof.
  intros A (a0 & L0) HF. unfold analyze in A.
  pose proof (proj1 (proj2 (proj2 collect_ok)) b no_context new_collector) as C.
  destruct (c_branch b no_context new_collector) as [o|]; [|discriminate]. inversion A; subst. clear A.
  set (ps := map snd (filter (fun q => fst q =? s) o)).
  assert (IN : forall q, In q ps <-> exists a, leads b no_context a s /\ q = acts_apply a new_collector).
  { intros q. unfold ps. rewrite in_map_iff. split.
    - intros ([s' q'] & E & H). simpl in E. subst. apply filter_In in H. destruct H as [H E].
      apply Nat.eqb_eq in E. simpl in E. subst. now apply C.
    - intros H. exists (s, q). split; auto. apply filter_In. split; [now apply C|]. simpl. apply Nat.eqb_refl. }
  assert (NE : forall q, In q ps -> pc_formulas q <> [] /\ pc_exprs q = []).
  { intros q Hq. apply IN in Hq. destruct Hq as (a & L & ->). destruct (HF a L) as [F X]. split.
    - intros E. apply acts_formulas_nil in E. tauto.
    - rewrite acts_exprs. simpl. assert (G : forall a, ~ has_expr a -> flat_map (fun x => match x with AExpr e => [e] | _ => [] end) a = []).
      { clear. induction a as [|[h b|e|f] a IH]; simpl; auto; intros N.
        - apply IH. intros (e & He). apply N. exists e. simpl. auto.
        - exfalso. apply N. exists e. simpl. auto.
        - apply IH. intros (e & He). apply N. exists e. simpl. auto. }
      now apply G. }
  assert (ES : flat_map path_expr ps = []).
  { clear -NE. induction ps as [|q ps IH]; simpl; auto. rewrite IH by (intros; apply NE; simpl; auto).
    destruct (NE q (or_introl eq_refl)) as [_ E]. unfold path_expr. now rewrite E. }
  assert (FS : exists fs, flat_map path_formula ps = fs /\ length fs = length ps /\
     (existsb (t_form no_sets env) fs = true <-> exists q, In q ps /\ forallb (t_form no_sets env) (pc_formulas q) = true)).
  { clear -NE. induction ps as [|q ps IH]; simpl.
    - exists []. simpl. split; auto. split; auto. split; [discriminate|]. intros (q & [] & _).
    - destruct IH as (fs & E & L & T); [intros; apply NE; simpl; auto|].
      destruct (path_formula_truth env q) as (f & Ef & Tf); [apply NE; simpl; auto|].
      rewrite Ef, E. eexists. split; [reflexivity|]. simpl. split; [congruence|]. rewrite orb_true_iff, Tf, T. split.
      + intros [H|(q' & H1 & H2)]; eauto.
      + intros (q' & [<-|H1] & H2); eauto. }
  destruct FS as (fs & EF & LF & TF). unfold analyze_sequence. rewrite EF, ES.
  assert (NP : ps <> []) by (intros E; assert (X : In (acts_apply a0 new_collector) ps) by (apply IN; eauto); now rewrite E in X).
  assert (MEAN : (exists q, In q ps /\ forallb (t_form no_sets env) (pc_formulas q) = true) <->
     exists a, leads b no_context a s /\ occurs env a no_sets).
  { split.
    - intros (q & Hq & T). apply IN in Hq. destruct Hq as (a & L & ->). exists a. split; auto.
      apply acts_meaning in T; [tauto|]. intros _ h. reflexivity.
    - intros (a & L & O). exists (acts_apply a new_collector). split; [apply IN; eauto|].
      apply acts_meaning; [intros _ h; reflexivity|]. simpl. auto. }
  destruct fs as [|f [|g fs]].
  - destruct ps; [congruence|discriminate].
  - exists f. split; auto. rewrite <- MEAN, <- TF. simpl. now rewrite orb_false_r.
  - eexists. split; [reflexivity|]. cbn [t_form]. rewrite gates_truth. unfold disj. rewrite existsb_map. now rewrite TF, MEAN.
Qed.

(** A sequence all of whose paths collect nothing always occurs. *)
Theorem C35_certain b s r : analyze b s = Some r ->
  (forall a, leads b no_context a s -> ~ has_formula a /\ ~ has_expr a) -> r = RTrue.
Proof.
  intros A HN. unfold analyze in A.
  pose proof (proj1 (proj2 (proj2 collect_ok)) b no_context new_collector) as C.
  destruct (c_branch b no_context new_collector) as [o|]; [|discriminate]. inversion A; subst. clear A.
  set (ps := map snd (filter (fun q => fst q =? s) o)).
  assert (E : forall q, In q ps -> path_formula q = [] /\ path_expr q = []).
  { intros q Hq. unfold ps in Hq. apply in_map_iff in Hq. destruct Hq as ([s' q'] & E & H). simpl in E. subst.
    apply filter_In in H. destruct H as [H E]. apply Nat.eqb_eq in E. simpl in E. subst. apply C in H.
    destruct H as (a & L & ->). destruct (HN a L) as [N1 N2]. unfold path_formula, path_expr.
    rewrite (proj2 (acts_formulas_nil a new_collector)) by auto.
    rewrite acts_exprs. simpl. split; auto.
    assert (G : flat_map (fun x => match x with AExpr e => [e] | _ => [] end) a = []); [|now rewrite G].
    clear -N2. induction a as [|[h b|e|f] a IH]; simpl; auto.
    - apply IH. intros (e & He). apply N2. exists e. simpl. auto.
    - exfalso. apply N2. exists e. simpl. auto.
    - apply IH. intros (e & He). apply N2. exists e. simpl. auto. }
  unfold analyze_sequence.
  assert (E1 : flat_map path_formula ps = []) by (clear -E; induction ps as [|q ps IH]; simpl; auto; rewrite (proj1 (E q (or_introl eq_refl))); apply IH; intros; apply E; simpl; auto).
  assert (E2 : flat_map path_expr ps = []) by (clear -E; induction ps as [|q ps IH]; simpl; auto; rewrite (proj2 (E q (or_introl eq_refl))); apply IH; intros; apply E; simpl; auto).
  now rewrite E1, E2.
Qed.

(** Mixed case: a path without formulas is dropped.  Here sequence 9 is reached surely on one
    path and with event 1 on another, yet the gate is event 1. *)
Definition mixed_tree : branch :=
  Branch INil (TFork 0 (PCons 1 (Branch INil (TSeq 9 INil))
    (PCons 2 (Branch (ICons (IFormula (Form pass (ECons false (EBasic 1) ENil))) INil) (TSeq 9 INil)) PNil))).
Theorem C35_certain_path_refuted : exists f,
  analyze mixed_tree 9 = Some (RFormula f) /\ t_form no_sets (fun _ => false) f = false /\
  exists a, leads mixed_tree no_context a 9 /\ occurs (fun _ => false) a no_sets.
Proof.
  eexists. split; [reflexivity|]. split; [reflexivity|]. exists []. split; [|exact I].
  change (@nil act) with (@nil act ++ @nil act). eapply l_target; [constructor|].
  eapply a_fork; [constructor|]. change (@nil act) with (@nil act ++ @nil act). eapply l_target; [constructor|].
  apply a_seq. constructor.
Qed.

(** ** Expressions *)
Fixpoint exp_value (v : nat -> Q) (e : exp) : Q :=
  match e with
  | XVar e => v e
  | XMul l => fold_right (fun e q => v e * q)%Q 1%Q l
  | XAdd l => (fix go l := match l with [] => 0%Q | e :: l => (exp_value v e + go l)%Q end) l
  end.
Definition sumQ (l : list Q) : Q := fold_right Qplus 0%Q l.

Lemma path_value_exprs v : forall a, path_value v a =
  fold_right (fun e q => v e * q)%Q 1%Q (flat_map (fun x => match x with AExpr e => [e] | _ => [] end) a).
Proof. induction a as [|[h b|e|f] a IH]; simpl; auto. now rewrite IH. Qed.

(** The collected paths, with multiplicity: the walk lists the action sequences of the paths
    to s, and the value of the sequence is the sum of the paths' products. *)
Theorem C35_expressions b s r v : analyze b s = Some r ->
  (exists a, leads b no_context a s) ->
  (forall a, leads b no_context a s -> has_expr a /\ ~ has_formula a) ->
  exists e, r = RExpr e /\
  exists walks, (forall a, In a walks -> leads b no_context a s) /\
    (forall a, leads b no_context a s -> exists a', In a' walks /\ acts_apply a new_collector = acts_apply a' new_collector) /\
    (exp_value v e == sumQ (map (path_value v) walks))%Q.
Proof.
  intros A (a0 & L0) HF. unfold analyze in A.
  pose proof (proj1 (proj2 (proj2 collect_ok)) b no_context new_collector) as C.
  destruct (c_branch b no_context new_collector) as [o|]; [|discriminate]. inversion A; subst. clear A.
  set (ps := map snd (filter (fun q => fst q =? s) o)).
  assert (IN : forall q, In q ps <-> exists a, leads b no_context a s /\ q = acts_apply a new_collector).
  { intros q. unfold ps. rewrite in_map_iff. split.
    - intros ([s' q'] & E & H). simpl in E. subst. apply filter_In in H. destruct H as [H E].
      apply Nat.eqb_eq in E. simpl in E. subst. now apply C.
    - intros H. exists (s, q). split; auto. apply filter_In. split; [now apply C|]. simpl. apply Nat.eqb_refl. }
  assert (W : exists walks, ps = map (fun a => acts_apply a new_collector) walks /\ forall a, In a walks -> leads b no_context a s).
  { assert (G : forall l, (forall q, In q l -> exists a, leads b no_context a s /\ q = acts_apply a new_collector) ->
       exists walks, l = map (fun a => acts_apply a new_collector) walks /\ forall a, In a walks -> leads b no_context a s).
    { induction l as [|q l IH]; intros H; [exists []; split; auto; intros a []|].
      destruct (H q (or_introl eq_refl)) as (a & La & ->). destruct IH as (w & -> & Hw); [intros; apply H; simpl; auto|].
      exists (a :: w). split; auto. intros a' [<-|Ha']; auto. }
    apply G. intros q Hq. now apply IN. }
  destruct W as (walks & EW & HW).
  assert (FS : flat_map path_formula ps = []).
  { rewrite EW. clear -HW HF. induction walks as [|a w IH]; simpl; auto. rewrite IH by (intros; apply HW; simpl; auto).
    unfold path_formula. rewrite (proj2 (acts_formulas_nil a new_collector)); auto. split; auto.
    apply HF. apply HW. simpl. auto. }
  assert (ES : exists es, flat_map path_expr ps = es /\ length es = length ps /\
     (sumQ (map (exp_value v) es) == sumQ (map (path_value v) walks))%Q).
  { rewrite EW. clear -HW HF. induction walks as [|a w IH]; simpl.
    - exists []. simpl. repeat split; reflexivity.
    - destruct IH as (es & E & L & V); [intros; apply HW; simpl; auto|].
      destruct (HF a (HW a (or_introl eq_refl))) as [HX _].
      assert (X : exists e, path_expr (acts_apply a new_collector) = [e] /\ (exp_value v e == path_value v a)%Q).
      { unfold path_expr. rewrite acts_exprs, path_value_exprs. simpl.
        set (l := flat_map _ a). assert (N : l <> []).
        { destruct HX as (e & He). intros E0. assert (In e l) by (apply in_flat_map; exists (AExpr e); simpl; auto). now rewrite E0 in H. }
        destruct l as [|e [|e' l]]; [congruence| |].
        - exists (XVar e). split; auto. simpl. ring.
        - eexists. split; [reflexivity|]. simpl. reflexivity. }
      destruct X as (e & Ee & Ve). rewrite Ee, E. eexists. split; [reflexivity|]. simpl. split; [congruence|].
      rewrite Ve. fold (sumQ (map (exp_value v) es)). rewrite V. reflexivity. }
  destruct ES as (es & EE & LE & VE).
  assert (NP : ps <> []) by (intros E; assert (X : In (acts_apply a0 new_collector) ps) by (apply IN; eauto); now rewrite E in X).
  unfold analyze_sequence. rewrite FS, EE.
  assert (R : exists e, match es with [] => RTrue | [e] => RExpr e | _ => RExpr (XAdd es) end = RExpr e /\
     (exp_value v e == sumQ (map (exp_value v) es))%Q).
  { destruct es as [|e [|e' es]].
    - destruct ps; [congruence|discriminate].
    - exists e. split; auto. simpl. ring.
    - eexists. split; [reflexivity|]. clear. generalize (e :: e' :: es). induction l as [|x l IH]; simpl in *; [reflexivity|].
      rewrite IH. reflexivity. }
  destruct R as (e & ER & VR). exists e. split.
  { destruct es as [|x [|y es]]; auto. }
  exists walks. split; auto. split; [|now rewrite VR].
  intros a L. assert (X : In (acts_apply a new_collector) ps) by (apply IN; eauto). rewrite EW in X.
  apply in_map_iff in X. destruct X as (a' & E & H). exists a'. auto.
Qed.

(** ** Homogeneity: an accepted tree never mixes formulas and expressions on its paths. *)
Definition kind_ok (t : htype) (a : list act) : Prop :=
  (has_formula a -> t = HFormula) /\ (has_expr a -> t = HExpression).
Definition h_le (t t' : htype) : Prop := t = t' \/ t = HUnknown.
Lemma kind_ok_le t t' a : h_le t t' -> kind_ok t a -> kind_ok t' a.
Proof. intros [->| ->] [H1 H2]; split; intros H; auto; [apply H1 in H|apply H2 in H]; discriminate. Qed.
Lemma kind_ok_nil t : kind_ok t [].
Proof. split; intros (? & []). Qed.
Lemma kind_ok_app t a b : kind_ok t a -> kind_ok t b -> kind_ok t (a ++ b).
Proof.
  intros [A1 A2] [B1 B2]. split; intros (z & H); apply in_app_or in H; destruct H as [H|H];
  [apply A1|apply B1|apply A2|apply B2]; eexists; eauto.
Qed.
Lemma h_le_trans a b c : h_le a b -> h_le b c -> h_le a c.
Proof. unfold h_le. intros [->| ->] [->| ->]; auto. Qed.
Lemma h_le_refl a : h_le a a. Proof. now left. Qed.

Definition H_i (i : instr) := forall t t', h_instr i t = Some t' -> h_le t t' /\
  (forall x a l, exec i x a l -> kind_ok t' a) /\ (forall x a s, divert1 i x a s -> kind_ok t' a).
Definition H_is (is : instrs) := forall t t', h_instrs is t = Some t' -> h_le t t' /\
  (forall x a l, execs is x a l -> kind_ok t' a) /\ (forall x a s, diverts is x a s -> kind_ok t' a).
Definition H_b (b : branch) := forall t t', h_branch b t = Some t' -> h_le t t' /\
  (forall x a s, leads b x a s -> kind_ok t' a).
Definition H_t (tg : target) := forall t t', h_target tg t = Some t' -> h_le t t' /\
  (forall x a s, arrives tg x a s -> kind_ok t' a).
Definition H_ps (ps : paths) := forall t t', h_paths ps t = Some t' -> h_le t t' /\
  (forall st b x a s, in_paths st b ps -> leads b x a s -> kind_ok t' a).

Lemma homogeneous_ok : (forall i, H_i i) /\ (forall is, H_is is) /\ (forall b, H_b b) /\ (forall t, H_t t) /\ (forall ps, H_ps ps).
Proof.
  apply tree_ind; unfold H_i, H_is, H_b, H_t, H_ps; simpl.
  - intros h b t t' [= <-]. split; [apply h_le_refl|]. split; [|inversion 1]. inversion 1; subst.
    split; intros (z & [E|[]]); discriminate.
  - intros e t t' E. assert (t' = HExpression /\ h_le t t') as [-> L].
    { destruct t; inversion E; split; auto; [now right|now left]. }
    split; auto. split; [|inversion 1]. inversion 1; subst. split; auto. intros (z & [Q|[]]); discriminate.
  - intros f t t' E. assert (t' = HFormula /\ h_le t t') as [-> L].
    { destruct t; inversion E; split; auto; [now right|now left]. }
    split; auto. split; [|inversion 1]. inversion 1; subst. split; auto. intros (z & [Q|[]]); discriminate.
  - intros b IH t t' E. destruct (IH t t' E) as [L H]. split; auto. split.
    + inversion 1; subst. apply kind_ok_nil.
    + inversion 1; subst. eapply H; eauto.
  - intros c y IHy n IHn t t' E. destruct (h_instrs y t) as [t1|] eqn:Y; [|discriminate].
    destruct (IHy _ _ Y) as (L1 & Y1 & Y2). destruct (IHn _ _ E) as (L2 & N1 & N2).
    split; [eapply h_le_trans; eauto|]. split.
    + inversion 1; subst; [eapply kind_ok_le; eauto|eauto].
    + inversion 1; subst; [eapply kind_ok_le; eauto|eauto].
  - intros is IH t t' E. destruct (IH _ _ E) as (L & H1 & H2). split; auto. split; inversion 1; subst; eauto.
  - intros t t' [= <-]. split; [apply h_le_refl|]. split; inversion 1; subst. apply kind_ok_nil.
  - intros i IHi is IHis t t' E. destruct (h_instr i t) as [t1|] eqn:Y; [|discriminate].
    destruct (IHi _ _ Y) as (L1 & Y1 & Y2). destruct (IHis _ _ E) as (L2 & N1 & N2).
    split; [eapply h_le_trans; eauto|]. split.
    + inversion 1; subst. apply kind_ok_app; [eapply kind_ok_le; eauto|eauto].
    + inversion 1; subst; [eapply kind_ok_le; eauto|]. apply kind_ok_app; [eapply kind_ok_le; eauto|eauto].
  - intros is IHis tg IHt t t' E. destruct (h_instrs is t) as [t1|] eqn:Y; [|discriminate].
    destruct (IHis _ _ Y) as (L1 & Y1 & Y2). destruct (IHt _ _ E) as (L2 & N1).
    split; [eapply h_le_trans; eauto|]. inversion 1; subst; [eapply kind_ok_le; eauto|].
    apply kind_ok_app; [eapply kind_ok_le; eauto|eauto].
  - intros s is IH t t' E. destruct (IH _ _ E) as (L & H1 & H2). split; auto. inversion 1; subst; eauto.
  - intros fe ps IH t t' E. destruct (IH _ _ E) as (L & H). split; auto. inversion 1; subst; eauto.
  - intros b IH t t' E. destruct (IH _ _ E) as (L & H). split; auto. inversion 1; subst; eauto.
  - intros t t' [= <-]. split; [apply h_le_refl|]. inversion 1.
  - intros st b IHb ps IHps t t' E. destruct (h_branch b t) as [t1|] eqn:Y; [|discriminate].
    destruct (IHb _ _ Y) as (L1 & Y1). destruct (IHps _ _ E) as (L2 & N1).
    split; [eapply h_le_trans; eauto|]. inversion 1; subst; eauto. intros. eapply kind_ok_le; eauto.
Qed.
Theorem C35_homogeneous b t : h_branch b HUnknown = Some t ->
  forall a1 s1 a2 s2, leads b no_context a1 s1 -> leads b no_context a2 s2 -> ~ (has_formula a1 /\ has_expr a2).
Proof.
  intros H a1 s1 a2 s2 L1 L2 [F E].
  destruct (proj1 (proj2 (proj2 homogeneous_ok)) b HUnknown t H) as [_ K].
  apply (K _ _ _ L1) in F. apply (K _ _ _ L2) in E. congruence.
Qed.
(** so the assertion in the analysis holds *)
Theorem C35_no_mix_assertion b t s r : h_branch b HUnknown = Some t -> analyze b s = Some r -> r <> RAssert.
Proof.
  intros H A. unfold analyze in A.
  pose proof (proj1 (proj2 (proj2 collect_ok)) b no_context new_collector) as C.
  destruct (c_branch b no_context new_collector) as [o|]; [|discriminate]. inversion A; subst. clear A.
  set (ps := map snd (filter (fun q => fst q =? s) o)).
  assert (IN : forall q, In q ps -> exists a, leads b no_context a s /\ q = acts_apply a new_collector).
  { intros q. unfold ps. rewrite in_map_iff. intros ([s' q'] & E & Hq). simpl in E. subst. apply filter_In in Hq. destruct Hq as [Hq E].
    apply Nat.eqb_eq in E. simpl in E. subst. now apply C. }
  unfold analyze_sequence.
  destruct (flat_map path_formula ps) as [|f fs] eqn:F; [destruct (flat_map path_expr ps) as [|e [|e' es]]; discriminate|].
  destruct (flat_map path_expr ps) as [|e es] eqn:E; [destruct fs; discriminate|]. exfalso.
  assert (In f (flat_map path_formula ps)) as Hf by (rewrite F; simpl; auto).
  assert (In e (flat_map path_expr ps)) as He by (rewrite E; simpl; auto).
  apply in_flat_map in Hf. destruct Hf as (q1 & Q1 & Hf). apply in_flat_map in He. destruct He as (q2 & Q2 & He).
  destruct (IN _ Q1) as (a1 & L1 & ->). destruct (IN _ Q2) as (a2 & L2 & ->).
  apply (C35_homogeneous b t H a1 s a2 s L1 L2). split.
  - destruct (pc_formulas (acts_apply a1 new_collector)) as [|g l] eqn:G.
    + unfold path_formula in Hf. rewrite G in Hf. contradiction.
    + assert (D : has_formula a1 \/ ~ has_formula a1).
      { clear. induction a1 as [|[h b|e|f] a IH].
        - right. intros (f & []).
        - destruct IH as [(f & Hf)|N]; [left; exists f; simpl; auto|right; intros (f & [Q|Hf]); [discriminate|apply N; eexists; eauto]].
        - destruct IH as [(f & Hf)|N]; [left; exists f; simpl; auto|right; intros (f & [Q|Hf]); [discriminate|apply N; eexists; eauto]].
        - left. exists f. simpl. auto. }
      destruct D as [D|D]; auto. exfalso.
      assert (X : pc_formulas (acts_apply a1 new_collector) = []) by (apply acts_formulas_nil; auto). congruence.
  - unfold path_expr in He. rewrite acts_exprs in He. simpl in He.
    destruct (flat_map _ a2) as [|y ys] eqn:Y; [contradiction|].
    assert (Hy : In y (flat_map (fun x => match x with AExpr e => [e] | _ => [] end) a2)) by (rewrite Y; simpl; auto).
    apply in_flat_map in Hy. destruct Hy as ([h b'|z|f'] & Hz & Hy); simpl in Hy; try contradiction.
    exists z. auto.
Qed.

(** ** C36 *)
(** Named branches of a tree, anywhere inside (they are in the tree's table). *)
Inductive named_in_b : branch -> branch -> Prop :=
  | nb_target is t n : named_in_t n t -> named_in_b n (Branch is t)
with named_in_t : branch -> target -> Prop :=
  | nt_here n : named_in_t n (TNamed n)
  | nt_named n b : named_in_b n b -> named_in_t n (TNamed b)
  | nt_fork n fe ps st b : in_paths st b ps -> named_in_b n b -> named_in_t n (TFork fe ps).
(** What the initializer checks for one event tree: the initial state and every named branch. *)
Definition tree_checked (order : nat -> nat) (b : branch) : Prop :=
  check_branch order b = true /\ forall n, named_in_b n b -> check_branch order n = true.

(** The functional events met on the way down to a sequence of this tree. *)
Inductive meets : branch -> list nat -> Prop :=
  | m_branch is t l : meets_t t l -> meets (Branch is t) l
with meets_t : target -> list nat -> Prop :=
  | m_seq s is : meets_t (TSeq s is) []
  | m_named b l : meets b l -> meets_t (TNamed b) l
  | m_fork fe ps st b l : in_paths st b ps -> meets b l -> meets_t (TFork fe ps) (fe :: l).

Lemma check_paths_in order fe ps : forall st b, in_paths st b ps -> check_paths order fe ps = true ->
  check_branch order b = true /\ check_order order fe (branch_target b) = true.
Proof.
  induction ps as [|st' b' ps IH]; intros st b H C; inversion H; subst; simpl in C; apply andb_true_iff in C; destruct C as [C1 C2].
  - now apply andb_true_iff in C1.
  - eauto.
Qed.

Definition O_b (order : nat -> nat) (b : branch) := (forall n, named_in_b n b -> check_branch order n = true) -> check_branch order b = true ->
  forall l, meets b l -> StronglySorted (fun a b => order a < order b) l /\
    forall fe, check_order order fe (branch_target b) = true -> Forall (fun x => order fe < order x) l.
Definition O_t (order : nat -> nat) (t : target) := (forall n, named_in_t n t -> check_branch order n = true) -> check_target order t = true ->
  forall l, meets_t t l -> StronglySorted (fun a b => order a < order b) l /\
    forall fe, check_order order fe t = true -> Forall (fun x => order fe < order x) l.
Definition O_ps (order : nat -> nat) (ps : paths) := forall st b, in_paths st b ps -> O_b order b.

Lemma order_ok (order : nat -> nat) : (forall i : instr, True) /\ (forall is : instrs, True) /\ (forall b, O_b order b) /\ (forall t, O_t order t) /\ (forall ps, O_ps order ps).
Proof.
  apply tree_ind; auto; unfold O_b, O_t, O_ps.
  - intros is _ t IH HN HC l M. inversion M; subst. apply IH; auto. intros n Hn. apply HN. now constructor.
  - intros s is _ HN HC l M. inversion M; subst. split; constructor.
  - intros fe ps IH HN HC l M. inversion M; subst. simpl in HC.
    destruct (check_paths_in order fe ps st b H1 HC) as [C1 C2].
    destruct (IH st b H1) with (l := l0) as [S F]; auto.
    { intros n Hn. apply HN. eapply nt_fork; eauto. }
    specialize (F fe C2). split; [constructor; auto|]. intros fe0. simpl.
    destruct (Nat.eqb_spec (order fe0) (order fe)); [discriminate|].
    destruct (Nat.ltb_spec (order fe) (order fe0)); [discriminate|]. intros _.
    assert (order fe0 < order fe) by lia. constructor; auto. eapply Forall_impl; [|exact F]. simpl. intros. lia.
  - intros b IH HN HC l M. inversion M; subst. destruct (IH) with (l := l) as [S F]; auto.
    { intros n Hn. apply HN. now apply nt_named. }
    { apply HN. constructor. }
    split; auto. intros fe C. apply F. destruct b. exact C.
  - intros st b H. inversion H.
  - intros st b IHb ps IHps st' b' H. inversion H; subst; eauto.
Qed.
Lemma strongly_nodup (order : nat -> nat) l : StronglySorted (fun a b => order a < order b) l -> NoDup l.
Proof.
  induction 1 as [|x l S IH F]; constructor; auto. intros H. rewrite Forall_forall in F. specialize (F x H). simpl in F. lia.
Qed.
Theorem C36_order (order : nat -> nat) b l : tree_checked order b -> meets b l ->
  StronglySorted (fun a b => order a < order b) l /\ NoDup l.
Proof.
  intros [C N] M. destruct (proj1 (proj2 (proj2 (order_ok order))) b N C l M) as [S _]. split; auto.
  eapply strongly_nodup; eauto.
Qed.

(** The assertion of CollectSequences that a functional event is met once
    (event_tree_analysis.cc:223-226) never fails on validated trees: the initial state, every
    named branch and the initial state of every linked tree have passed the check. *)
Fixpoint deep_i (order : nat -> nat) (i : instr) : Prop :=
  match i with
  | ILink b => check_branch order b = true /\ deep_b order b
  | IIf _ a b => deep_is order a /\ deep_is order b
  | IBlock is => deep_is order is
  | _ => True
  end
with deep_is (order : nat -> nat) (is : instrs) : Prop :=
  match is with INil => True | ICons i is => deep_i order i /\ deep_is order is end
with deep_b (order : nat -> nat) (b : branch) : Prop :=
  match b with Branch is t => deep_is order is /\ deep_t order t end
with deep_t (order : nat -> nat) (t : target) : Prop :=
  match t with
  | TSeq _ is => deep_is order is
  | TFork _ ps => deep_ps order ps
  | TNamed b => check_branch order b = true /\ deep_b order b
  end
with deep_ps (order : nat -> nat) (ps : paths) : Prop :=
  match ps with PNil => True | PCons _ b ps => deep_b order b /\ deep_ps order ps end.
Definition model_checked (order : nat -> nat) (b : branch) : Prop :=
  check_branch order b = true /\ deep_b order b.

Definition below (order : nat -> nat) (x : context) (t : target) :=
  forall fe, x fe <> None -> check_order order fe t = true.
Lemma no_assert_all (order : nat -> nat) :
  (forall i, deep_i order i -> forall x p, c_instr i x p <> None) /\
  (forall is, deep_is order is -> forall x p, c_instrs is x p <> None) /\
  (forall b, deep_b order b -> check_branch order b = true -> forall x p, below order x (branch_target b) -> c_branch b x p <> None) /\
  (forall t, deep_t order t -> check_target order t = true -> forall x p, below order x t -> c_target t x p <> None) /\
  (forall ps, deep_ps order ps -> forall fe, check_paths order fe ps = true -> forall x p,
     (forall fe', x fe' <> None -> order fe' < order fe) -> c_paths fe ps x p <> None).
Proof.
  apply tree_ind; simpl; try (intros; discriminate).
  - intros b IH [C D] x p. destruct (c_branch b no_context p) eqn:E; [discriminate|]. exfalso. revert E. apply IH; auto.
    intros fe N. now elim N.
  - intros c a IHa b IHb [Da Db] x p. destruct (c x); auto.
  - auto.
  - intros i IHi is IHis [Di Dis] x p. specialize (IHi Di x p).
    destruct (c_instr i x p) as [[[p1 l1] o1]|]; [|congruence]. specialize (IHis Dis x p1).
    destruct (c_instrs is x p1) as [[[p2 l2] o2]|]; [discriminate|congruence].
  - intros is IHis t IHt [Di Dt] C x p B. specialize (IHis Di x p). destruct (c_instrs is x p) as [[[p1 l1] o1]|]; [|congruence].
    specialize (IHt Dt C x p1 B). destruct (c_target t x p1); [discriminate|congruence].
  - intros s is IHis Di _ x p _. specialize (IHis Di x p). destruct (c_instrs is x p) as [[[p1 l1] o1]|]; [discriminate|congruence].
  - intros fe ps IH D C x p B.
    assert (L : forall fe', x fe' <> None -> order fe' < order fe).
    { intros fe' N. specialize (B fe' N). simpl in B. destruct (Nat.eqb_spec (order fe') (order fe)); [discriminate|].
      destruct (Nat.ltb_spec (order fe) (order fe')); [discriminate|]. lia. }
    destruct (x fe) eqn:E; [|auto]. specialize (L fe). rewrite E in L. assert (order fe < order fe) by (apply L; discriminate). lia.
  - intros b IH [C D] _ x p B. apply IH; auto. destruct b. exact B.
  - intros st b IHb ps IHps [Db Dps] fe C x p L. apply andb_true_iff in C. destruct C as [C C3]. apply andb_true_iff in C. destruct C as [C1 C2].
    assert (BL : below order (set_context fe st x) (branch_target b)).
    { intros fe' N. unfold set_context in N. destruct (Nat.eqb_spec fe' fe) as [EQ|NE]; [rewrite EQ; exact C2|].
      specialize (L fe' N). clear - L C2. destruct b as [is t]. simpl in *. revert L C2.
      assert (G : forall t, order fe' < order fe -> check_order order fe t = true -> check_order order fe' t = true).
      { fix IH 1. intros [s is'|f ps|[is' t']] L C2; simpl in *; auto.
        destruct (Nat.eqb_spec (order fe) (order f)); [discriminate|]. destruct (Nat.ltb_spec (order f) (order fe)); [discriminate|].
        destruct (Nat.eqb_spec (order fe') (order f)); [lia|]. destruct (Nat.ltb_spec (order f) (order fe')); [lia|reflexivity]. }
      apply G. }
    specialize (IHb Db C1 (set_context fe st x) p BL). destruct (c_branch b (set_context fe st x) p); [|congruence].
    specialize (IHps Dps fe C3 x p L). destruct (c_paths fe ps x p); [discriminate|congruence].
Qed.
Theorem C36_no_assertion (order : nat -> nat) b s : model_checked order b -> analyze b s <> None.
Proof.
  intros [C D]. unfold analyze. pose proof (proj1 (proj2 (proj2 (no_assert_all order))) b D C no_context new_collector) as H.
  destruct (c_branch b no_context new_collector); [discriminate|]. exfalso. apply H; auto. intros fe N. now elim N.
Qed.
(** Without the check the analysis may hit the assertion. *)
Definition twice : branch := Branch INil (TFork 1 (PCons 0 (Branch INil (TFork 1 (PCons 0 (Branch INil (TSeq 0 INil)) PNil))) PNil)).
Example C36_needed order : check_branch order twice = false /\ analyze twice 0 = None.
Proof. simpl. rewrite Nat.eqb_refl. auto. Qed.

(** ** A tree that meets all hypotheses: two forks, a named branch, a set-house-event
    instruction before a collected formula, and a linked tree. *)
Definition basic (n : nat) : form := Form pass (ECons false (EBasic n) ENil).
Definition house (n : nat) : form := Form pass (ECons false (EHouse n false) ENil).
Definition linked_tree : branch :=
  Branch INil (TFork 3 (PCons 0 (Branch (ICons (IFormula (house 9)) INil) (TSeq 7 INil))
                       (PCons 1 (Branch (ICons (IFormula (basic 4)) INil) (TSeq 8 INil)) PNil))).
Definition shared_branch : branch :=
  Branch INil (TFork 2 (PCons 0 (Branch (ICons (IFormula (basic 1)) INil) (TSeq 7 INil))
                       (PCons 1 (Branch (ICons (IFormula (basic 2)) INil) (TSeq 6 (ICons (ILink linked_tree) INil))) PNil))).
Definition ex_tree : branch :=
  Branch INil (TFork 1 (PCons 0 (Branch (ICons (IFormula (basic 0)) INil) (TNamed shared_branch))
                       (PCons 1 (Branch (ICons (ISet 9 true) (ICons (IFormula (basic 3)) INil)) (TNamed shared_branch)) PNil))).
Example ex_tree_checked : model_checked (fun n => n) ex_tree /\ links_in_sequences ex_tree = true /\
  h_branch ex_tree HUnknown = Some HFormula.
Proof. repeat split. Qed.
(** Sequence 7 is reached four times (directly and through the link, on both arms); on the
    second arm the linked formula sees house event 9 as true. *)
Example ex_tree_value : exists f, analyze ex_tree 7 = Some (RFormula f) /\
  (let env := fun n => Nat.eqb n 3 || Nat.eqb n 2 in t_ev no_sets env (EGate f) = true) /\
  (let env := fun n => Nat.eqb n 0 || Nat.eqb n 2 in t_ev no_sets env (EGate f) = false).
Proof. eexists. split; [reflexivity|]. vm_compute. auto. Qed.
