(** Cycle detection: src/cycle.h:110-223, src/cycle.cc:25-137.
    Nodes (gates, parameters, rules, named branches, links) are natural numbers.  What a
    node's connector makes the traversal visit is a finite tree [conn]: a node, or a
    sequence of further connectors visited in order (formula arguments, expression
    arguments, fork paths, instructions).  Node marks are a function.  [fuel] bounds only
    the nesting of DetectCycle calls; [None] would be non-termination and is proved
    impossible.  Names of nodes in the message are not modelled. *)
From Coq Require Import List Arith Lia Bool Relations.
Import ListNotations.

Inductive conn := CNode (n : nat) | CSeq (l : list conn).

(** NodeMark::Mark, src/element.h:646-650. *)
Inductive mark := Clear | Temporary | Permanent.
Record st := mkSt { marks : nat -> mark; cyc : list nat (* the out-parameter, push_back at the end *) }.
Definition set_mark (n : nat) (m : mark) (s : st) : st :=
  mkSt (fun k => if Nat.eqb k n then m else marks s k) (cyc s).
Definition push (n : nat) (s : st) : st := mkSt (marks s) (cyc s ++ [n]).

Section detect.
Context (connector : nat -> conn).  (* GetConnector(node), cycle.h:48-52 *)

(** ContinueConnector, cycle.h:149-160 (and the specialisations, cycle.cc:25-137): visit
    in order, stop at the first detected cycle. *)
Fixpoint continue (det : nat -> st -> option (bool * st)) (c : conn) (s : st)
  : option (bool * st) :=
  match c with
  | CNode n => det n s
  | CSeq l =>
      (fix go l s := match l with
        | [] => Some (false, s)
        | c :: l => match continue det c s with
                    | Some (false, s) => go l s
                    | r => r
                    end
        end) l s
  end.

(** DetectCycle, cycle.h:130-147. *)
Fixpoint detect (fuel : nat) (n : nat) (s : st) : option (bool * st) :=
  match fuel with
  | 0 => None
  | S fuel =>
    match marks s n with
    | Clear =>
        match continue (detect fuel) (connector n) (set_mark n Temporary s) with
        | Some (true, s) =>
            if Nat.eqb (length (cyc s)) 1 || negb (Nat.eqb (last (cyc s) 0) (hd 0 (cyc s)))
            then Some (true, push n s) else Some (true, s)
        | Some (false, s) => Some (false, set_mark n Permanent s)
        | None => None
        end
    | Temporary => Some (true, push n s)
    | Permanent => Some (false, s)
    end
  end.

(** CheckCycle, cycle.h:214-223: None = no error; Some l = CycleError with the printed
    (reversed) cycle l. *)
Fixpoint check (fuel : nat) (nodes : list nat) (s : st) : option (option (list nat)) :=
  match nodes with
  | [] => Some None
  | n :: nodes =>
      match detect fuel n s with
      | Some (true, s) => Some (Some (rev (cyc s)))
      | Some (false, s) => check fuel nodes s
      | None => None
      end
  end.
Definition clear_st : st := mkSt (fun _ => Clear) [].

(** ** Specification *)
Fixpoint conn_nodes (c : conn) : list nat :=
  match c with CNode n => [n] | CSeq l => flat_map conn_nodes l end.
Definition edge (a b : nat) : Prop := In b (conn_nodes (connector a)).
(** l is a walk along references. *)
Fixpoint walk (l : list nat) : Prop :=
  match l with
  | a :: (b :: _) as t => edge a b /\ walk t
  | _ => True
  end.

(** ** Proofs *)

(** Nested induction for [conn]. *)
Lemma conn_ind' (P : conn -> Prop) :
  (forall n, P (CNode n)) -> (forall l, Forall P l -> P (CSeq l)) -> forall c, P c.
Proof.
  intros H1 H2. fix IH 1. intros [n|l]; [apply H1|]. apply H2.
  induction l; constructor; auto.
Qed.

(** State between calls: [stk] are the temporary nodes, [fin] the permanent ones in
    order of finishing; an edge from a finished node leads to one finished earlier. *)
Inductive finished : list nat -> Prop :=
  | fin_nil : finished []
  | fin_cons n l : ~ In n l -> (forall m, edge n m -> In m l) -> finished l -> finished (n :: l).

Record inv (stk fin : list nat) (s : st) : Prop := {
  i_temp : forall n, marks s n = Temporary <-> In n stk;
  i_perm : forall n, marks s n = Permanent <-> In n fin;
  i_fin : finished fin;
  i_cyc : cyc s = []
}.

(** Result of a detection from connector or node list [ns] visited with stack [stk]:
    cyc is [c; ...; m]: a reversed walk from m to c, where m is the node last entered, or
    the complete cycle. *)
Definition complete (l : list nat) : Prop :=
  exists c, 2 <= length l /\ hd_error l = Some c /\ last l 0 = c /\ walk (rev l).
Definition partial (stk : list nat) (l : list nat) (m : nat) : Prop :=
  exists c, hd_error l = Some c /\ In c stk /\ last l 0 = m /\ walk (rev l)
    /\ (length l = 1 \/ c <> m).

Lemma walk_cons n l : walk (rev l) -> (forall m, l <> [] -> last l 0 = m -> edge n m) ->
  walk (rev (l ++ [n])).
Proof.
  intros W E. rewrite rev_app_distr. simpl. destruct (rev l) eqn:R; simpl; auto.
  split; auto. apply E.
  - intros ->. discriminate.
  - rewrite <- (rev_involutive l), R. simpl. apply last_last.
Qed.

Lemma hd_error_app (l : list nat) n c : hd_error l = Some c -> hd_error (l ++ [n]) = Some c.
Proof. destruct l; simpl; congruence. Qed.

Section fuel.
Context (all : list nat).
Context (closed : forall a b, In a all -> edge a b -> In b all).

Definition post (stk fin : list nat) (targets : list nat) (r : option (bool * st)) : Prop :=
  match r with
  | None => False
  | Some (false, s) => exists fin', inv stk (fin' ++ fin) s /\ (forall t, In t targets -> In t (fin' ++ fin))
  | Some (true, s) => complete (cyc s) \/ exists m, In m targets /\ partial stk (cyc s) m
  end.

Definition det_ok (fuel : nat) : Prop := forall n stk fin s,
  inv stk fin s -> In n all -> incl stk all -> NoDup stk -> length all - length stk < fuel ->
  post stk fin [n] (detect fuel n s).

Lemma continue_ok fuel (D : det_ok fuel) : forall c stk fin s,
  inv stk fin s -> (forall n, In n (conn_nodes c) -> In n all) -> incl stk all -> NoDup stk ->
  length all - length stk < fuel ->
  post stk fin (conn_nodes c) (continue (detect fuel) c s).
Proof.
  induction c as [n|l IH] using conn_ind'; intros stk fin s I Ha Hs Hn Hf; simpl in *.
  - apply D; auto.
  - revert fin s I Ha. induction IH as [|c l Hc Hl IHl]; intros fin s I Ha; simpl.
    + exists []. simpl. split; auto. intros ? [].
    + assert (P := Hc stk fin s I (fun n H => Ha n (in_or_app _ _ _ (or_introl H))) Hs Hn Hf).
      simpl in P. destruct (continue (detect fuel) c s) as [[[] s1]|]; simpl in P; [| |contradiction].
      * destruct P as [P|(m & Hm & P)]; [left; auto|]. right. exists m. split; auto.
        apply in_or_app; auto.
      * destruct P as (fin' & I' & HT).
        specialize (IHl (fin' ++ fin) s1 I' (fun n H => Ha n (in_or_app _ _ _ (or_intror H)))).
        match type of IHl with post _ _ _ ?r => destruct r as [[[] s2]|] end; simpl in IHl |- *; auto.
        -- destruct IHl as [P|(m & Hm & P)]; [left; auto|]. right. exists m. split; auto.
           apply in_or_app; auto.
        -- destruct IHl as (fin2 & I2 & HT2). exists (fin2 ++ fin'). rewrite <- app_assoc.
           split; auto. intros t Ht. apply in_app_or in Ht. destruct Ht as [Ht|Ht]; auto.
           apply in_or_app. right. auto.
Qed.

Lemma detect_ok : forall fuel, det_ok fuel.
Proof.
  induction fuel as [|fuel IH]; intros n stk fin s I Ha Hs Hn Hf; [lia|]. simpl.
  destruct (marks s n) eqn:M.
  - (* clear *)
    assert (Nstk : ~ In n stk) by (intros H; apply (i_temp _ _ _ I) in H; congruence).
    assert (Nfin : ~ In n fin) by (intros H; apply (i_perm _ _ _ I) in H; congruence).
    assert (I' : inv (n :: stk) fin (set_mark n Temporary s)).
    { destruct I as [It Ip If Ic]. constructor; simpl; auto; intros k.
      - destruct (Nat.eqb_spec k n); [subst; intuition|]. rewrite It. intuition congruence.
      - destruct (Nat.eqb_spec k n); [subst; intuition congruence|]. apply Ip. }
    assert (L : length (n :: stk) <= length all).
    { apply NoDup_incl_length; [constructor; auto|]. intros x [<-|Hx]; auto. }
    simpl in L.
    assert (P : post (n :: stk) fin (conn_nodes (connector n))
             (continue (detect fuel) (connector n) (set_mark n Temporary s))).
    { apply continue_ok; auto.
      - intros m Hm. apply (closed n); auto.
      - intros x [<-|Hx]; auto.
      - constructor; auto.
      - simpl. lia. }
    destruct (continue _ _ _) as [[[] s1]|]; simpl in P; [| |contradiction].
    + destruct P as [C|(m & Hm & c & Hh & Hc & Hl & W & Hor)].
      * (* already complete: not pushed *)
        assert (X := C). destruct C as (c & L2 & Hh & Hl & W).
        replace (_ || _) with false.
        { simpl. left. auto. }
        symmetry. apply orb_false_iff. split; [apply Nat.eqb_neq; lia|].
        apply negb_false_iff. apply Nat.eqb_eq. rewrite Hl.
        destruct (cyc s1); simpl in *; congruence.
      * (* pushed *)
        replace (_ || _) with true.
        2: { symmetry. apply orb_true_iff. destruct Hor as [Ho|Ho].
             - left. now apply Nat.eqb_eq.
             - right. apply negb_true_iff. apply Nat.eqb_neq. rewrite Hl.
               destruct (cyc s1); simpl in *; congruence. }
        assert (W' : walk (rev (cyc s1 ++ [n]))).
        { apply walk_cons; auto. intros m' _ <-. rewrite Hl. auto. }
        assert (NE : cyc s1 <> []) by (intros E; rewrite E in Hh; discriminate).
        assert (LL : 1 <= length (cyc s1)) by (destruct (cyc s1); simpl; [congruence|lia]).
        simpl. destruct (Nat.eq_dec c n) as [->|N].
        -- left. exists n. rewrite app_length. simpl. repeat split; auto; try lia.
           ++ now apply hd_error_app.
           ++ apply last_last.
        -- right. exists n. split; auto. exists c. repeat split; auto.
           ++ now apply hd_error_app.
           ++ destruct Hc; [congruence|auto].
           ++ apply last_last.
    + destruct P as (fin' & [It Ip If Ic] & HT).
      exists (n :: fin'). split.
      * constructor; simpl; auto.
        -- intros k. destruct (Nat.eqb_spec k n).
           ++ subst. split; [discriminate|contradiction].
           ++ rewrite It. simpl. intuition congruence.
        -- intros k. destruct (Nat.eqb_spec k n).
           ++ subst. intuition.
           ++ rewrite Ip. intuition congruence.
        -- constructor; auto. intros H. apply Ip in H.
           assert (marks s1 n = Temporary) by (apply It; simpl; auto). congruence.
      * intros t [<-|[]]. simpl. auto.
  - (* temporary *)
    simpl. right. exists n. split; auto. exists n.
    rewrite (i_cyc _ _ _ I). simpl. repeat split; auto. now apply (i_temp _ _ _ I).
  - exists []. simpl. split; auto. intros t [<-|[]]. now apply (i_perm _ _ _ I).
Qed.

Lemma finished_acyclic l : finished l -> forall n, In n l -> ~ clos_trans _ edge n n.
Proof.
  assert (C : forall l, finished l -> forall n m, In n l -> clos_trans _ edge n m -> In m l).
  { clear. intros l F. induction F as [|x l Hx He Hl IH]; intros n m Hn; [contradiction|].
    intros T. apply clos_trans_t1n in T. revert Hn. induction T as [n m E|n y m E T IHT].
    - intros [<-|Hn]; [right; auto|]. right. apply (IH n m); auto. now constructor.
    - intros [<-|Hn].
      + apply IHT. right. auto.
      + apply IHT. right. apply (IH n y); auto. now constructor. }
  intros F. induction F as [|x l Hx He Hl IH]; intros n Hn T; [contradiction|].
  destruct Hn as [<-|Hn]; [|now apply (IH n)].
  apply clos_trans_t1n in T. inversion T; subst.
  - apply Hx, He. auto.
  - apply Hx. apply (C l Hl y); auto. now apply clos_t1n_trans.
Qed.

Lemma walk_cycle l c : 2 <= length l -> hd_error l = Some c -> last l 0 = c -> walk l ->
  clos_trans _ edge c c.
Proof.
  assert (G : forall l a, 2 <= length l -> hd_error l = Some a -> walk l ->
      clos_trans _ edge a (last l 0)).
  { clear. induction l as [|x l IH]; intros a L H W; simpl in L; [lia|]. simpl in H.
    inversion H; subst. destruct l as [|b l]; [simpl in L; lia|]. destruct W as [E W].
    destruct l as [|d l].
    - simpl. now constructor.
    - eapply t_trans; [constructor; exact E|]. apply (IH b); auto. simpl. lia. }
  intros L H E W. rewrite <- E at 2. apply G; auto.
Qed.

Lemma check_ok fuel : forall nodes fin s,
  length all < fuel -> inv [] fin s -> incl nodes all ->
  match check fuel nodes s with
  | None => False
  | Some None => exists fin', finished fin' /\ incl fin fin' /\ (forall n, In n nodes -> In n fin')
  | Some (Some l) => exists c, 2 <= length l /\ hd_error l = Some c /\ last l 0 = c /\ walk l
  end.
Proof.
  induction nodes as [|n nodes IH]; intros fin s Hf I Hi; simpl.
  - exists fin. split; [apply I|]. split; [apply incl_refl|]. intros ? [].
  - assert (P := detect_ok fuel n [] fin s I (Hi n (or_introl eq_refl)) (fun x H => match H with end)
                  (NoDup_nil _)).
    simpl length in P. rewrite Nat.sub_0_r in P. specialize (P Hf).
    destruct (detect fuel n s) as [[[] s1]|]; simpl in P; [| |contradiction].
    + destruct P as [C|(m & _ & c & _ & [] & _)].
      destruct C as (c & L & Hh & Hl & W). exists c. rewrite rev_length. repeat split; auto.
      * destruct (cyc s1) as [|x t] eqn:E using rev_ind; [simpl in L; lia|].
        rewrite rev_app_distr. simpl. rewrite last_last in Hl. congruence.
      * destruct (cyc s1) as [|x t]; [simpl in L; lia|]. simpl. rewrite last_last.
        simpl in Hh. congruence.
    + destruct P as (fin' & I' & HT).
      specialize (IH (fin' ++ fin) s1 Hf I' (fun x H => Hi x (or_intror H))).
      destruct (check fuel nodes s1) as [[l|]|] eqn:CK; auto.
      destruct IH as (f & F & HI & HN). exists f. split; auto. split.
      * intros x Hx. apply HI. apply in_or_app. auto.
      * intros x [<-|Hx]; auto.
Qed.
End fuel.

Lemma inv_clear : inv [] [] clear_st.
Proof. constructor; simpl; auto; try (intros; split; [discriminate|contradiction]). constructor. Qed.
End detect.

(** ** The connectors of each node type *)

(** Formula arguments: gates are nodes, other events are skipped (cycle.h:48,62-70,86-89). *)
Inductive farg := FGate (g : nat) | FOther.
Definition conn_formula (args : list farg) : conn :=
  CSeq (flat_map (fun a => match a with FGate g => [CNode g] | FOther => [] end) args).

(** Expressions (cycle.h:49,71-76,90-94): parameter arguments first, then the others. *)
Inductive expr := EParam (p : nat) | EOp (args : list expr).
Definition is_param (e : expr) : bool := match e with EParam _ => true | _ => false end.
Fixpoint conn_expr (e : expr) : conn :=
  match e with
  | EParam p => CNode p
  | EOp args =>
      let nodes := map (fun a => match a with EParam p => CNode p | EOp _ => CSeq [] end)
                       (filter is_param args) in
      CSeq (nodes ++ (fix go l := match l with
             | [] => []
             | EParam _ :: l => go l
             | e :: l => conn_expr e :: go l
             end) args)
  end.
(** The connector of a parameter is its own expression node, whose single argument is the
    defining expression (parameter.h). *)
Definition conn_parameter (definition : expr) : conn := conn_expr (EOp [definition]).

(** Branch targets (cycle.cc:25-44). *)
Inductive target := TNamed (b : nat) | TFork (paths : list target) | TSequence.
Fixpoint conn_branch (t : target) : conn :=
  match t with
  | TNamed b => CNode b
  | TFork paths => CSeq (map conn_branch paths)
  | TSequence => CSeq []
  end.

(** Instructions of a rule (cycle.cc:46-99). *)
Inductive instr := IRule (r : nat) | IIte (t : instr) (e : option instr) | IBlock (l : list instr)
  | ILink (l : nat) | IOther.
Fixpoint conn_instr (i : instr) : conn :=
  match i with
  | IRule r => CNode r
  | IIte t e => CSeq [conn_instr t; match e with Some e => conn_instr e | None => CSeq [] end]
  | IBlock l => CSeq (map conn_instr l)
  | ILink _ | IOther => CSeq []
  end.
Definition conn_rule (l : list instr) : conn := CSeq (map conn_instr l).

(** The event tree of a link (cycle.cc:101-137).  Branch references and rule references
    inside have been checked acyclic before (initializer.cc:1544-1554), so the traversal is
    that of the finite unfolding given here. *)
Inductive uinstr := ULink (l : nat) | UIte (t : uinstr) (e : option uinstr) | UBlock (l : list uinstr) | UOther.
Inductive utree := USequence (l : list uinstr) | UFork (paths : list utree).
Fixpoint conn_uinstr (i : uinstr) : conn :=
  match i with
  | ULink l => CNode l
  | UIte t e => CSeq [conn_uinstr t; match e with Some e => conn_uinstr e | None => CSeq [] end]
  | UBlock l => CSeq (map conn_uinstr l)
  | UOther => CSeq []
  end.
Fixpoint conn_tree (t : utree) : conn :=
  match t with
  | USequence l => CSeq (map conn_uinstr l)
  | UFork paths => CSeq (map conn_tree paths)
  end.

(** Specification side: which nodes the syntax mentions. *)
Fixpoint expr_params (e : expr) : list nat :=
  match e with EParam p => [p] | EOp l => flat_map expr_params l end.
Fixpoint target_branches (t : target) : list nat :=
  match t with TNamed b => [b] | TFork l => flat_map target_branches l | TSequence => [] end.
Fixpoint instr_rules (i : instr) : list nat :=
  match i with
  | IRule r => [r]
  | IIte t e => instr_rules t ++ match e with Some e => instr_rules e | None => [] end
  | IBlock l => flat_map instr_rules l
  | ILink _ | IOther => []
  end.
Fixpoint uinstr_links (i : uinstr) : list nat :=
  match i with
  | ULink l => [l]
  | UIte t e => uinstr_links t ++ match e with Some e => uinstr_links e | None => [] end
  | UBlock l => flat_map uinstr_links l
  | UOther => []
  end.
Fixpoint tree_links (t : utree) : list nat :=
  match t with USequence l => flat_map uinstr_links l | UFork l => flat_map tree_links l end.

Lemma conn_formula_nodes args : forall g, In g (conn_nodes (conn_formula args)) <-> In (FGate g) args.
Proof.
  intros g. unfold conn_formula. simpl. induction args as [|[h|] l IH]; simpl; [intuition| |].
  - rewrite IH. intuition congruence.
  - rewrite IH. intuition congruence.
Qed.

Lemma conn_expr_nodes : forall e p, In p (conn_nodes (conn_expr e)) <-> In p (expr_params e).
Proof.
  fix IH 1. intros [q|args] p; [reflexivity|]. simpl. rewrite flat_map_app.
  induction args as [|a l IHl]; simpl; [reflexivity|].
  assert (X := IH a p). destruct a as [q|l']; simpl in X |- *.
  - rewrite in_app_iff in IHl. rewrite in_app_iff. rewrite <- IHl. intuition.
  - rewrite in_app_iff in IHl. rewrite !in_app_iff. rewrite <- IHl. rewrite X. intuition.
Qed.

Lemma conn_branch_nodes : forall t, conn_nodes (conn_branch t) = target_branches t.
Proof.
  fix IH 1. intros [b|l|]; simpl; auto.
  induction l as [|a l IHl]; simpl; [reflexivity|]. now rewrite IH, IHl.
Qed.

Lemma conn_instr_nodes : forall i, conn_nodes (conn_instr i) = instr_rules i.
Proof.
  fix IH 1. intros [r|t e|l|k|]; simpl; auto.
  - rewrite IH. destruct e as [e|]; simpl; [rewrite IH|]; now rewrite app_nil_r.
  - induction l as [|a l IHl]; simpl; [reflexivity|]. now rewrite IH, IHl.
Qed.

Lemma conn_rule_nodes l : conn_nodes (conn_rule l) = flat_map instr_rules l.
Proof. unfold conn_rule. simpl. induction l; simpl; auto. now rewrite conn_instr_nodes, IHl. Qed.

Lemma conn_uinstr_nodes : forall i, conn_nodes (conn_uinstr i) = uinstr_links i.
Proof.
  fix IH 1. intros [r|t e|l|]; simpl; auto.
  - rewrite IH. destruct e as [e|]; simpl; [rewrite IH|]; now rewrite app_nil_r.
  - induction l as [|a l IHl]; simpl; [reflexivity|]. now rewrite IH, IHl.
Qed.

Lemma conn_tree_nodes : forall t, conn_nodes (conn_tree t) = tree_links t.
Proof.
  fix IH 1. intros [l|l]; simpl.
  - induction l as [|a l IHl]; simpl; [reflexivity|]. now rewrite conn_uinstr_nodes, IHl.
  - induction l as [|a l IHl]; simpl; [reflexivity|]. now rewrite IH, IHl.
Qed.
