(** Top event collection: src/fault_tree.cc:45-49,63-92.
    Gates are natural numbers; [args g] are the gate arguments of g's formula (other
    arguments are skipped by get_if<Gate* >).  An unordered_set is a duplicate-free list in
    an arbitrary order.  Fuel bounds the recursion depth of MarkNonTopGates; running out
    ([None]) is excluded by the theorems for acyclic formulas (C30 rejects others). *)
From Coq Require Import List Arith Lia Bool Relations.
Import ListNotations.

Inductive component := Comp (gates : list nat) (subs : list component).

(** std::unordered_set::insert. *)
Definition insert (g : nat) (s : list nat) : list nat :=
  if in_dec Nat.eq_dec g s then s else g :: s.

(** Component::GatherGates, fault_tree.cc:45-49. *)
Fixpoint gather (c : component) (s : list nat) : list nat :=
  match c with
  | Comp gates subs =>
      (fix go subs s := match subs with [] => s | c :: subs => go subs (gather c s) end)
        subs (fold_left (fun s g => insert g s) gates s)
  end.

Section mark.
Context (args : nat -> list nat) (gates : list nat).
Definition in_set (g : nat) : bool := if in_dec Nat.eq_dec g gates then true else false.

(** FaultTree::MarkNonTopGates, fault_tree.cc:80-92; the marks are a list of gates. *)
Fixpoint mark_non_top (fuel : nat) (g : nat) (m : list nat) : option (list nat) :=
  match fuel with
  | 0 => None
  | S fuel =>
      if in_dec Nat.eq_dec g m then Some m
      else (fix go l m := match l with
        | [] => Some m
        | a :: l =>
            if in_set a then
              match mark_non_top fuel a m with
              | Some m => go l (a :: m)
              | None => None
              end
            else go l m
        end) (args g) m
  end.

(** FaultTree::CollectTopEvents, fault_tree.cc:63-78, starting from marks [m0] (cleared by
    SetupForAnalysis, initializer.cc:1826-1829).  Returns the top events and the gates of
    the set still marked afterwards. *)
Fixpoint mark_all (fuel : nat) (l : list nat) (m : list nat) : option (list nat) :=
  match l with
  | [] => Some m
  | g :: l => match mark_non_top fuel g m with Some m => mark_all fuel l m | None => None end
  end.
Definition collect_top_events (fuel : nat) (m0 : list nat) : option (list nat * list nat) :=
  match mark_all fuel gates m0 with
  | Some m => Some (filter (fun g => if in_dec Nat.eq_dec g m then false else true) gates,
                    filter (fun g => negb (in_set g)) m)
  | None => None
  end.

(** ** Proofs *)
(** Marked gates are in the set, have a parent in the set, and their arguments in the set
    are marked. *)
Record good (m : list nat) : Prop := {
  g_in : forall g, In g m -> In g gates;
  g_par : forall g, In g m -> exists p, In p gates /\ In g (args p);
  g_closed : forall g a, In g m -> In a (args g) -> In a gates -> In a m
}.

(** [child a g]: a is an argument of g, within the set. *)
Definition child (a g : nat) : Prop := In a (args g) /\ In a gates.
Context (acyclic : forall g, ~ clos_trans _ child g g).

Lemma mark_ok : forall fuel g m stk,
  In g gates -> good m -> NoDup (g :: stk) -> incl stk gates ->
  (forall x, In x stk -> clos_trans _ child g x) ->
  length gates - length stk < fuel ->
  exists m', mark_non_top fuel g m = Some m' /\ good m' /\ incl m m'
    /\ (forall a, In a (args g) -> In a gates -> In a m').
Proof.
  induction fuel as [|fuel IH]; intros g m stk Hg G ND HS HC HF; [lia|]. simpl.
  destruct (in_dec Nat.eq_dec g m) as [Hm|Hm].
  { exists m. repeat split; auto; try apply G. apply incl_refl.
    intros a Ha Hga. apply (g_closed _ G g); auto. }
  assert (L : length (g :: stk) <= length gates).
  { apply NoDup_incl_length; auto. intros x [<-|Hx]; auto. }
  simpl in L.
  assert (HA : forall a, In a (args g) -> In a (args g)) by auto.
  revert HA. generalize (args g) at 1 3 4 as l. intros l HA.
  clear Hm. revert m G. induction l as [|a l IHl]; intros m G.
  { exists m. repeat split; auto; try apply G. apply incl_refl. intros a []. }
  unfold in_set. destruct (in_dec Nat.eq_dec a gates) as [Hag|Hag].
  - assert (Hch : child a g) by (split; [apply HA; simpl; auto|auto]).
    destruct (IH a m (g :: stk)) as (m1 & E1 & G1 & I1 & C1); auto.
    + constructor; auto. intros [<-|Hin].
      * apply (acyclic g). now apply t_step.
      * apply (acyclic a). eapply t_trans; [apply t_step; exact Hch|]. apply HC. auto.
    + intros x [<-|Hx]; auto.
    + intros x [<-|Hx]; [now apply t_step|].
      eapply t_trans; [apply t_step; exact Hch|auto].
    + simpl. lia.
    + rewrite E1.
      assert (G1' : good (a :: m1)).
      { constructor.
        - intros x [<-|Hx]; auto. now apply (g_in _ G1).
        - intros x [<-|Hx]; [|now apply (g_par _ G1)]. exists g. split; auto. apply HA; simpl; auto.
        - intros x b [<-|Hx] Hb Hbg; simpl; right; auto. apply (g_closed _ G1 x); auto. }
      destruct (IHl (fun x H => HA x (or_intror H)) (a :: m1) G1') as (m2 & E2 & G2 & I2 & C2).
      exists m2. repeat split; auto; try apply G2.
      * intros x Hxm. apply I2. simpl. right. auto.
      * intros x [<-|Hx'] Hxg; [apply I2; simpl; auto|auto].
  - destruct (IHl (fun x H => HA x (or_intror H)) m G) as (m2 & E2 & G2 & I2 & C2).
    exists m2. repeat split; auto; try apply G2.
    intros x [<-|Hx'] Hxg; [contradiction|auto].
Qed.

Lemma mark_all_ok fuel : length gates < fuel -> forall l m, incl l gates -> good m ->
  exists m', mark_all fuel l m = Some m' /\ good m' /\ incl m m'
    /\ (forall g a, In g l -> In a (args g) -> In a gates -> In a m').
Proof.
  intros HF. induction l as [|g l IH]; intros m HI G; simpl.
  { exists m. repeat split; auto; try apply G. apply incl_refl. intros ? ? []. }
  destruct (mark_ok fuel g m []) as (m1 & E1 & G1 & I1 & C1); auto.
  - apply HI. simpl; auto.
  - constructor; [simpl; auto|constructor].
  - intros x [].
  - intros x [].
  - simpl. lia.
  - rewrite E1. destruct (IH m1) as (m2 & E2 & G2 & I2 & C2); auto.
    { intros x Hx. apply HI. simpl; auto. }
    exists m2. split; auto. split; auto. split.
    + intros x Hx. auto.
    + intros x a [<-|Hx] Ha Hag; [apply I2; apply C1; auto|eapply C2; eauto].
Qed.

Lemma good_nil : good [].
Proof. constructor; intros; contradiction. Qed.
End mark.

Lemma insert_spec g s x : In x (insert g s) <-> x = g \/ In x s.
Proof.
  unfold insert. destruct (in_dec Nat.eq_dec g s); simpl; intuition (subst; auto).
Qed.
Lemma insert_nodup g s : NoDup s -> NoDup (insert g s).
Proof. unfold insert. destruct (in_dec Nat.eq_dec g s); auto. now constructor. Qed.

(** Specification side: the gates defined in a component or its subcomponents. *)
Inductive defined_in (g : nat) : component -> Prop :=
  | def_here gates subs : In g gates -> defined_in g (Comp gates subs)
  | def_sub gates subs c : In c subs -> defined_in g c -> defined_in g (Comp gates subs).

Lemma fold_insert l : forall s, (NoDup s -> NoDup (fold_left (fun s g => insert g s) l s))
  /\ forall x, In x (fold_left (fun s g => insert g s) l s) <-> In x l \/ In x s.
Proof.
  induction l as [|g l IH]; intros s; simpl; [intuition|].
  destruct (IH (insert g s)) as [H1 H2]. split.
  - intros H. apply H1. now apply insert_nodup.
  - intros x. rewrite H2, insert_spec. intuition.
Qed.

Lemma gather_ok : forall c s, (NoDup s -> NoDup (gather c s))
  /\ forall x, In x (gather c s) <-> defined_in x c \/ In x s.
Proof.
  fix IH 1. intros [gates subs] s. simpl.
  destruct (fold_insert gates s) as [F1 F2].
  generalize dependent (fold_left (fun s g => insert g s) gates s). intros s0 F1 F2.
  assert (X : (NoDup s0 -> NoDup ((fix go subs s := match subs with [] => s | c :: subs => go subs (gather c s) end) subs s0))
    /\ forall x, In x ((fix go subs s := match subs with [] => s | c :: subs => go subs (gather c s) end) subs s0)
         <-> (exists c, In c subs /\ defined_in x c) \/ In x s0).
  { clear F1 F2. revert s0. induction subs as [|c subs IHs]; intros s0.
    - split; auto. intros x. split; auto. intros [(c & [] & _)|]; auto.
    - destruct (IH c s0) as [A1 A2]. destruct (IHs (gather c s0)) as [B1 B2]. split; auto.
      intros x. rewrite B2, A2. split.
      + intros [(c' & H1 & H2)|[H|H]]; auto; left; [exists c'|exists c]; simpl; auto.
      + intros [(c' & [<-|H1] & H2)|H]; auto. left. exists c'. auto. }
  destruct X as [X1 X2]. split; [auto|]. intros x. rewrite X2, F2. split.
  - intros [(c & H1 & H2)|[H|H]]; auto; left; [eapply def_sub; eauto|now apply def_here].
  - intros [H|H]; auto. inversion H; subst; auto. left. eauto.
Qed.
