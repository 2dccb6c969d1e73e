(** Conversion of a normalised PDAG into a ZBDD: src/zbdd.cc ConvertGraph and the constructor
    from a gate.  Modules met on the way are literals of the diagram; their own diagrams
    are built by the same constructor (ZbddModules.v). *)
From stdpp Require Import gmap.
From Coq Require Import List ZArith Lia Bool Permutation Sorting.Sorted.
Import ListNotations.
From Verif Require Import Pdag PdagProofs.
From Verif Require Import Zbdd ZbddProofs ZbddHistory.
Open Scope Z_scope.

Section Graph.
Context (ord : Z -> Z) (top : Z) (counted : Z -> bool) (limit : Z).
(** The graph, the module flags, Gate::parents().size(), and the order std::sort leaves the
    arguments in (its comparator is no strict weak order when two arguments are terminal:
    any permutation is possible). *)
Context (G : graph) (module : Z -> bool) (parents : Z -> nat) (arrange : list zt -> list zt).
Definition memo := gmap Z (zt * nat).

Definition fail {A} : M A := fun _ => None.
Definition is_gate (a : Z) : bool := match gs G !! Z.abs a with Some _ => true | None => false end.
(** zbdd.cc:345, 352: a literal. *)
Definition single (a : Z) : zt := ZN a ZB ZE.
(** Zbdd::Apply(Connective, ...), zbdd.cc:537-544. *)
Definition apply (t : conn) (f g : zt) : M zt :=
  match t with
  | kAnd => apply_and ord top counted f g limit
  | kOr => apply_or ord top counted f g limit
  | _ => fail
  end.
(** zbdd.cc:364-366. *)
Fixpoint apply_all (t : conn) (r : zt) (l : list zt) : M zt :=
  match l with [] => ret r | x :: l => r <- apply t r x ;; apply_all t r l end.

(** ConvertGraph, zbdd.cc:325-370. *)
Fixpoint convert (fuel : nat) (g : Z) (m : memo) : M (zt * memo) :=
  match fuel with
  | O => fail
  | S fuel =>
      match gs G !! g with
      | None => fail
      | Some x =>
          check (negb (constant x)) ;;;
          match m !! g with
          | Some (r, c) =>
              check (c <? parents g)%nat ;;;
              ret (r, if (S c =? parents g)%nat then delete g m else <[g := (r, S c)]> m)
          | None =>
              rs <- (fix go (l : list Z) (m : memo) : M (list zt * memo) :=
                       match l with
                       | [] => ret ([], m)
                       | a :: l =>
                           check (0 <? a) ;;;
                           r <- (if module a then ret (single a, m) else convert fuel a m) ;;
                           rs <- go l (snd r) ;;
                           ret (fst r :: fst rs, snd rs)
                       end) (List.filter is_gate (g_args x)) m ;;
              match arrange (map single (List.filter (fun a => negb (is_gate a)) (g_args x)) ++ fst rs) with
              | [] => fail
              | r :: l =>
                  r <- apply_all (g_type x) r l ;;
                  modify clear ;;;
                  check (within_limit counted r limit) ;;;
                  ret (r, if (1 <? parents g)%nat then <[g := (r, 1%nat)]> (snd rs) else snd rs)
              end
          end
      end
  end.

(** The constructor from a gate up to the sub-modules, zbdd.cc:154-176. [coherent_gate] is the
    flag of the gate, [coherent] the flags of the modules. *)
Context (coherent : Z -> bool) (coherent_gate : bool).
Definition wide (i : Z) : bool := is_gate i && module (Z.abs i) && negb (coherent (Z.abs i)).
Definition convert_gate (fuel : nat) (g : Z) : M zt :=
  r <- convert fuel g ∅ ;;
  r <- (if coherent_gate then ret (fst r) else eliminate_complements ord top counted wide limit (fst r)) ;;
  minimize ord top r.

(** ** Specification *)
(** Gates that belong to the diagram of [root]: reached without passing through a module. *)
Inductive active (root : Z) : Z -> Prop :=
| active_root : active root root
| active_arg i x a : active root i -> gs G !! i = Some x -> In a (g_args x) -> is_Some (gs G !! Z.abs a) ->
    module (Z.abs a) = false -> active root (Z.abs a).
(** Literals of the diagram: variables and modules. *)
Definition leaf (root j : Z) : Prop :=
  exists i x, gs G !! i = Some x /\ active root i /\ In j (g_args x) /\ (gs G !! Z.abs j = None \/ module (Z.abs j) = true).
(** Labellings in which modules are independent variables. *)
Definition respects (root : Z) (ν : Z -> bool) : Prop :=
  forall i x, gs G !! i = Some x -> active root i -> ν i = gate_value ν x.
(** The labelling makes exactly the members of x fail. *)
Definition at_point (root : Z) (x : list Z) (ν : Z -> bool) : Prop := forall j, leaf root j -> ν (Z.abs j) = mem x (Z.abs j).
(** Normalised: AND/OR gates with at least two arguments, complements only on variables,
    no constants. *)
Definition nnf (root : Z) : Prop :=
  forall i x, gs G !! i = Some x -> active root i ->
    (g_type x = kAnd \/ g_type x = kOr) /\ (2 <= length (g_args x))%nat /\ constant x = false /\
    forall a, In a (g_args x) -> a <> 0 /\ ord a <= top /\ (is_Some (gs G !! Z.abs a) -> 0 < a).
End Graph.

Section Proofs.
Context (ord : Z -> Z) (top : Z) (counted : Z -> bool) (limit : Z) (ORD : ordering ord) (LIM : 0 <= limit).
Context (G : graph) (module : Z -> bool) (parents : Z -> nat) (arrange : list zt -> list zt) (root : Z).
Context (ARR : forall l, Permutation (arrange l) l) (NNF : nnf ord top G module root).
Notation wf := (Zbdd.wf ord top).
Notation size := (Zbdd.size counted).
Notation inv := (ZbddProofs.inv ord top counted).
Notation leaf := (ZbddGraph.leaf G module root).
Notation respects := (ZbddGraph.respects G module root).

Lemma lit_assignment ν : assignment (lit ν).
Proof.
  intros i N. unfold lit. destruct (Z.ltb_spec i 0), (Z.ltb_spec (- i) 0); try lia; rewrite ?Z.opp_involutive, ?negb_involutive; auto.
Qed.

Record represents (F : (Z -> bool) -> bool) (r : zt) : Prop := {
  r_wf : wf r; r_anti : antichain r;
  r_lits : forall j, lits r j -> leaf j;
  r_sound : forall ν, respects ν -> ev (lit ν) r = true -> F ν = true;
  r_complete : forall ν s, respects ν -> NoDup s -> Zbdd.consistent s -> size s <= limit ->
    (forall j, leaf j -> lit ν j = true -> In j s) -> F ν = true -> ev (mem s) r = true }.

Definition op (t : conn) (a b : bool) : bool := match t with kAnd => a && b | _ => a || b end.
Lemma apply_ok t F1 F2 f g s : t = kAnd \/ t = kOr -> inv s -> represents F1 f -> represents F2 g ->
  runs (apply ord top counted limit t f g) s (fun r s' => inv s' /\
    represents (fun ν => op t (F1 ν) (F2 ν)) r /\ forall p, In p (fam r) -> size p <= limit).
Proof.
  intros T I [W1 A1 L1 S1 C1] [W2 A2 L2 S2 C2]. destruct T as [-> | ->]; unfold apply, op.
  - eapply runs_mono; [apply (apply_and_ok ord top counted ORD f g limit s); auto|]. intros r s' [I' [W A L Z S C]].
    split; auto. split; auto. constructor; auto.
    + intros j J. destruct (L j J); auto.
    + intros ν R E. destruct (S _ (lit_assignment ν) E) as [X Y]. rewrite (S1 ν R X), (S2 ν R Y). auto.
    + intros ν x R N K Z' H E. apply andb_true_iff in E as [E1 E2]. apply C; eauto.
  - eapply runs_mono; [apply (apply_or_ok ord top counted ORD f g limit s); auto|]. intros r s' [I' [W A L Z S C]].
    split; auto. split; auto. constructor; auto.
    + intros j J. destruct (L j J); auto.
    + intros ν R E. destruct (S _ (lit_assignment ν) E) as [X|X]; apply orb_true_iff; eauto.
    + intros ν x R N K Z' H E. apply orb_true_iff in E as [E|E]; apply C; eauto.
Qed.
Lemma represents_ext F F' r : (forall ν, respects ν -> F ν = F' ν) -> represents F r -> represents F' r.
Proof. intros E [? ? ? S C]. constructor; auto; intros; [rewrite <- E|apply (C ν s)]; auto. rewrite E; auto. Qed.
Definition bounded (r : zt) : Prop := forall p, In p (fam r) -> size p <= limit.
Lemma apply_all_ok t : t = kAnd \/ t = kOr -> forall l Fs F r s, inv s -> represents F r -> Forall2 represents Fs l ->
  bounded r \/ l <> [] ->
  runs (apply_all ord top counted limit t r l) s (fun r' s' => inv s' /\
    represents (fun ν => fold_left (op t) (map (fun F => F ν) Fs) (F ν)) r' /\ bounded r').
Proof.
  intros T. induction l as [|x l IH]; intros Fs F r s I R RS B; inversion RS as [|F1 ? Fs' ? R1 RS']; subst; simpl.
  - apply runs_ret. split; auto. split; auto. tauto.
  - apply runs_seq with (1 := apply_ok t F F1 r x s T I R R1). intros r1 s1 (I1 & R1' & Z1).
    apply (IH Fs' _ r1 s1 I1 R1' RS'). auto.
Qed.

Lemma single_represents a : leaf a -> represents (fun ν => lit ν a) (single a).
Proof.
  intros L. assert (N : a <> 0 /\ ord a <= top) by (destruct L as (i & x & E & A & J & _); destruct (NNF i x E A) as (_ & _ & _ & H); destruct (H a J) as (? & ? & _); auto).
  constructor.
  - simpl. repeat split; try discriminate; tauto.
  - intros p q [<-|[]] [<-|[]]; auto.
  - intros j (p & [<-|[]] & [<-|[]]). auto.
  - intros ν R. simpl. rewrite andb_true_r, orb_false_r. auto.
  - intros ν s R _ _ _ H E. simpl. rewrite andb_true_r, orb_false_r. apply mem_In. auto.
Qed.

(** The memo table *)
Definition memo_ok (m : memo) : Prop := forall g r c, m !! g = Some (r, c) ->
  (c < parents g)%nat /\ represents (fun ν => ν g) r /\ bounded r.

Lemma fold_op t b l : t = kAnd \/ t = kOr -> fold_left (op t) l b = conn_value t 0 (b :: l).
Proof.
  intros [-> | ->]; simpl; revert b; (induction l as [|x l IH]; intros b; simpl; [rewrite ?andb_true_r, ?orb_false_r; auto|rewrite IH]).
  - symmetry. apply andb_assoc.
  - symmetry. apply orb_assoc.
Qed.
Lemma conn_perm t k l l' : t = kAnd \/ t = kOr -> Permutation l l' -> conn_value t k l = conn_value t 0 l'.
Proof.
  intros [-> | ->] P; simpl; induction P; simpl; auto; try congruence;
    rewrite ?andb_assoc, ?orb_assoc; f_equal; [apply andb_comm|apply orb_comm].
Qed.
Lemma filter_split (f : Z -> bool) l : Permutation (List.filter (fun a => negb (f a)) l ++ List.filter f l) l.
Proof.
  induction l as [|a l IH]; simpl; auto. destruct (f a); simpl; [|constructor; auto].
  etransitivity; [symmetry; apply Permutation_middle|]. constructor. auto.
Qed.

Lemma convert_ok (r0 : Z -> nat) : ranked G r0 -> forall fuel g m s, inv s -> memo_ok m ->
  is_Some (gs G !! g) -> active G module root g -> (r0 g < fuel)%nat ->
  runs (convert ord top counted limit G module parents arrange fuel g m) s (fun rm s' => inv s' /\ memo_ok (snd rm) /\
    represents (fun ν => ν g) (fst rm) /\ bounded (fst rm)).
Proof.
  intros RK. induction fuel as [|fuel IH]; intros g m s I MO [x Ex] Ag F; [lia|]. cbn [convert]. rewrite Ex.
  destruct (NNF g x Ex Ag) as (T & LA & NC & HA).
  apply runs_bind, runs_check; [rewrite NC; auto|].
  destruct (m !! g) as [[r c]|] eqn:Em.
  - destruct (MO g r c Em) as (Lc & R & B). apply runs_bind, runs_check; [apply Nat.ltb_lt; auto|]. apply runs_ret. cbn [fst snd].
    split; auto. split; [|auto]. intros g' r' c' E'. destruct (Nat.eqb_spec (S c) (parents g)) as [Eq|Ne].
    + apply lookup_delete_Some in E' as [_ E']. apply MO in E'. auto.
    + apply lookup_insert_Some in E' as [[<- E']|[_ E']]; [|apply MO in E'; auto]. injection E' as <- <-. split; [lia|auto].
  - apply runs_seq with (P := fun rs s' => inv s' /\ memo_ok (snd rs) /\
       Forall2 represents (map (fun a ν => lit ν a) (List.filter (is_gate G) (g_args x))) (fst rs)).
    + assert (HG : forall a, In a (List.filter (is_gate G) (g_args x)) -> In a (g_args x) /\ is_Some (gs G !! Z.abs a) /\ 0 < a).
      { intros a J. apply filter_In in J as [J K]. unfold is_gate in K. destruct (gs G !! Z.abs a) eqn:Ea; [|discriminate].
        split; auto. split; eauto. apply HA; eauto. }
      revert HG. generalize (List.filter (is_gate G) (g_args x)). intros l. clear Em. revert m s I MO.
      induction l as [|a l IHl]; intros m s I MO HG; [apply runs_ret; simpl; auto|].
      destruct (HG a (or_introl eq_refl)) as (Ia & [y Ey] & Pa). rewrite Z.abs_eq in Ey by lia.
      assert (Aa : module a = false -> active G module root a).
      { intros Ma. rewrite <- (Z.abs_eq a) by lia. apply (active_arg G module root g x a); auto; rewrite ?Z.abs_eq by lia; eauto. }
      assert (La : forall ν, lit ν a = ν a) by (intros ν; unfold lit; destruct (Z.ltb_spec a 0); [lia|auto]).
      apply runs_bind, runs_check; [apply Z.ltb_lt; auto|].
      apply runs_seq with (P := fun rm s' => inv s' /\ memo_ok (snd rm) /\ represents (fun ν => lit ν a) (fst rm)).
      * destruct (module a) eqn:Ma.
        -- apply runs_ret. simpl. split; auto. split; auto. apply single_represents. exists g, x. rewrite Z.abs_eq by lia. auto.
        -- eapply runs_mono; [apply (IH a m s I MO); [eauto|auto|]|].
           ++ assert (r0 (Z.abs a) < r0 g)%nat by (apply (RK g x a); auto; rewrite Z.abs_eq by lia; eauto). rewrite Z.abs_eq in H by lia. lia.
           ++ intros rm s' (I' & MO' & R' & _). split; auto. split; auto. eapply represents_ext; [|exact R']. intros ν _. auto.
      * intros rm s1 (I1 & MO1 & R1).
        apply runs_seq with (P := fun rs s' => inv s' /\ memo_ok (snd rs) /\ Forall2 represents (map (fun a ν => lit ν a) l) (fst rs)).
        -- apply (IHl (snd rm) s1 I1 MO1). intros b J. apply HG. simpl; auto.
        -- intros rs s2 (I2 & MO2 & R2). apply runs_ret. simpl. split; auto.
    + intros rs s1 (I1 & MO1 & R1).
      set (vars := List.filter (fun a => negb (is_gate G a)) (g_args x)).
      set (gates := List.filter (is_gate G) (g_args x)) in *.
      assert (RV : Forall2 represents (map (fun a ν => lit ν a) vars) (map single vars)).
      { assert (HV : forall a, In a vars -> leaf a).
        { intros a J. apply filter_In in J as [J K]. exists g, x. split; auto. split; auto. split; auto. left.
          unfold is_gate in K. destruct (gs G !! Z.abs a); [discriminate|auto]. }
        clearbody vars. induction vars as [|a l IHl]; simpl; constructor.
        - apply single_represents. apply HV. simpl; auto.
        - apply IHl. intros b J. apply HV. simpl; auto. }
      pose proof (Forall2_app RV R1) as RA.
      pose proof (ARR (map single vars ++ fst rs)) as PA. set (arr := arrange (map single vars ++ fst rs)) in *.
      apply Forall2_flip in RA. destruct (Permutation_Forall2 (Permutation_sym PA) RA) as (Fs & PF & RF). apply Forall2_flip in RF.
      assert (LEN : length arr = length (g_args x)).
      { rewrite (Permutation_length PA), app_length, map_length, <- (Forall2_length _ _ _ R1), map_length, <- app_length.
        apply Permutation_length, filter_split. }
      destruct arr as [|r l] eqn:Earr; [simpl in LEN; lia|]. assert (NL : l <> []) by (intros ->; simpl in LEN; lia).
      inversion RF as [|F1 ? Fs' ? RF1 RF' E1 E2]; subst.
      apply runs_seq with (1 := apply_all_ok (g_type x) T l Fs' F1 r s1 I1 RF1 RF' (or_intror NL)).
      intros r' s2 (I2 & R2 & B2).
      assert (RG : represents (fun ν => ν g) r').
      { eapply represents_ext; [|exact R2]. intros ν Rν. simpl. rewrite (Rν g x Ex Ag). unfold gate_value.
        rewrite fold_op by auto. symmetry.
        change (F1 ν :: map (fun F => F ν) Fs') with (map (fun F : (Z -> bool) -> bool => F ν) (F1 :: Fs')).
        apply conn_perm; auto. etransitivity; [|apply Permutation_map; exact PF]. rewrite <- map_app, map_map. apply Permutation_map. symmetry. apply filter_split. }
      apply runs_bind, runs_modify. apply runs_bind, runs_check.
      { apply (within_ok ord top counted); auto. apply R2. }
      apply runs_ret. cbn [fst snd]. split; [apply inv_clear; auto|]. split; auto.
      intros g' r1 c1 E'. destruct (Nat.ltb_spec 1 (parents g)) as [Eq|Ne]; [|apply MO1 in E'; auto].
      apply lookup_insert_Some in E' as [[<- E']|[_ E']]; [|apply MO1 in E'; auto]. injection E' as <- <-. auto.
Qed.

Definition pos (p : list Z) : list Z := List.filter (fun j => 0 <? j) p.
Context (MCS : forall j, j < 0 -> counted j = false) (coherent : Z -> bool) (coherent_gate : bool).
Context (COH : coherent_gate = true -> forall j, leaf j -> 0 < j).
Lemma leaf_lit j : leaf j -> j <> 0 /\ (is_Some (gs G !! Z.abs j) -> 0 < j).
Proof. intros (i & x & E & A & J & _). destruct (NNF i x E A) as (_ & _ & _ & H). destruct (H j J) as (? & ? & ?). auto. Qed.
Lemma leaf_neg j : leaf j -> j < 0 -> wide G module coherent j = false.
Proof.
  intros L N. unfold wide, is_gate. destruct (gs G !! Z.abs j) eqn:E; auto. exfalso.
  destruct (leaf_lit j L) as [_ H]. rewrite E in H. assert (0 < j) by eauto. lia.
Qed.

Lemma pos_eq p : (forall j, In j p -> 0 < j) -> pos p = p.
Proof.
  intros H. unfold pos. induction p as [|a p IH]; auto. cbn [List.filter]. destruct (Z.ltb_spec 0 a) as [L|L].
  - f_equal. apply IH. intros j J. apply H. simpl; auto.
  - specialize (H a (or_introl eq_refl)). lia.
Qed.
Lemma projected_pos t : (forall j, lits t j -> leaf j) ->
  projected (fun i => if (i <? 0) && negb (wide G module coherent i) then Some true else None) (fam t) = map pos (fam t).
Proof.
  intros L. unfold projected. assert (H : forall p j, In p (fam t) -> In j p -> leaf j) by (intros p j P J; apply L; exists p; auto).
  revert H. generalize (fam t). intros l H. induction l as [|p l IH]; auto. cbn [List.filter map].
  assert (E : forall p, alive (fun i => if (i <? 0) && negb (wide G module coherent i) then Some true else None) p = true).
  { intros q. unfold alive. apply forallb_forall. intros j _. destruct ((j <? 0) && negb (wide G module coherent j)); auto. }
  rewrite E. cbn [map]. f_equal; [|apply IH; intros q j Q; apply H; simpl; auto].
  unfold remaining, pos. apply filter_ext_in. intros j J. pose proof (H p j (or_introl eq_refl) J) as Lj.
  destruct (leaf_lit j Lj) as [Nj _]. destruct (Z.ltb_spec j 0) as [X|X], (Z.ltb_spec 0 j) as [Y|Y]; try lia; simpl; auto.
  rewrite (leaf_neg j Lj X). auto.
Qed.

Lemma size_pos p : size (pos p) <= size p.
Proof.
  induction p as [|a p IH]; unfold pos; cbn [List.filter]; [lia|]. fold (pos p). rewrite (size_cons counted a p).
  pose proof (cost_range counted a). destruct (0 <? a); [rewrite size_cons; fold (cost counted a)|]; lia.
Qed.
Lemma convert_gate_ok (r0 : Z -> nat) : ranked G r0 -> is_Some (gs G !! root) -> forall fuel s, (r0 root < fuel)%nat -> inv s ->
  runs (convert_gate ord top counted limit G module parents arrange coherent coherent_gate fuel root) s (fun r s' => inv s' /\
    exists t, represents (fun ν => ν root) t /\ bounded t /\ wf r /\ positive r /\ forall p, In p (fam r) <-> minimal_in (map pos (fam t)) p).
Proof.
  intros RK SR fuel s F I. unfold convert_gate.
  assert (M0 : memo_ok ∅) by (intros g r c E; elim (lookup_empty_Some (M := gmap Z) g (r, c) E)).
  apply runs_seq with (1 := convert_ok r0 RK fuel root ∅ s I M0 SR (active_root G module root) F).
  intros [t m] s1 (I1 & _ & R & B). cbn [fst snd] in *.
  apply runs_seq with (P := fun r s' => inv s' /\ wf r /\ positive r /\ forall p, In p (fam r) <-> minimal_in (map pos (fam t)) p).
  - destruct coherent_gate eqn:EC.
    + apply runs_ret. split; auto. split; [apply R|].
      assert (P : positive t) by (intros p j P J; apply COH; auto; apply (r_lits _ _ R); exists p; auto).
      split; auto. assert (E : map pos (fam t) = fam t).
      { rewrite <- (map_id (fam t)) at 2. apply map_ext_in. intros p Q. apply pos_eq. intros j. apply P; auto. }
      rewrite E. intros p. unfold minimal_in. split; [|tauto]. intros Q. split; auto. intros q Q' X. apply (r_anti _ _ R); auto.
    + set (c := fun i => if (i <? 0) && negb (wide G module coherent i) then Some true else None).
      destruct (eliminate_ok ord top counted ORD limit c t s1 I1 (r_wf _ _ R)) as (r & s2 & E & I2 & Wr & Pr & _ & Fr).
      * intros j J Cj. apply (r_lits _ _ R) in J. destruct (leaf_lit j J) as [N _]. unfold c in Cj.
        destruct (Z.ltb_spec j 0) as [X|X]; [|lia]. rewrite (leaf_neg j J X) in Cj. discriminate.
      * intros p P. eapply Z.le_trans; [|apply B; exact P]. apply size_incl; [|intros i J; apply filter_In in J as [J _]; auto].
        apply NoDup_filter. apply (nodup_fam ord top counted t (r_wf _ _ R)); auto.
      * exists r, s2. rewrite eliminate_complements_as. split; auto. split; auto. split; auto. split; auto.
        intros p. rewrite Fr. unfold c. rewrite projected_pos; [tauto|]. apply (r_lits _ _ R).
  - intros r s2 (I2 & W2 & P2 & F2).
    destruct (minimize_ok ord top counted ORD r s2 I2 W2) as (r' & s3 & E & I3 & W3 & F3). exists r', s3. split; auto. split; auto.
    assert (FF : forall p, In p (fam r') <-> In p (fam r)).
    { intros p. rewrite F3. split; [tauto|]. intros P. split; auto. intros q Q X. apply F2 in P as [_ P]. apply F2 in Q as [Q _]. auto. }
    exists t. split; auto. split; auto. split; auto. split; [intros p j P; apply P2; apply FF; auto|]. intros p. rewrite FF, F2. tauto.
Qed.

(** All literals of the graph *)
Definition all_args : list Z := flat_map (fun e : Z * gate => g_args (snd e)) (map_to_list (gs G)).
Lemma leaf_all j : leaf j -> In j all_args.
Proof.
  intros (i & x & E & _ & J & _). apply in_flat_map. exists (i, x). split; auto. apply elem_of_list_In, elem_of_map_to_list. auto.
Qed.
Lemma products_ok t r : represents (fun ν => ν root) t -> bounded t -> wf r -> (forall p, In p (fam r) <-> minimal_in (map pos (fam t)) p) ->
  antichain r /\
  (forall p, In p (fam r) -> size p <= limit /\ (forall j, In j p -> 0 < j /\ leaf j) /\
     forall ν, respects ν -> (forall j, In j p -> ν j = true) -> (forall j, leaf j -> j < 0 -> ~ In (- j) p -> ν (- j) = false) -> ν root = true) /\
  (forall x ν, NoDup x -> size x <= limit -> respects ν -> at_point G module root x ν -> ν root = true -> exists p, In p (fam r) /\ incl p x).
Proof.
  intros R B W F. split; [intros p q P Q X; apply F in P as [P _]; apply F in Q as [_ Q]; auto|]. split.
  - intros p P. apply F in P as [P _]. apply in_map_iff in P as (q & <- & Q).
    split; [pose proof (size_pos q); specialize (B q Q); lia|]. split.
    { intros j J. apply filter_In in J as [J K]. split; [apply Z.ltb_lt; auto|]. apply (r_lits _ _ R). exists q; auto. }
    intros ν Rν A B'. apply (r_sound _ _ R ν Rν). apply ev_fam. exists q. split; auto. intros j J.
    assert (L : leaf j) by (apply (r_lits _ _ R); exists q; auto). destruct (leaf_lit j L) as [Nj _].
    unfold lit. destruct (Z.ltb_spec j 0) as [X|X].
    + rewrite (B' j L X); auto. intros M. apply filter_In in M as [M _].
      apply (consistent_fam ord top counted ORD t (r_wf _ _ R) q Q j J M).
    + apply A, filter_In. split; auto. apply Z.ltb_lt. lia.
  - intros x ν N Z Rν A E.
    set (s := nodup Z.eq_dec (List.filter (fun j => negb (j =? 0) && lit ν j && (if 0 <? j then mem x j else true)) all_args)).
    assert (HS : forall j, In j s -> j <> 0 /\ lit ν j = true /\ (0 < j -> In j x)).
    { intros j J. apply nodup_In, filter_In in J as [_ J]. apply andb_true_iff in J as [J K]. apply andb_true_iff in J as [J1 J2].
      split; [intros ->; discriminate|]. split; auto. intros P. destruct (Z.ltb_spec 0 j); [|lia]. apply mem_In. auto. }
    assert (EV : ev (mem s) t = true).
    { apply (r_complete _ _ R ν s); auto.
      - apply NoDup_nodup.
      - intros j J K. apply HS in J as (N1 & J & _). apply HS in K as (_ & K & _). rewrite (lit_assignment ν j N1), J in K. discriminate.
      - assert (size s <= size x); [|lia]. unfold Zbdd.size. apply Nat2Z.inj_le. apply NoDup_incl_length; [apply NoDup_filter, NoDup_nodup|].
        intros j J. apply filter_In in J as [J C]. apply filter_In. split; auto. apply HS in J as (N1 & _ & J). apply J.
        destruct (Z.ltb_spec j 0) as [X|X]; [rewrite MCS in C by auto; discriminate|lia].
      - intros j L J. apply nodup_In, filter_In. split; [apply leaf_all; auto|]. destruct (leaf_lit j L) as [Nj _].
        rewrite J. destruct (Z.eqb_spec j 0); [lia|]. simpl. destruct (Z.ltb_spec 0 j); auto.
        specialize (A j L). rewrite Z.abs_eq in A by lia. rewrite <- A. unfold lit in J. destruct (Z.ltb_spec j 0); [lia|auto]. }
    apply ev_mem in EV as (q & Q & X).
    destruct (minimal_exists ord (map pos (fam t))) with (p := pos q) as (p & P & Y).
    + intros p P. apply in_map_iff in P as (q' & <- & Q'). apply sorted_filter. apply (sorted_fam ord top counted t (r_wf _ _ R)); auto.
    + apply in_map. auto.
    + exists p. split; [apply F; auto|]. intros j J. apply Y, filter_In in J as [J K]. apply HS; auto. apply Z.ltb_lt. auto.
Qed.
End Proofs.
