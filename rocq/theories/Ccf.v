(** Common cause failure groups: src/ccf_group.cc, src/ccf_group.h.
    Members are numbers (their names); levels are Z (int).  Expressions are a small syntax
    evaluated over the rationals (doubles in the code: rounding is not modelled).
    Interval (sample domain) checks are not modelled; a CCF event is identified by its
    member list (its name is the joined member names). *)
From Coq Require Import List Arith ZArith QArith Lia Bool Permutation Factorial.
From Verif Require Import Combination.
Import ListNotations.

(** Expressions: user-supplied values and the n-ary operators used by the CCF models
    (src/expression/numerical.h: Sub and Div fold from the first argument). *)
Inductive expr :=
  | EVal (q : Q) | EAdd (l : list expr) | EMul (l : list expr) | ESub (a b : expr) | EDiv (a b : expr).
Local Open Scope Q_scope.
Fixpoint value (e : expr) : Q :=
  match e with
  | EVal q => q
  | EAdd l => (fix go l := match l with [] => 0 | e :: l => value e + go l end) l
  | EMul l => (fix go l := match l with [] => 1 | e :: l => value e * go l end) l
  | ESub a b => value a - value b
  | EDiv a b => value a / value b
  end.
Local Close Scope Q_scope.

Inductive model := Beta | Mgl | Alpha | Phi.
Inductive error := LogicError | ValidityError | DuplicateElementError | DomainError | AssertFailure.
Inductive result (A : Type) := Ok (a : A) | Throw (e : error).
Arguments Ok {A}. Arguments Throw {A}.

Record group := mkGroup {
  g_model : model;
  members : list nat;
  distribution : option expr;
  factors : list (Z * option expr);
  prev_level : Z
}.
Definition new_group (m : model) : group := mkGroup m [] None [] 0.

(** AddMember, ccf_group.cc:54-67. *)
Definition add_member (n : nat) (g : group) : result group :=
  match distribution g, factors g with
  | None, [] =>
      if existsb (Nat.eqb n) (members g) then Throw DuplicateElementError
      else Ok (mkGroup (g_model g) (members g ++ [n]) None [] (prev_level g))
  | _, _ => Throw LogicError
  end.

(** AddDistribution, ccf_group.cc:69-80. *)
Definition add_distribution (d : expr) (g : group) : result group :=
  match distribution g with
  | Some _ => Throw LogicError
  | None => if length (members g) <? 2 then Throw ValidityError
            else Ok (mkGroup (g_model g) (members g) (Some d) (factors g) (prev_level g))
  end.

(** min_level, ccf_group.h:174,211,226. *)
Definition min_level (g : group) : Z :=
  match g_model g with
  | Beta => Z.of_nat (length (members g))
  | Mgl => 2
  | Alpha | Phi => 1
  end.

(** AddFactor, ccf_group.cc:82-115.  vector::resize pads with {0, nullptr}. *)
Definition set_factor (i : nat) (x : Z * option expr) (l : list (Z * option expr)) :=
  let l := l ++ repeat (0%Z, None) (S i - length l) in
  firstn i l ++ x :: skipn (S i) l.
Definition add_factor (f : expr) (level : option Z) (g : group) : result group :=
  let ml := min_level g in
  let l := match level with
           | Some l => l
           | None => if Z.eqb (prev_level g) 0 then ml else (prev_level g + 1)%Z
           end in
  if (l <=? 0)%Z || match members g with [] => true | _ => false end then Throw LogicError
  else if (l <? ml)%Z then Throw ValidityError
  else if (Z.of_nat (length (members g)) <? l)%Z then Throw ValidityError
  else
    let index := Z.to_nat (l - ml) in
    match nth_error (factors g) index with
    | Some (_, Some _) => Throw ValidityError
    | _ => Ok (mkGroup (g_model g) (members g) (distribution g)
                       (set_factor index (l, Some f) (factors g)) l)
    end.

(** EnsureProbability, expression.cc:75-79 (value part). *)
Definition is_prob (e : expr) : bool := Qle_bool 0 (value e) && Qle_bool (value e) 1.

(** PhiFactorModel::DoValidate, ccf_group.cc:276-290 (value part). *)
Definition factor_values (g : group) : list Q :=
  map (fun f => match snd f with Some e => value e | None => 0%Q end) (factors g).
Definition Qsum (l : list Q) : Q := fold_right Qplus 0%Q l.
Definition do_validate (g : group) : option error :=
  match g_model g with
  | Phi =>
      let d := (1 - Qsum (factor_values g))%Q in
      if Qle_bool d (1 # 10000) && Qle_bool (- d) (1 # 10000) then None else Some ValidityError
  | _ => None
  end.

Fixpoint check_factors (l : list (Z * option expr)) : option error :=
  match l with
  | [] => None
  | (_, None) :: _ => Some ValidityError
  | (_, Some e) :: l => if is_prob e then check_factors l else Some DomainError
  end.

(** Validate, ccf_group.cc:117-137; None = no error. *)
Definition validate (g : group) : option error :=
  match distribution g, members g, factors g with
  | Some d, _ :: _, _ :: _ =>
      if is_prob d then
        match check_factors (factors g) with
        | Some e => Some e
        | None => do_validate g
        end
      else Some DomainError
  | _, _, _ => Some LogicError
  end.

(** CalculateCombinationReciprocal, ccf_group.cc:211-222. *)
Fixpoint recip_loop (k m : nat) : Q :=   (* product over i = 1..m of i / (k + i) *)
  match m with
  | 0 => 1%Q
  | S m => (recip_loop k m * (inject_Z (Z.of_nat (S m)) / inject_Z (Z.of_nat (k + S m))))%Q
  end.
Definition reciprocal (n k : nat) : Q :=
  let k := if k <? n - k then n - k else k in recip_loop k (n - k).

Definition the_factor (g : group) (i : nat) : expr :=
  match nth_error (factors g) i with Some (_, Some e) => e | _ => EVal 0 end.
Definition the_distribution (g : group) : expr :=
  match distribution g with Some d => d | None => EVal 0 end.
Definition last_level (g : group) : nat := Z.to_nat (fst (last (factors g) (0%Z, None))).

(** CalculateProbabilities of the four models, ccf_group.cc:184-200,226-274,292-302. *)
Definition probabilities (g : group) : list (nat * expr) :=
  let q := the_distribution g in
  let n := length (members g) in
  match g_model g with
  | Beta =>
      let beta := the_factor g 0 in
      [ (1, EMul [ESub (EVal 1) beta; q]);
        (Z.to_nat (fst (hd (0%Z, None) (factors g))), EMul [beta; q]) ]
  | Mgl =>
      let max_level := last_level g in
      map (fun i =>
        (S i, EMul ([EVal (reciprocal (n - 1) i)]
               ++ map (the_factor g) (seq 0 i)
               ++ (if i <? max_level - 1 then [ESub (EVal 1) (the_factor g i)] else [])
               ++ [q]))) (seq 0 max_level)
  | Alpha =>
      let max_level := last_level g in
      let sum := EAdd (map (fun f => EMul [EVal (inject_Z (fst f));
                        match snd f with Some e => e | None => EVal 0 end]) (factors g)) in
      map (fun i =>
        (S i, EMul [EVal (inject_Z (Z.of_nat (S i))); EVal (reciprocal (n - 1) i);
                    EDiv (the_factor g i) sum; q])) (seq 0 max_level)
  | Phi =>
      map (fun f => (Z.to_nat (fst f),
              EMul [match snd f with Some e => e | None => EVal 0 end; q])) (factors g)
  end.

(** A CCF event: members and probability. *)
Record event := mkEvent { ev_members : list nat; ev_prob : expr }.

(** Formula::ArgSet::Add, event.cc:52-63: duplicates are refused. *)
Definition same_members (a b : event) : bool :=
  if list_eq_dec Nat.eq_dec (ev_members a) (ev_members b) then true else false.
Definition argset_add (e : event) (l : list event) : result (list event) :=
  if existsb (fun x => same_members x e) l then Throw DuplicateElementError else Ok (l ++ [e]).

(** The proxies' argument sets, by member. *)
Definition argmap := nat -> list event.
Fixpoint add_to_members (ms : list nat) (e : event) (args : argmap) : result argmap :=
  match ms with
  | [] => Ok args
  | m :: ms =>
      match argset_add e (args m) with
      | Throw x => Throw x
      | Ok l => add_to_members ms e (fun k => if Nat.eqb k m then l else args k)
      end
  end.
Fixpoint visit_all (combos : list (list nat)) (p : expr) (st : list event * argmap)
  : result (list event * argmap) :=
  match combos with
  | [] => Ok st
  | c :: combos =>
      let e := mkEvent c p in
      match add_to_members c e (snd st) with
      | Throw x => Throw x
      | Ok args => visit_all combos p (fst st ++ [e], args)
      end
  end.
(** The loop over levels; the proxy vector [ms] is permuted in place by
    for_each_combination. *)
Fixpoint apply_levels (ps : list (nat * expr)) (ms : list nat) (st : list event * argmap)
  : result (list event * argmap) :=
  match ps with
  | [] => Ok st
  | (level, p) :: ps =>
      let '(combos, ms) := for_each_combination ms level in
      match visit_all combos p st with
      | Throw x => Throw x
      | Ok st => apply_levels ps ms st
      end
  end.
(** CcfGroup::ApplyModel, ccf_group.cc:139-182.  The proxy gate of member m is the OR of
    [args m]; the two assertions (and the OR arity check) are modelled. *)
Definition apply_model (g : group) : result (list event * argmap) :=
  let ps := probabilities g in
  if length ps <? 2 then Throw AssertFailure
  else match apply_levels ps (members g) ([], fun _ => []) with
       | Throw x => Throw x
       | Ok (events, args) =>
           if forallb (fun m => 2 <=? length (args m)) (members g) then Ok (events, args)
           else Throw AssertFailure
       end.

(** Histories. *)
Inductive op := OpMember (n : nat) | OpDistribution (d : expr) | OpFactor (f : expr) (level : option Z).
Definition step (o : op) (g : group) : result group :=
  match o with
  | OpMember n => add_member n g
  | OpDistribution d => add_distribution d g
  | OpFactor f l => add_factor f l g
  end.
Fixpoint run (h : list op) (g : group) : result group :=
  match h with
  | [] => Ok g
  | o :: h => match step o g with Ok g => run h g | Throw e => Throw e end
  end.

(** ** Proofs: factor table *)

(** The level table is sound: entry i, if present, is the level min_level + i; the last
    entry is present; prev_level is 0 or one of the levels. *)
Record inv (g : group) : Prop := {
  i_nodup : NoDup (members g);
  i_dist : distribution g <> None -> 2 <= length (members g);
  i_fac : factors g <> [] -> members g <> [];
  i_min : factors g <> [] -> (1 <= min_level g)%Z;
  i_level : forall i l e, nth_error (factors g) i = Some (l, Some e) -> l = (min_level g + Z.of_nat i)%Z;
  i_pad : forall i l, nth_error (factors g) i = Some (l, None) -> l = 0%Z;
  i_last : factors g <> [] -> exists l e, last (factors g) (0%Z, None) = (l, Some e);
  i_bound : (Z.of_nat (length (factors g)) + min_level g <= Z.of_nat (length (members g)) + 1)%Z \/ factors g = [];
  i_prev : prev_level g = 0%Z /\ factors g = [] \/
           exists i e, nth_error (factors g) i = Some (prev_level g, Some e)
}.

Lemma inv_new m : inv (new_group m).
Proof.
  constructor; simpl; auto; try congruence; try constructor; intros [|] **; discriminate.
Qed.

Lemma set_factor_length i x l : length (set_factor i x l) = max (length l) (S i).
Proof.
  unfold set_factor. rewrite app_length. cbn [length]. rewrite firstn_length, skipn_length, app_length, repeat_length. lia.
Qed.

Lemma nth_error_pad (l : list (Z * option expr)) n i :
  nth_error (l ++ repeat (0%Z, None) n) i =
  if i <? length l then nth_error l i else if i <? length l + n then Some (0%Z, None) else None.
Proof.
  destruct (Nat.ltb_spec i (length l)).
  - now rewrite nth_error_app1.
  - rewrite nth_error_app2 by lia. destruct (Nat.ltb_spec i (length l + n)).
    + rewrite nth_error_repeat; auto. lia.
    + apply nth_error_None. rewrite repeat_length. lia.
Qed.

Lemma nth_error_firstn {A} (l : list A) n i : nth_error (firstn n l) i = if i <? n then nth_error l i else None.
Proof.
  revert l i. induction n; intros l i; simpl.
  - destruct (i <? 0) eqn:E; [apply Nat.ltb_lt in E; lia|]. now destruct i.
  - destruct l; simpl.
    + destruct i; [|change (nth_error (@nil A) (S i)) with (@None A)]; match goal with |- context[if ?b then _ else _] => destruct b end; auto.
    + destruct i; simpl; auto. rewrite IHn. reflexivity.
Qed.
Lemma nth_error_skipn {A} (l : list A) n i : nth_error (skipn n l) i = nth_error l (n + i).
Proof. revert l. induction n; intros l; simpl; auto. destruct l; auto. now destruct i. Qed.

Lemma set_factor_nth i x l j :
  nth_error (set_factor i x l) j =
  if Nat.eqb j i then Some x
  else if j <? length l then nth_error l j
  else if j <? i then Some (0%Z, None) else None.
Proof.
  unfold set_factor. set (l' := l ++ _).
  assert (L : length l' = max (length l) (S i)).
  { unfold l'. rewrite app_length, repeat_length. lia. }
  assert (LF : length (firstn i l') = i) by (rewrite firstn_length; lia).
  destruct (lt_eq_lt_dec j i) as [[H|H]|H].
  - rewrite nth_error_app1 by lia. rewrite nth_error_firstn. unfold l'. rewrite nth_error_pad.
    destruct (Nat.eqb_spec j i); [lia|]. destruct (Nat.ltb_spec j i); [|lia].
    destruct (Nat.ltb_spec j (length l)); auto. destruct (Nat.ltb_spec j (length l + (S i - length l))); auto. lia.
  - subst. rewrite nth_error_app2 by lia. rewrite LF, Nat.sub_diag, Nat.eqb_refl. reflexivity.
  - rewrite nth_error_app2 by lia. rewrite LF.
    replace (j - i) with (S (j - S i)) by lia. change (nth_error (x :: skipn (S i) l') (S (j - S i))) with (nth_error (skipn (S i) l') (j - S i)).
    rewrite nth_error_skipn.
    replace (S i + (j - S i)) with j by lia. unfold l'. rewrite nth_error_pad.
    destruct (Nat.eqb_spec j i); [lia|]. destruct (Nat.ltb_spec j (length l)); auto.
    destruct (Nat.ltb_spec j (length l + (S i - length l))); [lia|].
    destruct (Nat.ltb_spec j i); auto; lia.
Qed.

Lemma last_nth (l : list (Z * option expr)) d : l <> [] -> nth_error l (length l - 1) = Some (last l d).
Proof.
  induction l as [|x l IH] using rev_ind; [congruence|]. intros _.
  rewrite last_last, app_length. simpl. rewrite nth_error_app2 by lia.
  replace (length l + 1 - 1 - length l) with 0 by lia. reflexivity.
Qed.

(** Levels at which a factor has been defined. *)
Definition defined (g : group) (l : Z) (e : expr) : Prop := In (l, Some e) (factors g).

Lemma defined_nth g l e : inv g -> defined g l e ->
  (min_level g <= l <= Z.of_nat (length (members g)))%Z /\
  nth_error (factors g) (Z.to_nat (l - min_level g)) = Some (l, Some e).
Proof.
  intros I D. apply In_nth_error in D. destruct D as (i & Hi).
  pose proof (i_level _ I _ _ _ Hi) as L.
  assert (i < length (factors g)) by (apply nth_error_Some; congruence).
  destruct (i_bound _ I) as [B|B]; [|rewrite B in Hi; destruct i; discriminate].
  split; [lia|]. replace (Z.to_nat (l - min_level g)) with i by lia. auto.
Qed.

Definition deduced_level (g : group) (level : option Z) : Z :=
  match level with
  | Some l => l
  | None => if Z.eqb (prev_level g) 0 then min_level g else (prev_level g + 1)%Z
  end.

Lemma add_factor_spec g f level : inv g ->
  let l := deduced_level g level in
  let acceptable := members g <> [] /\ (1 <= l)%Z /\
     (min_level g <= l <= Z.of_nat (length (members g)))%Z /\ (forall e, ~ defined g l e) in
  match add_factor f level g with
  | Ok g' => acceptable /\ inv g' /\ members g' = members g /\ g_model g' = g_model g
      /\ distribution g' = distribution g
      /\ (forall k e, defined g' k e <-> defined g k e \/ (k = l /\ e = f))
  | Throw _ => ~ acceptable
  end.
Proof.
  intros I l acceptable. unfold add_factor. fold (deduced_level g level). fold l.
  destruct (Z.leb_spec l 0).
  { simpl. intros (_ & ? & _). lia. }
  assert (EM : members g = [] \/ members g <> []) by (destruct (members g); [left|right]; congruence).
  destruct EM as [EM|NM].
  { rewrite EM. simpl. intros (Hn & _). congruence. }
  replace (match members g with [] => true | _ => false end) with false
    by (destruct (members g); congruence).
  simpl orb. cbv iota.
  destruct (Z.ltb_spec l (min_level g)).
  { intros (_ & _ & ? & _). lia. }
  destruct (Z.ltb_spec (Z.of_nat (length (members g))) l).
  { intros (_ & _ & ? & _). lia. }
  set (index := Z.to_nat (l - min_level g)).
  assert (ML : (1 <= min_level g)%Z).
  { assert (1 <= length (members g)) by (destruct (members g); simpl; [congruence|lia]).
    unfold min_level. destruct (g_model g); lia. }
  assert (EI : l = (min_level g + Z.of_nat index)%Z) by (unfold index; lia).
  assert (ACC : (forall x e, nth_error (factors g) index <> Some (x, Some e)) ->
    acceptable /\ inv (mkGroup (g_model g) (members g) (distribution g) (set_factor index (l, Some f) (factors g)) l)
    /\ members g = members g /\ g_model g = g_model g /\ distribution g = distribution g
    /\ (forall k e, In (k, Some e) (set_factor index (l, Some f) (factors g)) <-> defined g k e \/ (k = l /\ e = f))).
  { intros NO.
    assert (ND : forall e, ~ defined g l e).
    { intros e D. apply (defined_nth g l e I) in D. destruct D as [_ D]. fold index in D.
      apply (NO l e). auto. }
    assert (NN : set_factor index (l, Some f) (factors g) <> []).
    { intros E. assert (X := set_factor_length index (l, Some f) (factors g)). rewrite E in X. simpl in X. lia. }
    split; [unfold acceptable; repeat split; auto; lia|]. split; [|repeat split; auto].
    { constructor; simpl members; simpl factors; simpl prev_level; simpl distribution;
        change (min_level (mkGroup (g_model g) (members g) (distribution g) _ l)) with (min_level g).
      - apply I.
      - apply I.
      - auto.
      - auto.
      - intros i k e. rewrite set_factor_nth. destruct (Nat.eqb_spec i index).
        + intros [= <- <-]. subst i. lia.
        + destruct (i <? length (factors g)); [apply (i_level _ I)|].
          destruct (i <? index); congruence.
      - intros i k. rewrite set_factor_nth. destruct (Nat.eqb_spec i index); [congruence|].
        destruct (i <? length (factors g)); [apply (i_pad _ I)|].
        destruct (i <? index); congruence.
      - intros _. assert (N1 := last_nth _ (0%Z, None) NN). rewrite set_factor_length in N1.
        rewrite set_factor_nth in N1.
        destruct (Nat.eqb_spec (max (length (factors g)) (S index) - 1) index).
        + inversion N1. eauto.
        + destruct (Nat.ltb_spec (max (length (factors g)) (S index) - 1) (length (factors g))).
          * replace (max (length (factors g)) (S index) - 1) with (length (factors g) - 1) in N1 by lia.
            assert (NE : factors g <> []) by (intros E; rewrite E in *; simpl in *; lia).
            rewrite (last_nth _ (0%Z, None) NE) in N1. inversion N1 as [N2].
            destruct (i_last _ I NE) as (l1 & e1 & E1). rewrite E1 in *. exists l1, e1. congruence.
          * lia.
      - left. rewrite set_factor_length. destruct (i_bound _ I) as [B|B].
        + lia.
        + rewrite B. cbn [length]. lia.
      - right. exists index, f. rewrite set_factor_nth, Nat.eqb_refl. auto. }
    { intros Hin. apply In_nth_error in Hin. destruct Hin as (j & Hj). rewrite set_factor_nth in Hj.
      destruct (Nat.eqb_spec j index); [inversion Hj; auto|].
      destruct (j <? length (factors g)); [left; eapply nth_error_In; eauto|].
      destruct (j <? index); congruence. }
    { intros [D|[-> ->]].
      - assert (D' := D). apply (defined_nth g k e I) in D. destruct D as [R D].
        apply nth_error_In with (Z.to_nat (k - min_level g)). rewrite set_factor_nth.
        destruct (Nat.eqb_spec (Z.to_nat (k - min_level g)) index).
        + exfalso. apply (ND e). replace l with k by lia. auto.
        + assert (Z.to_nat (k - min_level g) < length (factors g)) by (apply nth_error_Some; congruence).
          destruct (Nat.ltb_spec (Z.to_nat (k - min_level g)) (length (factors g))); auto. lia.
      - apply nth_error_In with index. rewrite set_factor_nth, Nat.eqb_refl. auto. } }
  destruct (nth_error (factors g) index) as [[x [e|]]|] eqn:N.
  - intros (_ & _ & _ & ND). apply (ND e). unfold defined.
    rewrite (i_level _ I _ _ _ N) in N. rewrite <- EI in N. eapply nth_error_In; eauto.
  - apply ACC. congruence.
  - apply ACC. congruence.
Qed.

Lemma add_member_spec n g : inv g ->
  match add_member n g with
  | Ok g' => distribution g = None /\ factors g = [] /\ ~ In n (members g) /\ inv g'
       /\ members g' = members g ++ [n] /\ g_model g' = g_model g
       /\ distribution g' = None /\ factors g' = []
  | Throw _ => distribution g <> None \/ factors g <> [] \/ In n (members g)
  end.
Proof.
  intros I. unfold add_member. destruct (distribution g) eqn:D; [left; discriminate|].
  destruct (factors g) eqn:F; [|right; left; discriminate].
  destruct (existsb (Nat.eqb n) (members g)) eqn:X.
  - right; right. apply existsb_exists in X. destruct X as (y & Hy & E). apply Nat.eqb_eq in E. now subst.
  - assert (N : ~ In n (members g)).
    { intros H. assert (existsb (Nat.eqb n) (members g) = true); [|congruence].
      apply existsb_exists. exists n. split; auto. apply Nat.eqb_refl. }
    do 3 (split; [auto; fail|]). split; [|auto]. constructor; simpl; auto; try congruence.
    + clear -N I. destruct I as [ND _ _ _ _ _ _ _ _]. induction (members g) as [|x l IH]; simpl.
      * constructor; auto; constructor.
      * inversion ND; subst. simpl in N. constructor.
        -- rewrite in_app_iff. simpl. intuition.
        -- apply IH; auto.
    + intros [|]; discriminate.
    + intros [|]; discriminate.
    + destruct (i_prev _ I) as [[P _]|(i & e & P)]; [auto|]. rewrite F in P. destruct i; discriminate.
Qed.

Lemma add_distribution_spec d g : inv g ->
  match add_distribution d g with
  | Ok g' => distribution g = None /\ 2 <= length (members g) /\ inv g' /\ members g' = members g
      /\ g_model g' = g_model g /\ distribution g' = Some d /\ factors g' = factors g
  | Throw _ => distribution g <> None \/ length (members g) < 2
  end.
Proof.
  intros I. unfold add_distribution. destruct (distribution g) eqn:D; [left; discriminate|].
  destruct (Nat.ltb_spec (length (members g)) 2); [right; auto|].
  do 2 (split; [auto; fail|]). split; [|auto]. destruct I. constructor; simpl; auto.
Qed.

Lemma step_inv o g g' : inv g -> step o g = Ok g' -> inv g' /\ g_model g' = g_model g.
Proof.
  intros I. destruct o as [n|d|f l]; simpl; intros E.
  - pose proof (add_member_spec n g I) as S. rewrite E in S. tauto.
  - pose proof (add_distribution_spec d g I) as S. rewrite E in S. tauto.
  - pose proof (add_factor_spec g f l I) as S. cbn zeta in S. rewrite E in S.
    destruct S as (_ & S1 & _ & S2 & _). auto.
Qed.
Lemma run_inv h : forall g g', inv g -> run h g = Ok g' -> inv g' /\ g_model g' = g_model g.
Proof.
  induction h as [|o h IH]; simpl; intros g g' I E; [inversion E; subst; auto|].
  destruct (step o g) eqn:S; [|discriminate]. destruct (step_inv o g a I S) as [I1 M1].
  destruct (IH a g' I1 E) as [I2 M2]. split; auto. congruence.
Qed.

(** A validated group: every level from the minimum up to the last is defined, in order. *)
Lemma check_factors_ok l : check_factors l = None <-> forall f, In f l -> exists k e, f = (k, Some e) /\ is_prob e = true.
Proof.
  induction l as [|[k [e|]] l IH]; simpl.
  - intuition.
  - destruct (is_prob e) eqn:P.
    + rewrite IH. split; [intros H f [<-|Hf]; eauto|intros H f Hf; auto].
    + split; [discriminate|]. intros H. destruct (H _ (or_introl eq_refl)) as (? & ? & [= <- <-] & ?). congruence.
  - split; [discriminate|]. intros H. destruct (H _ (or_introl eq_refl)) as (? & ? & ? & _). discriminate.
Qed.

Lemma validated_levels g : inv g -> validate g = None ->
  factors g <> [] /\ (exists d, distribution g = Some d) /\ 2 <= length (members g)
  /\ (1 <= min_level g)%Z
  /\ (min_level g + Z.of_nat (length (factors g)) <= Z.of_nat (length (members g)) + 1)%Z
  /\ (forall i, i < length (factors g) ->
        nth_error (factors g) i = Some ((min_level g + Z.of_nat i)%Z, Some (the_factor g i))).
Proof.
  intros I V. unfold validate in V. destruct (distribution g) as [d|] eqn:D; [|discriminate].
  destruct (members g) as [|m ms] eqn:M; [discriminate|].
  destruct (factors g) as [|f fs] eqn:F; [discriminate|]. rewrite <- M, <- F in *.
  assert (NF : factors g <> []) by (rewrite F; discriminate).
  destruct (is_prob d) eqn:P; [|discriminate].
  destruct (check_factors (factors g)) eqn:C; [discriminate|]. rewrite check_factors_ok in C.
  repeat split; auto.
  - eauto.
  - apply (i_dist _ I). congruence.
  - apply (i_min _ I); auto.
  - destruct (i_bound _ I); [lia|congruence].
  - intros i Hi. unfold the_factor. destruct (nth_error (factors g) i) as [[k o]|] eqn:N.
    + destruct (C _ (nth_error_In _ _ N)) as (k' & e & [= -> ->] & _).
      rewrite (i_level _ I _ _ _ N). auto.
    + apply nth_error_None in N. lia.
Qed.

(** ** Proofs: expansion *)

Section expansion.
Context (ms : list nat) (ND : NoDup ms).

(** State reached after handling some combinations: the proxies list exactly the events
    that contain them. *)
Definition consistent (st : list event * argmap) : Prop :=
  NoDup (map ev_members (fst st)) /\
  (forall e, In e (fst st) -> NoDup (ev_members e) /\ incl (ev_members e) ms) /\
  (forall m, snd st m = filter (fun e => existsb (Nat.eqb m) (ev_members e)) (fst st)).

Lemma add_to_members_ok c e : forall args, NoDup c ->
  (forall m, In m c -> existsb (fun x => same_members x e) (args m) = false) ->
  exists args', add_to_members c e args = Ok args' /\
    forall m, args' m = if existsb (Nat.eqb m) c then args m ++ [e] else args m.
Proof.
  induction c as [|x c IH]; intros args NC H; simpl.
  - exists args. auto.
  - unfold argset_add. rewrite H by (simpl; auto). inversion NC; subst.
    destruct (IH (fun k => if Nat.eqb k x then args x ++ [e] else args k)) as (args' & E & S); auto.
    + intros m Hm. destruct (Nat.eqb_spec m x); [subst; contradiction|]. apply H. simpl; auto.
    + exists args'. split; auto. intros m. rewrite S. destruct (Nat.eqb_spec m x).
      * subst. simpl. destruct (existsb (Nat.eqb x) c) eqn:X; auto.
        apply existsb_exists in X. destruct X as (y & Hy & Ey). apply Nat.eqb_eq in Ey. subst. contradiction.
      * simpl. auto.
Qed.

Lemma visit_all_ok p combos : forall st, consistent st ->
  (forall c, In c combos -> NoDup c /\ incl c ms) -> NoDup combos ->
  (forall c, In c combos -> ~ In c (map ev_members (fst st))) ->
  exists st', visit_all combos p st = Ok st' /\ consistent st'
    /\ fst st' = fst st ++ map (fun c => mkEvent c p) combos.
Proof.
  induction combos as [|c combos IH]; intros st (C1 & C2 & C3) HC NC HN; simpl.
  - exists st. rewrite app_nil_r. repeat split; auto; apply C2; auto.
  - destruct (HC c (or_introl eq_refl)) as [NDc Ic]. inversion NC; subst.
    destruct (add_to_members_ok c (mkEvent c p) (snd st) NDc) as (args' & E & S).
    { intros m Hm. rewrite C3. destruct (existsb _ _) eqn:X; auto. exfalso.
      apply existsb_exists in X. destruct X as (x & Hx & Ex). apply filter_In in Hx. destruct Hx as [Hx _].
      unfold same_members in Ex. destruct (list_eq_dec _ _ _) as [Q|]; [|discriminate]. simpl in Q.
      apply (HN c (or_introl eq_refl)). rewrite <- Q. now apply in_map. }
    rewrite E.
    destruct (IH (fst st ++ [mkEvent c p], args')) as (st' & E' & C' & F').
    + repeat split; simpl.
      * rewrite map_app. simpl. apply Permutation_NoDup with (c :: map ev_members (fst st)).
        -- apply Permutation_cons_append.
        -- constructor; auto. apply HN. simpl; auto.
      * apply in_app_or in H. destruct H as [H|[<-|[]]]; [apply C2; auto|auto].
      * apply in_app_or in H. destruct H as [H|[<-|[]]]; [apply C2; auto|auto].
      * intros m. rewrite S, filter_app. simpl. rewrite C3.
        destruct (existsb (Nat.eqb m) c); auto. now rewrite app_nil_r.
    + intros c' Hc'. apply HC. simpl; auto.
    + auto.
    + intros c' Hc'. simpl. rewrite map_app, in_app_iff. simpl. intros [X|[<-|[]]]; auto.
      apply (HN c'); simpl; auto.
    + exists st'. split; auto. split; auto. rewrite F'. simpl. rewrite <- app_assoc. reflexivity.
Qed.

Lemma apply_levels_ok ps : forall st, consistent st ->
  (forall k p, In (k, p) ps -> k <= length ms) -> NoDup (map fst ps) ->
  (forall k p e, In (k, p) ps -> In e (fst st) -> length (ev_members e) <> k) ->
  exists st', apply_levels ps ms st = Ok st' /\ consistent st'
    /\ fst st' = fst st ++ flat_map (fun kp => map (fun c => mkEvent c (snd kp)) (combs (fst kp) ms)) ps.
Proof.
  induction ps as [|[k p] ps IH]; intros st C HL NL HN; simpl.
  - exists st. rewrite app_nil_r. auto.
  - rewrite for_each_combination_ok by (apply (HL k p); simpl; auto).
    inversion NL; subst.
    destruct (visit_all_ok p (combs k ms) st C) as (st1 & E1 & C1 & F1).
    + intros c Hc. apply combs_in in Hc. destruct Hc as (_ & I & N). auto.
    + now apply combs_nodup.
    + intros c Hc Hin. apply in_map_iff in Hin. destruct Hin as (e & <- & He).
      apply combs_in in Hc. destruct Hc as (L & _ & _). apply (HN k p e); simpl; auto.
    + rewrite E1. destruct (IH st1 C1) as (st2 & E2 & C2 & F2).
      * intros k' p' H. apply (HL k' p'). simpl; auto.
      * auto.
      * intros k' p' e Hp He. rewrite F1 in He. apply in_app_or in He. destruct He as [He|He].
        -- apply (HN k' p'); simpl; auto.
        -- apply in_map_iff in He. destruct He as (c & <- & Hc). apply combs_in in Hc. simpl.
           destruct Hc as (-> & _). intros ->. apply H1. apply in_map_iff. exists (k', p'). auto.
      * exists st2. split; auto. split; auto. rewrite F2, F1. rewrite <- app_assoc. reflexivity.
Qed.
End expansion.

(** Number of k-combinations that contain a given member. *)
Fixpoint choose (n k : nat) : nat :=
  match n, k with
  | _, 0 => 1
  | 0, S _ => 0
  | S n, S k' => choose n k' + choose n k
  end.

Lemma combs_length {X} k : forall l : list X, length (combs k l) = choose (length l) k.
Proof.
  induction k as [|k IH]; intros l; [destruct l; reflexivity|].
  induction l as [|x t IHt]; [reflexivity|].
  change (combs (S k) (x :: t)) with (map (cons x) (combs k t) ++ combs (S k) t).
  rewrite app_length, map_length, IH, IHt. reflexivity.
Qed.

Lemma filter_none {X} (f : X -> bool) l : (forall x, In x l -> f x = false) -> filter f l = [].
Proof. induction l as [|x l IH]; simpl; intros H; auto. rewrite H by auto. apply IH. auto. Qed.
Lemma filter_all {X} (f : X -> bool) l : (forall x, In x l -> f x = true) -> filter f l = l.
Proof. induction l as [|x l IH]; simpl; intros H; auto. rewrite H by auto. f_equal. apply IH. auto. Qed.
Lemma filter_map_comm {X Y} (f : Y -> bool) (g : X -> Y) l : filter f (map g l) = map g (filter (fun x => f (g x)) l).
Proof. induction l as [|x l IH]; simpl; auto. destruct (f (g x)); simpl; now rewrite IH. Qed.

Lemma existsb_In m c : existsb (Nat.eqb m) c = true <-> In m c.
Proof.
  rewrite existsb_exists. split.
  - intros (x & H & E). apply Nat.eqb_eq in E. now subst.
  - intros H. exists m. split; auto. apply Nat.eqb_refl.
Qed.

Lemma choose_0 n : choose n 0 = 1. Proof. destruct n; auto. Qed.
Lemma combs_containing m : forall l k, NoDup l -> In m l ->
  length (filter (existsb (Nat.eqb m)) (combs (S k) l)) = choose (length l - 1) k.
Proof.
  induction l as [|x t IHt]; intros k ND Hm; [contradiction|].
  inversion ND as [|? ? Hx NDt]; subst.
  change (combs (S k) (x :: t)) with (map (cons x) (combs k t) ++ combs (S k) t).
  rewrite filter_app, app_length, filter_map_comm, map_length.
  cbn [length]. rewrite Nat.sub_succ, Nat.sub_0_r.
  destruct Hm as [->|Hm].
  - rewrite (filter_all _ (combs k t)).
    2: { intros c _. simpl. now rewrite Nat.eqb_refl. }
    rewrite combs_length. rewrite (filter_none _ (combs (S k) t)); [simpl; lia|].
    intros c Hc. apply combs_in in Hc. destruct Hc as (_ & I & _).
    destruct (existsb (Nat.eqb m) c) eqn:E; auto. apply existsb_In in E. exfalso. auto.
  - assert (NE : m <> x) by (intros ->; contradiction).
    rewrite (filter_ext _ (existsb (Nat.eqb m))).
    2: { intros c. simpl. now rewrite (proj2 (Nat.eqb_neq m x)) by auto. }
    rewrite (IHt k) by auto. destruct k as [|k].
    + rewrite !choose_0. destruct t; reflexivity.
    + rewrite (IHt k) by auto. destruct t as [|y t]; [contradiction|].
      cbn [length]. rewrite Nat.sub_succ, Nat.sub_0_r. reflexivity.
Qed.

(** ** The reciprocal of the binomial coefficient *)
Lemma choose_gt n : forall k, n < k -> choose n k = 0.
Proof.
  induction n as [|n IH]; intros [|k] H; try lia; auto. simpl. rewrite !IH by lia. auto.
Qed.
Lemma choose_nn n : choose n n = 1.
Proof. induction n; simpl; auto. rewrite IHn, choose_gt; lia. Qed.
Lemma choose_fact : forall s a b, a + b = s -> choose s a * (fact a * fact b) = fact s.
Proof.
  induction s as [|s IH]; intros a b E.
  - assert (a = 0 /\ b = 0) as [-> ->] by lia. reflexivity.
  - destruct a as [|a].
    + assert (b = S s) as -> by lia. rewrite choose_0. change (fact 0) with 1. lia.
    + destruct b as [|b].
      * assert (S a = S s) as -> by lia. rewrite choose_nn. change (fact 0) with 1. lia.
      * change (choose (S s) (S a)) with (choose s a + choose s (S a)).
        assert (E1 := IH a (S b)). assert (E2 := IH (S a) b).
        change (fact (S s)) with (S s * fact s).
        change (fact (S a)) with (S a * fact a) in *. change (fact (S b)) with (S b * fact b) in *.
        specialize (E1 ltac:(lia)). specialize (E2 ltac:(lia)).
        replace (S s) with (S a + S b) by lia.
        rewrite Nat.mul_add_distr_r. rewrite Nat.mul_add_distr_r.
        rewrite <- E1 at 1. rewrite <- E2. ring.
Qed.
Lemma choose_sym n k : k <= n -> choose n k = choose n (n - k).
Proof.
  intros H. pose proof (choose_fact n k (n - k) ltac:(lia)) as A.
  pose proof (choose_fact n (n - k) k ltac:(lia)) as B.
  pose proof (lt_O_fact k). pose proof (lt_O_fact (n - k)). 
  rewrite (Nat.mul_comm (fact (n - k)) (fact k)) in B.
  apply (Nat.mul_cancel_r _ _ (fact k * fact (n - k))); [nia|congruence].
Qed.
Lemma choose_step k m : S m * choose (k + S m) k = (k + S m) * choose (k + m) k.
Proof.
  pose proof (choose_fact (k + S m) k (S m) eq_refl) as A.
  pose proof (choose_fact (k + m) k m eq_refl) as B.
  replace (k + S m) with (S (k + m)) in * by lia.
  change (fact (S (k + m))) with (S (k + m) * fact (k + m)) in A.
  change (fact (S m)) with (S m * fact m) in A.
  pose proof (lt_O_fact k). pose proof (lt_O_fact m).
  apply (Nat.mul_cancel_r _ _ (fact k * fact m)); nia.
Qed.

Local Open Scope Q_scope.
Definition nq (n : nat) : Q := inject_Z (Z.of_nat n).
Lemma nq_mult a b : nq (a * b) == nq a * nq b.
Proof. unfold nq. rewrite Nat2Z.inj_mul, inject_Z_mult. reflexivity. Qed.
Lemma nq_pos a : (0 < a)%nat -> ~ nq a == 0.
Proof. intros H E. unfold nq, Qeq in E. simpl in E. lia. Qed.

Lemma recip_loop_spec k m : nq (choose (k + m) k) * recip_loop k m == 1.
Proof.
  induction m as [|m IH].
  - rewrite Nat.add_0_r, choose_nn. reflexivity.
  - change (recip_loop k (S m)) with (recip_loop k m * (nq (S m) / nq (k + S m))).
    assert (E : nq (S m) * nq (choose (k + S m) k) == nq (k + S m) * nq (choose (k + m) k)).
    { rewrite <- !nq_mult, choose_step. reflexivity. }
    assert (N : ~ nq (k + S m) == 0) by (apply nq_pos; lia).
    transitivity (nq (S m) * nq (choose (k + S m) k) * (recip_loop k m / nq (k + S m))).
    { field. auto. }
    rewrite E. transitivity (nq (choose (k + m) k) * recip_loop k m); [field; auto|exact IH].
Qed.

Lemma reciprocal_spec n k : (k <= n)%nat -> nq (choose n k) * reciprocal n k == 1.
Proof.
  intros H. unfold reciprocal. destruct (Nat.ltb_spec k (n - k)).
  - rewrite choose_sym by auto.
    pose proof (recip_loop_spec (n - k) (n - (n - k))) as R.
    replace (n - k + (n - (n - k)))%nat with n in R by lia. exact R.
  - pose proof (recip_loop_spec k (n - k)) as R. replace (k + (n - k))%nat with n in R by lia. exact R.
Qed.
