(** ext::for_each_combination, src/ext/combination.h:33-158 (H. Hinnant's algorithm),
    function by function on lists: a range is a list of its current contents.  The visitor
    always returns false (as in CcfGroup::ApplyModel), so early exits are not modelled.
    A visit is recorded as the contents of [first1, last1) of the innermost call, prefixed
    by the elements that the enclosing calls keep fixed in front of it (the visitor always
    sees the whole [first, mid)). *)
From Coq Require Import List Arith Lia Bool Permutation.
Import ListNotations.

Section comb.
Context {X : Type}.

(** rotate_discontinuous, combination.h:33-49.  d1 = |A|, d2 = |B|. *)
Definition rotate_discontinuous (A B : list X) : list X * list X :=
  if length A <=? length B then
    (* swap_ranges(first1, last1, first2); rotate(first2, first2 + d1, last2) *)
    (firstn (length A) B, skipn (length A) B ++ A)
  else
    (* swap the last d2 elements of A with B; rotate(first1, i1, last1) *)
    let i1 := length A - length B in
    (B ++ firstn i1 A, skipn i1 A).

(** combine_discontinuous, combination.h:62-100.  d1 = |A|; [top] is d == 0.
    Result: visits, and the final contents of both ranges. *)
Fixpoint combine (d1 : nat) (A B : list X) (top : bool) {struct d1}
  : list (list X) * list X * list X :=
  match d1, A, B with
  | S d1', a :: A1, _ :: _ =>
      let '(vs, a, A1, done) :=
        (fix loop (n : nat) (a : X) (A1 done rest : list X) :=
          match n, rest with
          | S n, r :: rest' =>
              if Nat.eqb d1' 0 then
                (* for (i2...) { f(); swap( *first1, *i2) } *)
                let '(vs, x, y, z) := loop n r A1 (done ++ [a]) rest' in
                ([a] :: vs, x, y, z)
              else
                let '(v, A1', rest2) := combine d1' A1 rest false in
                match rest2 with
                | r0 :: rest2' =>
                    let '(vs, x, y, z) := loop n r0 A1' (done ++ [a]) rest2' in
                    (map (cons a) v ++ vs, x, y, z)
                | [] => ([], a, A1, done) (* not reached: sizes are kept *)
                end
          | _, _ => ([], a, A1, done)
          end) (length B) a A1 [] B in
      let vs := vs ++ [a :: A1] in
      if top then
        let '(A', B') := rotate_discontinuous (a :: A1) done in (vs, A', B')
      else
        match done with
        | b :: done' =>
            let '(A', B') := rotate_discontinuous (a :: A1) done' in (vs, A', b :: B')
        | [] => (vs, a :: A1, done)
        end
  | _, _, _ => ([A], A, B)   (* d1 == 0 || d2 == 0: f() *)
  end.

(** for_each_combination(first, mid, last, f), combination.h:151-158. *)
Definition for_each_combination (l : list X) (k : nat) : list (list X) * list X :=
  let '(vs, A, B) := combine k (firstn k l) (skipn k l) true in (vs, A ++ B).

(** ** Specification: all k-element sublists, in lexicographic position order. *)
Fixpoint combs (k : nat) (l : list X) : list (list X) :=
  match k, l with
  | 0, _ => [[]]
  | S _, [] => []
  | S k', x :: t => map (cons x) (combs k' t) ++ combs k t
  end.

(** ** Proofs *)
Lemma rotate_spec A B A' B' :
  rotate_discontinuous A B = (A', B') -> A' ++ B' = B ++ A /\ length A' = length A.
Proof.
  unfold rotate_discontinuous. destruct (Nat.leb_spec (length A) (length B)); intros [= <- <-].
  - rewrite app_assoc, firstn_skipn. split; auto. rewrite firstn_length. lia.
  - rewrite <- app_assoc, firstn_skipn. split; auto. rewrite app_length, firstn_length. lia.
Qed.

Lemma combs_short : forall k l, length l < k -> combs k l = [].
Proof.
  induction k as [|k IH]; intros l H; [lia|]. induction l as [|x t IHt]; simpl; auto.
  simpl in H. rewrite IH by lia. simpl. apply IHt. lia.
Qed.
Lemma combs_all : forall l, combs (length l) l = [l].
Proof.
  induction l as [|x t IH]; simpl; auto. rewrite IH. simpl.
  rewrite combs_short by lia. reflexivity.
Qed.

(** Post-condition: lexicographic enumeration of A ++ B; at the top the ranges are
    restored; below, the window has moved by one. *)
Definition post (top : bool) (A B : list X) (r : list (list X) * list X * list X) : Prop :=
  let '(vs, A', B') := r in
  vs = combs (length A) (A ++ B) /\
  if top then A' = A /\ B' = B
  else match A ++ B with
       | [] => A' = [] /\ B' = []
       | x :: s =>
           match A, B with
           | [], _ => A' = A /\ B' = B
           | _, [] => A' = A /\ B' = B
           | _, _ => A' = firstn (length A) s /\ B' = x :: skipn (length A) s
           end
       end.

Lemma app_inj_len {Y} (a b c d : list Y) : length a = length c -> a ++ b = c ++ d -> a = c /\ b = d.
Proof.
  revert c. induction a as [|x a IH]; intros [|y c] L E; simpl in *; try lia; auto.
  inversion E. subst. destruct (IH c) as [-> ->]; auto.
Qed.

Lemma combine_ok : forall d1 A B top, length A = d1 -> post top A B (combine d1 A B top).
Proof.
  induction d1 as [|d1' IH]; intros A B top HA.
  { destruct A; [|discriminate]. unfold post. simpl. destruct B; simpl; destruct top; auto. }
  destruct A as [|a A1]; [discriminate|]. simpl in HA. injection HA as HA.
  destruct B as [|b B0].
  { unfold post. simpl. rewrite app_nil_r. rewrite combs_all. simpl.
    rewrite combs_short by lia. destruct top; auto. }
  set (B := b :: B0). assert (HB : B <> []) by discriminate.
  (* the loop *)
  set (loop := (fix loop (n : nat) (a : X) (A1 done rest : list X) :=
          match n, rest with
          | S n, r :: rest' =>
              if Nat.eqb d1' 0 then
                let '(vs, x, y, z) := loop n r A1 (done ++ [a]) rest' in
                ([a] :: vs, x, y, z)
              else
                let '(v, A1', rest2) := combine d1' A1 rest false in
                match rest2 with
                | r0 :: rest2' =>
                    let '(vs, x, y, z) := loop n r0 A1' (done ++ [a]) rest2' in
                    (map (cons a) v ++ vs, x, y, z)
                | [] => ([], a, A1, done)
                end
          | _, _ => ([], a, A1, done)
          end)).
  assert (LOOP : forall n a A1 done rest, length rest = n -> length A1 = d1' ->
    exists vs x Y, loop n a A1 done rest = (vs, x, Y, done ++ firstn n (a :: A1 ++ rest))
      /\ x :: Y = skipn n (a :: A1 ++ rest)
      /\ vs ++ [x :: Y] = combs (S d1') (a :: A1 ++ rest)).
  { clear a A1 HA B HB b B0. induction n as [|n IHn]; intros a A1 done rest Hn HA1.
    - destruct rest; [|discriminate]. exists [], a, A1. simpl. rewrite !app_nil_r. repeat split.
      subst d1'. rewrite combs_all. simpl. rewrite combs_short by lia. reflexivity.
    - destruct rest as [|r rest']; [discriminate|]. simpl in Hn. injection Hn as Hn.
      destruct (Nat.eqb_spec d1' 0) as [E0|E0].
      + destruct A1; [|simpl in HA1; lia]. rewrite E0 in *.
        destruct (IHn r [] (done ++ [a]) rest' Hn eq_refl) as (vs & x & Y & E & S1 & V).
        simpl in E. change (loop (S n) a [] done (r :: rest')) with
          (let '(vs, x, y, z) := loop n r [] (done ++ [a]) rest' in ([a] :: vs, x, y, z)).
        rewrite E. exists ([a] :: vs), x, Y. repeat split; auto.
        * f_equal. rewrite <- app_assoc. reflexivity.
        * simpl in V |- *. rewrite V. reflexivity.
      + pose proof (IH A1 (r :: rest') false HA1) as P.
        assert (EL : loop (S n) a A1 done (r :: rest') =
           let '(v, A1', rest2) := combine d1' A1 (r :: rest') false in
                match rest2 with
                | r0 :: rest2' =>
                    let '(vs, x, y, z) := loop n r0 A1' (done ++ [a]) rest2' in
                    (map (cons a) v ++ vs, x, y, z)
                | [] => ([], a, A1, done)
                end).
        { simpl. destruct d1'; [lia|]. reflexivity. }
        rewrite EL. clear EL.
        destruct (combine d1' A1 (r :: rest') false) as [[v A1'] rest2].
        destruct A1 as [|a1 A2]; [simpl in HA1; lia|].
        unfold post in P. simpl app in P at 2. destruct P as (Ev & EA & EB).
        set (s := A2 ++ r :: rest') in *.
        assert (Ls : length s = S (length A2 + n)) by (unfold s; rewrite app_length; simpl; lia).
        simpl length in HA1, EA, EB, Ev.
        assert (L1 : length (skipn (S (length A2)) s) = n) by (rewrite skipn_length; lia).
        assert (L2 : length A1' = d1') by (rewrite EA, firstn_length; lia).
        destruct (IHn a1 A1' (done ++ [a]) (skipn (S (length A2)) s) L1 L2) as (vs & x & Y & E & S1 & V).
        rewrite EB, E.
        assert (ES : A1' ++ skipn (S (length A2)) s = s) by (rewrite EA; apply firstn_skipn).
        rewrite ES in *.
        exists (map (cons a) v ++ vs), x, Y. repeat split.
        * f_equal. rewrite <- app_assoc. simpl. f_equal. 
        * simpl. exact S1.
        * rewrite <- app_assoc, V. rewrite Ev. rewrite HA1. reflexivity. }
  destruct (LOOP (length B) a A1 [] B eq_refl HA) as (vs & x & Y & E & S1 & V).
  assert (EC : combine (S d1') (a :: A1) B top =
    let '(vs, a, A1, done) := loop (length B) a A1 [] B in
      let vs := vs ++ [a :: A1] in
      if top then
        let '(A', B') := rotate_discontinuous (a :: A1) done in (vs, A', B')
      else
        match done with
        | b :: done' =>
            let '(A', B') := rotate_discontinuous (a :: A1) done' in (vs, A', b :: B')
        | [] => (vs, a :: A1, done)
        end) by reflexivity.
  rewrite EC, E. clear EC. cbn zeta. rewrite V. rewrite app_nil_l.
  set (seq := a :: A1 ++ B) in *.
  assert (Lseq : length seq = S (length A1 + length B)) by (unfold seq; simpl; now rewrite app_length).
  assert (LY : length (x :: Y) = S (length A1)) by (rewrite S1, skipn_length; lia).
  destruct top.
  - destruct (rotate_discontinuous (x :: Y) (firstn (length B) seq)) as [A' B'] eqn:R.
    apply rotate_spec in R. destruct R as [R1 R2]. rewrite S1, firstn_skipn in R1.
    change seq with ((a :: A1) ++ B) in R1. apply app_inj_len in R1; [|rewrite R2; simpl; auto].
    destruct R1 as [-> ->]. unfold post. simpl length. rewrite HA. auto.
  - assert (F : firstn (length B) seq = a :: firstn (length B0) (A1 ++ B)) by reflexivity.
    rewrite F.
    destruct (rotate_discontinuous (x :: Y) (firstn (length B0) (A1 ++ B))) as [A' B'] eqn:R.
    apply rotate_spec in R. destruct R as [R1 R2].
    assert (S2 : x :: Y = skipn (length B0) (A1 ++ B)) by (rewrite S1; reflexivity).
    rewrite S2, firstn_skipn in R1.
    unfold post. simpl length. rewrite HA. split; auto.
    change ((a :: A1) ++ B) with (a :: (A1 ++ B)). unfold B at 1.
    rewrite <- (firstn_skipn (S d1') (A1 ++ B)) in R1. apply app_inj_len in R1.
    + destruct R1 as [-> ->]. unfold B. auto.
    + rewrite R2, LY, firstn_length, app_length. unfold B. cbn [length]. lia.
Qed.

Lemma for_each_combination_ok l k : k <= length l -> for_each_combination l k = (combs k l, l).
Proof.
  intros H. unfold for_each_combination.
  assert (LA : length (firstn k l) = k) by (rewrite firstn_length; lia).
  pose proof (combine_ok k (firstn k l) (skipn k l) true LA) as P.
  destruct (combine _ _ _ true) as [[vs A] B]. destruct P as (-> & -> & ->).
  now rewrite LA, firstn_skipn.
Qed.

(** ** [combs] lists every k-subset of a duplicate-free list exactly once. *)
Lemma combs_in k : forall l c, In c (combs k l) -> length c = k /\ incl c l /\ (NoDup l -> NoDup c).
Proof.
  induction k as [|k IH]; intros l.
  - intros c Hc. simpl in Hc. assert (c = []) as -> by (destruct l; simpl in Hc; intuition).
    split; auto. split; [intros ? []|]. intros _. constructor.
  - induction l as [|x t IHt]; intros c Hc; [contradiction|].
    simpl in Hc. apply in_app_or in Hc. destruct Hc as [Hc|Hc].
    + apply in_map_iff in Hc. destruct Hc as (c' & <- & Hc'). apply IH in Hc'.
      destruct Hc' as (H1 & H2 & H3). repeat split; simpl; auto.
      * intros y [<-|Hy]; simpl; auto.
      * intros ND. inversion ND; subst. constructor; auto.
    + apply IHt in Hc. destruct Hc as (H1 & H2 & H3). repeat split; auto.
      * intros y Hy. simpl. auto.
      * intros ND. inversion ND; auto.
Qed.

Lemma combs_complete (dec : forall a b : X, {a = b} + {a <> b}) k : forall l S,
  NoDup l -> NoDup S -> incl S l -> length S = k -> exists c, In c (combs k l) /\ Permutation c S.
Proof.
  induction k as [|k IH]; intros l.
  - intros S _ _ _ HS. destruct S; [|discriminate]. exists []. destruct l; simpl; auto.
  - induction l as [|x t IHt]; intros S NL NS HI HL.
    { destruct S as [|y S]; [discriminate|]. destruct (HI y); simpl; auto. }
    inversion NL; subst. destruct (in_dec dec x S) as [Hx|Hx].
    + destruct (in_split _ _ Hx) as (S1 & S2 & ->).
      assert (P : Permutation (S1 ++ x :: S2) (x :: S1 ++ S2)) by (apply Permutation_sym, Permutation_middle).
      destruct (IH t (S1 ++ S2)) as (c & Hc & Pc); auto.
      * eapply NoDup_remove_1; eauto.
      * intros y Hy. assert (Hy' : In y (x :: t)). { apply HI. apply in_app_or in Hy. apply in_or_app. simpl. tauto. }
        destruct Hy' as [<-|]; auto. exfalso. apply NoDup_remove_2 in NS. auto.
      * rewrite app_length in *. simpl in HL. lia.
      * exists (x :: c). split.
        -- simpl. apply in_or_app. left. now apply in_map.
        -- eapply Permutation_trans; [|apply Permutation_middle]. now constructor.
    + destruct (IHt S) as (c & Hc & Pc); auto.
      { intros y Hy. destruct (HI y Hy) as [<-|]; auto. contradiction. }
      exists c. split; auto. simpl. apply in_or_app. auto.
Qed.

Lemma combs_unique k : forall l c1 c2, NoDup l -> In c1 (combs k l) -> In c2 (combs k l) ->
  Permutation c1 c2 -> c1 = c2.
Proof.
  induction k as [|k IH]; intros l.
  - intros c1 c2 _ H1 H2 _. simpl in *. destruct l; simpl in *; intuition congruence.
  - induction l as [|x t IHt]; intros c1 c2 NL H1 H2 P; [contradiction|].
    inversion NL as [|? ? Nx Nt]; subst. simpl in H1, H2.
    apply in_app_or in H1. apply in_app_or in H2.
    assert (OUT : forall c, In c (combs (S k) t) -> ~ In x c).
    { intros c Hc Hx. apply combs_in in Hc. destruct Hc as (_ & Hi & _). auto. }
    destruct H1 as [H1|H1], H2 as [H2|H2].
    + apply in_map_iff in H1. apply in_map_iff in H2.
      destruct H1 as (d1 & <- & H1), H2 as (d2 & <- & H2). f_equal. apply (IH t); auto.
      eapply Permutation_cons_inv; eauto.
    + exfalso. apply in_map_iff in H1. destruct H1 as (d1 & <- & H1).
      apply (OUT c2 H2). apply (Permutation_in x P). simpl; auto.
    + exfalso. apply in_map_iff in H2. destruct H2 as (d2 & <- & H2).
      apply (OUT c1 H1). apply (Permutation_in x (Permutation_sym P)). simpl; auto.
    + apply IHt; auto.
Qed.

Lemma combs_nodup k : forall l, NoDup l -> NoDup (combs k l).
Proof.
  induction k as [|k IH]; intros l.
  - intros _. destruct l; simpl; repeat constructor; auto.
  - induction l as [|x t IHt]; intros NL; simpl; [constructor|].
    inversion NL as [|? ? Nx Nt]; subst.
    assert (NA : forall (a b : list (list X)), NoDup a -> NoDup b -> (forall y, In y a -> ~ In y b) -> NoDup (a ++ b)).
    { clear. induction a as [|y a IHa]; intros b Ha Hb H; simpl; auto. inversion Ha; subst. constructor.
      - intros Hy. apply in_app_or in Hy. destruct Hy; auto. apply (H y); simpl; auto.
      - apply IHa; auto. intros z Hz. apply H. simpl; auto. }
    apply NA; auto.
    + apply FinFun.Injective_map_NoDup; auto. intros a b E. congruence.
    + intros y Hy Hy2. apply in_map_iff in Hy. destruct Hy as (d & <- & Hd).
      apply combs_in in Hy2. destruct Hy2 as (_ & Hi & _). apply Nx, Hi. simpl; auto.
Qed.
End comb.
