(** The iterator over products: src/zbdd.h, class const_iterator with module_iterator. *)
From stdpp Require Import gmap.
From Coq Require Import List ZArith Lia Bool Permutation Sorting.Sorted.
Import ListNotations.
From Verif Require Import Pdag PdagProofs PdagSem.
From Verif Require Import Zbdd ZbddProofs ZbddHistory ZbddGraph ZbddModules ZbddModulesProofs.
Open Scope Z_scope.

(** node_stack_ and product_, the last one first: the index and the low vertex of each node. *)
Definition frames := list (Z * zt).
Definition product (st : frames) : list Z := rev (map fst st).
(** module_iterator, zbdd.h:144-260: sentinel_, start_pos_, end_pos_, the high and low vertices of
    node_, zbdd_, module_stack_ (the last one first). *)
Inductive mit := Mit (sentinel : bool) (start stop : nat) (high low : zt) (z : zbdd) (ms : list mit).
Definition sentinel (it : mit) : bool := match it with Mit s _ _ _ _ _ _ => s end.
Definition stop_pos (it : mit) : nat := match it with Mit _ _ e _ _ _ _ => e end.
Definition modules_of (z : zbdd) : list (Z * zbdd) := match z with Zb _ m => m end.

(** ProductContainer, fault_tree_analysis.cc:86-107: size_, distribution_, product_events_ (by index). *)
Record container := Container { c_size : Z; c_distribution : list Z; c_events : list Z }.
Fixpoint bump (k : nat) (d : list Z) : list Z :=
  match k, d with
  | O, [] => [1]
  | O, c :: d => c + 1 :: d
  | S k, [] => 0 :: bump k []
  | S k, c :: d => c :: bump k d
  end.
Definition add_events (p : list Z) (es : list Z) : list Z :=
  fold_left (fun es i => if existsb (Z.eqb (Z.abs i)) es then es else Z.abs i :: es) p es.
Definition store_product (c : container) (p : list Z) : container :=
  Container (c_size c + 1) (bump (match p with [] => O | _ => length p - 1 end) (c_distribution c)) (add_events p (c_events c)).
Definition store (products : list (list Z)) : container := fold_left store_product products (Container 0 [] []).

Section Iter.
Context (G : graph) (module : Z -> bool) (limit : Z).
Notation is_module := (ZbddModules.is_module G module).
(** GenerateProduct, zbdd.h:210-234. *)
Fixpoint gen (fuel : nat) (mods : list (Z * zbdd)) (ms : list mit) (v : zt) (st : frames) : option (bool * (list mit * frames)) :=
  match fuel with
  | O => None
  | S fuel =>
      match v with
      | ZE => Some (false, (ms, st))
      | ZB => Some (true, (ms, st))
      | ZN i h l =>
          if limit <=? Z.of_nat (length st) then Some (false, (ms, st)) else
          if is_module i then
            z ← find_module i mods;
            '(it, st) ← fresh fuel z h l st;
            retry fuel mods (it :: ms) st
          else
            '(b, (ms, st)) ← gen fuel mods ms h ((i, l) :: st);
            if (b : bool) then Some (true, (ms, st))
            else match st with [] => None | (_, low) :: st => gen fuel mods ms low st end
      end
  end
(** The loop over the products of the last module with the high branch, then its low branch:
    zbdd.h:221-228, 183-190. *)
with retry (fuel : nat) (mods : list (Z * zbdd)) (ms : list mit) (st : frames) : option (bool * (list mit * frames)) :=
  match fuel, ms with
  | S fuel, Mit sent start _ h l _ _ as it :: rest =>
      if sent then
        if Nat.eqb (length st) start then gen fuel mods rest l st else None
      else
        '(b, (ms, st)) ← gen fuel mods ms h st;
        if (b : bool) then Some (true, (ms, st))
        else match ms with
             | [] => None
             | it :: rest => '(it, st) ← incr fuel it st; retry fuel mods (it :: rest) st
             end
  | _, _ => None
  end
(** The constructor, zbdd.h:154-166. *)
with fresh (fuel : nat) (z : zbdd) (h l : zt) (st : frames) : option (mit * frames) :=
  match fuel with
  | O => None
  | S fuel =>
      '(b, (ms, st')) ← gen fuel (modules_of z) [] (root_of z) st;
      Some (Mit (negb b) (length st) (length st') h l z ms, st')
  end
(** operator++, zbdd.h:175-201. *)
with incr (fuel : nat) (it : mit) (st : frames) : option (mit * frames) :=
  match fuel, it with
  | O, _ => None
  | S fuel, Mit sent start stop h l z ms =>
      if sent then Some (it, st) else
      '(ms, st) ← seek fuel (modules_of z) start ms st;
      Some (Mit (Nat.eqb start (length st)) start (length st) h l z ms, st)
  end
with seek (fuel : nat) (mods : list (Z * zbdd)) (start : nat) (ms : list mit) (st : frames) : option (list mit * frames) :=
  match fuel with
  | O => None
  | S fuel =>
      if Nat.eqb start (length st) then Some (ms, st) else
      '(b, (ms, st)) ←
        (match ms with
         | it :: rest =>
             if Nat.eqb (length st) (stop_pos it)
             then '(it, st) ← incr fuel it st; retry fuel mods (it :: rest) st
             else match st with [] => None | (_, low) :: st => gen fuel mods ms low st end
         | [] => match st with [] => None | (_, low) :: st => gen fuel mods ms low st end
         end);
      if (b : bool) then Some (ms, st) else seek fuel mods start ms st
  end.
(** for (const std::vector<int>& product : zbdd), zbdd.h:264-306. *)
Fixpoint collect (fuel : nat) (it : mit) (st : frames) : option (list (list Z)) :=
  match fuel with
  | O => None
  | S fuel =>
      if sentinel it then Some [] else
      '(it, st') ← incr fuel it st;
      rest ← collect fuel it st';
      Some (product st :: rest)
  end.
Definition iterate (fuel : nat) (z : zbdd) : option (list (list Z)) :=
  '(it, st) ← fresh fuel z ZE ZE []; collect fuel it st.

(** ** Proof *)
(** Vertices of a diagram *)
Fixpoint subs (t : zt) : list zt := t :: match t with ZN _ h l => subs h ++ subs l | _ => [] end.
Lemma subs_lits ord top r : Zbdd.wf ord top r -> forall i h l, In (ZN i h l) (subs r) -> lits r i.
Proof.
  induction r as [| |j a IHa b IHb]; intros W i h l I.
  - destruct I as [I|[]]; discriminate.
  - destruct I as [I|[]]; discriminate.
  - pose proof W as W'. destruct W' as (_ & _ & N & _ & _ & _ & _ & Wa & Wb). destruct I as [I|I].
    + injection I as -> -> ->. destruct (nonempty ord top h Wa N) as (p & P). exists (i :: p). split; [apply in_fam; eauto|simpl; auto].
    + apply in_app_iff in I as [I|I]; [apply lits_high; eauto|apply lits_low; eauto].
Qed.
Definition ev_gen mods ms v st R : Prop := exists N, forall n, (N <= n)%nat -> gen n mods ms v st = Some R.
Definition ev_retry mods ms st R : Prop := exists N, forall n, (N <= n)%nat -> retry n mods ms st = Some R.
Definition ev_seek mods start ms st R : Prop := exists N, forall n, (N <= n)%nat -> seek n mods start ms st = Some R.
Definition ev_incr it st R : Prop := exists N, forall n, (N <= n)%nat -> incr n it st = Some R.
Fixpoint resumes mods (ms : list mit) (st : frames) (ms0 : list mit) (st0 : frames) (W : list (list Z)) : Prop :=
  match W with
  | [] => forall start R, (start <= length st0)%nat -> ev_seek mods start ms0 st0 R -> ev_seek mods start ms st R
  | p :: W => exists ms' st', product st' = product st0 ++ p /\
      (forall start, (start <= length st0)%nat -> ev_seek mods start ms st (ms', st')) /\
      resumes mods ms' st' ms0 st0 W
  end.
Definition outcome mods (run : bool * (list mit * frames) -> Prop) ms0 st0 W : Prop :=
  match W with
  | [] => run (false, (ms0, st0))
  | p :: W => exists ms st, run (true, (ms, st)) /\ product st = product st0 ++ p /\ resumes mods ms st ms0 st0 W
  end.
Lemma product_length st p st0 : product st = product st0 ++ p -> length st = (length st0 + length p)%nat.
Proof.
  intros H. apply (f_equal (@length Z)) in H. unfold product in H. rewrite app_length, !rev_length, !map_length in H. auto.
Qed.
Lemma product_push i l st : product ((i, l) :: st) = product st ++ [i].
Proof. reflexivity. Qed.
Lemma product_eq_len st p st0 : product st = product st0 ++ p -> p <> [] -> (length st0 < length st)%nat.
Proof. intros H N. apply product_length in H. destruct p; [congruence|]. simpl in H. lia. Qed.

(** Backtracking through a literal. *)
Definition low_top (ms : list mit) (n : nat) : Prop := match ms with [] => True | it :: _ => (stop_pos it <= n)%nat end.
Lemma seek_pop mods ms i l st start R : low_top ms (length st) -> (start <= length st)%nat ->
  (exists b ms' st', ev_gen mods ms l st (b, (ms', st')) /\ if b : bool then R = (ms', st') else ev_seek mods start ms' st' R) ->
  ev_seek mods start ms ((i, l) :: st) R.
Proof.
  intros LT LE (b & ms' & st' & [N H] & C).
  assert (exists M, forall n, (M <= n)%nat -> (if b then Some (ms', st') else seek n mods start ms' st') = Some R) as [M C'].
  { destruct b; [subst R; exists O; auto|]. destruct C as [M C]. exists M. auto. }
  exists (S (N + M)). intros n L. destruct n as [|n]; [lia|]. cbn [seek].
  destruct (Nat.eqb_spec start (length ((i, l) :: st))) as [E|_]; [simpl in E; lia|].
  assert (E : (match ms with
               | it :: rest => if Nat.eqb (length ((i, l) :: st)) (stop_pos it) then '(it, st) ← incr n it ((i, l) :: st); retry n mods (it :: rest) st
                               else gen n mods ms l st
               | [] => gen n mods ms l st end) = Some (b, (ms', st'))).
  { destruct ms as [|it rest]; [apply H; lia|]. simpl in LT. destruct (Nat.eqb_spec (length ((i, l) :: st)) (stop_pos it)) as [E|_]; [simpl in E; lia|].
    apply H. lia. }
  rewrite E. simpl. apply C'. lia.
Qed.
Lemma resumes_literal mods i l Wl ms0 st0 : low_top ms0 (length st0) -> outcome mods (ev_gen mods ms0 l st0) ms0 st0 Wl ->
  forall Wh ms st, resumes mods ms st ms0 ((i, l) :: st0) Wh -> resumes mods ms st ms0 st0 (map (cons i) Wh ++ Wl).
Proof.
  intros LT OL. induction Wh as [|p Wh IH]; intros ms st H.
  - simpl. destruct Wl as [|p Wl]; simpl in *.
    + intros start R LE S. apply H; [lia|]. apply seek_pop; auto. exists false, ms0, st0. auto.
    + destruct OL as (ms' & st' & E & P & RS). exists ms', st'. split; auto. split; auto. intros start LE. apply H; [lia|].
      apply seek_pop; auto. exists true, ms', st'. auto.
  - destruct H as (ms' & st' & P & S & RS). simpl. exists ms', st'. split; [rewrite P, product_push, <- app_assoc; auto|]. split; auto.
    intros start LE. apply S. simpl. lia.
Qed.

(** Iteration over a module. *)
Record walking (it : mit) (st st0 : frames) (h l : zt) (z : zbdd) (WQ : list (list Z)) : Prop := {
  wk_it : exists ms, it = Mit false (length st0) (length st) h l z ms /\ resumes (modules_of z) ms st [] st0 WQ;
  wk_lt : (length st0 < length st)%nat }.
Lemma incr_walking it st st0 h l z WQ : walking it st st0 h l z WQ -> (forall Q, In Q WQ -> Q <> []) ->
  match WQ with
  | [] => exists ms, ev_incr it st (Mit true (length st0) (length st0) h l z ms, st0)
  | Q :: WQ => exists it' st', ev_incr it st (it', st') /\ product st' = product st0 ++ Q /\ walking it' st' st0 h l z WQ
  end.
Proof.
  intros [(ms & -> & H) LT] NE. destruct WQ as [|Q WQ]; simpl in H.
  - destruct (H (length st0) ([], st0)) as [N HS]; auto.
    { exists 1%nat. intros n L. destruct n as [|n]; [lia|]. cbn [seek]. rewrite Nat.eqb_refl. auto. }
    exists []. exists (S N). intros n L. destruct n as [|n]; [lia|]. cbn [incr]. rewrite HS by lia. simpl. rewrite Nat.eqb_refl. auto.
  - destruct H as (ms' & st' & P & S & RS). destruct (S (length st0) (le_n _)) as [N E].
    assert (LT' : (length st0 < length st')%nat) by (apply (product_eq_len st' Q st0); auto; apply NE; simpl; auto).
    exists (Mit false (length st0) (length st') h l z ms'), st'. split; [|split; auto].
    + exists (Datatypes.S N). intros n L. destruct n as [|n]; [lia|]. cbn [incr]. rewrite E by lia. simpl.
      destruct (Nat.eqb_spec (length st0) (length st')); [lia|auto].
    + split; auto. exists ms'. auto.
Qed.
Lemma seek_module mods it rest st start R : (start < length st)%nat -> stop_pos it = length st ->
  (exists it' st' b ms2 st2, ev_incr it st (it', st') /\ ev_retry mods (it' :: rest) st' (b, (ms2, st2)) /\
     if b : bool then R = (ms2, st2) else ev_seek mods start ms2 st2 R) ->
  ev_seek mods start (it :: rest) st R.
Proof.
  intros LT SP (it' & st' & b & ms2 & st2 & [N1 H1] & [N2 H2] & C).
  assert (exists M, forall n, (M <= n)%nat -> (if b then Some (ms2, st2) else seek n mods start ms2 st2) = Some R) as [M C'].
  { destruct b; [subst R; exists O; auto|]. destruct C as [M C]. exists M. auto. }
  exists (S (N1 + N2 + M)). intros n L. destruct n as [|n]; [lia|]. cbn [seek].
  destruct (Nat.eqb_spec start (length st)) as [E|_]; [lia|]. rewrite SP, Nat.eqb_refl, H1 by lia. simpl. rewrite H2 by lia. simpl. apply C'. lia.
Qed.
Section Module.
Context (mods : list (Z * zbdd)) (h l : zt) (z : zbdd) (ms0 : list mit) (st0 : frames) (Wl : list (list Z)) (Wh : list Z -> list (list Z)).
Context (LT : low_top ms0 (length st0)) (OL : outcome mods (ev_gen mods ms0 l st0) ms0 st0 Wl).
Context (OH : forall it st Q, product st = product st0 ++ Q -> stop_pos it = length st ->
  (length Q > 0)%nat -> In Q (walk G module limit z (Z.of_nat (length st0))) -> outcome mods (ev_gen mods (it :: ms0) h st) (it :: ms0) st (Wh Q)).
Lemma retry_end ms : outcome mods (ev_retry mods (Mit true (length st0) (length st0) h l z ms :: ms0) st0) ms0 st0 Wl.
Proof.
  assert (H : forall R, ev_gen mods ms0 l st0 R -> ev_retry mods (Mit true (length st0) (length st0) h l z ms :: ms0) st0 R).
  { intros R [N H]. exists (S N). intros n L. destruct n as [|n]; [lia|]. cbn [retry]. rewrite Nat.eqb_refl. apply H. lia. }
  pose proof OL as O. revert O. generalize Wl as W. intros [|p W] O; simpl in *; auto. destruct O as (ms' & st' & E & P & RS). exists ms', st'. split; [apply H; auto|auto].
Qed.
Lemma resumes_module it st Q Wr : product st = product st0 ++ Q -> (length Q > 0)%nat -> stop_pos it = length st ->
  (exists it' st', ev_incr it st (it', st') /\ outcome mods (ev_retry mods (it' :: ms0) st') ms0 st0 Wr) ->
  forall W ms st1, resumes mods ms st1 (it :: ms0) st W -> resumes mods ms st1 ms0 st0 (map (app Q) W ++ Wr).
Proof.
  intros P NQ SP (it' & st' & EI & O). pose proof (product_length st Q st0 P) as LN.
  induction W as [|p W IH]; intros ms st1 H.
  - simpl in *. destruct Wr as [|p Wr]; simpl in *.
    + intros start R LE S. apply H; [lia|]. apply seek_module; auto; [lia|]. exists it', st', false, ms0, st0. auto.
    + destruct O as (ms2 & st2 & E & P2 & RS). exists ms2, st2. split; auto. split; auto. intros start LE. apply H; [lia|].
      apply seek_module; auto; [lia|]. exists it', st', true, ms2, st2. auto.
  - destruct H as (ms2 & st2 & P2 & S & RS). simpl. exists ms2, st2. split; [rewrite P2, P, <- app_assoc; auto|]. split; auto.
    intros start LE. apply S. lia.
Qed.
Lemma retry_step ms st Q WQ Wr : let it := Mit false (length st0) (length st) h l z ms in
  product st = product st0 ++ Q -> (length Q > 0)%nat ->
  outcome mods (ev_gen mods (it :: ms0) h st) (it :: ms0) st WQ ->
  (exists it' st', ev_incr it st (it', st') /\ outcome mods (ev_retry mods (it' :: ms0) st') ms0 st0 Wr) ->
  outcome mods (ev_retry mods (it :: ms0) st) ms0 st0 (map (app Q) WQ ++ Wr).
Proof.
  intros it P NQ OQ NX. destruct WQ as [|p WQ].
  - simpl. destruct OQ as [N1 H1]. destruct NX as (it' & st' & [N2 H2] & O).
    assert (C : forall R, ev_retry mods (it' :: ms0) st' R -> ev_retry mods (it :: ms0) st R).
    { intros R [N3 H3]. exists (S (N1 + N2 + N3)). intros n L. destruct n as [|n]; [lia|]. unfold it. cbn [retry].
      fold it. rewrite H1 by lia. simpl. rewrite H2 by lia. simpl. apply H3. lia. }
    destruct Wr as [|p Wr]; simpl in *; auto. destruct O as (ms2 & st2 & E & P2 & RS). exists ms2, st2. split; [apply C; auto|auto].
  - destruct OQ as (ms2 & st2 & [N1 H1] & P2 & RS). simpl. exists ms2, st2. split; [|split].
    + exists (S N1). intros n L. destruct n as [|n]; [lia|]. unfold it. cbn [retry]. fold it. rewrite H1 by lia. auto.
    + rewrite P2, P, <- app_assoc. auto.
    + apply (resumes_module it st Q Wr P NQ eq_refl NX). auto.
Qed.
Lemma retry_ok : forall WQ Q it st, walking it st st0 h l z WQ -> product st = product st0 ++ Q ->
  (forall Q', In Q' (Q :: WQ) -> Q' <> [] /\ In Q' (walk G module limit z (Z.of_nat (length st0)))) ->
  outcome mods (ev_retry mods (it :: ms0) st) ms0 st0 (flat_map (fun Q => map (app Q) (Wh Q)) (Q :: WQ) ++ Wl).
Proof.
  induction WQ as [|Q' WQ IH]; intros Q it st WK P NE; cbn [flat_map]; rewrite <- app_assoc.
  - destruct (incr_walking it st st0 h l z [] WK) as (msx & EI); [intros Q' []|].
    destruct WK as [(ms & -> & _) LTs].
    assert (NQ : (length Q > 0)%nat) by (destruct Q; simpl; [destruct (NE [] (or_introl eq_refl)); congruence|lia]).
    apply retry_step; auto; [apply OH; auto; apply NE; simpl; auto|].
    exists (Mit true (length st0) (length st0) h l z msx), st0. split; auto. apply retry_end.
  - destruct (incr_walking it st st0 h l z (Q' :: WQ) WK) as (it' & st' & EI & P' & WK'); [intros Q1 I1; apply NE; simpl; auto|].
    destruct WK as [(ms & -> & _) LTs].
    assert (NQ : (length Q > 0)%nat) by (destruct Q; simpl; [destruct (NE [] (or_introl eq_refl)); congruence|lia]).
    apply retry_step; auto; [apply OH; auto; apply NE; simpl; auto|].
    exists it', st'. split; auto. apply (IH Q' it' st'); auto. intros Q1 I1. apply NE. right; auto.
Qed.
End Module.

(** The iteration below a vertex. *)
Definition iterates (z : zbdd) : Prop := forall st0, Z.of_nat (length st0) <= limit ->
  outcome (modules_of z) (ev_gen (modules_of z) [] (root_of z) st0) [] st0 (walk G module limit z (Z.of_nat (length st0))).
Lemma gen_ok mods t : (forall i h l, In (ZN i h l) (subs t) -> is_module i = true -> exists z, find_module i mods = Some z /\ iterates z /\
    forall n Q, n <= limit -> In Q (walk G module limit z n) -> Q <> [] /\ n + Z.of_nat (length Q) <= limit) ->
  forall ms0 st0, Z.of_nat (length st0) <= limit -> low_top ms0 (length st0) ->
  outcome mods (ev_gen mods ms0 t st0) ms0 st0 (walk_at G module limit mods t (Z.of_nat (length st0))).
Proof.
  induction t as [| |i h IHh l IHl]; intros H ms0 st0 LE LT.
  - simpl. exists 1%nat. intros n L. destruct n; [lia|auto].
  - simpl. exists ms0, st0. split; [exists 1%nat; intros n L; destruct n; [lia|auto]|]. split; [rewrite app_nil_r; auto|]. auto.
  - cbn [walk_at]. destruct (Z.leb_spec limit (Z.of_nat (length st0))) as [LK|LK].
    { simpl. exists 1%nat. intros n L. destruct n; [lia|]. cbn [gen]. destruct (Z.leb_spec limit (Z.of_nat (length st0))); [auto|lia]. }
    assert (Hh : forall i' h' l', In (ZN i' h' l') (subs h) -> is_module i' = true -> exists z, find_module i' mods = Some z /\ iterates z /\
      forall n Q, n <= limit -> In Q (walk G module limit z n) -> Q <> [] /\ n + Z.of_nat (length Q) <= limit).
    { intros i' h' l' I. apply (H i' h' l'). simpl. right. apply in_app_iff. auto. }
    assert (Hl : forall i' h' l', In (ZN i' h' l') (subs l) -> is_module i' = true -> exists z, find_module i' mods = Some z /\ iterates z /\
      forall n Q, n <= limit -> In Q (walk G module limit z n) -> Q <> [] /\ n + Z.of_nat (length Q) <= limit).
    { intros i' h' l' I. apply (H i' h' l'). simpl. right. apply in_app_iff. auto. }
    pose proof (IHl Hl ms0 st0 LE LT) as OL.
    assert (LL : (limit <=? Z.of_nat (length st0)) = false) by (apply Z.leb_gt; auto).
    destruct (is_module i) eqn:M.
    + destruct (H i h l) as (z & F & IT & NE); [simpl; auto|auto|]. rewrite F.
      specialize (IT st0 LE). pose proof (fun Q => NE (Z.of_nat (length st0)) Q LE) as NE0.
      assert (OH : forall it st Q, product st = product st0 ++ Q -> stop_pos it = length st -> (length Q > 0)%nat ->
        In Q (walk G module limit z (Z.of_nat (length st0))) ->
        outcome mods (ev_gen mods (it :: ms0) h st) (it :: ms0) st (walk_at G module limit mods h (Z.of_nat (length st0) + Z.of_nat (length Q)))).
      { intros it st Q P SP NQ IQ. rewrite <- Nat2Z.inj_add, <- (product_length st Q st0 P). apply IHh; auto.
        - rewrite (product_length st Q st0 P), Nat2Z.inj_add. apply (NE0 Q IQ).
        - simpl. lia. }
      assert (C : forall it st R, (exists N, forall n, (N <= n)%nat -> fresh n z h l st0 = Some (it, st)) -> ev_retry mods (it :: ms0) st R -> ev_gen mods ms0 (ZN i h l) st0 R).
      { intros it st R [N1 H1] [N2 H2]. exists (S (N1 + N2)). intros n L. destruct n as [|n]; [lia|]. cbn [gen]. rewrite LL, M, F. simpl.
        rewrite H1 by lia. simpl. apply H2. lia. }
      assert (C' : forall it st W, (exists N, forall n, (N <= n)%nat -> fresh n z h l st0 = Some (it, st)) ->
        outcome mods (ev_retry mods (it :: ms0) st) ms0 st0 W -> outcome mods (ev_gen mods ms0 (ZN i h l) st0) ms0 st0 W).
      { intros it st W FR O. destruct W as [|p W]; simpl in *; [eapply C; eauto|]. destruct O as (ms2 & st2 & E & P2 & RS). exists ms2, st2. split; eauto. }
      destruct (walk G module limit z (Z.of_nat (length st0))) as [|Q WQ] eqn:EW.
      * simpl in IT. destruct IT as [N IT].
        apply (C' (Mit true (length st0) (length st0) h l z []) st0).
        -- exists (S N). intros n L. destruct n as [|n]; [lia|]. cbn [fresh]. rewrite IT by lia. auto.
        -- simpl. apply retry_end; auto.
      * destruct IT as (ms1 & st1 & [N IT] & P1 & RS).
        assert (NQ : Q <> []) by (apply (NE0 Q); simpl; auto).
        apply (C' (Mit false (length st0) (length st1) h l z ms1) st1).
        -- exists (S N). intros n L. destruct n as [|n]; [lia|]. cbn [fresh]. rewrite IT by lia. auto.
        -- apply (retry_ok mods h l z ms0 st0 _ (fun Q => walk_at G module limit mods h (Z.of_nat (length st0) + Z.of_nat (length Q)))); auto.
           ++ rewrite EW. auto.
           ++ split; [exists ms1; auto|]. apply (product_eq_len st1 Q st0); auto.
           ++ rewrite EW. intros Q' IQ'. split; auto. apply (NE0 Q'); auto.
    + assert (OHh : outcome mods (ev_gen mods ms0 h ((i, l) :: st0)) ms0 ((i, l) :: st0) (walk_at G module limit mods h (Z.of_nat (length st0) + 1))).
      { replace (Z.of_nat (length st0) + 1) with (Z.of_nat (length ((i, l) :: st0))) by (simpl length; lia). apply IHh; auto; [simpl length; lia|].
        destruct ms0; simpl in *; lia. }
      destruct (walk_at G module limit mods h (Z.of_nat (length st0) + 1)) as [|p Wh].
      * destruct OHh as [N1 H1]. simpl.
        assert (C : forall R, ev_gen mods ms0 l st0 R -> ev_gen mods ms0 (ZN i h l) st0 R).
        { intros R [N2 H2]. exists (S (N1 + N2)). intros n L. destruct n as [|n]; [lia|]. cbn [gen]. rewrite LL, M, H1 by lia. simpl. apply H2. lia. }
        destruct (walk_at G module limit mods l (Z.of_nat (length st0))) as [|p W]; simpl in *; [auto|]. destruct OL as (ms2 & st2 & E & P2 & RS). exists ms2, st2. split; [apply C; auto|auto].
      * destruct OHh as (ms1 & st1 & [N1 H1] & P1 & RS). simpl. exists ms1, st1. split; [|split].
        -- exists (S N1). intros n L. destruct n as [|n]; [lia|]. cbn [gen]. rewrite LL, M, H1 by lia. auto.
        -- rewrite P1, product_push, <- app_assoc. auto.
        -- apply (resumes_literal mods i l _ ms0 st0 LT OL). auto.
Qed.

(** The whole iteration. *)
Lemma collect_ok z : forall W st it, (exists ms, it = Mit false 0 (length st) ZE ZE z ms /\ resumes (modules_of z) ms st [] [] W) ->
  (forall p, In p W -> p <> []) ->
  exists N, forall n, (N <= n)%nat -> collect n it st = Some (product st :: W).
Proof.
  induction W as [|p W IH]; intros st it (ms & -> & H) NE.
  - destruct (H O ([], [])) as [N HS]; auto.
    { exists 1%nat. intros n L. destruct n as [|n]; [lia|]. reflexivity. }
    exists (S (S N)). intros n L. destruct n as [|n]; [lia|]. cbn [collect sentinel]. destruct n as [|n]; [lia|].
    cbn [incr]. rewrite HS by lia. simpl. auto.
  - destruct H as (ms' & st' & P & S & RS). destruct (S O (le_n _)) as [N E].
    assert (LT : (0 < length st')%nat) by (apply (product_eq_len st' p []); auto; apply NE; simpl; auto).
    destruct (IH st' (Mit false 0 (length st') ZE ZE z ms')) as [N2 H2]; [exists ms'; auto|intros q I; apply NE; simpl; auto|].
    exists (Datatypes.S (Datatypes.S (N + N2))). intros n L. destruct n as [|n]; [lia|]. cbn [collect sentinel].
    assert (EI : incr n (Mit false 0 (length st) ZE ZE z ms) st = Some (Mit false 0 (length st') ZE ZE z ms', st')).
    { destruct n as [|n]; [lia|]. cbn [incr]. rewrite E by lia. simpl. destruct (length st'); [lia|auto]. }
    rewrite EI. simpl. rewrite H2 by lia. simpl. rewrite P. reflexivity.
Qed.
Lemma clean_iterates ord top : forall z, clean ord top G module z -> iterates z.
Proof.
  fix IH 2. intros z [r mods W A CM PX] st0 LE. cbn [modules_of root_of]. rewrite walk_eq.
  apply gen_ok; auto; [|simpl; auto]. intros i h l I M.
  assert (L : lits r i) by (apply (subs_lits ord top r W i h l I)).
  destruct (PX i L M) as (z' & F & NB). exists z'. split; auto. pose proof (CM i z' (find_some i z' mods F)) as C. split; [apply IH; auto|].
  intros n Q LN IQ. destruct (walk_ok ord top G module (fun _ => true) (fun _ => O) limit z' C) as [X0 X]. apply X in IQ as [PQ S]; auto. split; [intros E; apply NB, (X0 Q); auto|auto].
Qed.
Theorem iterate_ok ord top z : clean ord top G module z -> 0 <= limit -> exists N, forall n, (N <= n)%nat -> iterate n z = Some (walk G module limit z 0).
Proof.
  intros C L0. pose proof (clean_iterates ord top z C [] L0) as IT. change (Z.of_nat (length (@nil (Z * zt)))) with 0 in IT.
  destruct (walk_ok ord top G module (fun _ => true) (fun _ => O) limit z C) as [X0 X].
  destruct (walk G module limit z 0) as [|p W] eqn:EW.
  - destruct IT as [N IT]. exists (S N). intros n L. destruct n as [|n]; [lia|]. unfold iterate. cbn [fresh]. rewrite IT by lia. reflexivity.
  - destruct IT as (ms & st & [N1 H1] & P & RS).
    destruct (collect_ok z W st (Mit false 0 (length st) ZE ZE z ms)) as [N2 H2]; [exists ms; auto| |].
    { destruct z as [r mods]. intros q Iq E. subst q. assert (PQ : produces G module (Zb r mods) []) by (apply (X 0 []); auto; rewrite EW; right; auto).
      apply X0 in PQ; auto. simpl in PQ. subst r. rewrite walk_eq in EW. simpl in EW. injection EW as _ <-. destruct Iq. }
    exists (S (N1 + N2)). intros n L. destruct n as [|n]; [lia|]. unfold iterate. cbn [fresh]. rewrite H1 by lia.
    cbn [negb mbind option_bind]. change (length (@nil (Z * zt))) with O. rewrite H2 by lia. rewrite P. reflexivity.
Qed.
End Iter.

(** ** The container *)
Definition order_index (p : list Z) : nat := match p with [] => O | _ => length p - 1 end.
Lemma bump_nth k : forall d i, nth i (bump k d) 0 = nth i d 0 + if Nat.eqb i k then 1 else 0.
Proof.
  induction k as [|k IH]; intros [|c d] [|i]; cbn [bump nth Nat.eqb]; try lia.
  - destruct i; simpl; lia.
  - rewrite IH. destruct i; simpl; lia.
  - rewrite IH. lia.
Qed.
Lemma add_events_in p : forall es v, In v (add_events p es) <-> In v es \/ exists i, In i p /\ v = Z.abs i.
Proof.
  induction p as [|a p IH]; intros es v; simpl; [firstorder|].
  rewrite IH. destruct (existsb (Z.eqb (Z.abs a)) es) eqn:E; simpl.
  - apply existsb_exists in E as (w & W & Q). apply Z.eqb_eq in Q. subst w. split.
    + intros [H|(i & I & ->)]; eauto.
    + intros [H|(i & [<-|I] & ->)]; eauto.
  - split.
    + intros [[<-|H]|(i & I & ->)]; eauto.
    + intros [H|(i & [<-|I] & ->)]; eauto.
Qed.
Lemma add_events_nodup p : forall es, NoDup es -> NoDup (add_events p es).
Proof.
  induction p as [|a p IH]; intros es N; simpl; auto. apply IH. destruct (existsb (Z.eqb (Z.abs a)) es) eqn:E; auto. constructor; auto.
  intros I. assert (existsb (Z.eqb (Z.abs a)) es = true); [|congruence]. apply existsb_exists. exists (Z.abs a). split; auto. apply Z.eqb_refl.
Qed.
Lemma store_from L : forall c, NoDup (c_events c) -> let c' := fold_left store_product L c in
  c_size c' = c_size c + Z.of_nat (length L) /\
  (forall i, nth i (c_distribution c') 0 = nth i (c_distribution c) 0 + Z.of_nat (length (List.filter (fun p => Nat.eqb i (order_index p)) L))) /\
  NoDup (c_events c') /\ forall v, In v (c_events c') <-> In v (c_events c) \/ exists p i, In p L /\ In i p /\ v = Z.abs i.
Proof.
  induction L as [|p L IH]; intros c N; simpl; [split; [lia|split; [intros; lia|split; auto]]; firstorder|].
  destruct (IH (store_product c p)) as (S & D & N' & E); [simpl; apply add_events_nodup; auto|]. split; [|split; [|split; auto]].
  - rewrite S. simpl. lia.
  - intros i. rewrite D. simpl. rewrite bump_nth. fold (order_index p). destruct (Nat.eqb i (order_index p)); simpl length; lia.
  - intros v. rewrite E. simpl. rewrite add_events_in. split.
    + intros [[H|(i & I & ->)]|(q & i & Q & I & ->)]; eauto 7.
    + intros [H|(q & i & [<-|Q] & I & ->)]; eauto 7.
Qed.
