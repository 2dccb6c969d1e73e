(** The expansion of MOCUS keeps the function of the module. *)
From stdpp Require Import gmap.
From Coq Require Import List ZArith Lia Bool Permutation Sorting.Sorted.
Import ListNotations.
From Verif Require Import Pdag PdagProofs PdagSem.
From Verif Require Import Zbdd ZbddProofs ZbddHistory ZbddGraph ZbddModules ZbddModulesProofs Mocus.
Open Scope Z_scope.

Section Expansion.
Context (ord : Z -> Z) (top : Z) (limit bound : Z) (ORD : ordering ord) (LIM : 0 <= limit).
Context (G : graph) (module coherent : Z -> bool) (arrange : list zt -> list zt) (ARR : forall l, Permutation (arrange l) l) (root : Z).
Context (NNF : nnf ord top G module root) (MR : module root = true).
Notation cnt := (c_counts module coherent bound).
Notation wf := (Zbdd.wf ord top).
Notation size := (Zbdd.size cnt).
Notation inv := (ZbddProofs.inv ord top cnt).
Notation leaf := (ZbddGraph.leaf G module root).
Notation active := (ZbddGraph.active G module root).
Notation respects := (ZbddGraph.respects G module root).
(** The gates to expand *)
Definition inner (j : Z) : Prop := active j /\ is_Some (gs G !! j) /\ module j = false /\ 0 < j.
Definition literal (j : Z) : Prop := leaf j \/ inner j.
Context (BG : forall i, is_Some (gs G !! i) -> bound < i).
Context (BV : forall i x a, gs G !! i = Some x -> In a (g_args x) -> gs G !! Z.abs a = None -> Z.abs a <= bound).
Context (O1 : forall i x a, gs G !! i = Some x -> inner i -> In a (g_args x) -> inner a -> ord i < ord a).
Context (O2 : forall i j, inner i -> leaf j -> ord i < ord j).

Lemma arg_literal i x a : gs G !! i = Some x -> active i -> In a (g_args x) -> literal a.
Proof.
  intros E A J. destruct (NNF i x E A) as (_ & _ & _ & H). destruct (H a J) as (_ & _ & P).
  destruct (gs G !! Z.abs a) as [y|] eqn:Ey; [|left; exists i, x; auto].
  assert (Pa : 0 < a) by (apply P; eauto).
  destruct (module (Z.abs a)) eqn:M; [left; exists i, x; auto|]. right. rewrite Z.abs_eq in M, Ey by lia. split; [|eauto].
  rewrite <- (Z.abs_eq a) by lia. apply (active_arg G module root i x a); auto; rewrite Z.abs_eq by lia; eauto.
Qed.
Lemma literal_ok j : literal j -> j <> 0 /\ ord j <= top.
Proof.
  intros [(i & x & E & A & J & _)|(A & [y Y] & M & P)].
  - destruct (NNF i x E A) as (_ & _ & _ & H). destruct (H j J) as (? & ? & _). auto.
  - split; [lia|]. inversion A as [E|i x a A' E J S K EQ]; [congruence|].
    destruct (NNF i x E A') as (_ & _ & _ & H). destruct (H a J) as (_ & L & P'). specialize (P' S). rewrite Z.abs_eq in * by lia. auto.
Qed.
Lemma inner_not_leaf j : inner j -> ~ leaf j.
Proof. intros I L. specialize (O2 j j I L). lia. Qed.

Record rep (Q : Z -> Prop) (F : (Z -> bool) -> bool) (r : zt) : Prop := {
  p_wf : wf r; p_anti : antichain r;
  p_lits : forall j, lits r j -> Q j;
  p_sound : forall ν, respects ν -> ev (lit ν) r = true -> F ν = true;
  p_complete : forall ν s, respects ν -> NoDup s -> Zbdd.consistent s -> size s <= limit ->
    (forall j, literal j -> lit ν j = true -> In j s) -> F ν = true -> ev (mem s) r = true }.
Definition small (r : zt) : Prop := forall p, In p (fam r) -> size p <= limit.

Lemma rep_weaken (Q Q' : Z -> Prop) F r : (forall j, Q j -> Q' j) -> rep Q F r -> rep Q' F r.
Proof. intros H [? ? L ? ?]. constructor; auto. Qed.
Lemma rep_ext Q F F' r : (forall ν, respects ν -> F ν = F' ν) -> rep Q F r -> rep Q F' r.
Proof. intros E [? ? ? S C]. constructor; auto; intros; [rewrite <- E|apply (C ν s)]; auto. rewrite E; auto. Qed.
Lemma and_ok Q1 Q2 F1 F2 f g s : inv s -> rep Q1 F1 f -> rep Q2 F2 g ->
  runs (apply_and ord top cnt f g limit) s (fun r s' => inv s' /\ rep (fun j => Q1 j \/ Q2 j) (fun ν => F1 ν && F2 ν) r /\ small r).
Proof.
  intros I [W1 A1 L1 S1 C1] [W2 A2 L2 S2 C2].
  eapply runs_mono; [apply (apply_and_ok ord top cnt ORD f g limit s); auto|]. intros r s' [I' [W A L Z S C]].
  split; auto. split; auto. constructor; auto.
  - intros j J. destruct (L j J); auto.
  - intros ν R E. destruct (S _ (lit_assignment ν) E) as [X Y]. rewrite (S1 ν R X), (S2 ν R Y). auto.
  - intros ν x R N K Z' H E. apply andb_true_iff in E as [E1 E2]. apply C; eauto.
Qed.
Lemma or_ok Q1 Q2 F1 F2 f g s : inv s -> rep Q1 F1 f -> rep Q2 F2 g ->
  runs (apply_or ord top cnt f g limit) s (fun r s' => inv s' /\ rep (fun j => Q1 j \/ Q2 j) (fun ν => F1 ν || F2 ν) r /\ small r).
Proof.
  intros I [W1 A1 L1 S1 C1] [W2 A2 L2 S2 C2].
  eapply runs_mono; [apply (apply_or_ok ord top cnt ORD f g limit s); auto|]. intros r s' [I' [W A L Z S C]].
  split; auto. split; auto. constructor; auto.
  - intros j J. destruct (L j J); auto.
  - intros ν R E. destruct (S _ (lit_assignment ν) E) as [X|X]; apply orb_true_iff; eauto.
  - intros ν x R N K Z' H E. apply orb_true_iff in E as [E|E]; apply C; eauto.
Qed.
Lemma step_ok Q t F1 F2 f g s : t = kAnd \/ t = kOr -> inv s -> rep Q F1 f -> rep Q F2 g ->
  runs (apply ord top cnt limit t f g) s (fun r s' => inv s' /\ rep Q (fun ν => op t (F1 ν) (F2 ν)) r /\ small r).
Proof.
  intros [-> | ->] I R1 R2; unfold apply, op.
  - eapply runs_mono; [apply (and_ok Q Q F1 F2 f g s I R1 R2)|]. intros r s' (I' & R & B). split; auto. split; auto. revert R. apply rep_weaken. tauto.
  - eapply runs_mono; [apply (or_ok Q Q F1 F2 f g s I R1 R2)|]. intros r s' (I' & R & B). split; auto. split; auto. revert R. apply rep_weaken. tauto.
Qed.
Lemma steps_ok Q t : t = kAnd \/ t = kOr -> forall l Fs F r s, inv s -> rep Q F r -> Forall2 (rep Q) Fs l -> small r \/ l <> [] ->
  runs (apply_all ord top cnt limit t r l) s (fun r' s' => inv s' /\
    rep Q (fun ν => fold_left (op t) (map (fun F => F ν) Fs) (F ν)) r' /\ small r').
Proof.
  intros T. induction l as [|x l IH]; intros Fs F r s I R RS B; inversion RS as [|F1 ? Fs' ? R1 RS']; subst; simpl.
  - apply runs_ret. split; auto. split; auto. tauto.
  - apply runs_seq with (1 := step_ok Q t F F1 r x s T I R R1). intros r1 s1 (I1 & R1' & Z1).
    apply (IH Fs' _ r1 s1 I1 R1' RS'). auto.
Qed.
Lemma single_rep (Q : Z -> Prop) a : literal a -> Q a -> rep Q (fun ν => lit ν a) (single a).
Proof.
  intros L Qa. destruct (literal_ok a L) as [N T]. constructor.
  - simpl. repeat split; try discriminate; tauto.
  - intros p q [<-|[]] [<-|[]]; auto.
  - intros j (p & [<-|[]] & [<-|[]]). auto.
  - intros ν R. simpl. rewrite andb_true_r, orb_false_r. auto.
  - intros ν s R _ _ _ H E. simpl. rewrite andb_true_r, orb_false_r. apply mem_In. auto.
Qed.

(** ConvertGate *)
Lemma convert_one_ok i x s : gs G !! i = Some x -> active i -> inv s ->
  runs (convert_one ord top G module coherent limit bound arrange x) s (fun r s' => inv s' /\
    rep (fun j => In j (g_args x)) (fun ν => ν i) r /\ small r).
Proof.
  intros Ex A I. destruct (NNF i x Ex A) as (T & LA & NC & HA). unfold convert_one.
  apply runs_bind, runs_check; [destruct T as [->| ->]; auto|]. apply runs_bind, runs_check; [rewrite NC; auto|].
  apply runs_bind, runs_check; [apply Nat.ltb_lt; lia|]. apply runs_bind, runs_check.
  { apply forallb_forall. intros a J. apply filter_In in J as [J K]. apply Z.ltb_lt. apply (HA a J). unfold is_gate in K. destruct (gs G !! Z.abs a); [eauto|discriminate]. }
  set (args := List.filter (fun a => negb (is_gate G a)) (g_args x) ++ List.filter (is_gate G) (g_args x)).
  assert (PG : Permutation args (g_args x)) by apply filter_split.
  rewrite <- map_app. fold args.
  assert (RA : Forall2 (rep (fun j => In j (g_args x))) (map (fun a ν => lit ν a) args) (map single args)).
  { assert (H : forall a, In a args -> In a (g_args x)) by (intros a J; rewrite PG in J; auto).
    clear PG. clearbody args. induction args as [|a l IHl]; simpl; constructor.
    - apply single_rep; [eapply arg_literal; eauto; apply H; simpl; auto|apply H; simpl; auto].
    - apply IHl. intros b J. apply H. simpl; auto. }
  pose proof (ARR (map single args)) as PA. set (arr := arrange (map single args)) in *.
  apply Forall2_flip in RA. destruct (Permutation_Forall2 (Permutation_sym PA) RA) as (Fs & PF & RF). apply Forall2_flip in RF.
  assert (LEN : length arr = length (g_args x)) by (rewrite (Permutation_length PA), map_length; apply Permutation_length; auto).
  destruct arr as [|r l] eqn:Earr; [simpl in LEN; lia|]. assert (NL : l <> []) by (intros ->; simpl in LEN; lia).
  inversion RF as [|F1 ? Fs' ? RF1 RF' E1 E2]; subst.
  apply runs_seq with (1 := steps_ok _ (g_type x) T l Fs' F1 r s I RF1 RF' (or_intror NL)).
  intros r' s2 (I2 & R2 & B2). apply runs_bind, runs_modify. apply runs_ret. split; [apply inv_clear; auto|]. split; auto.
  eapply rep_ext; [|exact R2]. intros ν Rν. simpl. rewrite (Rν i x Ex A). unfold gate_value. rewrite fold_op by auto. symmetry.
  change (F1 ν :: map (fun F => F ν) Fs') with (map (fun F : (Z -> bool) -> bool => F ν) (F1 :: Fs')).
  apply conn_perm; auto. etransitivity; [|apply Permutation_map; exact PF]. rewrite map_map. apply Permutation_map. symmetry. auto.
Qed.
Lemma small_within r : wf r -> small r -> within_limit cnt r limit = true.
Proof. intros W S. apply (within_ok ord top cnt); auto. Qed.
Lemma expand_gate_ok Q1 Q2 F1 F2 f g s : inv s -> rep Q1 F1 f -> rep Q2 F2 g -> small f -> small g ->
  runs (expand_gate ord top module coherent limit bound f g) s (fun r s' => inv s' /\ rep (fun j => Q1 j \/ Q2 j) (fun ν => F1 ν && F2 ν) r /\ small r).
Proof.
  intros I R1 R2 S1 S2. unfold expand_gate. apply runs_bind, runs_check; [apply small_within; auto; apply R1|].
  apply runs_bind, runs_check; [apply small_within; auto; apply R2|]. apply and_ok; auto.
Qed.
Lemma merge_ok Q1 Q2 F1 F2 f g s : inv s -> rep Q1 F1 f -> rep Q2 F2 g -> small g ->
  runs (merge ord top module coherent limit bound f g) s (fun r s' => inv s' /\ rep (fun j => Q1 j \/ Q2 j) (fun ν => F1 ν || F2 ν) r /\ small r).
Proof.
  intros I R1 R2 S2. unfold merge. apply runs_bind, runs_check; [apply small_within; auto; apply R2|].
  apply runs_seq with (1 := or_ok Q1 Q2 F1 F2 f g s I R1 R2). intros r s1 (I1 & R & S). apply runs_bind, runs_modify. apply runs_ret.
  split; [apply inv_clear; auto|]. auto.
Qed.

(** Sub-diagrams stand for themselves *)
Lemma mono (v w : Z -> bool) t : (forall j, lits t j -> v j = true -> w j = true) -> ev v t = true -> ev w t = true.
Proof.
  intros H E. apply ev_fam in E as (p & P & A). apply ev_fam. exists p. split; auto. intros j J. apply H; auto. exists p; auto.
Qed.
Lemma self (Q : Z -> Prop) t : wf t -> antichain t -> (forall j, lits t j -> Q j) -> (forall j, Q j -> literal j) -> rep Q (fun ν => ev (lit ν) t) t.
Proof.
  intros W A L LL. constructor; auto. intros ν s R N C S H E. apply (mono (lit ν)); auto. intros j J T. apply mem_In. auto.
Qed.
(** A rewriting of the diagram that keeps its value keeps what it stands for. *)
Lemma rep_trans Q F t r : rep literal F t -> rep Q (fun ν => ev (lit ν) t) r -> rep Q F r.
Proof.
  intros [W A L S C] [W' A' L' S' C']. constructor; auto. intros ν s R N K Z H E. apply (C' ν s); auto.
  set (s' := List.filter (lit ν) s).
  assert (E' : ev (mem s') t = true).
  { apply (C ν s'); auto.
    - apply NoDup_filter; auto.
    - intros i I J. apply filter_In in I as [I _]. apply filter_In in J as [J _]. apply (K i I J).
    - eapply Z.le_trans; [|exact Z]. unfold Zbdd.size. apply inj_le. apply NoDup_incl_length; [apply NoDup_filter, NoDup_filter; auto|].
      intros j J. apply filter_In in J as [J J2]. apply filter_In in J as [J _]. apply filter_In. auto.
    - intros j Lj T. apply filter_In. auto. }
  revert E'. apply mono. intros j _ M. apply mem_In, filter_In in M. tauto.
Qed.

Definition known (gates : list Z) (t : zt) : Prop := forall j, lits t j -> is_Some (gs G !! Z.abs j) -> In j gates.
Lemma is_inner i : literal i -> (c_gate bound i && negb (module i) = true <-> inner i).
Proof.
  intros L. unfold c_gate. split.
  - intros H. apply andb_true_iff in H as [H M]. apply Z.ltb_lt in H. apply negb_true_iff in M. destruct L as [L|]; auto. exfalso.
    destruct L as (k & x & E & A & J & K). destruct (NNF k x E A) as (_ & _ & _ & HA). destruct (HA i J) as (_ & _ & P).
    destruct (gs G !! Z.abs i) as [y|] eqn:Ey.
    + assert (0 < i) by (apply P; eauto). rewrite Z.abs_eq in K, Ey by lia. destruct K; congruence.
    + pose proof (BV k x i E J Ey). lia.
  - intros (A & S & M & P). rewrite M. assert (bound < i) by (apply BG; auto). destruct (Z.ltb_spec bound i); [auto|lia].
Qed.
Lemma anti_high i h l : antichain (ZN i h l) -> antichain h.
Proof.
  intros A p q P Q I. assert (E : i :: p = i :: q); [|injection E; auto]. apply A; [apply in_fam; eauto|apply in_fam; eauto|].
  intros v [<-|V]; [left; auto|right; auto].
Qed.
Lemma anti_low i h l : antichain (ZN i h l) -> antichain l.
Proof. intros A p q P Q I. apply A; auto; apply in_fam; auto. Qed.
Lemma level_pos i h l : literal i -> (0 < level ord top (ZN i h l))%nat.
Proof. intros L. destruct (literal_ok i L) as [_ T]. unfold level, rk. destruct (0 <? i); lia. Qed.
Lemma level_less i h l t : wf (ZN i h l) -> literal i -> wf t -> (forall j, lits t j -> ord i < ord j) -> (level ord top t < level ord top (ZN i h l))%nat.
Proof.
  intros W L WT H. destruct t as [| |j h' l']; [apply level_pos; auto|apply level_pos; auto|].
  pose proof (H j (root_lit ord top j h' l' WT)). destruct WT as (_ & Tj & _). destruct (literal_ok i L) as [_ Ti].
  unfold level, rk. destruct (0 <? i), (0 <? j); lia.
Qed.

Lemma rep_terminal F t : rep literal F t -> terminal t = true -> rep leaf F t.
Proof.
  intros [W A L S C] T. constructor; auto. intros j (p & P & J). destruct t; [destruct P|destruct P as [<-|[]]; destruct J|discriminate].
Qed.
Lemma expand_all_ok F : forall fuel gates t s, inv s -> rep literal F t -> small t -> known gates t -> (level ord top t <= fuel)%nat ->
  runs (expand_all ord top G module coherent limit bound arrange fuel gates t) s (fun rg s' => inv s' /\ rep leaf F (fst rg) /\ small (fst rg) /\ known (snd rg) (fst rg)).
Proof.
  induction fuel as [|fuel IH]; intros gates t s I R S K FU.
  - destruct t as [| |i h l]; [| |pose proof (p_wf _ _ _ R) as W; pose proof (level_pos i h l (p_lits _ _ _ R i (root_lit ord top i h l W))); lia];
    apply runs_ret; cbn [fst snd]; (split; [auto|]; split; [apply rep_terminal; auto|auto]).
  - pose proof (p_wf _ _ _ R) as W. destruct t as [| |i h l].
    1,2: apply runs_ret; cbn [fst snd]; (split; [auto|]; split; [apply rep_terminal; auto|auto]).
    pose proof (p_lits _ _ _ R i (root_lit ord top i h l W)) as Li. cbn [expand_all].
    destruct (c_gate bound i && negb (module i)) eqn:CI.
    + assert (Ii : inner i) by (apply is_inner; auto). destruct Ii as (Ai & [x Ex] & Mi & Pi).
      assert (Ki : In i gates) by (apply K; [apply (root_lit ord top i h l W)|rewrite Z.abs_eq by lia; eauto]).
      rewrite (proj2 (mem_In gates i) Ki), Ex.
      apply runs_bind, runs_check.
      { pose proof (small_within _ W S) as WI. unfold within_limit in WI. exact WI. }
      assert (Inn : inner i) by (split; eauto).
      set (Q := fun j => literal j /\ ord i < ord j /\ (is_Some (gs G !! Z.abs j) -> In j (add_gates G x gates))).
      assert (QA : forall j, In j (g_args x) -> Q j).
      { intros j J. pose proof (arg_literal i x j Ex Ai J) as Lj. split; auto. split.
        - destruct Lj as [Lj|Ij]; [apply O2; auto|apply (O1 i x j); auto].
        - intros [y Y]. unfold add_gates. apply in_app_iff. left. apply filter_In. split; auto. unfold is_gate. rewrite Y. auto. }
      assert (QL : forall j, (lits h j \/ lits l j) -> Q j).
      { intros j J. assert (J' : lits (ZN i h l) j) by (destruct J; [apply lits_high|apply lits_low]; auto).
        pose proof (p_lits _ _ _ R j J') as Lj. split; auto. split.
        - destruct J as [(p & P & J)|(p & P & J)]; [apply (wf_above ord top i h l W p j P J)|].
          destruct (wf_after_low ord top i h l W p j P J) as [X|[X Y]]; auto. exfalso.
          destruct (literal_ok j Lj) as [Nj _]. destruct (literal_ok i Li) as [Ni _]. destruct (proj1 (ORD i j Ni Nj) X) as [->|E]; [lia|].
          assert (j = - i) by lia. subst j. destruct Lj as [Lj|(_ & _ & _ & Pj)]; [|lia].
          destruct Lj as (k & y & Ek & Ak & Jk & Kk). destruct (NNF k y Ek Ak) as (_ & _ & _ & HA). destruct (HA _ Jk) as (_ & _ & P').
          rewrite Z.abs_opp, Z.abs_eq in P' by lia. specialize (P' ltac:(eauto)). lia.
        - intros SJ. unfold add_gates. apply in_app_iff. right. apply K; auto. }
      pose proof (p_anti _ _ _ R) as AT.
      assert (Rh : rep Q (fun ν => ev (lit ν) h) h) by (apply self; [apply (wf_high ord top cnt _ _ _ W)|apply (anti_high i h l AT)|auto|unfold Q; tauto]).
      assert (Rl : rep Q (fun ν => ev (lit ν) l) l) by (apply self; [apply (wf_low ord top cnt _ _ _ W)|apply (anti_low i h l AT)|auto|unfold Q; tauto]).
      assert (Sh : small h).
      { intros p P. assert (X : size (i :: p) <= limit) by (apply S, in_fam; eauto). rewrite size_cons in X. pose proof (cost_range cnt i). lia. }
      apply runs_seq with (1 := convert_one_ok i x s Ex Ai I). intros g s1 (I1 & Rg & Sg).
      apply (rep_weaken _ Q) in Rg; [|auto].
      apply runs_seq with (1 := expand_gate_ok Q Q _ _ g h s1 I1 Rg Rh Sg Sh). intros e s2 (I2 & Re & Se).
      apply runs_seq with (1 := merge_ok Q _ _ _ l e s2 I2 Rl Re Se). intros r s3 (I3 & Rr & Sr).
      apply (rep_weaken _ Q) in Rr; [|tauto].
      assert (Rt : rep Q F r).
      { apply (rep_trans Q F (ZN i h l) r R). eapply rep_ext; [|exact Rr]. intros ν Rν. simpl.
        replace (lit ν i) with (ν i) by (unfold lit; destruct (Z.ltb_spec i 0); [lia|auto]). apply orb_comm. }
      apply IH; auto.
      * revert Rt. apply rep_weaken. unfold Q. tauto.
      * intros j J SJ. apply (p_lits _ _ _ Rt j J); auto.
      * assert (level ord top r < level ord top (ZN i h l))%nat; [|lia]. apply level_less; auto; [apply Rt|]. intros j J. apply (p_lits _ _ _ Rt j J).
    + apply runs_ret. cbn [fst snd]. split; auto. split; [|auto].
      assert (LF : leaf i) by (destruct Li as [|Ii]; auto; rewrite (proj2 (is_inner i (or_intror Ii)) Ii) in CI; discriminate).
      destruct R as [W' A L SO C]. constructor; auto. intros j J. destruct (L j J) as [|Ij]; auto. exfalso.
      pose proof (O2 j i Ij LF) as LT. destruct J as (p & P & J). apply in_fam in P as [(p' & -> & P)|P].
      * destruct J as [<-|J]; [lia|]. pose proof (wf_above ord top i h l W p' j P J). lia.
      * pose proof (wf_after_low ord top i h l W p j P J) as B. unfold Zbdd.before in B. lia.
Qed.

(** All gates are expanded: what is left stands for the module over its leaves. *)
Lemma counts_inner j : inner j -> cnt j = false.
Proof.
  intros (A & S & M & P). unfold c_counts, c_gate. destruct (Z.leb_spec j 0); auto. pose proof (BG j S). destruct (Z.ltb_spec bound j); [|lia]. rewrite M. auto.
Qed.
Lemma rep_represents F t : rep leaf F t -> represents ord top cnt limit G module root F t.
Proof.
  intros [W A L S C]. constructor; auto. intros ν s R N K Z H E.
  set (gates := List.filter (fun j => (0 <? j) && negb (module j) && ν j) (map fst (map_to_list (gs G)))).
  set (s' := nodup Z.eq_dec (List.filter (fun j => lit ν j && negb (j =? 0)) s ++ gates)).
  assert (HS : forall j, In j s' -> j <> 0 /\ lit ν j = true /\ (In j s \/ (0 < j /\ is_Some (gs G !! j) /\ module j = false))).
  { intros j J. apply nodup_In, in_app_iff in J as [J|J]; apply filter_In in J as [J T].
    - apply andb_true_iff in T as [T Nj]. apply negb_true_iff, Z.eqb_neq in Nj. auto.
    - apply andb_true_iff in T as [T V]. apply andb_true_iff in T as [P M]. apply Z.ltb_lt in P. apply negb_true_iff in M.
      split; [lia|]. split; [unfold lit; destruct (Z.ltb_spec j 0); [lia|auto]|]. right. split; auto. split; auto.
      apply in_map_iff in J as ([k y] & <- & J). apply elem_of_list_In, elem_of_map_to_list in J. simpl. eauto. }
  assert (E' : ev (mem s') t = true).
  { apply (C ν s'); auto.
    - apply NoDup_nodup.
    - intros i I J. apply HS in I as (Ni & I & _). apply HS in J as (_ & J & _). rewrite (lit_assignment ν i Ni), I in J. discriminate.
    - eapply Z.le_trans; [|exact Z]. unfold Zbdd.size. apply inj_le. apply NoDup_incl_length; [apply NoDup_filter, NoDup_nodup|].
      intros j J. apply filter_In in J as [J Cj]. apply filter_In. split; auto. apply HS in J as (_ & _ & [J|(P & SJ & M)]); auto. exfalso.
      revert Cj. unfold c_counts, c_gate. destruct (Z.leb_spec j 0); [lia|]. pose proof (BG j SJ). destruct (Z.ltb_spec bound j); [|lia]. rewrite M. discriminate.
    - intros j Lj T. apply nodup_In, in_app_iff. destruct Lj as [Lj|(Aj & SJ & M & P)].
      + left. apply filter_In. split; auto. rewrite T. destruct (literal_ok j (or_introl Lj)) as [Nj _]. destruct (Z.eqb_spec j 0); [lia|auto].
      + right. apply filter_In. split.
        * destruct SJ as [y Y]. apply in_map_iff. exists (j, y). split; auto. apply elem_of_list_In, elem_of_map_to_list. auto.
        * rewrite M. unfold lit in T. destruct (Z.ltb_spec j 0); [lia|]. rewrite T. destruct (Z.ltb_spec 0 j); [auto|lia]. }
  revert E'. apply mono. intros j J M. apply mem_In, HS in M as (_ & _ & [M|(P & SJ & MJ)]); [apply mem_In; auto|]. exfalso.
  apply L in J. destruct J as (k & x & Ek & Ak & Jk & Kk). rewrite Z.abs_eq in Kk by lia. destruct SJ as [y Y]. destruct Kk; congruence.
Qed.

Lemma expand_module_ok x s : gs G !! root = Some x -> inv s ->
  runs (expand_module ord top G module coherent limit bound arrange x) s (fun rg s' => inv s' /\
    represents ord top cnt limit G module root (fun ν => ν root) (fst rg) /\ small (fst rg) /\ known (snd rg) (fst rg)).
Proof.
  intros Ex I. unfold expand_module. apply runs_seq with (1 := convert_one_ok root x s Ex (active_root G module root) I).
  intros g s1 (I1 & Rg & Sg).
  assert (R0 : rep (fun _ => False) (fun _ => false) ZE).
  { constructor; simpl; auto; [intros p q []|intros j (p & [] & _)]. }
  apply runs_seq with (1 := merge_ok _ _ _ _ ZE g s1 I1 R0 Rg Sg). intros r s2 (I2 & Rr & Sr).
  eapply runs_mono; [apply (expand_all_ok (fun ν => ν root)); auto|].
  - eapply rep_ext with (F := fun ν => false || ν root); [auto|]. revert Rr. apply rep_weaken. intros j [[]|J]. eapply arg_literal; eauto. constructor.
  - intros j J [y Y]. apply (p_lits _ _ _ Rr) in J as [[]|J]. unfold add_gates. rewrite app_nil_r. apply filter_In. split; auto. unfold is_gate. rewrite Y. auto.
  - intros rg s3 (I3 & R3 & S3 & K3). split; auto. split; auto. apply rep_represents; auto.
Qed.

(** mocus.cc:78-85 *)
Context (COH : coherent root = true -> forall j, leaf j -> 0 < j).
Lemma finish_ok t s : inv s -> represents ord top cnt limit G module root (fun ν => ν root) t -> small t ->
  runs (finish ord top G module coherent limit bound root t) s (fun r s' => inv s' /\ wf r /\ positive r /\ forall p, In p (fam r) <-> minimal_in (map pos (fam t)) p).
Proof.
  intros I R B. unfold finish.
  assert (MIN : forall u s, inv s -> wf u -> antichain u -> runs (minimize ord top u) s (fun r s' => inv s' /\ r = u)).
  { intros u s0 I0 W0 A0. destruct (minimize_ok ord top cnt ORD u s0 I0 W0) as (r & s1 & E & I1 & W1 & F1). exists r, s1. split; auto. split; auto.
    apply (canonical ord top); auto. intros p. rewrite F1. split; [tauto|]. intros P. split; auto. }
  apply runs_seq with (1 := MIN t s I (r_wf _ _ _ _ _ _ _ _ _ R) (r_anti _ _ _ _ _ _ _ _ _ R)). intros t' s1 (I1 & ->).
  destruct (coherent root) eqn:EC.
  - apply runs_ret. split; auto. split; [apply R|].
    assert (P : positive t) by (intros p j P J; apply COH; auto; apply (r_lits _ _ _ _ _ _ _ _ _ R); exists p; auto).
    split; auto. assert (E : map pos (fam t) = fam t).
    { rewrite <- (map_id (fam t)) at 2. apply map_ext_in. intros p Q. apply pos_eq. intros j. apply P; auto. }
    rewrite E. intros p. unfold minimal_in. split; [|tauto]. intros Q. split; auto. intros q Q' X. apply (r_anti _ _ _ _ _ _ _ _ _ R); auto.
  - set (c := fun i => if (i <? 0) && negb (wide G module coherent i) then Some true else None).
    destruct (eliminate_ok ord top cnt ORD limit c t s1 I1 (r_wf _ _ _ _ _ _ _ _ _ R)) as (r & s2 & E & I2 & Wr & Pr & _ & Fr).
    + intros j J Cj. apply (r_lits _ _ _ _ _ _ _ _ _ R) in J. destruct (leaf_lit ord top G module root NNF j J) as [N _]. unfold c in Cj.
      destruct (Z.ltb_spec j 0) as [X|X]; [|lia]. rewrite (leaf_neg ord top G module root NNF coherent j J X) in Cj. discriminate.
    + intros p P. eapply Z.le_trans; [|apply B; exact P]. apply size_incl; [|intros i J; apply filter_In in J as [J _]; auto].
      apply NoDup_filter. apply (nodup_fam ord top cnt t (r_wf _ _ _ _ _ _ _ _ _ R)); auto.
    + apply runs_seq with (P := fun r s' => inv s' /\ wf r /\ positive r /\ forall p, In p (fam r) <-> minimal_in (map pos (fam t)) p).
      * exists r, s2. rewrite eliminate_complements_as. split; auto. split; auto. split; auto. split; auto. intros p. rewrite Fr. unfold c. rewrite (projected_pos ord top G module root NNF); [tauto|]. apply (r_lits _ _ _ _ _ _ _ _ _ R).
      * intros u s3 (I3 & W3 & P3 & F3). eapply runs_mono; [apply (MIN u s3 I3 W3)|].
        -- intros p q P Q X. apply F3 in P as [P _]. apply F3 in Q as [_ Q]. auto.
        -- intros v s4 (I4 & ->). auto.
Qed.
End Expansion.

Section Modules.
Context (ord : Z -> Z) (top : Z) (ORD : ordering ord) (G : graph) (module coherent : Z -> bool) (limit bound : Z) (LIM : 0 <= limit).
Context (arrange : list zt -> list zt) (ARR : forall l, Permutation (arrange l) l) (parents : Z -> nat) (r0 : Z -> nat) (RK : ranked G r0) (top_gate : Z).
Notation is_module := (ZbddModules.is_module G module).
Notation counts := (ZbddModules.counts G module coherent).
Notation cnt := (c_counts module coherent bound).
Notation leaf := (ZbddGraph.leaf G module).
Notation active := (ZbddGraph.active G module).
Notation under := (ZbddModules.under G).
Notation good := (ZbddModulesProofs.good G module top_gate).
Notation exact := (ZbddModulesProofs.exact ord top G module).
Notation clean := (ZbddModules.clean ord top G module).
Context (NNF : forall g, good g -> nnf ord top G module g).
Context (COH : forall g, good g -> coherent g = true -> forall j, leaf g j -> 0 < j /\ (is_module j = true -> coherent j = true)).
Context (MOD : forall m, is_Some (gs G !! m) -> module m = true -> modular G m).
Context (BG : forall i, is_Some (gs G !! i) -> bound < i).
Context (BV : forall i x a, gs G !! i = Some x -> In a (g_args x) -> gs G !! Z.abs a = None -> Z.abs a <= bound).
Context (O1 : forall i x a, gs G !! i = Some x -> under top_gate i -> module i = false -> In a (g_args x) -> is_Some (gs G !! a) -> module a = false -> ord i < ord a).
Context (O2 : forall i j, is_Some (gs G !! i) -> under top_gate i -> module i = false -> under top_gate (Z.abs j) -> (gs G !! Z.abs j = None \/ module (Z.abs j) = true) -> ord i < ord j).

Lemma cnt_counts j : cnt j = true -> counts j = true.
Proof.
  unfold c_counts, c_gate, ZbddModules.counts. destruct (Z.leb_spec j 0); [discriminate|]. destruct (Z.ltb_spec 0 j); [|lia]. simpl.
  rewrite Z.abs_eq by lia. destruct (Z.ltb_spec bound j) as [L|L].
  - rewrite negb_orb, !negb_involutive. intros E. apply andb_true_iff in E as [_ ->]. apply orb_true_r.
  - intros _. destruct (is_module j) eqn:M; auto. apply (is_module_iff top G module parents) in M as [S _]. rewrite Z.abs_eq in S by lia. apply BG in S. lia.
Qed.
Lemma counts_cnt g j : leaf g j -> cnt j = counts j.
Proof.
  intros L. apply eq_true_iff_eq. split; [apply cnt_counts|].
  unfold c_counts, c_gate, ZbddModules.counts. destruct (Z.ltb_spec 0 j); [|discriminate]. destruct (Z.leb_spec j 0); [lia|]. simpl. rewrite Z.abs_eq by lia.
  pose proof L as (i & x & E & A & J & K). rewrite Z.abs_eq in K by lia. destruct (gs G !! j) as [y|] eqn:Ey.
  - destruct K as [K|K]; [congruence|]. replace (is_module j) with true; [|symmetry; apply (is_module_iff top G module parents); rewrite Z.abs_eq by lia; eauto].
    simpl. rewrite K. intros ->. destruct (bound <? j); auto.
  - intros _. pose proof (BV i x j E J) as B. rewrite Z.abs_eq in B by lia. specialize (B Ey). destruct (Z.ltb_spec bound j); [lia|auto].
Qed.
Lemma size_le x : NoDup x -> size cnt x <= size counts x.
Proof.
  intros N. unfold Zbdd.size. apply inj_le. apply NoDup_incl_length; [apply NoDup_filter; auto|]. intros j J. apply filter_In in J as [J C]. apply filter_In. split; auto. apply cnt_counts; auto.
Qed.
Lemma size_leaf g p : (forall j, In j p -> leaf g j) -> size cnt p = size counts p.
Proof.
  intros H. unfold Zbdd.size. do 2 f_equal. apply filter_ext_in. intros j J. apply (counts_cnt g). auto.
Qed.
Lemma cost_le c m p : In m p -> cost c m <= size c p.
Proof.
  induction p as [|a p IH]; intros J; [destruct J|]. rewrite size_cons. pose proof (cost_range c a). pose proof (size_nonneg c p).
  destruct J as [->|J]; [lia|]. specialize (IH J). lia.
Qed.

Definition analyze_all (fuel : nat) (gates : list Z) : list (Z * (bool * Z)) -> option (list (Z * zbdd)) :=
  fix go (l : list (Z * (bool * Z))) : option (list (Z * zbdd)) :=
                match l with
                | [] => Some []
                | (i, (c, o)) :: l =>
                    if (i <=? 0) || (o <? 0) then None else
                    z ← (if (o =? 0) && c then Some (Zb ZE []) else if mem gates i then analyze_module ord top G module coherent limit bound arrange fuel i else None);
                    zs ← go l;
                    Some ((i, z) :: zs)
                end.
Lemma analyze_all_ok g fuel gates : good g -> (r0 g < S fuel)%nat -> under top_gate g ->
  (forall m, good m -> module m = true -> under top_gate m -> (r0 m < fuel)%nat -> exists z, analyze_module ord top G module coherent limit bound arrange fuel m = Some z /\ exact m z limit) ->
  forall l, (forall i c o, In (i, (c, o)) l -> c = coherent (Z.abs i) /\ 0 <= o /\ entry_ok G module g i /\ In i gates) ->
  exists mods, analyze_all fuel gates l = Some mods /\ map fst mods = map fst l /\
    (forall i c o, In (i, (c, o)) l -> exists z o', In (i, z) mods /\ exact i z o' /\ (o' = limit \/ o' = o)) /\
    forall i z, In (i, z) mods -> clean z.
Proof.
  intros GD F UG B l. induction l as [|[i [c o]] l IH]; intros H.
  - exists []. split; auto. split; auto. split; [intros i c o []|intros i z []].
  - destruct (H i c o (or_introl eq_refl)) as (-> & Po & [L M] & K). destruct (module_pos ord top G module parents r0 RK top_gate NNF g i GD L M) as (Pi & GM & R).
    assert (MM : module i = true) by (apply (is_module_iff top G module parents) in M as [_ M]; rewrite Z.abs_eq in M by lia; auto).
    assert (UI : under top_gate i).
    { apply (under_trans G top_gate g i UG). rewrite <- (Z.abs_eq i) by lia. apply (leaf_under G module g i L). }
    destruct IH as (mods & E & EF & IH & CL); [intros; apply H; simpl; auto|].
    assert (exists z o', (if (o =? 0) && coherent (Z.abs i) then Some (Zb ZE []) else if mem gates i then analyze_module ord top G module coherent limit bound arrange fuel i else None) = Some z /\ exact i z o' /\ (o' = limit \/ o' = o)) as (z & o' & Ez & X & Eo).
    { rewrite (proj2 (mem_In gates i) K).
      destruct ((o =? 0) && coherent (Z.abs i)) eqn:EE.
      - apply andb_true_iff in EE as [E0 C]. apply Z.eqb_eq in E0. subst o.
        exists (Zb ZE []), 0. split; auto. split; auto. apply (exact_empty ord top G module coherent parents r0 RK top_gate NNF COH); auto. rewrite Z.abs_eq in C by lia. auto.
      - destruct (B i GM MM UI) as (z & Ez & X); [lia|]. exists z, limit. auto. }
    exists ((i, z) :: mods). split; [|split; [simpl; congruence|]].
    + cbn [analyze_all]. destruct (Z.leb_spec i 0); [lia|]. destruct (Z.ltb_spec o 0); [lia|]. cbn [orb]. rewrite Ez. simpl.
      fold (analyze_all fuel gates). rewrite E. reflexivity.
    + split; [|intros i' z' [E'|I']; [injection E' as <- <-; apply (x_clean _ _ _ _ _ _ _ X)|eauto]]. intros i' c' o2 [E'|I].
      * injection E' as <- _ <-. exists z, o'. simpl; auto.
      * destruct (IH i' c' o2 I) as (z' & o3 & I' & X'). exists z', o3. simpl; auto.
Qed.

Lemma analyze_module_ok : forall fuel g, good g -> module g = true -> under top_gate g -> (r0 g < fuel)%nat ->
  exists z, analyze_module ord top G module coherent limit bound arrange fuel g = Some z /\ exact g z limit.
Proof.
  induction fuel as [|fuel IH]; intros g GD MG UG F; [lia|].
  pose proof (NNF g GD) as NG. pose proof GD as [[x Ex] _].
  cbn [analyze_module]. rewrite Ex. cbn [mbind option_bind]. rewrite MG. cbn [negb].
  assert (IU : forall i, inner G module g i -> is_Some (gs G !! i) /\ under top_gate i /\ module i = false).
  { intros i (A & S & M & P). split; auto. split; auto. apply (under_trans G top_gate g i UG). apply (active_under G module g i A). }
  assert (O1' : forall i x a, gs G !! i = Some x -> inner G module g i -> In a (g_args x) -> inner G module g a -> ord i < ord a).
  { intros i y a E Ii J Ia. destruct (IU i Ii) as (_ & U & M). destruct (IU a Ia) as (S & _ & Ma). apply (O1 i y a); auto. }
  assert (O2' : forall i j, inner G module g i -> leaf g j -> ord i < ord j).
  { intros i j Ii L. destruct (IU i Ii) as (S & U & M). apply O2; auto.
    - apply (under_trans G top_gate g _ UG). apply (leaf_under G module g j L).
    - destruct L as (k & y & _ & _ & _ & K). auto. }
  destruct (expand_module_ok ord top limit bound ORD LIM G module coherent arrange ARR g NG MG BG BV O1' O2' x start Ex (inv_start ord top cnt))
    as ([t gates] & s0 & E0 & I0 & R & B & K). cbn [fst snd] in R, B, K.
  rewrite E0. cbn [mbind option_bind].
  destruct (finish_ok ord top limit bound ORD G module coherent g NG (fun C j J => proj1 (COH g GD C j J)) t s0 I0 R B)
    as (r & s & E & I & W & PO & FR).
  rewrite E. cbn [mbind option_bind].
  assert (MCS : forall j, j < 0 -> cnt j = false) by (intros j J; unfold c_counts; destruct (Z.leb_spec j 0); [auto|lia]).
  destruct (products_ok ord top cnt limit ORD G module g NG MCS t r R B W FR) as (A & PR & CO).
  assert (PL : forall p j, In p (fam r) -> In j p -> 0 < j /\ leaf g j) by (intros p j P J; apply (PR p P); auto).
  assert (KR : forall j, lits r j -> is_Some (gs G !! Z.abs j) -> In j gates).
  { intros j (p & P & J) S. apply K; auto. apply FR in P as [P _]. apply in_map_iff in P as (q & <- & Q). exists q. split; auto. apply filter_In in J. tauto. }
  destruct (gather_ok ord top is_module cnt coherent limit (fun j => entry_ok G module g j /\ In j gates) r 0 ∅) as (mn & subs & EG & _ & _ & _ & MO & _ & EN); auto; try lia.
  { intros p P. destruct (PR p P). lia. }
  { intros j LJ M. split; [split; auto; destruct LJ as (p & P & J); apply (PL p j P J)|]. apply KR; auto. apply (is_module_iff top G module parents) in M. tauto. }
  { intros j b o X. elim (lookup_empty_Some (M := gmap Z) j (b, o) X). }
  rewrite EG. cbn [mbind option_bind].
  destruct (analyze_all_ok g fuel gates GD F UG) with (l := map_to_list subs) as (mods & EM & EF & MM & CL).
  { intros m GM Mm Um Rm. apply IH; auto. }
  { intros i c o Ii. apply elem_of_list_In, elem_of_map_to_list in Ii. apply EN in Ii. tauto. }
  unfold analyze_all in EM. rewrite EM. cbn [mbind option_bind].
  assert (ND : NoDup (map fst mods)).
  { rewrite EF. apply NoDup_ListNoDup. apply NoDup_fst_map_to_list. }
  assert (SZ : forall p, In p (fam r) -> size cnt p = size counts p) by (intros p P; apply (size_leaf g); intros j J; apply (PL p j P J)).
  assert (MODS : forall p m, In p (fam r) -> In m p -> is_module m = true ->
    exists z o, find_module m mods = Some z /\ exact m z o /\ limit - (size counts p - cost counts m) <= o).
  { intros p m P J M. destruct (MO p m P J M) as (b & o & Eo & Lo). destruct (MM m b o) as (z & o' & Iz & Xz & Eo').
    - apply elem_of_list_In, elem_of_map_to_list. auto.
    - exists z, o'. split; [apply find_in; auto|]. split; auto. rewrite <- (SZ p P).
      replace (cost counts m) with (cost cnt m) by (unfold cost; rewrite (counts_cnt g m); auto; apply (PL p m P J)).
      pose proof (cost_le cnt m p J). destruct Eo' as [-> | ->]; lia. }
  assert (FIN : forall r', Zbdd.wf ord top r' -> (forall p, In p (fam r') <-> minimal_in (projected (constant_module G module mods) (fam r)) p) -> exact g (Zb r' mods) limit).
  { intros r' W' FM. apply (assemble ord top G module coherent parents r0 RK top_gate NNF COH MOD g GD limit r r' mods); auto; try (intros p P; apply (PR p P)).
    intros y ν N SY Rν AT V. apply (CO y ν); auto. pose proof (size_le y N). lia. }
  assert (MIN : forall u s, ZbddProofs.inv ord top cnt s -> Zbdd.wf ord top u -> antichain u -> exists s', minimize ord top u s = Some (u, s')).
  { intros u s1 I1 W1 A1. destruct (minimize_ok ord top cnt ORD u s1 I1 W1) as (v & s2 & E2 & I2 & W2 & F2). exists s2.
    rewrite E2. do 2 f_equal. apply (canonical ord top); auto. intros p. rewrite F2. split; [tauto|]. intros P. split; auto. }
  destruct (has_constant mods) eqn:HC.
  - assert (NP : forall j, lits r j -> constant_module G module mods j = None -> 0 < j) by (intros j (p & P & J) _; apply (PL p j P J)).
    assert (SZ' : forall p, In p (fam r) -> size cnt (remaining (constant_module G module mods) p) <= limit).
    { intros p P. destruct (PR p P) as [SP _]. eapply Z.le_trans; [|exact SP]. apply size_incl; [|intros i J; apply filter_In in J as [J _]; auto].
      apply NoDup_filter. apply (nodup_fam ord top cnt r W); auto. }
    destruct (eliminate_ok ord top cnt ORD limit (constant_module G module mods) r s I W NP SZ') as (r' & s' & E' & I' & W' & _ & _ & FM).
    rewrite E'. cbn [mbind option_bind].
    assert (A' : antichain r') by (intros p q P Q J; apply FM in P as [P _]; apply FM in Q as [_ Q]; auto).
    destruct (MIN r' s' I' W' A') as (s'' & E''). rewrite E''. cbn [mbind option_bind]. exists (Zb r' mods). auto.
  - cbn [mbind option_bind]. destruct (MIN r s I W A) as (s'' & E''). rewrite E''. cbn [mbind option_bind].
    exists (Zb r mods). split; auto. apply FIN; auto. intros p.
    assert (CN : forall i, constant_module G module mods i = None).
    { intros i. unfold constant_module. destruct (is_module i); auto. destruct (find_module i mods) as [[rr l]|] eqn:FI; auto.
      apply find_some in FI. unfold has_constant in HC.
      assert (terminal rr = false). { destruct (terminal rr) eqn:T; auto. rewrite <- HC. symmetry. apply existsb_exists. exists (i, Zb rr l). auto. }
      destruct rr; auto; discriminate. }
    assert (EP : projected (constant_module G module mods) (fam r) = fam r).
    { unfold projected. rewrite <- (map_id (fam r)) at 2. replace (List.filter (alive (constant_module G module mods)) (fam r)) with (fam r).
      - apply map_ext_in. intros q _. unfold remaining. induction q as [|a q IHq]; auto. simpl. rewrite CN. f_equal. auto.
      - assert (AL : forall q, alive (constant_module G module mods) q = true) by (intros q; apply forallb_forall; intros i _; rewrite CN; auto).
        clear -AL. induction (fam r) as [|q l IHl]; auto. simpl. rewrite AL. f_equal. auto. }
    rewrite EP. unfold minimal_in. split; [|tauto]. intros P. split; auto.
Qed.
End Modules.
