(** Conversion of a BDD into a ZBDD of products: src/zbdd.cc ConvertBdd and
    ConvertBddPrimeImplicants, for one diagram; module proxies are literals. *)
From stdpp Require Import gmap.
From Coq Require Import List ZArith Lia Bool Permutation.
Import ListNotations.
From Verif Require Import Pdag Zbdd ZbddProofs.
From Verif Require CacheTable Bdd BddProofs BddHistory.
Open Scope Z_scope.

Section Convert.
Context (ord : Z -> Z) (hash : Bdd.ckey -> nat) (prime : nat -> nat).
(** Settings::prime_implicants, Zbdd::coherent_, Ite::module and Ite::coherent of the variable. *)
Context (pi coh : bool) (is_mod coherent : Z -> bool).
(** SetNode::order: the order of the variable or gate. *)
Definition zord (i : Z) : Z := ord (Z.abs i).
(** !MayBeUnity, zbdd.cc:701-714 with IsGate = module (zbdd.h:790). *)
Definition counts (i : Z) : bool := pi || (0 <? i) && (negb (is_mod (Z.abs i)) || coherent (Z.abs i)).

(** The memo table [ites], zbdd.cc:123, 268-271: keyed by the signed vertex id and the limit. *)
Definition ites := gmap (Z * Z) zt.
Definition conv_state : Type := Bdd.bdd * ites.

(** ConvertBdd, zbdd.cc:262-299, and ConvertBddPrimeImplicants, zbdd.cc:301-323; the manager is part of
    the state because Consensus creates vertices. *)
Fixpoint from_bdd (fuel : nat) (v : Z) (complement : bool) (limit : Z) (s : conv_state) : option (zt * conv_state) :=
  match fuel with
  | O => None
  | S fuel =>
      if Bdd.terminal v then Some (if complement then ZE else ZB, s) else
      let key := (if complement then - v else v, limit) in
      match s.2 !! key with
      | Some r => Some (r, s)
      | None =>
          n ← Bdd.nodes s.1 !! v;
          let i := Bdd.n_index n in
          '(r, s) ← (
            if negb coh && pi || is_mod i && negb (coherent i) then
              (* ConvertBddPrimeImplicants *)
              '(b, common) ← Bdd.consensus hash prime n complement s.1;
              '(consensus, s) ← from_bdd fuel common.2 common.1 limit (b, s.2);
              if limit =? 0 then Some (if terminal consensus then consensus else ZE, s) else
              let sublimit := limit - 1 + (if is_mod i && negb pi then 1 else 0) in
              '(high, s) ← from_bdd fuel (Bdd.n_high n) complement sublimit s;
              '(low, s) ← from_bdd fuel (Bdd.n_low n) (xorb (Bdd.n_ce n) complement) sublimit s;
              Some (reduced i high (reduced (- i) low consensus), s)
            else
              '(low, s) ← from_bdd fuel (Bdd.n_low n) (xorb (Bdd.n_ce n) complement) limit s;
              if limit =? 0 then Some (if terminal low then low else ZE, s) else
              '(high, s) ← from_bdd fuel (Bdd.n_high n) complement (limit - 1) s;
              Some (reduced i high low, s));
          if within_limit counts r limit then Some (r, (s.1, <[key := r]> s.2)) else None
      end
  end.

(** ** Specification *)
(** The indices of the diagram. *)
Context (D : Z -> Prop) (DEC : forall i, {D i} + {~ D i}) (DPOS : forall i, D i -> 0 < i).
(** Both literals of the variable occur in products. *)
Definition both (i : Z) : bool := negb coh && pi || is_mod i && negb (coherent i).
(** The assignment makes the literals of the product true, and false the variables that are not in
    the product and whose negative literals never occur. *)
Definition fits (x : list Z) (σ : Z -> bool) : Prop :=
  (forall j, In j x -> lit σ j = true) /\ (forall i, D i -> both i = false -> ~ In i x -> σ i = false).
Definition proper (x : list Z) : Prop := forall j, In j x -> D (Z.abs j) /\ (j < 0 -> both (- j) = true).

Context (top : Z) (DTOP : forall i, D i -> ord i <= top).
(** One unit of the limit may be lost where literals cost nothing. *)
Context (slack : Z) (SLACK : 0 <= slack) (COUNTED : slack = 0 -> forall i, D i -> both i = true -> counts i = true /\ counts (- i) = true).
Context (ord_inj : forall i j, ord i = ord j -> i = j) (prime_pos : forall n, (0 < prime n)%nat).
Context (COHMOD : coh = true -> forall i, D i -> is_mod i = true -> coherent i = true).
Notation wf := (BddProofs.wf ord hash).
Notation ext := BddProofs.ext.
Notation feval b := (BddProofs.feval (Bdd.nodes b)).
Notation eval b := (BddProofs.eval (Bdd.nodes b)).
Notation size := (Zbdd.size counts).
Notation cost := (Zbdd.cost counts).

Lemma ORD : ordering zord.
Proof.
  intros i j Hi Hj. unfold zord. split.
  - intros E. apply ord_inj in E. lia.
  - intros [->| ->]; auto. rewrite Z.abs_opp. auto.
Qed.

Record rep (F : (Z -> bool) -> bool) (r : zt) (k : Z) : Prop := {
  r_wf : Zbdd.wf zord top r;
  r_lits : forall p, In p (fam r) -> proper p;
  r_size : forall p, In p (fam r) -> size p <= k;
  r_sound : forall p σ, In p (fam r) -> fits p σ -> F σ = true;
  r_complete : forall x, NoDup x -> Zbdd.consistent x -> proper x -> size x + slack <= k ->
    (forall σ, fits x σ -> F σ = true) -> ev (mem x) r = true }.
Lemma rep_ext F F' r k : (forall σ, F σ = F' σ) -> rep F r k -> rep F' r k.
Proof. intros E [W L S SO CO]. constructor; auto. - intros p σ P H. rewrite <- E. eauto. - intros x N C P Z H. apply CO; auto. intros σ H'. rewrite E. auto. Qed.
Definition zabove (o : Z) (r : zt) : Prop := forall j, lits r j -> o < zord j.

(** *** Functions of the diagram *)
Definition upd (σ : Z -> bool) (i : Z) (x : bool) : Z -> bool := fun j => if decide (j = i) then x else σ j.
Lemma upd_same σ i x : upd σ i x i = x. Proof. unfold upd. destruct (decide (i = i)); tauto. Qed.
Lemma upd_other σ i x j : j <> i -> upd σ i x j = σ j. Proof. unfold upd. intros. destruct (decide (j = i)); tauto. Qed.
Definition over (b : Bdd.bdd) (v : Z) : Prop := forall σ σ', (forall i, D i -> σ i = σ' i) -> eval b σ v = eval b σ' v.
Lemma over_feval b v c σ σ' : over b v -> (forall i, D i -> σ i = σ' i) -> feval b σ (c, v) = feval b σ' (c, v).
Proof. intros O H. unfold BddProofs.feval. simpl. f_equal. apply O. auto. Qed.
Section Node.
Context (b : Bdd.bdd) (W : wf b) (v : Z) (n : Bdd.node) (E : Bdd.nodes b !! v = Some n) (O : over b v).
Notation i := (Bdd.n_index n).
Lemma node_facts : BddProofs.node_ok ord (Bdd.nodes b) v n. Proof. apply (BddProofs.w_store _ _ _ W). auto. Qed.
Lemma above_high : BddProofs.above (Bdd.nodes b) (ord i) (Bdd.n_high n).
Proof. destruct node_facts as (_ & <- & A & _). auto. Qed.
Lemma above_low : BddProofs.above (Bdd.nodes b) (ord i) (Bdd.n_low n).
Proof. destruct node_facts as (_ & <- & _ & A & _). auto. Qed.
Lemma eval_upd σ x w : BddProofs.above (Bdd.nodes b) (ord i) w -> eval b (upd σ i x) w = eval b σ w.
Proof. intros A. unfold upd. apply (BddProofs.eval_above ord); auto. apply W. Qed.
Lemma node_eval σ : eval b σ v = if σ i then eval b σ (Bdd.n_high n) else xorb (Bdd.n_ce n) (eval b σ (Bdd.n_low n)).
Proof. apply (BddProofs.eval_node ord); auto. apply W. Qed.
Lemma node_in : D i.
Proof.
  destruct (DEC i) as [?|ND]; auto. exfalso.
  assert (H : forall σ, feval b σ (false, Bdd.n_high n) = feval b σ (Bdd.n_ce n, Bdd.n_low n)).
  { intros σ. assert (X : eval b (upd σ i true) v = eval b (upd σ i false) v).
    { apply O. intros j Dj. unfold upd. destruct (decide (j = i)) as [->|]; tauto. }
    rewrite !node_eval in X. rewrite !upd_same in X. rewrite !eval_upd in X; [|apply above_low|apply above_high]. unfold BddProofs.feval. simpl.
    rewrite X. destruct (eval b σ (Bdd.n_low n)), (Bdd.n_ce n); auto. }
  destruct node_facts as (_ & _ & Ah & Al & _ & _ & R).
  pose proof (BddProofs.canonical ord (Bdd.nodes b) ord_inj (BddProofs.w_store _ _ _ W) (BddHistory.unique_nodes ord hash b W)
    (false, Bdd.n_high n) (Bdd.n_ce n, Bdd.n_low n) (BddProofs.above_valid _ _ _ Ah) (BddProofs.above_valid _ _ _ Al) H) as X.
  injection X as X1 X2. apply R; auto.
Qed.
Lemma over_high : over b (Bdd.n_high n).
Proof.
  intros σ σ' H. rewrite <- (eval_upd σ true), <- (eval_upd σ' true) by apply above_high.
  assert (X : eval b (upd σ i true) v = eval b (upd σ' i true) v).
  { apply O. intros j Dj. unfold upd. destruct (decide (j = i)); auto. }
  rewrite !node_eval, !upd_same in X. auto.
Qed.
Lemma over_low : over b (Bdd.n_low n).
Proof.
  intros σ σ' H. rewrite <- (eval_upd σ false), <- (eval_upd σ' false) by apply above_low.
  assert (X : eval b (upd σ i false) v = eval b (upd σ' i false) v).
  { apply O. intros j Dj. unfold upd. destruct (decide (j = i)); auto. }
  rewrite !node_eval, !upd_same in X.
  destruct (eval b (upd σ i false) (Bdd.n_low n)), (eval b (upd σ' i false) (Bdd.n_low n)), (Bdd.n_ce n); simpl in X; auto.
Qed.
Lemma fnode c σ : feval b σ (c, v) = if σ i then feval b σ (c, Bdd.n_high n) else feval b σ (xorb (Bdd.n_ce n) c, Bdd.n_low n).
Proof.
  unfold BddProofs.feval. simpl. rewrite node_eval. destruct (σ i); auto.
  destruct c, (Bdd.n_ce n), (eval b σ (Bdd.n_low n)); auto.
Qed.
Lemma fupd σ x c w : BddProofs.above (Bdd.nodes b) (ord i) w -> feval b (upd σ i x) (c, w) = feval b σ (c, w).
Proof. intros A. unfold BddProofs.feval. simpl. rewrite eval_upd; auto. Qed.
End Node.

(** *** Products of a node *)
Lemma proper_both i : D i -> proper [i]. Proof. intros Di j [<-|[]]. pose proof (DPOS i Di). rewrite Z.abs_eq by lia. split; auto. lia. Qed.
Lemma zord_pos i : 0 < i -> zord i = ord i. Proof. intros. unfold zord. rewrite Z.abs_eq by lia. auto. Qed.
Lemma zord_opp i : zord (- i) = zord i. Proof. unfold zord. rewrite Z.abs_opp. auto. Qed.
Lemma not_in_above i r p : 0 < i -> zabove (ord i) r -> In p (fam r) -> ~ In i p /\ ~ In (- i) p.
Proof.
  intros P A I. split; intros J.
  - assert (ord i < zord i) by (apply A; exists p; auto). rewrite zord_pos in H by auto. lia.
  - assert (ord i < zord (- i)) by (apply A; exists p; auto). rewrite zord_opp, zord_pos in H by auto. lia.
Qed.
Lemma lit_pos σ i : 0 < i -> lit σ i = σ i. Proof. intros. unfold lit. destruct (Z.ltb_spec i 0); [lia|auto]. Qed.
Lemma lit_neg σ i : 0 < i -> lit σ (- i) = negb (σ i). Proof. intros. unfold lit. destruct (Z.ltb_spec (- i) 0); [|lia]. rewrite Z.opp_involutive. auto. Qed.
Lemma lit_upd σ i x j : j <> i -> j <> - i -> lit (upd σ i x) j = lit σ j.
Proof. intros. unfold lit. destruct (j <? 0); [f_equal|]; apply upd_other; lia. Qed.
Lemma fits_upd p σ i x : 0 < i -> ~ In i p -> ~ In (- i) p -> (both i = false -> x = false) ->
  (forall j, In j p -> lit σ j = true) -> (forall a, D a -> both a = false -> ~ In a p -> a <> i -> σ a = false) -> fits p (upd σ i x).
Proof.
  intros P N1 N2 B L Z. split.
  - intros j J. rewrite lit_upd; auto; intros ->; auto.
  - intros a Da Ba Na. destruct (Z.eq_dec a i) as [->|NE]; [rewrite upd_same; auto|]. rewrite upd_other by auto. auto.
Qed.
Lemma zabove_above i r : 0 < i -> zabove (ord i) r -> ZbddProofs.above zord i r.
Proof. intros P A p j I J. rewrite zord_pos by auto. apply A. exists p. auto. Qed.
Lemma cost_both i : 0 < i -> both i = false -> cost i = 1.
Proof.
  intros P B. unfold Zbdd.cost, counts. replace (0 <? i) with true by (symmetry; apply Z.ltb_lt; auto). rewrite Z.abs_eq by lia.
  unfold both in B. apply orb_false_iff in B as [_ B]. destruct (is_mod i), (coherent i), pi; simpl in *; auto; discriminate.
Qed.
(** The limit after a literal of a variable with both literals, zbdd.cc:312-316. *)
Lemma cost_sub i : D i -> both i = true -> 1 - (if is_mod i && negb pi then 1 else 0) = cost i /\ cost (- i) = cost i.
Proof.
  intros Di B. pose proof (DPOS i Di) as P. unfold Zbdd.cost, counts. rewrite Z.abs_opp, Z.abs_eq by lia.
  replace (0 <? i) with true by (symmetry; apply Z.ltb_lt; auto). replace (0 <? - i) with false by (symmetry; apply Z.ltb_ge; lia).
  unfold both in B. destruct pi; simpl; [rewrite andb_false_r; auto|]. rewrite andb_false_r in B. simpl in B.
  apply andb_true_iff in B as [-> B]. simpl. destruct (coherent i); simpl in *; [discriminate|auto].
Qed.

Section Products.
Context (i : Z) (Di : D i) (F F1 F0 : (Z -> bool) -> bool) (k : Z) (K : 0 < k).
Context (SHANNON : forall σ, F σ = if σ i then F1 σ else F0 σ).
Context (IND1 : forall σ x, F1 (upd σ i x) = F1 σ) (IND0 : forall σ x, F0 (upd σ i x) = F0 σ).
Lemma remove_proper j x : proper x -> proper (remove Z.eq_dec j x).
Proof. intros P a A. apply in_remove in A as [A _]. auto. Qed.
Lemma remove_fits1 x σ : (forall σ, fits x σ -> F σ = true) -> Zbdd.consistent x -> In i x -> fits (remove Z.eq_dec i x) σ -> F1 σ = true.
Proof.
  intros H C I [L Z]. pose proof (DPOS i Di) as P. specialize (H (upd σ i true)). rewrite SHANNON, upd_same, IND1 in H. apply H. split.
  - intros j J. destruct (Z.eq_dec j i) as [->|N]; [rewrite lit_pos, upd_same; auto|]. rewrite lit_upd; auto; [apply L, in_in_remove; auto|].
    intros ->. apply (C i I J).
  - intros a Da Ba Na. rewrite upd_other by (intros ->; auto). apply Z; auto. intros J. apply in_remove in J. tauto.
Qed.
Lemma remove_fits0 x σ : (forall σ, fits x σ -> F σ = true) -> Zbdd.consistent x -> In (- i) x -> both i = true -> fits (remove Z.eq_dec (- i) x) σ -> F0 σ = true.
Proof.
  intros H C I B [L Z]. pose proof (DPOS i Di) as P. specialize (H (upd σ i false)). rewrite SHANNON, upd_same, IND0 in H. apply H. split.
  - intros j J. destruct (Z.eq_dec j (- i)) as [->|N]; [rewrite lit_neg, upd_same; auto|]. rewrite lit_upd; auto; [apply L, in_in_remove; auto|].
    intros ->. apply (C i J). auto.
  - intros a Da Ba Na. rewrite upd_other by (intros ->; congruence). apply Z; auto. intros J. apply in_remove in J. tauto.
Qed.
(** A variable with positive literals only *)
Lemma plain_rep h l : both i = false -> zabove (ord i) h -> zabove (ord i) l -> rep F1 h (k - 1) -> rep F0 l k -> rep F (reduced i h l) k.
Proof.
  intros B Ah Al [Wh Lh Sh Oh Ch] [Wl Ll Sl Ol Cl]. pose proof (DPOS i Di) as P. constructor.
  - apply reduced_wf; auto; [lia|rewrite zord_pos; auto|apply zabove_above; auto|]. apply above_after, zabove_above; auto.
  - intros p I. apply reduced_fam in I as [(p' & -> & I)|I]; auto. intros j [<-|J]; [apply (proper_both i Di); simpl; auto|apply (Lh p' I); auto].
  - intros p I. apply reduced_fam in I as [(p' & -> & I)|I]; auto. rewrite size_cons, cost_both by auto. specialize (Sh p' I). lia.
  - intros p σ I [L Z]. rewrite SHANNON. apply reduced_fam in I as [(p' & -> & I)|I].
    + destruct (not_in_above i h p' P Ah I) as [N1 N2]. specialize (L i (or_introl eq_refl)) as Li. rewrite lit_pos in Li by auto. rewrite Li.
      rewrite <- (IND1 σ false). apply (Oh p' _ I). apply fits_upd; auto; [intros j J; apply L; simpl; auto|].
      intros a Da Ba Na NE. apply Z; auto. intros [<-|J]; auto.
    + destruct (not_in_above i l p P Al I) as [N1 N2]. rewrite (Z i Di B N1). apply (Ol p σ I). split; auto.
  - intros x N C PX SX H. rewrite reduced_ev. apply orb_true_iff. destruct (in_dec Z.eq_dec i x) as [I|I].
    + left. apply andb_true_iff. split; [apply mem_In; auto|].
      rewrite <- (ev_remove top counts i x); [|intros p J; apply (not_in_above i h p P Ah J)].
      apply Ch; [apply (remove_nodup top counts); auto|apply remove_consistent; auto|apply remove_proper; auto| |].
      * rewrite (remove_size counts) by auto. rewrite cost_both by auto. lia.
      * intros σ FX. eapply remove_fits1; eauto.
    + right. apply Cl; auto. intros σ FX. specialize (H σ FX). rewrite SHANNON in H. destruct FX as [_ Z]. rewrite (Z i Di B I) in H. auto.
Qed.
(** A variable with both literals *)
Lemma both_rep h l c : both i = true -> zabove (ord i) h -> zabove (ord i) l -> zabove (ord i) c ->
  rep F1 h (k - cost i) -> rep F0 l (k - cost i) -> rep (fun σ => F1 σ && F0 σ) c k -> rep F (reduced i h (reduced (- i) l c)) k.
Proof.
  intros B Ah Al Ac [Wh Lh Sh Oh Ch] [Wl Ll Sl Ol Cl] [Wc Lc Sc Oc Cc]. pose proof (DPOS i Di) as P. destruct (cost_sub i Di B) as [_ CN].
  assert (AL : forall p j, In p (fam (reduced (- i) l c)) -> In j p -> before zord i j).
  { intros p j I J. apply reduced_fam in I as [(p' & -> & I)|I].
    - destruct J as [<-|J]; [right; rewrite zord_opp; split; auto; lia|]. left. apply (zabove_above i l P Al p' j); auto.
    - left. apply (zabove_above i c P Ac p j); auto. }
  assert (WL : Zbdd.wf zord top (reduced (- i) l c)).
  { apply reduced_wf; auto; [lia|rewrite zord_opp, zord_pos; auto| |].
    - intros p j I J. rewrite zord_opp. apply (zabove_above i l P Al p j); auto.
    - apply above_after. intros p j I J. rewrite zord_opp. apply (zabove_above i c P Ac p j); auto. }
  constructor.
  - apply reduced_wf; auto; [lia|rewrite zord_pos; auto|apply zabove_above; auto].
  - intros p I. apply reduced_fam in I as [(p' & -> & I)|I].
    + intros j [<-|J]; [apply (proper_both i Di); simpl; auto|apply (Lh p' I); auto].
    + apply reduced_fam in I as [(p' & -> & I)|I]; auto. intros j [<-|J]; [|apply (Ll p' I); auto]. rewrite Z.abs_opp, Z.abs_eq by lia.
      split; auto. intros _. rewrite Z.opp_involutive. auto.
  - intros p I. apply reduced_fam in I as [(p' & -> & I)|I].
    + rewrite size_cons. specialize (Sh p' I). lia.
    + apply reduced_fam in I as [(p' & -> & I)|I]; auto. rewrite size_cons, CN. specialize (Sl p' I). lia.
  - intros p σ I [L Z]. rewrite SHANNON. apply reduced_fam in I as [(p' & -> & I)|I]; [|apply reduced_fam in I as [(p' & -> & I)|I]].
    + destruct (not_in_above i h p' P Ah I) as [N1 N2]. specialize (L i (or_introl eq_refl)) as Li. rewrite lit_pos in Li by auto. rewrite Li.
      apply (Oh p' _ I). split; [intros j J; apply L; simpl; auto|]. intros a Da Ba Na. apply Z; auto. intros [<-|J]; auto. congruence.
    + destruct (not_in_above i l p' P Al I) as [N1 N2]. specialize (L (- i) (or_introl eq_refl)) as Li. rewrite lit_neg in Li by auto.
      destruct (σ i); [discriminate|]. apply (Ol p' _ I). split; [intros j J; apply L; simpl; auto|]. intros a Da Ba Na. apply Z; auto.
      intros [X|J]; auto. apply DPOS in Da. lia.
    + assert (X : F1 σ && F0 σ = true) by (apply (Oc p σ I); split; auto). apply andb_true_iff in X as [X1 X2]. destruct (σ i); auto.
  - intros x N C PX SX H. rewrite !reduced_ev. apply orb_true_iff. destruct (in_dec Z.eq_dec i x) as [I|I].
    + left. apply andb_true_iff. split; [apply mem_In; auto|].
      rewrite <- (ev_remove top counts i x); [|intros p J; apply (not_in_above i h p P Ah J)].
      apply Ch; [apply (remove_nodup top counts); auto|apply remove_consistent; auto|apply remove_proper; auto| |].
      * rewrite (remove_size counts) by auto. lia.
      * intros σ FX. eapply remove_fits1; eauto.
    + right. apply orb_true_iff. destruct (in_dec Z.eq_dec (- i) x) as [I'|I'].
      * left. apply andb_true_iff. split; [apply mem_In; auto|].
        rewrite <- (ev_remove top counts (- i) x); [|intros p J; apply (not_in_above i l p P Al J)].
        apply Cl; [apply (remove_nodup top counts); auto|apply remove_consistent; auto|apply remove_proper; auto| |].
        -- rewrite (remove_size counts) by auto. lia.
        -- intros σ FX. eapply remove_fits0; eauto.
      * right. apply Cc; auto. intros σ [L Z]. apply andb_true_iff. split.
        -- specialize (H (upd σ i true)). rewrite SHANNON, upd_same, IND1 in H. apply H. apply fits_upd; auto. congruence.
        -- specialize (H (upd σ i false)). rewrite SHANNON, upd_same, IND0 in H. apply H. apply fits_upd; auto.
Qed.
End Products.
(** The limit 0: what remains of the family is the empty product. *)
Lemma cut_rep F r0 : rep F r0 0 -> rep F (if terminal r0 then r0 else ZE) 0.
Proof.
  intros [W L S O C]. destruct (terminal r0) eqn:T; [constructor; auto|]. constructor; try (intros; contradiction); [simpl; auto|].
  intros x N CX PX SX H. exfalso. pose proof (size_nonneg counts x). assert (slack = 0 /\ size x = 0) as [Z0 SZ] by lia.
  assert (EX : x = []).
  { destruct x as [|j x]; auto. exfalso. destruct (PX j (or_introl eq_refl)) as [Dj Bj].
    assert (CJ : counts j = true).
    { pose proof (DPOS _ Dj). destruct (Z.abs_spec j) as [[? EJ]|[? EJ]]; rewrite EJ in *.
      - destruct (both j) eqn:B; [apply COUNTED; auto|]. pose proof (cost_both j ltac:(lia) B) as X. unfold Zbdd.cost in X. destruct (counts j); auto. discriminate.
      - specialize (Bj ltac:(lia)). destruct (COUNTED Z0 (- j) Dj Bj) as [_ X]. rewrite Z.opp_involutive in X. auto. }
    rewrite size_cons in SZ. unfold Zbdd.cost in SZ. rewrite CJ in SZ. pose proof (size_nonneg counts x). lia. }
  subst x. assert (E : ev (mem []) r0 = true) by (apply C; auto). apply ev_mem in E as (p & I & J).
  assert (p = []) as -> by (destruct p as [|a p]; auto; destruct (J a); simpl; auto).
  apply (empty_set zord top) in I; auto. subst. discriminate.
Qed.
(** With the limit 0 a product of the second cofactor is a product. *)
Lemma low_rep i (F F1 F0 : (Z -> bool) -> bool) l : D i -> both i = false -> (forall σ, F σ = if σ i then F1 σ else F0 σ) ->
  zabove (ord i) l -> rep F0 l 0 -> rep F l 0.
Proof.
  intros Di B SH Al [Wl Ll Sl Ol Cl]. pose proof (DPOS i Di) as P. constructor; auto.
  - intros p σ I [L Z]. destruct (not_in_above i l p P Al I) as [N1 N2]. rewrite SH, (Z i Di B N1). apply (Ol p σ I). split; auto.
  - intros x N C PX SX H. apply Cl; auto. intros σ FX. specialize (H σ FX). rewrite SH in H. destruct (in_dec Z.eq_dec i x) as [I|I].
    + exfalso. pose proof (remove_size counts i x N I) as X. rewrite cost_both in X by auto. pose proof (size_nonneg counts (remove Z.eq_dec i x)). lia.
    + destruct FX as [_ Z]. rewrite (Z i Di B I) in H. auto.
Qed.
Lemma consensus_rep i (F F1 F0 : (Z -> bool) -> bool) c : D i -> both i = true -> (forall σ, F σ = if σ i then F1 σ else F0 σ) ->
  (forall σ x, F1 (upd σ i x) = F1 σ) -> (forall σ x, F0 (upd σ i x) = F0 σ) ->
  rep (fun σ => F1 σ && F0 σ) c 0 -> rep F c 0.
Proof.
  intros Di B SH I1 I0 [Wl Ll Sl Ol Cl]. pose proof (DPOS i Di) as P. constructor; auto.
  - intros p σ I FX. pose proof (Ol p σ I FX) as X. apply andb_true_iff in X as [X1 X2]. rewrite SH. destruct (σ i); auto.
  - intros x N C PX SX H. apply Cl; auto. intros σ [L Z].
    assert (NI : ~ In i x /\ ~ In (- i) x).
    { pose proof (size_nonneg counts x). assert (Z0 : slack = 0) by lia. destruct (COUNTED Z0 i Di B) as [C1 C2]. split; intros I.
      - pose proof (remove_size counts i x N I) as X. unfold Zbdd.cost in X. rewrite C1 in X. pose proof (size_nonneg counts (remove Z.eq_dec i x)). lia.
      - pose proof (remove_size counts (- i) x N I) as X. unfold Zbdd.cost in X. rewrite C2 in X. pose proof (size_nonneg counts (remove Z.eq_dec (- i) x)). lia. }
    destruct NI as [N1 N2]. apply andb_true_iff. split.
    + specialize (H (upd σ i true)). rewrite SH, upd_same, I1 in H. apply H. apply fits_upd; auto. congruence.
    + specialize (H (upd σ i false)). rewrite SH, upd_same, I0 in H. apply H. apply fits_upd; auto.
Qed.

(** *** The recursion *)
Definition memo_ok (b : Bdd.bdd) (m : ites) : Prop := forall s k r, m !! (s, k) = Some r ->
  exists n, Bdd.nodes b !! Z.abs s = Some n /\ rep (fun σ => feval b σ (s <? 0, Z.abs s)) r k /\ zabove (Bdd.n_order n - 1) r.
Lemma memo_mono b b' m : wf b -> wf b' -> ext b b' -> memo_ok b m -> memo_ok b' m.
Proof.
  intros W W' (Sub & _) M s k r E. destruct (M s k r E) as (n & En & R & A). exists n. split; [eapply lookup_weaken; eauto|]. split; auto.
  eapply rep_ext; [|exact R]. intros σ. symmetry. apply (BddProofs.feval_mono ord); auto; [apply W|apply W'|right; eauto].
Qed.
Definition low_enough (b : Bdd.bdd) (fuel : nat) (v : Z) : Prop :=
  match Bdd.nodes b !! v with Some n => (Z.to_nat (top - Bdd.n_order n + 1) < fuel)%nat | None => (0 < fuel)%nat end.
Lemma low_enough_above b fuel v n w : wf b -> Bdd.nodes b !! v = Some n -> Bdd.n_order n <= top -> low_enough b (S fuel) v ->
  (forall m, Bdd.nodes b !! w = Some m -> Bdd.n_order m <= top) -> BddProofs.above (Bdd.nodes b) (Bdd.n_order n) w -> low_enough b fuel w.
Proof.
  intros W E T L TW A. unfold low_enough in *. rewrite E in L. destruct (Bdd.nodes b !! w) as [m|] eqn:Em; [|lia].
  specialize (TW m eq_refl). destruct A as [->|(m' & E' & A)].
  - rewrite (BddProofs.store_no_one ord) in Em by apply W. discriminate.
  - rewrite Em in E'. injection E' as <-. lia.
Qed.
Lemma zabove_reduced o i h l : o < zord i -> zabove o h -> zabove o l -> zabove o (reduced i h l).
Proof. intros A Ah Al j (p & I & J). apply reduced_fam in I as [(p' & -> & I)|I]; [|apply Al; exists p; auto]. destruct J as [<-|J]; auto. apply Ah. exists p'; auto. Qed.
Lemma zabove_terminal o (c : bool) : zabove o (if c then ZE else ZB).
Proof. intros j (p & I & J). destruct c; [destruct I|]. destruct I as [<-|[]]. destruct J. Qed.
Lemma zabove_cut o r : zabove o r -> zabove o (if terminal r then r else ZE).
Proof. intros A. destruct (terminal r); auto. intros j (p & [] & _). Qed.
Lemma zabove_mono o o' r : o <= o' -> zabove o' r -> zabove o r.
Proof. intros L A j J. specialize (A j J). lia. Qed.
Lemma rep_terminal (c : bool) k : 0 <= k -> rep (fun _ => negb c) (if c then ZE else ZB) k.
Proof.
  intros K. destruct c; constructor; simpl; auto; try (intros; contradiction).
  - intros x N C PX SX H.
    assert (HF : fits x (fun i => mem x i)).
    { split.
      - intros j J. unfold lit. destruct (Z.ltb_spec j 0) as [L|L]; [|apply mem_In; auto]. destruct (mem x (- j)) eqn:M; auto. apply mem_In in M. elim (C j J M).
      - intros i _ _ NI. destruct (mem x i) eqn:M; auto. apply mem_In in M. contradiction. }
    exfalso. specialize (H _ HF). discriminate.
  - intros p [<-|[]] j [].
  - intros p [<-|[]]. simpl. auto.
Qed.
Definition result (b : Bdd.bdd) (v : Z) (c : bool) (k : Z) (r : zt) : Prop :=
  rep (fun σ => feval b σ (c, v)) r k /\ forall o, BddProofs.above (Bdd.nodes b) o v -> zabove o r.

Lemma from_bdd_ok : forall fuel v c k b m, wf b -> BddProofs.valid (Bdd.nodes b) v -> over b v -> 0 <= k -> memo_ok b m -> low_enough b fuel v ->
  exists r b' m', from_bdd fuel v c k (b, m) = Some (r, (b', m')) /\ wf b' /\ ext b b' /\ memo_ok b' m' /\ result b v c k r.
Proof.
  induction fuel as [|fuel IH]; intros v c k b m W V O K M F.
  { unfold low_enough in F. destruct (Bdd.nodes b !! v); lia. }
  cbn [from_bdd]. destruct (BddProofs.valid_cases ord _ _ (BddProofs.w_store _ _ _ W) V) as [[T ->]|[T (n & En & NO)]]; rewrite T.
  { exists (if c then ZE else ZB), b, m. split; auto. split; auto. split; [apply BddProofs.ext_refl|]. split; auto. split.
    - eapply rep_ext; [|apply (rep_terminal c k K)]. intros σ. unfold BddProofs.feval. simpl. rewrite (BddProofs.eval_one ord) by apply W. destruct c; auto.
    - intros o _. apply zabove_terminal. }
  assert (V2 : 2 <= v) by apply NO.
  set (key := (if c then - v else v, k)). simpl snd. destruct (m !! key) as [r|] eqn:Ek.
  { exists r, b, m. split; auto. split; auto. split; [apply BddProofs.ext_refl|]. split; auto.
    destruct (M _ _ _ Ek) as (n' & En' & R & A).
    assert (Z.abs (if c then - v else v) = v /\ (if c then - v else v) <? 0 = c) as [AB SG].
    { destruct c; [split; [lia|apply Z.ltb_lt; lia]|split; [lia|apply Z.ltb_ge; lia]]. }
    rewrite AB, SG in *. rewrite En in En'. injection En' as <-. split; auto.
    intros o [->|(m' & Em & L)]; [lia|]. rewrite En in Em. injection Em as <-. eapply zabove_mono; [|exact A]. lia. }
  simpl fst. rewrite En. cbn [mbind option_bind].
  pose proof (node_in b W v n En O) as Di. set (i := Bdd.n_index n) in *. pose proof (DPOS i Di) as Pi.
  assert (OI : Bdd.n_order n = ord i) by apply NO.
  pose proof (over_high b W v n En O) as Oh. pose proof (over_low b W v n En O) as Ol.
  pose proof (above_high b W v n En) as Ah. pose proof (above_low b W v n En) as Al.
  assert (TOP : forall w m, over b w -> Bdd.nodes b !! w = Some m -> Bdd.n_order m <= top).
  { intros w m' Ow Em. pose proof (node_in b W w m' Em Ow) as Dm. destruct (BddProofs.w_store _ _ _ W w m' Em) as (_ & -> & _). auto. }
  assert (Tn : Bdd.n_order n <= top) by (rewrite OI; auto).
  assert (LE : forall w, over b w -> BddProofs.above (Bdd.nodes b) (ord i) w -> low_enough b fuel w).
  { intros w Ow Aw. apply (low_enough_above b fuel v n w W En Tn F); [intros m' Em; apply (TOP w); auto|rewrite OI; auto]. }
  set (F1 := fun σ => feval b σ (c, Bdd.n_high n)). set (F0 := fun σ => feval b σ (xorb (Bdd.n_ce n) c, Bdd.n_low n)).
  assert (SH : forall σ, feval b σ (c, v) = if σ i then F1 σ else F0 σ) by (intros σ; apply (fnode b W v n En)).
  assert (I1 : forall σ x, F1 (upd σ i x) = F1 σ) by (intros σ x; apply (fupd b W); auto).
  assert (I0 : forall σ x, F0 (upd σ i x) = F0 σ) by (intros σ x; apply (fupd b W); auto).
  (* what the two cases have in common *)
  set (RES := fun body => exists r b' m', body = Some (r, (b', m')) /\ wf b' /\ ext b b' /\ memo_ok b' m' /\
     rep (fun σ => feval b σ (c, v)) r k /\ forall o, o < ord i -> zabove o r).
  assert (FIN : forall body : option (zt * conv_state), RES body ->
     exists r b' m', body ≫= (λ '(r, s), if within_limit counts r k then Some (r, (s.1, <[key := r]> s.2)) else None) = Some (r, (b', m')) /\
       wf b' /\ ext b b' /\ memo_ok b' m' /\ result b v c k r).
  { intros body (r & b' & m' & E & W' & X & M' & R & A). rewrite E. cbn.
    assert (WL : within_limit counts r k = true) by (apply (within_ok zord top counts); [apply R|auto|apply R]). rewrite WL.
    exists r, b', (<[key := r]> m'). split; auto. split; auto. split; auto. split.
    - intros s k' r' E'. apply lookup_insert_Some in E' as [[EQ ->]|[_ E']]; [|apply M'; auto]. unfold key in EQ.
      assert (KS : (if c then - v else v) = s /\ k = k') by (split; [apply (f_equal fst) in EQ|apply (f_equal snd) in EQ]; auto).
      destruct KS as [<- <-].
      assert (Z.abs (if c then - v else v) = v /\ (if c then - v else v) <? 0 = c) as [AB SG].
      { destruct c; [split; [lia|apply Z.ltb_lt; lia]|split; [lia|apply Z.ltb_ge; lia]]. }
      rewrite AB, SG. pose proof X as (Sub & _). exists n. split; [eapply lookup_weaken; eauto|]. split; [|apply A; rewrite OI; lia].
      eapply rep_ext; [|exact R]. intros σ. symmetry. apply (BddProofs.feval_mono ord); auto; [apply W|apply W'].
    - split; auto. intros o [->|(m1 & Em & L)]; [lia|]. rewrite En in Em. injection Em as <-. apply A. lia. }
  fold (both i). destruct (both i) eqn:B; apply FIN; unfold RES.
  - unfold Bdd.consensus, Bdd.apply_fn. simpl fst. simpl snd.
    assert (WC : wf (Bdd.clear_tables b)) by (apply BddProofs.wf_clear; auto).
    destruct (BddProofs.apply_ok ord ord_inj hash prime prime_pos (S (Z.to_nat (Bdd.n_high n + Bdd.n_low n))) Bdd.CAnd (Bdd.n_high n) (Bdd.n_low n) c (xorb (Bdd.n_ce n) c) (Bdd.clear_tables b) WC)
      as (b1 & r1 & EA & W1 & X1 & Vr & Sr & Ar); [eapply BddProofs.above_valid; eauto|eapply BddProofs.above_valid; eauto|lia|].
    rewrite EA. cbn [mbind option_bind]. destruct r1 as [c1 v1]. cbn [fst snd] in *. change (Bdd.nodes (Bdd.clear_tables b)) with (Bdd.nodes b) in *.
    change (ext b b1) in X1. pose proof X1 as (Sub1 & _).
    assert (O1 : over b1 v1).
    { intros σ σ' H. assert (X : feval b1 σ (c1, v1) = feval b1 σ' (c1, v1)).
      { rewrite !Sr. rewrite (over_feval b _ c σ σ' Oh H), (over_feval b _ (xorb (Bdd.n_ce n) c) σ σ' Ol H). auto. }
      unfold BddProofs.feval in X. simpl in X. destruct c1, (eval b1 σ v1), (eval b1 σ' v1); simpl in X; auto. }
    assert (A1 : BddProofs.above (Bdd.nodes b1) (ord i) v1) by (apply Ar; auto).
    assert (OV : forall w, over b w -> BddProofs.valid (Bdd.nodes b) w -> forall b', wf b' -> ext b b' -> over b' w).
    { intros w Ow Vw b' W' (Sub & _) σ σ' H. rewrite !(BddProofs.eval_mono ord (Bdd.nodes b) (Bdd.nodes b')); auto; [apply W|apply W'|apply W|apply W']. }
    assert (LE1 : low_enough b1 fuel v1).
    { apply (low_enough_above b1 fuel v n v1 W1); auto; [eapply lookup_weaken; eauto| | |rewrite OI; auto].
      - unfold low_enough in *. rewrite (lookup_weaken _ _ _ _ En Sub1). rewrite En in F. auto.
      - intros m1 Em. pose proof (node_in b1 W1 v1 m1 Em O1) as Dm. destruct (BddProofs.w_store _ _ _ W1 v1 m1 Em) as (_ & -> & _). auto. }
    destruct (IH v1 c1 k b1 m W1 Vr O1 K (memo_mono b b1 m W W1 X1 M) LE1) as (cr & b2 & m2 & E2 & W2 & X2 & M2 & R2 & A2).
    rewrite E2. cbn [mbind option_bind].
    assert (RC : rep (fun σ => F1 σ && F0 σ) cr k) by (eapply rep_ext; [|exact R2]; intros σ; exact (Sr σ)).
    assert (AC : zabove (ord i) cr) by (apply A2; auto).
    assert (X02 : ext b b2) by (eapply BddProofs.ext_trans; eauto).
    destruct (Z.eqb_spec k 0) as [->|NK].
    + eexists _, _, _. split; [reflexivity|]. split; auto. split; auto. split; auto. split.
      * apply cut_rep. apply (consensus_rep i _ F1 F0); auto.
      * intros o L. apply zabove_cut. eapply zabove_mono; [|exact AC]. lia.
    + assert (SUB : k - 1 + (if is_mod i && negb pi then 1 else 0) = k - cost i) by (destruct (cost_sub i Di B); lia).
      rewrite SUB. pose proof (cost_range counts i) as CR.
      assert (LEM : forall w b', over b w -> BddProofs.above (Bdd.nodes b) (ord i) w -> wf b' -> ext b b' -> low_enough b' fuel w).
      { intros w b' Ow Aw W' (Sub & _ & _). pose proof (LE w Ow Aw) as X. unfold low_enough in *. destruct (Bdd.nodes b !! w) as [m1|] eqn:Em.
        - rewrite (lookup_weaken _ _ _ _ Em Sub). auto.
        - destruct Aw as [->|(m1 & Em1 & _)]; [|congruence]. rewrite (BddProofs.store_no_one ord) by apply W'. auto. }
      destruct (IH (Bdd.n_high n) c (k - cost i) b2 m2 W2) as (h & b3 & m3 & E3 & W3 & X3 & M3 & R3 & A3); auto; try lia.
      { eapply BddProofs.valid_mono; [apply X02|eapply BddProofs.above_valid; eauto]. }
      { apply OV; auto. eapply BddProofs.above_valid; eauto. }
      assert (X03 : ext b b3) by (eapply BddProofs.ext_trans; eauto).
      destruct (IH (Bdd.n_low n) (xorb (Bdd.n_ce n) c) (k - cost i) b3 m3 W3) as (l & b4 & m4 & E4 & W4 & X4 & M4 & R4 & A4); auto; try lia.
      { eapply BddProofs.valid_mono; [apply X03|eapply BddProofs.above_valid; eauto]. }
      { apply OV; auto. eapply BddProofs.above_valid; eauto. }
      rewrite E3. cbn [mbind option_bind]. rewrite E4. cbn [mbind option_bind]. eexists _, _, _. split; [reflexivity|].
      split; auto. split; [eapply BddProofs.ext_trans; eauto|]. split; auto.
      assert (AH : zabove (ord i) h) by (apply A3; eapply BddProofs.above_mono; [apply X02|auto]).
      assert (AL : zabove (ord i) l) by (apply A4; eapply BddProofs.above_mono; [apply X03|auto]).
      split.
      * apply (both_rep i Di _ F1 F0); auto; try lia.
        -- eapply rep_ext; [|exact R3]. intros σ. apply (BddProofs.feval_mono ord); auto; [apply W|apply W2|apply X02|]. eapply BddProofs.above_valid; eauto.
        -- eapply rep_ext; [|exact R4]. intros σ. apply (BddProofs.feval_mono ord); auto; [apply W|apply W3|apply X03|]. eapply BddProofs.above_valid; eauto.
      * intros o L. apply zabove_reduced; [rewrite zord_pos; auto|eapply zabove_mono; [|exact AH]; lia|].
        apply zabove_reduced; [rewrite zord_opp, zord_pos; auto|eapply zabove_mono; [|exact AL]; lia|eapply zabove_mono; [|exact AC]; lia].
  - destruct (IH (Bdd.n_low n) (xorb (Bdd.n_ce n) c) k b m W) as (l & b2 & m2 & E2 & W2 & X2 & M2 & R2 & A2); auto.
    { eapply BddProofs.above_valid; eauto. }
    rewrite E2. cbn [mbind option_bind]. assert (AL : zabove (ord i) l) by (apply A2; auto).
    destruct (Z.eqb_spec k 0) as [->|NK].
    + eexists _, _, _. split; [reflexivity|]. split; auto. split; auto. split; auto. split.
      * apply cut_rep. apply (low_rep i _ F1 F0); auto.
      * intros o L. apply zabove_cut. eapply zabove_mono; [|exact AL]. lia.
    + destruct (IH (Bdd.n_high n) c (k - 1) b2 m2 W2) as (h & b3 & m3 & E3 & W3 & X3 & M3 & R3 & A3); auto; try lia.
      { eapply BddProofs.valid_mono; [apply X2|eapply BddProofs.above_valid; eauto]. }
      { pose proof X2 as (Sub & _). intros σ σ' H. rewrite !(BddProofs.eval_mono ord (Bdd.nodes b) (Bdd.nodes b2)); auto; try (eapply BddProofs.above_valid; eauto; fail); [apply W|apply W2|apply W|apply W2]. }
      { pose proof X2 as (Sub & _). pose proof (LE _ Oh Ah) as X. unfold low_enough in *. destruct (Bdd.nodes b !! Bdd.n_high n) as [m1|] eqn:Em.
        - rewrite (lookup_weaken _ _ _ _ Em Sub). auto.
        - destruct Ah as [->|(m1 & Em1 & _)]; [|congruence]. rewrite (BddProofs.store_no_one ord) by apply W2. auto. }
      rewrite E3. cbn [mbind option_bind]. eexists _, _, _. split; [reflexivity|]. split; auto. split; [eapply BddProofs.ext_trans; eauto|]. split; auto.
      assert (AH : zabove (ord i) h) by (apply A3; eapply BddProofs.above_mono; [apply X2|auto]).
      split.
      * apply (plain_rep i Di _ F1 F0); auto; try lia.
        eapply rep_ext; [|exact R3]. intros σ. apply (BddProofs.feval_mono ord); auto; [apply W|apply W2|apply X2|]. eapply BddProofs.above_valid; eauto.
      * intros o L. apply zabove_reduced; [rewrite zord_pos; auto|eapply zabove_mono; [|exact AH]; lia|eapply zabove_mono; [|exact AL]; lia].
Qed.
End Convert.
