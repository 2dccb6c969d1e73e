(** Normal form through the preprocessor: the connectives of the gates and the signs of their arguments.
    [knof]: K/N gates are allowed; [loose]: complements of gates are allowed; [leaf]: the variables and the
    constant; [neg]: those that may be complemented; [bound]: above them all indices are gates'. *)
From stdpp Require Import gmap.
From Coq Require Import Lia Permutation List.
From Verif Require Import Pdag PdagProofs PdagKeeps Preproc P_Preproc Decompose Rooted BoolOpt BoolOptProofs Distribute NullGates.
From Verif Require Complement P_Preprocess.
Import ListNotations.
Open Scope Z_scope.

(** The gates of the options are candidates. *)
Lemma grouped_members (arranged : list moption -> list moption) best : (forall l, Permutation (arranged l) l) -> forall G1 ex groups,
  group_distributive best (length (arranged (group_common_parents 1 (map (fun c => (c, args_of G1 c)) ex) []))) (arranged (group_common_parents 1 (map (fun c => (c, args_of G1 c)) ex) [])) = Some groups ->
  forall g o m, In g groups -> In o g -> In m o.2 -> In m ex.
Proof.
  intros ARR G1 ex groups E2.
  assert (GO : forall o, In o (arranged (group_common_parents 1 (map (fun c => (c, args_of G1 c)) ex) [])) -> forall m, In m o.2 -> In m ex).
  { intros o Io m Im. apply (Permutation_in _ (ARR _)) in Io. revert o Io m Im.
    assert (INS : forall key g h t, In g ex -> In h ex -> (forall o : moption, In o t -> forall m, In m o.2 -> In m ex) -> forall o, In o (insert_option key g h t) -> forall m, In m o.2 -> In m ex).
    { assert (AG : forall a q m, In m (add_gate a q) -> m = a \/ In m q) by (intros a q m I; unfold add_gate in I; destruct (has a q); [auto|]; apply in_app_or in I as [I|[I|[]]]; auto).
      intros key g h t Ig Ih. induction t as [|[k q] t IHt]; intros HT o Io m Im; cbn [insert_option] in Io.
      - destruct Io as [<-|[]]. cbn [snd] in Im. apply AG in Im as [->|Im]; [auto|]. apply AG in Im as [->|[]]. auto.
      - destruct (decide _).
        + destruct Io as [<-|Io]; [|apply (HT o); [right; auto|auto]]. cbn in Im. apply AG in Im as [->|Im]; [auto|]. apply AG in Im as [->|Im]; [auto|]. apply (HT (k, q)); [left; auto|auto].
        + destruct Io as [<-|Io]; [apply (HT (k, q)); [left; auto|auto]|]. apply (IHt ltac:(intros; eapply HT; [right; eassumption|eassumption]) o Io m Im). }
    assert (PW : forall k g l others t, In g ex -> (forall h l', In (h, l') others -> In h ex) -> (forall o : moption, In o t -> forall m, In m o.2 -> In m ex) -> forall o, In o (pair_with k g l others t) -> forall m, In m o.2 -> In m ex).
    { intros k g l. induction others as [|[h l'] others IHo]; intros t Ig HO HT; cbn [pair_with]; [auto|]. apply IHo; [auto|intros h0 l0 I0; apply (HO h0 l0); right; auto|]. destruct (_ <? k); [auto|]. apply INS; auto. apply (HO h l'). left. auto. }
    assert (GC : forall k group t, (forall h l', In (h, l') group -> In h ex) -> (forall o : moption, In o t -> forall m, In m o.2 -> In m ex) -> forall o, In o (group_common_parents k group t) -> forall m, In m o.2 -> In m ex).
    { intros k. induction group as [|[g l] group IHg]; intros t HO HT; cbn [group_common_parents]; [auto|]. apply IHg; [intros h0 l0 I0; apply (HO h0 l0); right; auto|]. apply PW; auto; [apply (HO g l); left; auto|intros h0 l0 I0; apply (HO h0 l0); right; auto]. }
    apply GC; [|intros o []]. intros h l' I. apply in_map_iff in I as (c & Ec & Ic). injection Ec as <- _. auto. }
  assert (GD : forall k opts groups, (forall o, In o opts -> forall m, In m o.2 -> In m ex) -> group_distributive best k opts = Some groups -> forall g o m, In g groups -> In o g -> In m o.2 -> In m ex).
  { induction k as [|k IHk]; intros opts gr HO EQ g o m Ig Io Im; destruct opts as [|o1 opts1] eqn:EO; cbn [group_distributive] in EQ; try discriminate; try (injection EQ as <-; destruct Ig). rewrite <- EO in *. destruct (drop (best opts) opts) as [|b rest] eqn:ED; [discriminate|]. apply bind_inv in EQ as (gr' & E' & EQ). injection EQ as <-.
    assert (SUB : forall p, In p (b :: rest) -> In p opts) by (intros p Ip; rewrite <- ED in Ip; rewrite <- (firstn_skipn (best opts) opts); apply in_or_app; right; exact Ip).
    destruct Ig as [<-|Ig].
    - assert (CH : forall l back p, In p (chain back l) -> In p l) by (induction l as [|q l IHl]; intros back p Ip; cbn in Ip; [auto|]; destruct (_ && _); [destruct Ip as [<-|Ip]; [left; auto|right; eauto]|right; eauto]). apply (HO o); [|auto]. apply SUB. destruct Io as [<-|Io]; [left; auto|right; eapply CH; eauto].
    - eapply (IHk _ _ _ E' g o m Ig Io Im). Unshelve. intros p Ip m' Im'. apply List.filter_In in Ip as [Ip _]. apply in_map_iff in Ip as (p0 & <- & I0). cbn in Im'. unfold minus in Im'. apply List.filter_In in Im' as [Im' _]. apply (HO p0 I0 m' Im'). }
  intros g o m Ig Io Im. apply (GD _ _ _ GO E2 g o m Ig Io Im).
Qed.

Section Neat.
Context (knof loose : Prop) (leaf neg : Z -> Prop) (bound : Z).
Context (LB : forall v, leaf v -> v < bound) (NL : forall v, neg v -> leaf v) (NEG1 : neg 1).
Definition known (G : graph) (a : Z) : Prop := is_Some (gs G !! Z.abs a) \/ leaf (Z.abs a).
Definition fit (G : graph) (a : Z) : Prop := known G a /\ (loose \/ 0 < a \/ neg (- a)).
Definition regular (t : conn) : Prop := t = kAnd \/ t = kOr \/ t = kNull \/ knof /\ t = kAtleast.
Record neat (G : graph) : Prop := {
  nt_nxt : bound <= nxt G /\ 1 < nxt G;
  nt_keys : forall j, is_Some (gs G !! j) -> 1 < j /\ ~ leaf j;
  nt_type : forall j x, gs G !! j = Some x -> regular (g_type x);
  nt_args : forall j x a, gs G !! j = Some x -> In a (g_args x) -> fit G a }.
(** Every function below leads from a neat graph to a neat graph and removes no gate. *)
Definition grows (G G' : graph) : Prop := forall j, is_Some (gs G !! j) -> is_Some (gs G' !! j).
Definition becomes (G G' : graph) : Prop := neat G' /\ grows G G'.
Lemma grows_trans G H K : grows G H -> grows H K -> grows G K. Proof. unfold grows; auto. Qed.
Lemma becomes_refl G : neat G -> becomes G G. Proof. intros N. split; [auto|intros j; auto]. Qed.
Lemma becomes_trans G H K : becomes G H -> becomes H K -> becomes G K.
Proof. intros [_ A] [B C]. split; [auto|apply (grows_trans G H); auto]. Qed.
Lemma fit_grows G G' a : grows G G' -> fit G a -> fit G' a.
Proof. intros I [[S|S] B]; (split; [|auto]); [left; auto|right; auto]. Qed.
Lemma fit_neg G a : neg (Z.abs a) -> fit G a.
Proof. intros L. split; [right; auto|]. destruct (Z.lt_ge_cases 0 a); [auto|]. right. right. replace (- a) with (Z.abs a) by lia. auto. Qed.
Lemma fit_gate G g : neat G -> is_Some (gs G !! g) -> fit G g.
Proof. intros N S. pose proof (proj1 (nt_keys _ N g S)). split; [left; rewrite Z.abs_eq by lia; auto|right; left; lia]. Qed.
Lemma fit_signed G a g : neat G -> fit G a -> is_Some (gs G !! Z.abs a) -> is_Some (gs G !! g) -> fit G (if a <? 0 then - g else g).
Proof.
  intros N [_ F] Sa Sg. destruct (Z.ltb_spec a 0) as [L|L]; [|apply fit_gate; auto]. destruct F as [F|[F|F]]; [|lia|].
  - split; [left; rewrite Z.abs_opp, Z.abs_eq by (pose proof (nt_keys _ N g Sg); lia); auto|auto].
  - exfalso. apply (proj2 (nt_keys _ N _ Sa)). rewrite Z.abs_neq by lia. auto.
Qed.
Lemma fit_times G a b : neat G -> fit G a -> is_Some (gs G !! Z.abs a) -> fit G b -> fit G (b * Z.sgn a).
Proof.
  intros N [_ F] Sa [Kb Fb]. pose proof (proj1 (nt_keys _ N _ Sa)). destruct (Z.lt_trichotomy a 0) as [L|[L|L]]; [|lia|].
  - destruct F as [F|[F|F]]; [|lia|exfalso; apply (proj2 (nt_keys _ N _ Sa)); rewrite Z.abs_neq by lia; auto]. replace (b * Z.sgn a) with (- b) by lia. split; [unfold known in *; rewrite Z.abs_opp; auto|auto].
  - replace (b * Z.sgn a) with b by lia. split; auto.
Qed.
Lemma put_neat G G' p x' : neat G -> is_Some (gs G !! p) -> gs G' = <[p := x']> (gs G) -> nxt G' = nxt G -> regular (g_type x') -> (forall a, In a (g_args x') -> fit G a) -> becomes G G'.
Proof.
  intros N Sp HG HN T A. assert (GR : grows G G') by (intros j S; rewrite HG; destruct (Z.eq_dec j p) as [->|]; [rewrite lookup_insert; eauto|rewrite lookup_insert_ne; auto]).
  split; [|auto]. constructor.
  - rewrite HN. apply N.
  - intros j S. rewrite HG in S. destruct (Z.eq_dec j p) as [->|]; [apply N; auto|rewrite lookup_insert_ne in S by auto; apply N; auto].
  - intros j x E. rewrite HG in E. apply lookup_insert_Some in E as [[<- <-]|[_ E]]; [auto|apply (nt_type _ N j x E)].
  - intros j x a E I. apply (fit_grows G G' a GR). rewrite HG in E. apply lookup_insert_Some in E as [[<- <-]|[_ E]]; [auto|apply (nt_args _ N j x a E I)].
Qed.
Lemma fresh_neat G G' x' : neat G -> gs G' = <[nxt G := x']> (gs G) -> nxt G' = nxt G + 1 -> regular (g_type x') -> (forall a, In a (g_args x') -> fit G a) -> becomes G G' /\ is_Some (gs G' !! nxt G).
Proof.
  intros N HG HN T A. pose proof (nt_nxt _ N). assert (GR : grows G G') by (intros j S; rewrite HG; destruct (Z.eq_dec j (nxt G)) as [->|]; [rewrite lookup_insert; eauto|rewrite lookup_insert_ne; auto]).
  split; [|rewrite HG, lookup_insert; eauto]. split; [|auto]. constructor.
  - lia.
  - intros j S. rewrite HG in S. destruct (Z.eq_dec j (nxt G)) as [->|]; [split; [lia|intros Q; apply LB in Q; lia]|rewrite lookup_insert_ne in S by auto; apply N; auto].
  - intros j x E. rewrite HG in E. apply lookup_insert_Some in E as [[<- <-]|[_ E]]; [auto|apply (nt_type _ N j x E)].
  - intros j x a E I. apply (fit_grows G G' a GR). rewrite HG in E. apply lookup_insert_Some in E as [[<- <-]|[_ E]]; [auto|apply (nt_args _ N j x a E I)].
Qed.
Lemma reg_and : regular kAnd. Proof. left. auto. Qed.
Lemma reg_or : regular kOr. Proof. right; left. auto. Qed.
Lemma reg_null : regular kNull. Proof. right; right; left. auto. Qed.
Hint Resolve reg_and reg_or reg_null : neat.

(** ** The operations of gates *)
Lemma set_type_neat i t G G' : neat G -> regular t -> set_type i t G = Some G' -> becomes G G'.
Proof. intros N T Q. apply set_type_spec in Q as (x & E & HG & HN). eapply put_neat; [exact N|eauto|exact HG|exact HN|exact T|]. intros a I. apply (nt_args _ N i x a E I). Qed.
Lemma make_constant_neat i s G G' : neat G -> make_constant i s G = Some G' -> becomes G G'.
Proof. intros N Q. apply make_constant_spec in Q as (x & E & _ & HG & HN). eapply put_neat; [exact N|eauto|exact HG|exact HN|apply reg_null|]. intros a [<-|[]]. apply fit_neg. destruct s; exact NEG1. Qed.
Lemma erase_arg_neat i a G G' : neat G -> erase_arg i a G = Some G' -> becomes G G'.
Proof. intros N Q. apply erase_arg_inv in Q as (x & E & _ & HG & HN). eapply put_neat; [exact N|eauto|exact HG|exact HN|apply (nt_type _ N i x E)|]. intros b I. apply set_erase_In in I as [I _]. apply (nt_args _ N i x b E I). Qed.
Lemma erase_args_neat i G G' : neat G -> erase_args i G = Some G' -> becomes G G'.
Proof. intros N Q. apply erase_args_inv in Q as (x & E & HG & HN). eapply put_neat; [exact N|eauto|exact HG|exact HN|apply (nt_type _ N i x E)|]. intros b []. Qed.
Lemma set_min_neat i k G G' : neat G -> set_min i k G = Some G' -> becomes G G'.
Proof. intros N Q. apply set_min_inv in Q as (x & E & HG & HN). eapply put_neat; [exact N|eauto|exact HG|exact HN|apply (nt_type _ N i x E)|]. intros b I. apply (nt_args _ N i x b E I). Qed.
Lemma add_new_neat i a G G' : neat G -> fit G a -> add_new i a G = Some G' -> becomes G G'.
Proof. intros N F Q. apply add_new_inv in Q as (x & E & _ & _ & HG & HN). eapply put_neat; [exact N|eauto|exact HG|exact HN|apply (nt_type _ N i x E)|]. intros b I. apply set_insert_In in I as [->|I]; [auto|]. apply (nt_args _ N i x b E I). Qed.
Lemma transfer_new_neat i a j G G' : neat G -> transfer_new i a j G = Some G' -> becomes G G'.
Proof.
  intros N Q. unfold transfer_new in Q. apply bind_inv in Q as (x & E & Q). destruct (constant x); [discriminate|]. apply bind_inv in Q as (G1 & E1 & Q). pose proof (erase_arg_neat _ _ _ _ N E1) as B1. apply erase_arg_inv in E1 as (y & Ey & I & _).
  apply (becomes_trans G G1); [auto|]. apply (add_new_neat j a G1); [apply B1| |auto]. apply (fit_grows G); [apply B1|apply (nt_args _ N i y a Ey I)].
Qed.
Lemma clone_neat i G G' c : neat G -> clone i G = Some (G', c) -> becomes G G' /\ is_Some (gs G' !! c).
Proof. intros N Q. apply clone_inv in Q as (x & E & _ & _ & -> & HG & HN). apply (fresh_neat G G' x N HG HN); [apply (nt_type _ N i x E)|]. intros a I. apply (nt_args _ N i x a E I). Qed.
Lemma new_neat t G G' c : neat G -> regular t -> new_gate t G = (G', c) -> becomes G G' /\ is_Some (gs G' !! c).
Proof. intros N T Q. unfold new_gate in Q. injection Q as <- <-. apply (fresh_neat G _ (Gate t 0 []) N); [reflexivity|reflexivity|exact T|intros a []]. Qed.
Lemma reduce_neat i t m G G' : neat G -> regular t -> reduce_logic i t m G = Some G' -> becomes G G'.
Proof. intros N T Q. unfold reduce_logic in Q. apply bind_inv in Q as (x & E & Q). destruct (g_args x); [discriminate|]. destruct (_ =? _); [apply (set_type_neat i t G G' N T Q)|injection Q as <-; apply becomes_refl; auto]. Qed.
Lemma add_constant_neat i s G G' : neat G -> add_constant_arg i s G = Some G' -> becomes G G'.
Proof.
  intros N Q. unfold add_constant_arg in Q. apply bind_inv in Q as (x & E & Q). destruct (nt_type _ N i x E) as [T|[T|[T|[K T]]]]; rewrite T in Q; destruct s; try (apply (make_constant_neat _ _ _ _ N Q)); try (eapply reduce_neat; [exact N| |exact Q]; auto with neat).
  - destruct (_ || _); [discriminate|]. apply bind_inv in Q as (G1 & E1 & Q). pose proof (set_min_neat _ _ _ _ N E1) as B1. destruct (_ =? 1); [|injection Q as <-; auto]. apply (becomes_trans G G1); [auto|]. eapply set_type_neat; [apply B1| |exact Q]. apply reg_or.
  - destruct (_ <? 2); [discriminate|]. eapply reduce_neat; [exact N| |exact Q]. apply reg_and.
Qed.
Lemma atleast_duplicate_neat i a G G' : neat G -> atleast_duplicate i a G = Some G' -> becomes G G'.
Proof.
  intros N Q. unfold atleast_duplicate in Q. apply bind_inv in Q as (x & E & Q). destruct (_ || _); [discriminate|]. destruct (_ =? 2).
  { destruct (_ =? 2); [|discriminate]. apply bind_inv in Q as (G1 & E1 & Q). pose proof (erase_arg_neat _ _ _ _ N E1) as B1. apply (becomes_trans G G1); [auto|]. eapply set_type_neat; [apply B1|apply reg_null|exact Q]. }
  destruct (g_min x =? size (g_args x)).
  - destruct (_ <=? 2); [discriminate|]. apply bind_inv in Q as ([G1 c] & E1 & Q). destruct (clone_neat _ _ _ _ N E1) as [B1 S1]. apply bind_inv in Q as (G2 & E2 & Q). pose proof (set_min_neat _ _ _ _ (proj1 B1) E2) as B2. apply bind_inv in Q as (G3 & E3 & Q). pose proof (erase_args_neat _ _ _ (proj1 B2) E3) as B3.
    apply bind_inv in Q as (G4 & E4 & Q). pose proof (set_type_neat _ _ _ _ (proj1 B3) reg_and E4) as B4. apply bind_inv in Q as (G5 & E5 & Q). pose proof (transfer_new_neat _ _ _ _ _ (proj1 B4) E5) as B5. apply bind_inv in Q as (G6 & E6 & Q).
    assert (B6 : becomes G5 G6) by (destruct (_ =? 1); [apply (set_type_neat _ _ _ _ (proj1 B5) reg_or E6)|injection E6 as <-; apply becomes_refl, B5]).
    assert (B : becomes G1 G6) by (eapply becomes_trans; [exact B2|]; eapply becomes_trans; [exact B3|]; eapply becomes_trans; [exact B4|]; eapply becomes_trans; [exact B5|exact B6]).
    eapply becomes_trans; [exact B1|]. eapply becomes_trans; [exact B|]. eapply add_new_neat; [apply B6| |exact Q]. apply fit_gate; [apply B6|]. apply B. auto.
  - destruct (_ <=? 2); [discriminate|]. apply bind_inv in Q as ([G1 c] & E1 & Q). destruct (clone_neat _ _ _ _ N E1) as [B1 S1]. apply bind_inv in Q as (G2 & E2 & Q). pose proof (erase_args_neat _ _ _ (proj1 B1) E2) as B2. apply bind_inv in Q as (G3 & E3 & Q). pose proof (set_type_neat _ _ _ _ (proj1 B2) reg_or E3) as B3.
    pose proof (becomes_trans _ _ _ B2 B3) as B13. apply bind_inv in Q as (G4 & E4 & Q). assert (B4 : becomes G3 G4) by (eapply add_new_neat; [apply B3| |exact E4]; apply fit_gate; [apply B3|apply B13; auto]).
    apply bind_inv in Q as (G8 & E8 & Q). assert (B8 : becomes G4 G8).
    { destruct (g_min x =? 2); [apply (transfer_new_neat _ _ _ _ _ (proj1 B4) E8)|]. destruct (new_gate kAnd G4) as [G5 ag] eqn:E5. destruct (new_neat _ _ _ _ (proj1 B4) reg_and E5) as [B5 S5]. apply bind_inv in E8 as (G5' & E6 & E8). assert (B6 : becomes G5 G5') by (eapply add_new_neat; [apply B5| |exact E6]; apply fit_gate; [apply B5|auto]).
      apply bind_inv in E8 as (G6 & E7 & E8). pose proof (transfer_new_neat _ _ _ _ _ (proj1 B6) E7) as B7. apply bind_inv in E8 as ([G7 c2] & E9 & E8). destruct (clone_neat _ _ _ _ (proj1 B7) E9) as [B9 S9]. apply bind_inv in E8 as (G7' & E10 & E8). pose proof (set_min_neat _ _ _ _ (proj1 B9) E10) as B10.
      apply bind_inv in E8 as (G7'' & E11 & E8). assert (B11 : becomes G7' G7'') by (destruct (_ =? 1); [apply (set_type_neat _ _ _ _ (proj1 B10) reg_or E11)|injection E11 as <-; apply becomes_refl, B10]).
      pose proof (becomes_trans _ _ _ B10 B11) as BB. eapply becomes_trans; [exact B5|]. eapply becomes_trans; [exact B6|]. eapply becomes_trans; [exact B7|]. eapply becomes_trans; [exact B9|]. eapply becomes_trans; [exact BB|]. eapply add_new_neat; [apply BB| |exact E8]. apply fit_gate; [apply BB|]. apply BB. auto. }
    assert (B : becomes G G8) by (eapply becomes_trans; [exact B1|]; eapply becomes_trans; [exact B13|]; eapply becomes_trans; [exact B4|exact B8]). apply bind_inv in Q as (x1 & Ex1 & Q). destruct (size (g_args x1) <? g_min x1); [discriminate|]. destruct (size (g_args x1) =? g_min x1); [|injection Q as <-; auto]. eapply becomes_trans; [exact B|]. eapply set_type_neat; [apply B|apply reg_and|exact Q].
Qed.
Lemma add_arg_neat i a G G' : neat G -> fit G a -> add_arg i a G = Some G' -> becomes G G'.
Proof.
  intros N F Q. unfold add_arg in Q. apply bind_inv in Q as (x & E & Q). destruct (_ || _); [discriminate|]. destruct (has a _).
  - unfold process_duplicate in Q. rewrite E in Q. cbn [mbind option_bind] in Q. destruct (nt_type _ N i x E) as [T|[T|[T|[K T]]]]; rewrite T in Q; try discriminate; try (destruct (_ =? 1); [eapply set_type_neat; [exact N| |exact Q]; auto with neat|injection Q as <-; apply becomes_refl; auto]).
    apply (atleast_duplicate_neat i a G G' N Q).
  - destruct (has (- a) _); [|apply (add_new_neat i a G G' N F Q)]. unfold process_complement in Q. rewrite E in Q. cbn [mbind option_bind] in Q. destruct (nt_type _ N i x E) as [T|[T|[T|[K T]]]]; rewrite T in Q; try discriminate; try (apply (make_constant_neat _ _ _ _ N Q)).
    destruct (_ || _); [discriminate|]. apply bind_inv in Q as (G1 & E1 & Q). pose proof (erase_arg_neat _ _ _ _ N E1) as B1. apply bind_inv in Q as (G2 & E2 & Q). pose proof (set_min_neat _ _ _ _ (proj1 B1) E2) as B2. apply bind_inv in Q as (x2 & E3 & Q).
    pose proof (becomes_trans _ _ _ B1 B2) as B. repeat match type of Q with (if ?b then _ else _) = _ => destruct b end; try (eapply becomes_trans; [exact B|]; eapply set_type_neat; [apply B| |exact Q]; auto with neat). injection Q as <-. exact B.
Qed.
Lemma add_any_neat i a G G' : neat G -> fit G a -> add_any i a G = Some G' -> becomes G G'.
Proof. intros N F Q. unfold add_any in Q. apply bind_inv in Q as (x & E & Q). destruct (_ || _); [destruct (constant x); [discriminate|apply (add_constant_neat _ _ _ _ N Q)]|apply (add_arg_neat _ _ _ _ N F Q)]. Qed.
Lemma transfer_arg_neat i a j G G' : neat G -> transfer_arg i a j G = Some G' -> becomes G G'.
Proof.
  intros N Q. unfold transfer_arg in Q. apply bind_inv in Q as (x & E & Q). destruct (constant x); [discriminate|]. apply bind_inv in Q as (G1 & E1 & Q). pose proof (erase_arg_neat _ _ _ _ N E1) as B1. apply erase_arg_inv in E1 as (y & Ey & I & _).
  apply (becomes_trans G G1); [auto|]. apply (add_arg_neat j a G1); [apply B1| |auto]. apply (fit_grows G); [apply B1|apply (nt_args _ N i y a Ey I)].
Qed.
Lemma share_arg_neat i a j G G' : neat G -> share_arg i a j G = Some G' -> becomes G G'.
Proof. intros N Q. unfold share_arg in Q. apply bind_inv in Q as (x & E & Q). destruct (_ || _) eqn:C; [discriminate|]. apply orb_false_iff in C as [_ C]. apply negb_false_iff, has_In in C. apply (add_arg_neat j a G G' N); [apply (nt_args _ N i x a E C)|auto]. Qed.
Lemma process_constant_neat i n s G G' : neat G -> process_constant_arg i n s G = Some G' -> becomes G G'.
Proof. intros N Q. unfold process_constant_arg in Q. apply bind_inv in Q as (x & E & Q). apply bind_inv in Q as (G1 & E1 & Q). pose proof (erase_arg_neat _ _ _ _ N E1) as B1. eapply becomes_trans; [exact B1|]. eapply add_constant_neat; [apply B1|exact Q]. Qed.
Lemma join_neat i a G G' : neat G -> join_null_gate i a G = Some G' -> becomes G G'.
Proof.
  intros N Q. unfold join_null_gate in Q. apply bind_inv in Q as (y & Ey & Q). destruct (g_type y); try discriminate. destruct (g_args y) as [|b [|]] eqn:A; try discriminate. apply bind_inv in Q as (G1 & E1 & Q). pose proof (erase_arg_neat _ _ _ _ N E1) as B1. apply erase_arg_inv in E1 as (x & Ex & I & _).
  eapply becomes_trans; [exact B1|]. eapply add_any_neat; [apply B1| |exact Q]. apply (fit_grows G); [apply B1|]. apply fit_times; [auto|apply (nt_args _ N i x a Ex I)|eauto|apply (nt_args _ N _ y b Ey); rewrite A; left; auto].
Qed.
Lemma replace_neat p g g' G G' : neat G -> is_Some (gs G !! g) -> is_Some (gs G !! g') -> replace_in_parent p g g' G = Some G' -> becomes G G'.
Proof.
  intros N Sg Sg' Q. unfold replace_in_parent in Q. apply bind_inv in Q as (x & E & Q). apply bind_inv in Q as (G1 & E1 & Q). pose proof (erase_arg_neat _ _ _ _ N E1) as B1. apply erase_arg_inv in E1 as (y & Ey & I & _). eapply becomes_trans; [exact B1|]. eapply add_arg_neat; [apply B1| |exact Q].
  apply (fit_grows G); [apply B1|]. apply fit_signed; auto; [apply (nt_args _ N p y _ Ey I)|]. unfold arg_of. pose proof (nt_keys _ N g Sg). destruct (has _ _); [rewrite Z.abs_eq by lia; auto|rewrite Z.abs_opp, Z.abs_eq by lia; auto].
Qed.
Lemma erase_all_neat i : forall l G G', neat G -> erase_all i l G = Some G' -> becomes G G'.
Proof. induction l as [|a l IH]; intros G G' N Q; cbn in Q; [injection Q as <-; apply becomes_refl; auto|]. apply bind_inv in Q as (G1 & E1 & Q). pose proof (erase_arg_neat _ _ _ _ N E1) as B1. eapply becomes_trans; [exact B1|]. apply IH; [apply B1|auto]. Qed.

(** ** Steps *)
Lemma add_until_neat i : forall l G G', neat G -> (forall a, In a l -> fit G a) -> add_until_constant i l G = Some G' -> becomes G G'.
Proof.
  induction l as [|a l IH]; intros G G' N HL Q; cbn [add_until_constant] in Q; [injection Q as <-; apply becomes_refl; auto|]. apply bind_inv in Q as (G1 & E1 & Q). pose proof (add_arg_neat _ _ _ _ N (HL a ltac:(left; auto)) E1) as B1. apply bind_inv in Q as (x & E & Q). destruct (constant x); [injection Q as <-; auto|].
  eapply becomes_trans; [exact B1|]. apply IH; [apply B1| |auto]. intros b I. apply (fit_grows G); [apply B1|]. apply HL. right. auto.
Qed.
Lemma coalesce_neat i c l y G G' : neat G -> gs G !! c = Some y -> Permutation l (g_args y) -> coalesce_gate i c l G = Some G' -> becomes G G'.
Proof.
  intros N Ey P Q. unfold coalesce_gate in Q. apply bind_inv in Q as (x & Ex & Q). rewrite Ey in Q. cbn [mbind option_bind] in Q. destruct (constant x || _ || _ || _); [discriminate|]. apply bind_inv in Q as (G1 & E1 & Q).
  assert (B1 : becomes G G1) by (eapply add_until_neat; [exact N| |exact E1]; intros a I; apply (nt_args _ N c y a Ey); apply (Permutation_in _ P); auto). apply bind_inv in Q as (x1 & Ex1 & Q). destruct (constant x1); [injection Q as <-; auto|]. eapply becomes_trans; [exact B1|]. eapply erase_arg_neat; [apply B1|exact Q].
Qed.
Lemma share_all_neat i g1 g2 : forall l G G', neat G -> share_all i l g1 g2 G = Some G' -> becomes G G'.
Proof. induction l as [|a l IH]; intros G G' N Q; cbn [share_all] in Q; [injection Q as <-; apply becomes_refl; auto|]. apply bind_inv in Q as (G1 & E1 & Q). apply bind_inv in Q as (G2 & E2 & Q). pose proof (share_arg_neat _ _ _ _ _ N E1) as B1. pose proof (share_arg_neat _ _ _ _ _ (proj1 B1) E2) as B2. eapply becomes_trans; [exact B1|]. eapply becomes_trans; [exact B2|]. apply IH; [apply B2|auto]. Qed.
Lemma atleast_once_neat i k a G G' g1 g2 : knof -> neat G -> atleast_once i k a G = Some (G', g1, g2) -> becomes G G'.
Proof.
  intros K N Q. assert (RK : regular kAtleast) by (right; right; right; auto). unfold atleast_once in Q. destruct (new_gate kAnd G) as [Ga first] eqn:N1. destruct (new_neat _ _ _ _ N reg_and N1) as [Ba Sa]. apply bind_inv in Q as (Gb & Eb & Q). pose proof (transfer_arg_neat _ _ _ _ _ (proj1 Ba) Eb) as Bb.
  destruct (new_gate kAtleast Gb) as [Gc grand] eqn:N2. destruct (new_neat _ _ _ _ (proj1 Bb) RK N2) as [Bc Sc]. apply bind_inv in Q as (Gd & Ed & Q). assert (Bd : becomes Gc Gd) by (eapply add_arg_neat; [apply Bc| |exact Ed]; apply fit_gate; [apply Bc|auto]).
  apply bind_inv in Q as (Ge & Ee & Q). pose proof (set_min_neat _ _ _ _ (proj1 Bd) Ee) as Be. destruct (new_gate kAtleast Ge) as [Gf second] eqn:N3. destruct (new_neat _ _ _ _ (proj1 Be) RK N3) as [Bf Sf]. apply bind_inv in Q as (Gg & Eg & Q). pose proof (set_min_neat _ _ _ _ (proj1 Bf) Eg) as Bg.
  apply bind_inv in Q as (x1 & Ex1 & Q). apply bind_inv in Q as (Gh & Eh & Q). pose proof (share_all_neat _ _ _ _ _ _ (proj1 Bg) Eh) as Bh. apply bind_inv in Q as (Gi & Ei & Q). pose proof (set_type_neat _ _ _ _ (proj1 Bh) reg_or Ei) as Bi. apply bind_inv in Q as (Gj & Ej & Q). pose proof (erase_args_neat _ _ _ (proj1 Bi) Ej) as Bj.
  pose proof (becomes_trans _ _ _ Bg (becomes_trans _ _ _ Bh (becomes_trans _ _ _ Bi Bj))) as Bfj. pose proof (becomes_trans _ _ _ Bb (becomes_trans _ _ _ Bc (becomes_trans _ _ _ Bd (becomes_trans _ _ _ Be (becomes_trans _ _ _ Bf Bfj))))) as Baj.
  apply bind_inv in Q as (Gk & Ek & Q). assert (Bk : becomes Gj Gk) by (eapply add_arg_neat; [apply Bj| |exact Ek]; apply fit_gate; [apply Bj|apply Baj; auto]). apply bind_inv in Q as (Gl & El & Q). injection Q as <- <- <-.
  assert (Bl : becomes Gk Gl) by (eapply add_arg_neat; [apply Bk| |exact El]; apply fit_gate; [apply Bk|]; apply Bk, Bfj; auto). apply (becomes_trans _ _ _ Ba (becomes_trans _ _ _ Baj (becomes_trans _ _ _ Bk Bl))).
Qed.
Lemma normalize_atleast_neat pick : forall fuel i G G', neat G -> normalize_atleast fuel pick i G = Some G' -> becomes G G'.
Proof.
  induction fuel as [|fuel IH]; intros i G G' N Q; cbn [normalize_atleast] in Q; [discriminate|]. apply bind_inv in Q as (x & E & Q). destruct (negb (conn_eqb (g_type x) kAtleast) || _ || _) eqn:C; [discriminate|]. apply orb_false_iff in C as [C _]. apply orb_false_iff in C as [C _].
  assert (K : knof) by (destruct (nt_type _ N i x E) as [T|[T|[T|[K T]]]]; rewrite ?T in C; try discriminate C; auto).
  destruct (_ =? g_min x); [apply (set_type_neat _ _ _ _ N reg_and Q)|]. destruct (_ =? 1); [apply (set_type_neat _ _ _ _ N reg_or Q)|]. apply bind_inv in Q as ([[G1 g1] g2] & E1 & Q). pose proof (atleast_once_neat _ _ _ _ _ _ _ K N E1) as B1. apply bind_inv in Q as (G2 & E2 & Q). pose proof (IH _ _ _ (proj1 B1) E2) as B2.
  apply (becomes_trans _ _ _ B1 (becomes_trans _ _ _ B2 (IH _ _ _ (proj1 B2) Q))).
Qed.
Lemma erase_in_all_neat a : forall ps G G', neat G -> erase_in_all ps a G = Some G' -> becomes G G'.
Proof. induction ps as [|p ps IH]; intros G G' N Q; cbn in Q; [injection Q as <-; apply becomes_refl; auto|]. apply bind_inv in Q as (G1 & E1 & Q). pose proof (erase_arg_neat _ _ _ _ N E1) as B1. eapply becomes_trans; [exact B1|]. apply IH; [apply B1|auto]. Qed.
Lemma move_common_neat p0 m ps : forall cs G G', neat G -> move_common p0 cs ps m G = Some G' -> becomes G G'.
Proof. induction cs as [|a cs IH]; intros G G' N Q; cbn [move_common] in Q; [injection Q as <-; apply becomes_refl; auto|]. apply bind_inv in Q as (G1 & E1 & Q). apply bind_inv in Q as (G2 & E2 & Q). pose proof (share_arg_neat _ _ _ _ _ N E1) as B1. pose proof (erase_in_all_neat _ _ _ _ (proj1 B1) E2) as B2. apply (becomes_trans _ _ _ B1 (becomes_trans _ _ _ B2 (IH _ _ (proj1 B2) Q))). Qed.
Lemma add_to_all_neat m : forall ps G G', neat G -> is_Some (gs G !! m) -> add_to_all ps m G = Some G' -> becomes G G'.
Proof.
  induction ps as [|p ps IH]; intros G G' N Sm Q; cbn [add_to_all] in Q; [injection Q as <-; apply becomes_refl; auto|]. apply bind_inv in Q as (G1 & E1 & Q). pose proof (add_arg_neat _ _ _ _ N (fit_gate G m N Sm) E1) as B1. apply bind_inv in Q as (x & Ex & Q). apply bind_inv in Q as (G2 & E2 & Q).
  assert (B2 : becomes G1 G2) by (destruct (_ =? 1); [apply (set_type_neat _ _ _ _ (proj1 B1) reg_null E2)|injection E2 as <-; apply becomes_refl, B1]). pose proof (becomes_trans _ _ _ B1 B2) as B. eapply becomes_trans; [exact B|]. apply IH; [apply B|apply B; auto|auto].
Qed.
Lemma merge_common_neat cs ps G G' : neat G -> merge_common cs ps G = Some G' -> becomes G G'.
Proof.
  intros N Q. destruct ps as [|p0 ps]; cbn [merge_common] in Q; [discriminate|]. apply bind_inv in Q as (x & E & Q). destruct (new_gate (g_type x) G) as [G1 m] eqn:N1. destruct (new_neat _ _ _ _ N (nt_type _ N p0 x E) N1) as [B1 S1]. apply bind_inv in Q as (G2 & E2 & Q). pose proof (move_common_neat _ _ _ _ _ _ (proj1 B1) E2) as B2.
  apply (becomes_trans _ _ _ B1 (becomes_trans _ _ _ B2 (add_to_all_neat m (p0 :: ps) G2 G' (proj1 B2) (proj2 B2 m S1) Q))).
Qed.
Lemma transfer_all_neat i m : forall l G G', neat G -> transfer_all i l m G = Some G' -> becomes G G'.
Proof. induction l as [|a l IH]; intros G G' N Q; cbn in Q; [injection Q as <-; apply becomes_refl; auto|]. apply bind_inv in Q as (G1 & E1 & Q). pose proof (transfer_arg_neat _ _ _ _ _ N E1) as B1. eapply becomes_trans; [exact B1|]. apply IH; [apply B1|auto]. Qed.
Lemma create_module_neat i l G G' : neat G -> create_module i l G = Some G' -> becomes G G'.
Proof.
  intros N Q. unfold create_module in Q. apply bind_inv in Q as (x & E & Q). destruct (_ || _); [injection Q as <-; apply becomes_refl; auto|]. destruct (coalesce_type (g_type x)) as [t|] eqn:CT; [|injection Q as <-; apply becomes_refl; auto].
  assert (T : regular t) by (destruct (g_type x); try discriminate CT; injection CT as <-; auto with neat). destruct (new_gate t G) as [G1 m] eqn:N1. destruct (new_neat _ _ _ _ N T N1) as [B1 S1]. apply bind_inv in Q as (G2 & E2 & Q). pose proof (transfer_all_neat _ _ _ _ _ (proj1 B1) E2) as B2.
  apply (becomes_trans _ _ _ B1 (becomes_trans _ _ _ B2 (add_arg_neat i m G2 G' (proj1 B2) (fit_gate G2 m (proj1 B2) (proj2 B2 m S1)) Q))).
Qed.
Lemma fix_single_neat i G G' : neat G -> fix_single i G = Some G' -> becomes G G'.
Proof.
  intros N Q. unfold fix_single in Q. apply bind_inv in Q as (x & E & Q). destruct (_ =? 1); [|injection Q as <-; apply becomes_refl; auto]. destruct (nt_type _ N i x E) as [T|[T|[T|[K T]]]]; rewrite T in Q; try discriminate; apply (set_type_neat _ _ _ _ N reg_null Q).
Qed.
Lemma merge_candidate_neat c g G G' : neat G -> merge_candidate c g G = Some G' -> becomes G G'.
Proof.
  intros N Q. unfold merge_candidate in Q. apply bind_inv in Q as (y & Ey & Q). apply bind_inv in Q as (G1 & E1 & Q). pose proof (erase_all_neat _ _ _ _ N E1) as B1. apply bind_inv in Q as (G2 & E2 & Q). assert (B2 : becomes G1 G2) by (eapply add_arg_neat; [apply B1| |exact E2]; apply fit_gate; [apply B1|apply B1; eauto]).
  pose proof (becomes_trans _ _ _ B1 B2) as B. apply bind_inv in Q as (x & Ex & Q). destruct (constant x); [injection Q as <-; auto|]. destruct (_ =? 1); [|injection Q as <-; auto]. apply (becomes_trans _ _ _ B (set_type_neat _ _ _ _ (proj1 B) reg_null Q)).
Qed.

Lemma step_neat G G' : neat G -> step G G' -> becomes G G'.
Proof.
  intros N H. destruct H as [i a x y b E L Ea Eb X Q|i c l x y u E Ec T U P Q|p g g' x y y' E Eg Eg' SD I X Q|p g g' x y y' r E Eg Eg' SD RK LT I X Q|i x E T Q|fuel pick i Q|cs ps t N1 N2 T H Q|i l x E ND H Q|i c d x y t u E Ec I T1 T2 T3 T4 I2 NE H Q|i x E Q|i n s x E Ln I L H Q|c g x y Ec Eg NE T T2 H Q].
  - apply (join_neat _ _ _ _ N Q).
  - apply (coalesce_neat i c l y G G' N Ec P Q).
  - apply (replace_neat p g g' G G' N); eauto.
  - apply (replace_neat p g g' G G' N); eauto.
  - exfalso. destruct (nt_type _ N i x E) as [K|[K|[K|[_ K]]]]; congruence.
  - apply (normalize_atleast_neat _ _ _ _ _ N Q).
  - apply (merge_common_neat _ _ _ _ N Q).
  - apply (create_module_neat _ _ _ _ N Q).
  - apply (erase_arg_neat _ _ _ _ N Q).
  - apply (fix_single_neat _ _ _ N Q).
  - apply (process_constant_neat _ _ _ _ _ N Q).
  - apply (merge_candidate_neat _ _ _ _ N Q).
Qed.

(** ** NULL gates and the trivial root *)
Lemma same_neat G G' : neat G -> gs G' = gs G -> nxt G' = nxt G -> becomes G G'.
Proof.
  intros N HG HN. assert (GR : grows G G') by (intros j Sj; rewrite HG; auto). split; [|auto]. constructor.
  - rewrite HN. apply N.
  - intros j Sj. rewrite HG in Sj. apply N; auto.
  - intros j x E. rewrite HG in E. apply (nt_type _ N j x E).
  - intros j x a E I. rewrite HG in E. apply (fit_grows G); [auto|apply (nt_args _ N j x a E I)].
Qed.
Lemma propagate_null_neat parents : forall fuel g G G', neat G -> propagate_null parents fuel g G = Some G' -> becomes G G'.
Proof.
  induction fuel as [|fuel IH]; intros g G G' N Q; cbn [propagate_null] in Q; [discriminate|]. apply bind_inv in Q as (y & Ey & Q). destruct (negb _); [discriminate|]. destruct (parents G g) as [|p l]; [injection Q as <-; apply becomes_refl; auto|].
  apply bind_inv in Q as (x & Ex & Q). apply bind_inv in Q as (G1 & E1 & Q). pose proof (join_neat _ _ _ _ N E1) as B1. apply bind_inv in Q as (x1 & Ex1 & Q). apply bind_inv in Q as (G2 & E2 & Q).
  assert (B2 : becomes G1 G2) by (destruct (conn_eqb _ _); [apply (IH p _ _ (proj1 B1) E2)|injection E2 as <-; apply becomes_refl, B1]). apply (becomes_trans _ _ _ B1 (becomes_trans _ _ _ B2 (IH _ _ _ (proj1 B2) Q))).
Qed.
Lemma propagate_each_neat parents expired fuel : forall l G G', neat G -> propagate_each parents expired fuel l G = Some G' -> becomes G G'.
Proof.
  induction l as [|g l IH]; intros G G' N Q; cbn [propagate_each] in Q; [injection Q as <-; apply becomes_refl; auto|]. apply bind_inv in Q as (G1 & E1 & Q).
  assert (B1 : becomes G G1) by (destruct (expired G g); [injection E1 as <-; apply becomes_refl; auto|apply (propagate_null_neat _ _ _ _ _ N E1)]). apply (becomes_trans _ _ _ B1 (IH _ _ (proj1 B1) Q)).
Qed.
Lemma remove_null_neat parents expired fuel G G' : neat G -> remove_null_gates parents expired fuel G = Some G' -> becomes G G'.
Proof.
  intros N Q. unfold remove_null_gates in Q. apply bind_inv in Q as (G1 & E1 & Q). injection Q as <-. pose proof (same_neat G (unregistered G) N eq_refl eq_refl) as B0. pose proof (propagate_each_neat _ _ _ _ _ _ (proj1 B0) E1) as B1.
  eapply becomes_trans; [exact B0|]. eapply becomes_trans; [exact B1|]. apply (same_neat G1); [apply B1|reflexivity|reflexivity].
Qed.
Lemma negate_known G a : known G a -> known G (- a).
Proof. unfold known. rewrite Z.abs_opp. auto. Qed.
(** Arguments may change their signs if complements of gates are allowed. *)
Lemma negate_args_neat i G G' : loose -> neat G -> negate_args i G = Some G' -> becomes G G'.
Proof.
  intros HL N Q. unfold negate_args in Q. apply bind_inv in Q as (x & E & Q). injection Q as <-. eapply put_neat; [exact N|eauto|reflexivity|reflexivity|apply (nt_type _ N i x E)|]. intros a I. unfold with_args in I. cbn [g_args] in I. apply in_rev, in_map_iff in I as (b & <- & I). pose proof (nt_args _ N i x b E I) as [K _].
  split; [apply negate_known; auto|auto].
Qed.
Definition flagged (comp : bool) : Prop := loose \/ comp = false.
Lemma fit_leaf_or_pos G a : neat G -> fit G a -> is_Some (gs G !! Z.abs a) -> loose \/ 0 < a.
Proof. intros N [_ F] Sa. destruct F as [F|[F|F]]; [auto|auto|]. destruct (Z.lt_ge_cases 0 a); [auto|]. exfalso. apply (proj2 (nt_keys _ N _ Sa)). rewrite Z.abs_neq by lia. auto. Qed.
Lemma trivial_neat parents expired fuel root comp G t root' comp' G' : neat G -> is_Some (gs G !! root) -> flagged comp -> is_trivial parents expired fuel root comp G = Some (t, root', comp', G') ->
  neat G' /\ is_Some (gs G' !! root') /\ flagged comp'.
Proof.
  intros N Sr HF Q. unfold is_trivial in Q. apply bind_inv in Q as (x & Ex & Q). destruct (negb _); [injection Q as <- <- <- <-; auto|]. apply bind_inv in Q as (G1 & E1 & Q). pose proof (remove_null_neat _ _ _ _ _ N E1) as [N2 I1]. apply bind_inv in Q as (x1 & Ex1 & Q).
  destruct (g_args x1) as [|a [|]] eqn:A; try discriminate. assert (Ia : In a (g_args x1)) by (rewrite A; left; auto). pose proof (nt_args _ N2 root x1 a Ex1 Ia) as Fa. destruct (gs G1 !! Z.abs a) as [y|] eqn:Ey.
  - destruct (constant y || _ || _); [discriminate|]. injection Q as <- <- <- <-. split; [auto|]. split; [eauto|]. destruct HF as [HF|HF]; [left; auto|]. subst comp. destruct (fit_leaf_or_pos G1 a N2 Fa ltac:(eauto)) as [L|L]; [left; auto|]. right. destruct (Z.ltb_spec a 0); [lia|reflexivity].
  - destruct comp; [|injection Q as <- <- <- <-; split; [auto|]; split; [eauto|auto]]. apply bind_inv in Q as (G2 & E2 & Q). injection Q as <- <- <- <-.
    destruct HF as [HF|HF]; [|discriminate]. pose proof (negate_args_neat root G1 G2 HF N2 E2) as B2.
    split; [apply B2|]. split; [apply B2; eauto|right; auto].
Qed.
(** ** Negative gates: there are none *)
Lemma negative_neat root comp G G' comp' : neat G -> normalize_negative root comp G = (G', comp') -> becomes G G' /\ comp' = comp.
Proof.
  intros N Q. unfold normalize_negative in Q. injection Q as <- <-.
  assert (NG : forall j, negative_gate G j = false) by (intros j; unfold negative_gate; destruct (gs G !! j) as [x|] eqn:E; [|auto]; destruct (nt_type _ N j x E) as [T|[T|[T|[_ T]]]]; rewrite T; auto).
  split; [|rewrite NG; apply xorb_false_r].
  assert (GR : grows G (Graph (positive_gate G <$> gs G) (nxt G) (nulls G) (reg G))) by (intros j [x E]; cbn [gs]; rewrite lookup_fmap, E; eauto). split; [|auto]. constructor.
  - apply N.
  - intros j [x E]. cbn [gs] in E. rewrite lookup_fmap in E. destruct (gs G !! j) as [y|] eqn:Ey; [|discriminate]. apply N. eauto.
  - intros j x E. cbn [gs] in E. rewrite lookup_fmap in E. destruct (gs G !! j) as [y|] eqn:Ey; [|discriminate]. injection E as <-. cbn [positive_gate g_type]. destruct (nt_type _ N j y Ey) as [T|[T|[T|[K T]]]]; rewrite T; cbn; auto with neat. right; right; right; auto.
  - intros j x a E I. cbn [gs] in E. rewrite lookup_fmap in E. destruct (gs G !! j) as [y|] eqn:Ey; [|discriminate]. injection E as <-. unfold positive_gate in I. cbn [g_args] in I. apply (fit_grows G); [auto|].
    assert (X : forall l, In a (fold_right set_insert [] (map (notify_arg G) l)) -> In a l) by (induction l as [|b l IH]; cbn [map fold_right]; [auto|]; intros H; apply set_insert_In in H as [->|H]; [left; unfold notify_arg; rewrite NG; auto|right; auto]).
    apply (nt_args _ N j y a Ey). auto.
Qed.

(** ** Complements *)
Section Complements.
Context (single : graph -> gmap Z Z -> Z -> bool) (order : graph -> Z -> list Z).
Context (ORDER : forall G i x, gs G !! i = Some x -> Permutation (order G i) (List.filter (fun a => bool_decide (is_Some (gs G !! Z.abs a))) (g_args x))).
Lemma order_gates G i a : In a (order G i) -> is_Some (gs G !! i) -> exists x, gs G !! i = Some x /\ In a (g_args x) /\ is_Some (gs G !! Z.abs a).
Proof. intros I [x E]. exists x. split; [auto|]. apply (Permutation_in _ (ORDER G i x E)) in I. apply List.filter_In in I as [I B]. apply bool_decide_eq_true in B. auto. Qed.
Lemma negate_gate_neat g G G' : loose -> neat G -> Complement.negate_gate g G = Some G' -> becomes G G'.
Proof.
  intros HL N Q. unfold Complement.negate_gate in Q. apply bind_inv in Q as (x & E & Q). apply bind_inv in Q as (t & T & Q). apply bind_inv in Q as (G1 & E1 & Q).
  assert (B1 : becomes G G1) by (eapply set_type_neat; [exact N| |exact E1]; destruct (g_type x); try discriminate T; injection T as <-; auto with neat).
  apply (becomes_trans _ _ _ B1). apply (negate_args_neat g G1 G' HL (proj1 B1)); auto.
Qed.
Definition comps_gates (s : Complement.pstate) : Prop := forall g c, Complement.p_comps s !! g = Some c -> is_Some (gs (Complement.p_graph s) !! c).
Definition cst (s s' : Complement.pstate) : Prop := becomes (Complement.p_graph s) (Complement.p_graph s') /\ comps_gates s'.
Lemma complement_args_neat rec : (forall g s s', neat (Complement.p_graph s) -> comps_gates s -> is_Some (gs (Complement.p_graph s) !! g) -> rec g s = Some s' -> cst s s') ->
  forall l s s' sw, neat (Complement.p_graph s) -> comps_gates s -> (forall a, In a l -> is_Some (gs (Complement.p_graph s) !! Z.abs a) /\ (loose \/ 0 < a)) -> Complement.args_loop single rec l s = Some (s', sw) ->
  cst s s' /\ forall a c, In (a, c) sw -> is_Some (gs (Complement.p_graph s') !! c).
Proof.
  intros HR. induction l as [|a l IH]; intros s s' sw N C HA Q; cbn [Complement.args_loop] in Q; [injection Q as <- <-; split; [split; [apply becomes_refl; auto|auto]|intros ? ? []]|].
  destruct (HA a ltac:(left; auto)) as [Sa Fa].
  assert (HA' : forall s1, grows (Complement.p_graph s) (Complement.p_graph s1) -> forall b, In b l -> is_Some (gs (Complement.p_graph s1) !! Z.abs b) /\ (loose \/ 0 < b)) by (intros s1 GR b Ib; destruct (HA b ltac:(right; auto)); split; auto).
  destruct (Z.ltb_spec 0 a) as [La|La].
  { apply bind_inv in Q as (s1 & E1 & Q). rewrite Z.abs_eq in Sa by lia. destruct (HR a s s1 N C Sa E1) as [B1 C1]. destruct (IH s1 s' sw (proj1 B1) C1 (HA' s1 (proj2 B1)) Q) as [[B2 C2] W2]. split; [split; [apply (becomes_trans _ _ _ B1 B2)|auto]|auto]. }
  assert (HL : loose) by (destruct Fa; [auto|lia]). rewrite Z.abs_neq in Sa by lia.
  destruct (Complement.p_comps s !! (- a)) as [c|] eqn:EC.
  { destruct (decide _); [|discriminate]. apply bind_inv in Q as ([s1 sw1] & E1 & Q). injection Q as <- <-. destruct (IH s s1 sw1 N C (HA' s (fun j Sj => Sj)) E1) as [[B1 C1] W1]. split; [split; auto|]. intros a' c' [K|K]; [injection K as <- <-; apply B1, (C _ _ EC)|apply (W1 a' c' K)]. }
  destruct (single _ _ _).
  - apply bind_inv in Q as (G1 & E1 & Q). pose proof (negate_gate_neat _ _ _ HL N E1) as B1. apply bind_inv in Q as (s1 & E2 & Q).
    assert (C1 : comps_gates (Complement.with_graph s G1)) by (intros g c K; cbn in *; apply B1, (C _ _ K)). destruct (HR (- a) (Complement.with_graph s G1) s1 (proj1 B1) C1 (proj2 B1 _ Sa) E2) as [B2 C2]. cbn in B2. pose proof (becomes_trans _ _ _ B1 B2) as B12.
    apply bind_inv in Q as ([s2 sw2] & E3 & Q). injection Q as <- <-. destruct (IH s1 s2 sw2 (proj1 B2) C2 (HA' s1 (proj2 B12)) E3) as [[B3 C3] W3]. split; [split; [apply (becomes_trans _ _ _ B12 B3)|auto]|]. intros a' c' [K|K]; [injection K as <- <-; apply B3, B12; auto|apply (W3 a' c' K)].
  - apply bind_inv in Q as ([G1 c] & E1 & Q). destruct (clone_neat _ _ _ _ N E1) as [B1 S1]. apply bind_inv in Q as (G2 & E2 & Q). pose proof (negate_gate_neat _ _ _ HL (proj1 B1) E2) as B2. apply bind_inv in Q as (s1 & E3 & Q). pose proof (becomes_trans _ _ _ B1 B2) as B12.
    match type of E3 with rec c ?s0 = _ => assert (C0 : comps_gates s0) by (intros g' c' K; cbn in K |- *; apply lookup_insert_Some in K as [[_ <-]|[_ K]]; [apply B2; auto|apply B12, (C _ _ K)]); destruct (HR c s0 s1 (proj1 B2) C0 (proj2 B2 _ S1) E3) as [B3 C3] end. cbn in B3. pose proof (becomes_trans _ _ _ B12 B3) as B13.
    apply bind_inv in Q as ([s2 sw2] & E4 & Q). injection Q as <- <-. destruct (IH s1 s2 sw2 (proj1 B3) C3 (HA' s1 (proj2 B13)) E4) as [[B4 C4] W4]. split; [split; [apply (becomes_trans _ _ _ B13 B4)|auto]|]. intros a' c' [K|K]; [injection K as <- <-; apply B4, B3, B2; auto|apply (W4 a' c' K)].
Qed.
Lemma complement_swap_neat i : forall sw G G', neat G -> (forall a c, In (a, c) sw -> is_Some (gs G !! c)) -> Complement.swap_loop i sw G = Some G' -> becomes G G'.
Proof.
  induction sw as [|[a c] sw IH]; intros G G' N HL Q; cbn [Complement.swap_loop] in Q; [injection Q as <-; apply becomes_refl; auto|]. destruct (0 <=? a); [discriminate|]. apply bind_inv in Q as (G1 & E1 & Q). pose proof (erase_arg_neat _ _ _ _ N E1) as B1. apply bind_inv in Q as (G2 & E2 & Q).
  assert (B2 : becomes G1 G2) by (eapply add_arg_neat; [apply B1| |exact E2]; apply fit_gate; [apply B1|apply B1; apply (HL a c); left; auto]). apply bind_inv in Q as (x & Ex & Q). destruct (constant x); [discriminate|]. pose proof (becomes_trans _ _ _ B1 B2) as B.
  apply (becomes_trans _ _ _ B). apply IH; [apply B| |auto]. intros a' c' I. apply B. apply (HL a' c'). right. auto.
Qed.
Lemma complement_neat : forall fuel i s s', neat (Complement.p_graph s) -> comps_gates s -> is_Some (gs (Complement.p_graph s) !! i) -> Complement.propagate single order fuel i s = Some s' -> cst s s'.
Proof.
  induction fuel as [|fuel IH]; intros i s s' N C Si Q; cbn [Complement.propagate] in Q; [discriminate|]. destruct (decide _); [injection Q as <-; split; [apply becomes_refl; auto|auto]|]. apply bind_inv in Q as ([s1 sw] & E1 & Q). apply bind_inv in Q as (G & E2 & Q). injection Q as <-.
  match type of E1 with Complement.args_loop _ _ _ ?s0 = _ => destruct (complement_args_neat _ IH _ s0 s1 sw N C ltac:(intros a Ia; destruct (order_gates _ _ _ Ia Si) as (x & Ex & Ix & Sx); split; [auto|]; apply (fit_leaf_or_pos _ a N); [apply (nt_args _ N i x a Ex Ix)|auto]) E1) as [[B1 C1] W1] end.
  cbn in B1. pose proof (complement_swap_neat i sw _ G (proj1 B1) W1 E2) as B2. split; [apply (becomes_trans _ _ _ B1 B2)|]. intros g c K. cbn in *. apply B2, (C1 _ _ K).
Qed.
Lemma phase_four_neat fuel root comp G G' : neat G -> is_Some (gs G !! root) -> flagged comp -> Complement.phase_four single order fuel root comp G = Some G' -> becomes G G'.
Proof.
  intros N Sr HF Q. unfold Complement.phase_four in Q. apply bind_inv in Q as (G1 & E1 & Q). apply bind_inv in Q as (s & E2 & Q). injection Q as <-.
  assert (B1 : becomes G G1).
  { destruct comp; [|injection E1 as <-; apply becomes_refl; auto]. destruct HF as [HL|HF]; [|discriminate]. unfold Complement.complement_root in E1. apply bind_inv in E1 as (x & E & E1). apply bind_inv in E1 as (G0 & E0 & E1).
    assert (B0 : becomes G G0) by (destruct (g_type x) eqn:T; try discriminate; [eapply set_type_neat; [exact N| |exact E0]; auto with neat|eapply set_type_neat; [exact N| |exact E0]; auto with neat|injection E0 as <-; apply becomes_refl; auto]).
    apply (becomes_trans _ _ _ B0). apply (negate_args_neat root G0 G1 HL (proj1 B0)); auto. }
  assert (C0 : comps_gates (Complement.PSt G1 ∅ ∅)) by (intros g c K; cbn in K; rewrite lookup_empty in K; discriminate).
  destruct (complement_neat fuel root (Complement.PSt G1 ∅ ∅) s (proj1 B1) C0 (proj2 B1 _ Sr) E2) as [B2 _]. cbn in B2. apply (becomes_trans _ _ _ B1 B2).
Qed.
End Complements.

(** ** Decomposition *)
Section Decomposed.
Context (parents : graph -> Z -> list Z) (timed : Z -> Z -> bool) (order : graph -> Z -> list Z) (P n : Z) (state : bool).
Context (ORDER : forall G i a, In a (order G i) -> exists x, gs G !! i = Some x /\ In a (g_args x) /\ is_Some (gs G !! Z.abs a)).
Lemma decompose_args_neat fuel rec : (forall g s s', neat (d_graph s) -> rec g s = Some s' -> becomes (d_graph s) (d_graph s')) ->
  forall l s s' sw, neat (d_graph s) -> (forall a, In a l -> is_Some (gs (d_graph s) !! Z.abs a)) -> Decompose.args_loop parents timed P n state fuel rec l s = Some (s', sw) ->
  becomes (d_graph s) (d_graph s') /\ forall a c, In (a, c) sw -> is_Some (gs (d_graph s') !! c) /\ In a l.
Proof.
  intros HR. induction l as [|a l IH]; intros s s' sw N HA Q; cbn [Decompose.args_loop] in Q; [injection Q as <- <-; split; [apply becomes_refl; auto|intros ? ? []]|].
  apply bind_inv in Q as (x & Ex & Q). apply bind_inv in Q as ([[s1 g] sw1] & E1 & Q).
  assert (K1 : becomes (d_graph s) (d_graph s1) /\ forall a' c, In (a', c) sw1 -> is_Some (gs (d_graph s1) !! c) /\ a' = a).
  { destruct (has_node n x); [|injection E1 as <- <- <-; split; [apply becomes_refl; auto|intros ? ? []]]. apply bind_inv in E1 as ([b A] & Ew & E1). destruct b.
    - apply bind_inv in E1 as (G1 & Ep & E1). injection E1 as <- <- <-. split; [cbn; apply (process_constant_neat _ _ _ _ _ N Ep)|intros ? ? []].
    - apply bind_inv in E1 as ([G1 c] & Ec & E1). destruct (clone_neat _ _ _ _ N Ec) as [B1 S1]. apply bind_inv in E1 as (y & Ey & E1). destruct (registered y).
      + apply bind_inv in E1 as (G2 & Ep & E1). injection E1 as <- <- <-. pose proof (process_constant_neat _ _ _ _ _ (proj1 B1) Ep) as B2. split; [cbn; apply (becomes_trans _ _ _ B1 B2)|]. intros a' c' [K|[]]. injection K as <- <-. cbn. split; [apply B2; auto|auto].
      + injection E1 as <- <- <-. split; [auto|intros ? ? []]. }
  clear E1. destruct K1 as [B1 W1]. apply bind_inv in Q as (s2 & E2 & Q).
  assert (B2 : becomes (d_graph s1) (d_graph s2)).
  { destruct (decide _); [|injection E2 as <-; apply becomes_refl, B1]. apply bind_inv in E2 as ([b A] & Ew & E2). destruct b; [|injection E2 as <-; apply becomes_refl, B1]. refine (HR g (with_anc A s1) s2 _ E2); exact (proj1 B1). }
  pose proof (becomes_trans _ _ _ B1 B2) as B. apply bind_inv in Q as ([s3 sw3] & E3 & Q). injection Q as <- <-. destruct (IH s2 s3 sw3 (proj1 B) ltac:(intros b Ib; apply B, HA; right; auto) E3) as [B3 W3]. split; [apply (becomes_trans _ _ _ B B3)|]. intros a' c' K. apply in_app_or in K as [K|K].
  - destruct (W1 _ _ K) as [K1 ->]. split; [apply B3, B2; auto|left; auto].
  - destruct (W3 _ _ K) as [K1 K2]. split; [auto|right; auto].
Qed.
Lemma decompose_swap_neat i : forall sw G G', neat G -> (forall a c, In (a, c) sw -> is_Some (gs G !! c) /\ is_Some (gs G !! Z.abs a)) -> Decompose.swap_loop i sw G = Some G' -> becomes G G'.
Proof.
  induction sw as [|[a c] sw IH]; intros G G' N HL Q; cbn [Decompose.swap_loop] in Q; [injection Q as <-; apply becomes_refl; auto|]. apply bind_inv in Q as (G1 & E1 & Q). pose proof (erase_arg_neat _ _ _ _ N E1) as B1. apply erase_arg_inv in E1 as (x & Ex & Ia & _). apply bind_inv in Q as (G2 & E2 & Q).
  destruct (HL a c ltac:(left; auto)) as [Sc Sa]. assert (B2 : becomes G1 G2) by (eapply add_arg_neat; [apply B1| |exact E2]; apply fit_signed; [apply B1|apply (fit_grows G); [apply B1|apply (nt_args _ N i x a Ex Ia)]|apply B1; auto|apply B1; auto]). pose proof (becomes_trans _ _ _ B1 B2) as B.
  apply (becomes_trans _ _ _ B). apply IH; [apply B| |auto]. intros a' c' I. destruct (HL a' c' ltac:(right; auto)). split; apply B; auto.
Qed.
Lemma process_ancestors_neat : forall fuel i s s', neat (d_graph s) -> process_ancestors parents timed order P n state fuel i s = Some s' -> becomes (d_graph s) (d_graph s').
Proof.
  induction fuel as [|fuel IH]; intros i s s' N Q; cbn [process_ancestors] in Q; [discriminate|]. destruct (decide _); [injection Q as <-; apply becomes_refl; auto|]. apply bind_inv in Q as ([s1 sw] & E1 & Q). apply bind_inv in Q as (A & EA & Q). apply bind_inv in Q as (G & E2 & Q). apply bind_inv in Q as (x & Ex & Q). injection Q as <-.
  assert (HA : forall a, In a (order (d_graph s) i) -> is_Some (gs (d_graph s) !! Z.abs a)) by (intros a Ia; destruct (ORDER _ _ _ Ia) as (z & _ & _ & Sz); auto).
  match type of E1 with Decompose.args_loop _ _ _ _ _ _ _ _ ?s0 = _ => destruct (decompose_args_neat fuel _ IH _ s0 _ _ N HA E1) as [B1 W1] end. cbn in B1. cbn [d_graph].
  apply (becomes_trans _ _ _ B1). eapply decompose_swap_neat; [apply B1| |exact E2]. intros a c I. destruct (W1 a c I) as [K1 K2]. split; [auto|]. apply B1, HA. auto.
Qed.
End Decomposed.
Lemma process_destinations_neat parents timed order fuel n : (forall G i a, In a (order G i) -> exists x, gs G !! i = Some x /\ In a (g_args x) /\ is_Some (gs G !! Z.abs a)) ->
  forall dest desc G G', neat G -> process_destinations parents timed order fuel n dest desc G = Some G' -> becomes G G'.
Proof.
  intros OR. induction dest as [|P dest IH]; intros desc G G' N Q; cbn [process_destinations] in Q; [injection Q as <-; apply becomes_refl; auto|]. apply bind_inv in Q as (x & Ex & Q). destruct (has_node n x); [|apply (IH desc G); auto]. apply bind_inv in Q as (st & Es & Q). apply bind_inv in Q as (s & E & Q).
  assert (B1 : becomes G (d_graph s)) by (change G with (d_graph (DSt G ∅ desc ∅)); eapply process_ancestors_neat; [exact OR|exact N|exact E]). apply (becomes_trans _ _ _ B1). apply (IH (d_desc s) (d_graph s)); [apply B1|auto].
Qed.


(** ** Boolean optimization *)
Lemma fix_redundants_neat n : forall l G G', neat G -> fix_redundants n l G = Some G' -> becomes G G'.
Proof. induction l as [|p l IH]; intros G G' N Q; cbn [fix_redundants] in Q; [injection Q as <-; apply becomes_refl; auto|]. apply bind_inv in Q as (G1 & E1 & Q). pose proof (process_constant_neat _ _ _ _ _ N E1) as B1. apply (becomes_trans _ _ _ B1 (IH _ _ (proj1 B1) Q)). Qed.
Lemma replace_all_neat g g' : forall l G G', neat G -> is_Some (gs G !! g) -> is_Some (gs G !! g') -> replace_all l g g' G = Some G' -> becomes G G'.
Proof. induction l as [|p l IH]; intros G G' N S1 S2 Q; cbn [replace_all] in Q; [injection Q as <-; apply becomes_refl; auto|]. apply bind_inv in Q as (G1 & E1 & Q). pose proof (replace_neat _ _ _ _ _ N S1 S2 E1) as B1. apply (becomes_trans _ _ _ B1). apply IH; [apply B1|apply B1; auto|apply B1; auto|auto]. Qed.
Lemma target_regular v : regular (target_type v).
Proof. unfold target_type. destruct (_ =? _); auto with neat. Qed.
Lemma fix_targets_neat users V n : forall l root G root' G', neat G -> is_Some (gs G !! root) -> (forall d, fit G (signed_node n (opt V d))) -> fix_targets users V n l (root, G) = Some (root', G') -> becomes G G' /\ is_Some (gs G' !! root').
Proof.
  induction l as [|d l IH]; intros root G root' G' N Sr HF Q; cbn [fix_targets] in Q; [injection Q as <- <-; split; [apply becomes_refl; auto|auto]|]. apply bind_inv in Q as (x & Ex & Q). apply bind_inv in Q as ([root1 G1] & E1 & Q).
  assert (K : becomes G G1 /\ is_Some (gs G1 !! root1)).
  { clear Q IH. destruct (conn_eqb _ _).
    - destruct (constant x); [injection E1 as <- <-; split; [apply becomes_refl; auto|auto]|]. apply bind_inv in E1 as (G2 & E2 & E1). injection E1 as <- <-. pose proof (add_arg_neat _ _ _ _ N (HF d) E2) as B2. split; [auto|apply B2; auto].
    - destruct (new_gate _ G) as [G2 m] eqn:N1. destruct (new_neat _ _ _ _ N (target_regular _) N1) as [B1 S1]. apply bind_inv in E1 as (G3 & E2 & E1). assert (B2 : becomes G2 G3) by (eapply add_arg_neat; [apply B1| |exact E2]; apply (fit_grows G); [apply B1|apply HF]). pose proof (becomes_trans _ _ _ B1 B2) as B12.
      assert (Sd : is_Some (gs G3 !! d)) by (apply B12; eauto). assert (Sm : is_Some (gs G3 !! m)) by (apply B2; auto).
      apply bind_inv in E1 as ([root2 G4] & E3 & E1). assert (K3 : becomes G3 G4 /\ is_Some (gs G4 !! root2)).
      { destruct (d =? root); [injection E3 as <- <-; split; [apply becomes_refl, B12|auto]|]. apply bind_inv in E3 as (G5 & E4 & E3). injection E3 as <- <-. pose proof (replace_all_neat _ _ _ _ _ (proj1 B12) Sd Sm E4) as B4. split; [auto|apply B4, B12; auto]. }
      destruct K3 as [B3 S3]. apply bind_inv in E1 as (G5 & E5 & E1). injection E1 as <- <-. assert (B5 : becomes G4 G5) by (eapply add_arg_neat; [apply B3| |exact E5]; apply fit_gate; [apply B3|apply B3; auto]).
      split; [apply (becomes_trans _ _ _ B12 (becomes_trans _ _ _ B3 B5))|apply B5; auto]. }
  destruct K as [B1 S1]. destruct (IH root1 G1 root' G' (proj1 B1) S1 ltac:(intros e; apply (fit_grows G); [apply B1|apply HF]) Q) as [B2 S2]. split; [apply (becomes_trans _ _ _ B1 B2)|auto].
Qed.
(** If no gate is complemented, a common gate that fails makes no gate succeed. *)
Section Failing.
Context (order : graph -> Z -> list Z) (ORDER : P_Preprocess.gate_order order) (G : graph) (N : neat G) (n : Z) (Ln : 1 < n).
Definition failing (V : optis) : Prop := (loose \/ neg n) \/ forall g, 0 <= opt V g.
Lemma determine_failing x nf v : regular (g_type x) -> 0 <= nf -> determine x nf 0 = Some v -> 0 <= v.
Proof.
  intros T L Q. unfold determine in Q. destruct (Z.eqb_spec (nf + 0) 0) as [E|E]; [injection Q as <-; lia|]. destruct T as [T|[T|[T|[_ T]]]]; rewrite T in Q.
  - injection Q as <-. destruct (_ <=? nf); [lia|]. cbn. lia.
  - injection Q as <-. destruct (Z.leb_spec 1 nf); lia.
  - destruct (_ =? 1); [|discriminate]. injection Q as <-. destruct (Z.leb_spec 1 nf); lia.
  - destruct (Z.ltb_spec (g_min x) (size (g_args x))) as [L2|L2]; [|discriminate]. injection Q as <-. destruct (_ <=? nf); [lia|]. destruct (Z.leb_spec (size (g_args x) - g_min x + 1) 0); lia.
Qed.
Lemma propagate_failing : forall fuel g s s', failing (p_opti s) -> propagate order fuel G n g s = Some s' -> failing (p_opti s').
Proof.
  induction fuel as [|fuel IH]; intros g s s' F Q; cbn [propagate] in Q; [discriminate|]. destruct (decide _); [|injection Q as <-; auto]. destruct (_ || _); [discriminate|]. apply bind_inv in Q as (x & Ex & Q). apply bind_inv in Q as ([[s1 nf] ns] & E1 & Q).
  assert (X : forall l s nf s' nf' ns', (forall a, In a l -> loose \/ 0 < a) -> failing (p_opti s) -> 0 <= nf -> propagate_args (propagate order fuel G n) l s nf 0 = Some (s', nf', ns') -> (loose \/ neg n) \/ (forall g, 0 <= opt (p_opti s') g) /\ 0 <= nf' /\ ns' = 0).
  { induction l as [|a l IHl]; intros t f t' f' u' HP F1 L1' Q1; cbn [propagate_args] in Q1; [injection Q1 as <- <- <-; destruct F1; auto|]. apply bind_inv in Q1 as (t1 & E2 & Q1). destruct (IH _ _ _ F1 E2) as [F2|F2]; [left; auto|]. destruct (HP a ltac:(left; auto)) as [La|La]; [left; auto|]. pose proof (F2 (Z.abs a)) as Fa.
    destruct (Z.eqb_spec (opt (p_opti t1) (Z.abs a) * Z.sgn a) (-1)) as [K|K]; [exfalso; rewrite (Z.sgn_pos a) in K by lia; rewrite Z.mul_1_r in K; rewrite K in Fa; lia|]. eapply IHl; [|right; exact F2| |exact Q1]; [intros b Ib; apply HP; right; auto|]. match goal with |- context [if ?b then _ else _] => destruct b end; lia. }
  apply X in E1 as [E1|(F1 & L1' & ->)]; [left; auto| |intros a Ia; apply (Permutation_in _ (ORDER G g x Ex)) in Ia; apply List.filter_In in Ia as [Ia Ga]; unfold is_gate in Ga; destruct (gs G !! Z.abs a) as [y|] eqn:Ey; [|discriminate]; apply (fit_leaf_or_pos G a N (nt_args _ N g x a Ex Ia)); eauto|exact F|lia].
  destruct (negb _); [discriminate|]. apply bind_inv in Q as (v & Ev & Q). injection Q as <-. cbn [p_opti].
  match type of Ev with determine x (if ?w =? 1 then _ else _) _ = _ => assert (W : (loose \/ neg n) \/ 0 <= w) end.
  { destruct (gs G !! n) eqn:En; [right; lia|]. destruct (has n (g_args x)); [right; pose proof (F1 n); lia|]. destruct (has (- n) (g_args x)) eqn:Hn; [|right; lia]. left. apply has_In in Hn. destruct (nt_args _ N g x _ Ex Hn) as [_ [K|[K|K]]]; [auto|lia|rewrite Z.opp_involutive in K; auto]. }
  destruct W as [W|W]; [left; auto|]. right. intros h. unfold opt. destruct (Z.eq_dec h g) as [->|NE]; [rewrite lookup_insert; cbn [default from_option id]|rewrite lookup_insert_ne by auto; apply F1].
  match type of Ev with determine x (if ?w =? 1 then _ else _) (if _ then ?y else ?z) = _ => destruct (Z.eqb_spec w (-1)) as [K|K]; [rewrite K in W; lia|]; destruct (Z.eqb_spec w 1); (eapply determine_failing; [apply (nt_type _ N g x Ex)| |exact Ev]; lia) end.
Qed.
Lemma collect_failing desc : forall fuel g st st', failing st.1 -> collect order fuel G desc n g st = Some st' -> failing st'.1.
Proof.
  induction fuel as [|fuel IH]; intros g st st' F Q; cbn [collect] in Q; [discriminate|]. destruct (decide _); [|injection Q as <-; auto]. destruct (negb _); [injection Q as <-; auto|].
  assert (X : forall l st st', failing st.1 -> collect_args (collect order fuel G desc n) n l st = Some st' -> failing st'.1).
  { induction l as [|a l IHl]; intros t t' F1 Q1; cbn [collect_args] in Q1; [injection Q1 as <-; auto|]. apply bind_inv in Q1 as (t1 & E2 & Q1). pose proof (IH _ _ _ F1 E2) as F2. eapply IHl; [|exact Q1]. destruct (_ || _); exact F2. }
  eapply X; [|exact Q]. cbn [fst]. destruct F as [F|F]; [left; auto|right]. intros h. unfold opt. destruct (Z.eq_dec h g) as [->|NE]; [rewrite lookup_insert; cbn; lia|rewrite lookup_insert_ne by auto; apply F].
Qed.
End Failing.
Lemma common_node_neat parents order users arrange mods fuel n worthwhile root G root' G' : P_Preprocess.gate_order order -> neat G -> is_Some (gs G !! root) -> 1 < n -> preach G root n ->
  process_common_node parents order users arrange mods fuel n worthwhile root G = Some (root', G') -> becomes G G' /\ is_Some (gs G' !! root').
Proof.
  intros OR N Sr Ln RN Q. unfold process_common_node in Q. apply bind_inv in Q as ([marks om] & _ & Q). apply bind_inv in Q as (M & _ & Q). apply bind_inv in Q as (s & Es & Q). apply bind_inv in Q as ([V D] & EV & Q). destruct worthwhile; [|injection Q as <- <-; split; [apply becomes_refl; auto|auto]].
  apply bind_inv in Q as ([D' Rd] & _ & Q). destruct Rd; [injection Q as <- <-; split; [apply becomes_refl; auto|auto]|]. apply bind_inv in Q as (G1 & E1 & Q). pose proof (fix_redundants_neat _ _ _ _ N E1) as B1.
  assert (KN : known G n).
  { destruct RN as (x & a & Ex & Ia & R). assert (K0 : known G a) by apply (nt_args _ N root x a Ex Ia). inversion R as [Q1|j y b RJ Ej Ib Q1]; subst; [unfold known in *; rewrite ?Z.abs_involutive; auto|]. pose proof (nt_args _ N j y b Ej Ib) as [K1 _]. unfold known in *. rewrite Z.abs_involutive. auto. }
  assert (HF : forall d, fit G (signed_node n (opt V d))).
  { intros d. unfold signed_node. destruct (Z.ltb_spec (opt V d) 0) as [L|L]; [|split; [auto|right; left; lia]]. split; [apply negate_known; auto|].
    assert (F0 : failing n (p_opti (PSt marks ∅ {[n := 1]}))) by (right; intros g; cbn [p_opti]; unfold opt; destruct (Z.eq_dec g n) as [->|NE]; [rewrite lookup_singleton; cbn; lia|rewrite lookup_singleton_ne by auto; cbn; lia]).
    pose proof (propagate_failing order OR G N n Ln _ _ _ _ F0 Es) as F1. assert (F2 : failing n V) by (destruct (negb _); [injection EV as <- _; auto|apply (collect_failing order G n _ _ _ _ _ (F1 : failing n (p_opti s, ∅).1) EV)]). destruct F2 as [[F2|F2]|F2]; [auto|right; right; rewrite Z.opp_involutive; auto|]. specialize (F2 d). lia. }
  destruct (fix_targets_neat users V n _ root G1 root' G' (proj1 B1) (proj2 B1 _ Sr) ltac:(intros d; apply (fit_grows G); [apply B1|apply HF]) Q) as [B2 S2]. split; [apply (becomes_trans _ _ _ B1 B2)|auto].
Qed.

(** ** Distributivity *)
Lemma share_list_neat rep j : forall l G G', neat G -> share_list rep l j G = Some G' -> becomes G G'.
Proof. induction l as [|a l IH]; intros G G' N Q; cbn [share_list] in Q; [injection Q as <-; apply becomes_refl; auto|]. apply bind_inv in Q as (G1 & E1 & Q). pose proof (share_arg_neat _ _ _ _ _ N E1) as B1. apply (becomes_trans _ _ _ B1 (IH _ _ (proj1 B1) Q)). Qed.
Lemma move_members_neat i s cs : forall ms G G', neat G -> (forall m, In m ms -> is_Some (gs G !! m)) -> move_members i s cs ms G = Some G' -> becomes G G'.
Proof.
  induction ms as [|m ms IH]; intros G G' N HM Q; cbn [move_members] in Q; [injection Q as <-; apply becomes_refl; auto|]. apply bind_inv in Q as (G1 & E1 & Q). pose proof (erase_arg_neat _ _ _ _ N E1) as B1. apply bind_inv in Q as (G2 & E2 & Q).
  assert (B2 : becomes G1 G2) by (eapply add_arg_neat; [apply B1| |exact E2]; apply fit_gate; [apply B1|apply B1, HM; left; auto]). apply bind_inv in Q as (G3 & E3 & Q). pose proof (erase_all_neat _ _ _ _ (proj1 B2) E3) as B3. apply bind_inv in Q as (x & Ex & Q). destruct (_ =? 0); [discriminate|]. apply bind_inv in Q as (G4 & E4 & Q).
  assert (B4 : becomes G3 G4) by (destruct (_ =? 1); [apply (set_type_neat _ _ _ _ (proj1 B3) reg_null E4)|injection E4 as <-; apply becomes_refl, B3]).
  pose proof (becomes_trans _ _ _ B1 (becomes_trans _ _ _ B2 (becomes_trans _ _ _ B3 B4))) as B. apply (becomes_trans _ _ _ B). apply IH; [apply B|intros k Ik; apply B, HM; right; auto|auto].
Qed.
Lemma transform_once_neat i u o G G' s : u = kAnd \/ u = kOr -> neat G -> (forall m, In m o.2 -> is_Some (gs G !! m)) -> transform_once i u o G = Some (G', s) -> becomes G G'.
Proof.
  intros Hu N HM Q. destruct o as [cs ms]. cbn [transform_once] in Q. cbn in HM. apply bind_inv in Q as (x & E & Q). apply bind_inv in Q as ([G1 p] & E1 & Q). assert (Ru : regular u) by (destruct Hu as [-> | ->]; auto with neat).
  assert (B1 : becomes G G1).
  { destruct (_ =? _).
    - apply bind_inv in E1 as (t & T & E1). apply bind_inv in E1 as (G2 & E2 & E1). injection E1 as <- <-. eapply set_type_neat; [exact N| |exact E2]. destruct (nt_type _ N i x E) as [K|[K|[K|[_ K]]]]; rewrite K in T; try discriminate; injection T as <-; auto.
    - destruct (new_gate u G) as [G2 q] eqn:N1. destruct (new_neat _ _ _ _ N Ru N1) as [B2 S2]. apply bind_inv in E1 as (G3 & E3 & E1). injection E1 as <- <-. apply (becomes_trans _ _ _ B2). eapply add_arg_neat; [apply B2| |exact E3]. apply fit_gate; [apply B2|auto]. }
  destruct (new_gate (Distribute.dual u) G1) as [G2 q] eqn:N1. destruct (new_neat (Distribute.dual u) G1 G2 q (proj1 B1) ltac:(destruct Hu as [-> | ->]; cbn; auto with neat) N1) as [B2 S2]. apply bind_inv in Q as (G3 & E3 & Q). assert (B3 : becomes G2 G3) by (eapply add_arg_neat; [apply B2| |exact E3]; apply fit_gate; [apply B2|auto]).
  destruct ms as [|rep ms]; [discriminate|]. apply bind_inv in Q as (G4 & E4 & Q). pose proof (share_list_neat _ _ _ _ _ (proj1 B3) E4) as B4. apply bind_inv in Q as (G5 & E5 & Q). injection Q as <- <-. pose proof (becomes_trans _ _ _ B1 (becomes_trans _ _ _ B2 (becomes_trans _ _ _ B3 B4))) as B.
  apply (becomes_trans _ _ _ B). eapply (move_members_neat _ _ _ (rep :: ms)); [apply B| |exact E5]. intros m Im. apply B, HM. auto.
Qed.
Lemma transform_neat u : u = kAnd \/ u = kOr -> forall k i group G G', neat G -> (forall o m, In o group -> In m o.2 -> is_Some (gs G !! m)) -> transform k i u group G = Some G' -> becomes G G'.
Proof.
  intros Hu. induction k as [|k IH]; intros i group G G' N HM Q; destruct group as [|o group]; cbn [transform] in Q; try discriminate; try (injection Q as <-; apply becomes_refl; exact N).
  apply bind_inv in Q as ([G1 s] & E1 & Q). assert (B1 : becomes G G1) by (eapply transform_once_neat; [exact Hu|exact N| |exact E1]; intros m Im; apply (HM o m); [left; auto|auto]). apply (becomes_trans _ _ _ B1). eapply (IH s); [apply B1| |exact Q].
  intros p m Ip Im. apply in_map_iff in Ip as (p0 & <- & I0). cbn in Im. apply B1, (HM p0 m); [right; auto|auto].
Qed.
Lemma exclusive_neat i : forall k cands G G' ex, neat G -> exclusive k i cands G = Some (G', ex) -> becomes G G' /\ incl ex cands.
Proof.
  induction k as [|k IH]; intros cands G G' ex N Q; destruct cands as [|c cands]; cbn [exclusive] in Q; try discriminate; try (injection Q as <- <-; split; [apply becomes_refl; exact N|intros a []]).
  apply bind_inv in Q as (G1 & E1 & Q). apply bind_inv in Q as ([G2 ex2] & E2 & Q). injection Q as <- <-. pose proof (erase_all_neat _ _ _ _ N E1) as B1. destruct (IH _ _ _ _ (proj1 B1) E2) as [B2 I2]. split; [apply (becomes_trans _ _ _ B1 B2)|]. intros a [<-|Ia]; [left; auto|]. right. apply I2, List.filter_In in Ia. tauto.
Qed.
Lemma clone_members_neat parents : forall ms G G' sws, neat G -> clone_members parents ms G = Some (G', sws) -> becomes G G' /\ forall m c, In (m, c) sws -> is_Some (gs G' !! c).
Proof.
  induction ms as [|m ms IH]; intros G G' sws N Q; cbn [clone_members] in Q; [injection Q as <- <-; split; [apply becomes_refl; auto|intros ? ? []]|]. apply bind_inv in Q as ([G1 sw] & E1 & Q). apply bind_inv in Q as ([G2 sws2] & E2 & Q). injection Q as <- <-.
  assert (K : becomes G G1 /\ forall m c, In (m, c) sw -> is_Some (gs G1 !! c)).
  { destruct (1 <? _); [|injection E1 as <- <-; split; [apply becomes_refl; auto|intros ? ? []]]. apply bind_inv in E1 as ([G3 c] & Ec & E1). injection E1 as <- <-. destruct (clone_neat _ _ _ _ N Ec) as [B3 S3]. split; [auto|]. intros m' c' [K|[]]. injection K as <- <-. auto. }
  destruct K as [B1 W1]. destruct (IH _ _ _ (proj1 B1) E2) as [B2 W2]. split; [apply (becomes_trans _ _ _ B1 B2)|]. intros m' c' K. apply in_app_or in K as [K|K]; [apply B2; eauto|eauto].
Qed.
Lemma swap_members_neat i : forall sws G G', neat G -> (forall m c, In (m, c) sws -> is_Some (gs G !! c)) -> swap_members i sws G = Some G' -> becomes G G'.
Proof.
  induction sws as [|[m c] sws IH]; intros G G' N HL Q; cbn [swap_members] in Q; [injection Q as <-; apply becomes_refl; auto|]. apply bind_inv in Q as (G1 & E1 & Q). pose proof (erase_arg_neat _ _ _ _ N E1) as B1. apply bind_inv in Q as (G2 & E2 & Q).
  assert (B2 : becomes G1 G2) by (eapply add_arg_neat; [apply B1| |exact E2]; apply fit_gate; [apply B1|apply B1, (HL m c); left; auto]). pose proof (becomes_trans _ _ _ B1 B2) as B. apply (becomes_trans _ _ _ B). apply IH; [apply B|intros a' c' I; apply B, (HL a' c'); right; auto|auto].
Qed.
Definition gate_groups (G : graph) (groups : list (list moption)) : Prop := forall g o m, In g groups -> In o g -> In m o.2 -> is_Some (gs G !! m).
Lemma renamed_gate G sws m : is_Some (gs G !! m) -> (forall m c, In (m, c) sws -> is_Some (gs G !! c)) -> is_Some (gs G !! renamed sws m).
Proof. intros L H. unfold renamed. destruct (List.find _ sws) as [[m' c]|] eqn:F; [|auto]. apply find_some in F as [F _]. apply (H _ _ F). Qed.
Lemma sanitize_all_neat parents i : forall groups G G' groups', neat G -> gate_groups G groups -> sanitize_all parents i groups G = Some (G', groups') -> becomes G G' /\ gate_groups G' groups'.
Proof.
  induction groups as [|g groups IH]; intros G G' groups' N F Q; cbn [sanitize_all] in Q; [injection Q as <- <-; split; [apply becomes_refl; auto|intros ? ? ? []]|]. apply bind_inv in Q as ([G1 g1] & E1 & Q). apply bind_inv in Q as ([G2 gs2] & E2 & Q). injection Q as <- <-.
  unfold sanitize in E1. destruct g as [|o g]; [discriminate|]. apply bind_inv in E1 as ([G3 sws] & E3 & E1). apply bind_inv in E1 as (G4 & E4 & E1). injection E1 as <- <-. destruct (clone_members_neat _ _ _ _ _ N E3) as [B3 W3]. pose proof (swap_members_neat _ _ _ _ (proj1 B3) W3 E4) as B4. pose proof (becomes_trans _ _ _ B3 B4) as B.
  destruct (IH G4 G2 gs2 (proj1 B4) ltac:(intros g' o' m' I1 I2 I3; apply B; apply (F g' o' m'); [right; auto|auto|auto]) E2) as [B2 F2]. split; [apply (becomes_trans _ _ _ B B2)|]. intros g' o' m' [<-|I1] I2 I3; [|apply (F2 g' o' m' I1 I2 I3)].
  change ((o.1, map (renamed sws) o.2) :: map (fun p : moption => (p.1, map (renamed sws) p.2)) g) with (map (fun p : moption => (p.1, map (renamed sws) p.2)) (o :: g)) in I2. apply in_map_iff in I2 as (p & <- & Ip). cbn in I3. apply in_map_iff in I3 as (m0 & <- & I0). apply B2, B4. apply renamed_gate; [|exact W3]. apply B3, (F (o :: g) p m0); [left; auto|auto|auto].
Qed.
Lemma transform_all_neat i u : u = kAnd \/ u = kOr -> forall groups G G', neat G -> gate_groups G groups -> transform_all i u groups G = Some G' -> becomes G G'.
Proof.
  intros Hu. induction groups as [|g groups IH]; intros G G' N F Q; cbn [transform_all] in Q; [injection Q as <-; apply becomes_refl; auto|]. apply bind_inv in Q as (G1 & E1 & Q). assert (B1 : becomes G G1) by (eapply transform_neat; [exact Hu|exact N| |exact E1]; intros o m Io Im; apply (F g o m); [left; auto|auto|auto]).
  apply (becomes_trans _ _ _ B1). apply IH; [apply B1|intros g' o' m' I1 I2 I3; apply B1, (F g' o' m'); [right; auto|auto|auto]|auto].
Qed.
Lemma handle_distributive_neat parents sorted arranged best i u cands G G' : u = kAnd \/ u = kOr -> (forall G l, Permutation (sorted G l) l) -> (forall l, Permutation (arranged l) l) -> (forall c, In c cands -> is_Some (gs G !! c)) ->
  neat G -> handle_distributive parents sorted arranged best i u cands G = Some G' -> becomes G G'.
Proof.
  intros Hu SRT ARR HC N Q. unfold handle_distributive in Q. destruct cands as [|c0 cands0] eqn:EC; [injection Q as <-; apply becomes_refl; auto|]. rewrite <- EC in *. clear c0 cands0 EC. apply bind_inv in Q as ([G1 ex] & E1 & Q).
  assert (K : becomes G G1 /\ incl ex cands).
  { unfold filter_distributive in E1. apply bind_inv in E1 as (G2 & E2 & E1). pose proof (erase_all_neat _ _ _ _ N E2) as B2. apply bind_inv in E1 as ([G3 ex3] & E3 & E1). apply bind_inv in E1 as (G4 & E4 & E1). injection E1 as <- <-. destruct (exclusive_neat _ _ _ _ _ _ (proj1 B2) E3) as [B3 I3]. pose proof (fix_single_neat _ _ _ (proj1 B3) E4) as B4. split; [apply (becomes_trans _ _ _ B2 (becomes_trans _ _ _ B3 B4))|]. intros a Ia. apply I3 in Ia. apply (Permutation_in _ (SRT _ _)) in Ia. apply List.filter_In in Ia. tauto. }
  destruct K as [B1 I1]. destruct (_ <? 2); [injection Q as <-; auto|]. destruct (group_common_parents 1 _ []) as [|o0 opts0] eqn:EO; [injection Q as <-; auto|]. rewrite <- EO in *. clear EO o0 opts0. apply bind_inv in Q as (groups & E2 & Q). apply bind_inv in Q as ([G2 groups2] & E3 & Q).
  assert (GM : forall g o m, In g groups -> In o g -> In m o.2 -> In m ex) by (apply (grouped_members arranged best ARR _ _ _ E2)).
  destruct (sanitize_all_neat parents i groups G1 G2 groups2 (proj1 B1)) as [B2 F2]; [intros g o m Ig Io Im; apply B1, HC, I1, (GM g o m Ig Io Im)|exact E3|]. apply (becomes_trans _ _ _ B1 (becomes_trans _ _ _ B2 (transform_all_neat i u Hu _ _ _ (proj1 B2) F2 Q))).
Qed.

(** ** The phases *)
Lemma phase_neat root comp G root' comp' G' : neat G -> is_Some (gs G !! root) -> flagged comp -> P_Preprocess.phase root comp G root' comp' G' -> neat G' /\ is_Some (gs G' !! root') /\ flagged comp'.
Proof.
  intros N Sr HF P. destruct P as [G' ST|G' comp' HN E|parents expired fuel G' NC E|parents expired fuel t root' comp' G' NC E|single order fuel G' SI OR TI E|parents timed order fuel n dest desc G' PA OR TM Ln E|parents order users arrange mods fuel n worthwhile root' G' PA [EP1 EP2] OR US USN AR ARN Ln RN RM E|u parents sorted arranged best i cands xi G' Hu PA SO AR RI Ei Ti ND HC E].
  - destruct (step_neat _ _ N ST) as [N1 I1]. auto.
  - destruct (negative_neat _ _ _ _ _ N E) as [[N1 I1] ->]. auto.
  - destruct (remove_null_neat _ _ _ _ _ N E) as [N1 I1]. auto.
  - apply (trivial_neat _ _ _ _ _ _ _ _ _ _ N Sr HF E).
  - destruct (phase_four_neat single order OR _ _ _ _ _ N Sr HF E) as [N1 I1]. split; [auto|]. split; [auto|right; auto].
  - destruct (process_destinations_neat _ _ _ _ _ OR _ _ _ _ N E) as [N1 I1]. auto.
  - destruct (common_node_neat _ _ _ _ _ _ _ _ _ _ _ _ OR N Sr (proj1 Ln) RN E) as [[N1 _] S1]. auto.
  - assert (HC' : forall c, In c cands -> is_Some (gs G !! c)) by (intros c Ic; destruct (HC c Ic) as (_ & x & Ex & _); eauto). destruct (handle_distributive_neat _ _ _ _ _ _ _ _ _ Hu SO AR HC' N E) as [N1 I1]. auto.
Qed.
Lemma preprocess_neat root comp G root' comp' G' : P_Preprocess.preprocess root comp G root' comp' G' -> neat G -> is_Some (gs G !! root) -> flagged comp -> neat G' /\ is_Some (gs G' !! root') /\ flagged comp'.
Proof. intros P. induction P as [root comp G|root comp G root1 comp1 G1 root2 comp2 G2 P _ IH]; intros N Sr HF; [auto|]. destruct (phase_neat _ _ _ _ _ _ N Sr HF P) as (N1 & S1 & F1). auto. Qed.
End Neat.
