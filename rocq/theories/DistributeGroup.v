(** Factoring of distributive arguments: a group of options. *)
From stdpp Require Import gmap.
From Coq Require Import Lia Permutation List.
From Verif Require Import Pdag PdagProofs PdagAdd PdagSem PdagKeeps Preproc PreprocNorm Rooted BoolOptProofs BoolOptMain Distribute DistributeProofs DistributeLevel.
Import ListNotations.
Open Scope Z_scope.

Lemma minus_In a l cs : In a (minus l cs) <-> In a l /\ ~ In a cs.
Proof. unfold minus. rewrite filter_In, negb_true_iff, has_false. tauto. Qed.
Lemma minus_NoDup l cs : List.NoDup l -> List.NoDup (minus l cs).
Proof. apply List.NoDup_filter. Qed.

(** Each option has gates of the option before. *)
Fixpoint nested (B : list Z) (group : list moption) : Prop :=
  match group with [] => True | o :: group => incl o.2 B /\ nested o.2 group end.
Record group_ok (G : graph) (group : list moption) : Prop := {
  o_nd : forall o, In o group -> List.NoDup o.1 /\ List.NoDup o.2 /\ o.2 <> [];
  o_args : forall o m a x, In o group -> In m o.2 -> gs G !! m = Some x -> In a o.1 -> In a (g_args x) }.
(** The arguments [B] of the gate [i] can be factored. *)
Record ready (G : graph) (root i : Z) (u : conn) (B : list Z) : Prop := {
  r_type : exists xi, gs G !! i = Some xi /\ coalesce_type (g_type xi) = Some (dual u) /\ forall m, In m B -> In m (g_args xi);
  r_mem : forall m, In m B -> exists x, gs G !! m = Some x /\ member_gate u x;
  r_sole : forall m, In m B -> sole G root i m;
  r_live : reach G root i }.
(** What stays for the gates that are not in [B]. *)
Record stays (G : graph) (root i : Z) (B : list Z) (G' : graph) : Prop := {
  y_gates : forall j, j <> i -> ~ In j B -> j < nxt G -> gs G' !! j = gs G !! j;
  y_sole : forall o m, 1 < m < nxt G -> ~ In o B -> ~ In m B -> sole G root o m -> sole G' root o m;
  y_self : forall xi a, gs G !! i = Some xi -> In a (g_args xi) -> ~ In a B -> exists x, gs G' !! i = Some x /\ g_type x = g_type xi /\ forall b, In b (g_args xi) -> ~ In b B -> In b (g_args x);
  y_live : reach G' root i }.

Lemma transform_ok root u : u = kAnd \/ u = kOr -> forall k group i B G G', wf G -> acyclic G -> is_Some (gs G !! root) -> ready G root i u B -> group_ok G group -> nested B group ->
  transform k i u group G = Some G' -> same_function root G root G' /\ stays G root i B G'.
Proof.
  intros Hu. induction k as [|k IH]; intros group i B G G' W AC Sr RB OK NS H; destruct group as [|o group]; cbn [transform] in H; try discriminate.
  1,2: injection H as <-; split; [apply same_refl; auto|]; constructor; [auto|auto| |apply RB]; intros xi a E Ia Na; exists xi; auto.
  destruct o as [cs ms]. apply bind_inv in H as ([G1 s] & E1 & H). destruct NS as [INC NS]. cbn [snd fst] in *. assert (AC' := AC). destruct AC' as [r R].
  destruct RB as [(xi & Ei & Ty & IB) MB SB LB]. destruct (o_nd _ _ OK (cs, ms) ltac:(left; auto)) as (ND1 & ND2 & NE). cbn [fst snd] in *.
  assert (HM : forall m, In m ms -> In m (g_args xi) /\ exists x, gs G !! m = Some x /\ member_gate u x /\ forall a, In a cs -> In a (g_args x)).
  { intros m Im. split; [auto|]. destruct (MB m ltac:(auto)) as (x & Ex & Mx). exists x. split; [auto|]. split; [auto|]. intros a Ia. apply (o_args _ _ OK (cs, ms) m a x ltac:(left; auto) Im Ex Ia). }
  pose proof (transform_once_op i u cs ms G xi r G1 s W R Hu Ei ND2 ND1 HM E1) as LV.
  assert (SOL : forall m, In m ms -> sole G root i m) by auto.
  pose proof (lv_same G root i u cs ms xi G1 s r W R Hu Ei HM NE LV Ty SOL LB Sr) as SF.
  pose proof (lv_s G i u cs ms xi G1 s LV) as LS.
  destruct (IH (map (fun p : moption => (minus p.1 cs, p.2)) group) s ms G1 G') as [SF' ST]; [apply SF|apply SF|apply SF| | | |exact H|].
  - constructor.
    + destruct (l_sub _ _ _ _ _ _ _ _ LV) as (x & Ex & Tx & Q). exists x. split; [auto|]. split; [rewrite Tx; destruct Hu as [-> | ->]; auto|]. intros m Im. apply Q. auto.
    + intros m Im. destruct (HM m Im) as (_ & x & Ex & _). destruct (l_mem _ _ _ _ _ _ _ _ LV m x Im Ex) as (x' & Ex' & Mx' & _). eauto.
    + intros m Im. exact (lv_sole_sub G root i u cs ms xi G1 s r W R Hu Ei HM NE LV SOL LB Sr m Im).
    + exact (lv_reach_sub G root i u cs ms xi G1 s r W R Ei HM LV LB).
  - constructor.
    + intros p Ip. apply in_map_iff in Ip as (q & <- & Iq). cbn [fst snd]. destruct (o_nd _ _ OK q ltac:(right; auto)) as (K1 & K2 & K3). split; [apply minus_NoDup; auto|auto].
    + intros p m a x' Ip Im Ex' Ia. apply in_map_iff in Ip as (q & <- & Iq). cbn [fst snd] in *. apply minus_In in Ia as [Ia Na].
      assert (Ims : In m ms).
      { clear - NS Iq Im. assert (X : forall g B, nested B g -> In q g -> In m B). { induction g as [|o g IHg]; intros B N I; [destruct I|]. destruct N as [N1 N2]. destruct I as [->|I]; [apply N1; auto|]. apply N1. apply (IHg o.2 N2 I). } apply (X group ms NS Iq). }
      destruct (HM m Ims) as (_ & x & Ex & _). destruct (l_mem _ _ _ _ _ _ _ _ LV m x Ims Ex) as (y & Ey & _ & Q). rewrite Ex' in Ey. injection Ey as <-. apply Q. split; [apply (o_args _ _ OK q m a x ltac:(right; auto) Im Ex Ia)|auto].
  - clear - NS. revert NS. generalize ms as C. induction group as [|o g IHg]; intros C N; [exact I|]. destruct N as [N1 N2]. split; [exact N1|]. apply (IHg o.2 N2).
  - split; [apply (same_trans root G root G1 root G' W SF SF')|]. destruct ST as [y1 y2 y3 y4].
    assert (Li : 1 < i < nxt G) by (apply (proj2 W i xi Ei)). assert (NI : ~ In i ms) by (apply (lv_ni G i u cs ms xi r W R Ei HM)).
    assert (NIB : ~ In i B).
    { intros Q. pose proof (IB i Q) as Q1. pose proof (R i xi i Ei Q1) as Q2. rewrite Z.abs_eq in Q2 by lia. specialize (Q2 ltac:(eauto)). lia. }
    assert (GI : gs G' !! i = gs G1 !! i) by (apply y1; [lia|auto|pose proof (f_nxt _ _ _ _ SF); lia]).
    constructor.
    + intros j J1 J2 J3. assert (~ In j ms) by (intros Q; apply J2, INC, Q). rewrite y1 by (auto; try lia; pose proof (f_nxt _ _ _ _ SF); lia). apply (l_other _ _ _ _ _ _ _ _ LV); auto.
    + intros o m Lm No Nm Q. apply y2; [pose proof (f_nxt _ _ _ _ SF); lia|intros K; apply No, INC, K|intros K; apply Nm, INC, K|].
      apply (lv_sole_other G root i u cs ms xi G1 s r W R Hu Ei HM NE LV SOL LB Sr o m Lm); auto.
    + intros xi0 a E0 Ia Na. rewrite Ei in E0. injection E0 as <-. rewrite GI. destruct (l_top _ _ _ _ _ _ _ _ LV) as [(_ & _ & ALL & _)|(_ & _ & (x & Ex & Tx & _ & Q) & _)]; [exfalso; apply Na, INC, ALL, Ia|].
      exists x. split; [auto|]. split; [auto|]. intros b Ib Nb. apply Q. right. split; [auto|]. intros K. apply Nb, INC, K.
    + (* still live *)
      assert (RI1 : reach G1 root i) by (apply (lv_path G root i u cs ms xi G1 s r W R Ei HM LV i LB); constructor).
      (* the path to i does not meet s or its members *)
      destruct (lv_ranked G i u cs ms xi G1 s r W R Ei HM NE LV) as [r1 R1].
      assert (X : forall j, reach G1 root j -> reach G1 j i -> reach G' root j).
      { induction 1 as [|p x a Hp IHp Ep Ia]; intros Q; [constructor|]. assert (PK : preach G1 p i) by (exists x, a; auto). assert (Rp : reach G1 p i) by (apply (preach_reach _ _ _ PK)). specialize (IHp Rp).
        destruct (preach_neq G1 r1 p i R1 PK) as [Np Lp]. assert (S1i : is_Some (gs G1 !! i)) by (destruct (lv_old G i u cs ms xi G1 s W LV i xi Ei) as [z Ez]; eauto). specialize (Lp S1i).
        eapply reach_arg; [exact IHp| |exact Ia]. rewrite y1; [auto| | |apply (proj2 (l_wf _ _ _ _ _ _ _ _ LV) p x Ep)].
        - intros ->. pose proof (reach_rank G1 r1 i s R1) as K. assert (RIS : reach G1 i s).
          { apply (lv_reach_sub G i i u cs ms xi G1 s r W R Ei HM LV). constructor. } destruct (K RIS) as [E|E]; [eauto|lia|lia].
        - intros Im. assert (RIm : reach G1 i p).
          { eapply reach_trans; [apply (lv_reach_sub G i i u cs ms xi G1 s r W R Ei HM LV); constructor|]. destruct (l_sub _ _ _ _ _ _ _ _ LV) as (xs & Exs & _ & Qs). pose proof (lv_m G u cs ms xi W HM p Im). replace p with (Z.abs p) by lia. eapply reach_arg; [constructor|exact Exs|]. apply Qs. auto. }
          destruct (reach_rank G1 r1 i p R1 RIm) as [E|E]; [eauto|lia|lia]. }
      apply (X i RI1). constructor.
Qed.
