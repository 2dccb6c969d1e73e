(** Products of a ZBDD with modules: from the products of one diagram and those of its modules to
    the expanded products.  Stated for a function of atoms (variables and modules) and
    the values of the atoms, for minimal cut sets and for prime implicants. *)
From stdpp Require Import gmap.
From Coq Require Import List ZArith Lia Bool Permutation.
Import ListNotations.
From Verif Require Import Pdag PdagProofs Zbdd ZbddProofs ZbddHistory ZbddSigned ZbddModules ZbddModulesProofs.
Open Scope Z_scope.

(** Decision by enumeration of the assignments to a list of variables *)
Definition put_value (ρ : Z -> bool) (v : Z) (b : bool) : Z -> bool := fun w => if w =? v then b else ρ w.
Fixpoint all_values (vs : list Z) (f : (Z -> bool) -> bool) : bool :=
  match vs with
  | [] => f (fun _ => false)
  | v :: vs => all_values vs (fun ρ => f (put_value ρ v true)) && all_values vs (fun ρ => f (put_value ρ v false))
  end.
Definition looks_at (vs : list Z) (f : (Z -> bool) -> bool) : Prop := forall ρ ρ', (forall v, In v vs -> ρ v = ρ' v) -> f ρ = f ρ'.
Lemma looks_at_put vs v b f : looks_at (v :: vs) f -> looks_at vs (fun ρ => f (put_value ρ v b)).
Proof. intros H ρ ρ' A. apply H. intros w [<-|W]; unfold put_value; [rewrite Z.eqb_refl; auto|]. destruct (w =? v); auto. Qed.
Lemma all_values_true vs : forall f, looks_at vs f -> all_values vs f = true -> forall ρ, f ρ = true.
Proof.
  induction vs as [|v vs IH]; intros f L A ρ; simpl in A.
  - rewrite <- A. apply L. intros v [].
  - apply andb_true_iff in A as [A1 A0]. destruct (ρ v) eqn:E.
    + rewrite <- (IH _ (looks_at_put vs v true f L) A1 ρ). apply L. intros w _. unfold put_value. destruct (Z.eqb_spec w v) as [->|]; auto.
    + rewrite <- (IH _ (looks_at_put vs v false f L) A0 ρ). apply L. intros w _. unfold put_value. destruct (Z.eqb_spec w v) as [->|]; auto.
Qed.
Lemma all_values_false vs : forall f, all_values vs f = false -> exists ρ, f ρ = false.
Proof.
  induction vs as [|v vs IH]; intros f A; simpl in A; [eauto|]. apply andb_false_iff in A as [A|A]; apply IH in A as [ρ A]; eauto.
Qed.

(** Disjoint parts are not larger than the whole. *)
Definition share (bel : Z -> Z -> bool) (j : Z) (X : list Z) : Z := Z.of_nat (length (List.filter (bel j) X)).
Lemma total_shares bel p X : NoDup p -> (forall v j k, In v X -> In j p -> In k p -> bel j v = true -> bel k v = true -> j = k) ->
  total (fun j => share bel j X) p <= Z.of_nat (length X).
Proof.
  intros N. induction X as [|v X IH]; intros H.
  - unfold share. simpl. induction p as [|j p IHp]; simpl; [lia|]. inversion N; subst. apply IHp; auto. intros ? ? ? [].
  - assert (E : total (fun j => share bel j (v :: X)) p = total (fun j => if bel j v then 1 else 0) p + total (fun j => share bel j X) p).
    { clear. induction p as [|j p IHp]; auto. simpl. rewrite IHp. unfold share. simpl. destruct (bel j v); simpl length; lia. }
    assert (O : total (fun j => if bel j v then 1 else 0) p <= 1).
    { clear IH E. induction p as [|j p IHp]; simpl; [lia|]. inversion N as [|? ? NI ND]; subst. destruct (bel j v) eqn:B.
      - assert (total (fun j => if bel j v then 1 else 0) p <= total (fun _ => 0) p).
        { apply total_le. intros k K. destruct (bel k v) eqn:Bk; [|lia]. exfalso. apply NI.
          rewrite (H v j k); simpl; auto. }
        assert (total (fun _ => 0) p = 0) by (clear; induction p; simpl; auto). lia.
      - assert (total (fun j => if bel j v then 1 else 0) p <= 1); [|lia]. apply IHp; auto. intros u a b U A B'. apply H; simpl; auto. }
    assert (total (fun j => share bel j X) p <= Z.of_nat (length X)) by (apply IH; intros u j k U J K; apply H; simpl; auto).
    simpl length. lia.
Qed.
Lemma total_size counts p : total (Zbdd.cost counts) p = Zbdd.size counts p.
Proof. induction p as [|j p IH]; auto. simpl. rewrite size_cons. lia. Qed.

Lemma flag (b : bool) : {b = true} + {b = false}. Proof. destruct b; auto. Qed.

Section Exact.
Context (ord : Z -> Z) (top : Z) (ORD : ordering ord) (G : graph) (module : Z -> bool).
(** Settings::prime_implicants; the loss at the limit. *)
Context (pi : bool) (slack : Z) (SLACK : 0 <= slack <= 1).
Notation is_module := (ZbddModules.is_module G module).
Notation produces := (ZbddModules.produces G module).
Notation expands := (ZbddModules.expands G module).
Notation clean := (ZbddModules.clean ord top G module).
Notation walk := (ZbddModules.walk G module).
Notation walk_at := (ZbddModules.walk_at G module).

(** The literals hold; for minimal cut sets the other variables are false. *)
Definition pfits (V : Z -> Prop) (P : list Z) (ρ : Z -> bool) : Prop :=
  (forall j, In j P -> lit ρ j = true) /\ (pi = false -> forall v, V v -> ~ In v P -> ρ v = false).
Definition literals_of (V : Z -> Prop) (P : list Z) : Prop := forall j, In j P -> j <> 0 /\ V (Z.abs j) /\ (pi = false -> 0 < j).
(** The products of the function H of the variables V up to k literals *)
Record exactf (H : (Z -> bool) -> bool) (V : Z -> Prop) (z : zbdd) (k : Z) : Prop := {
  e_lits : forall P, produces z P -> literals_of V P;
  e_nodup : forall P, produces z P -> NoDup P;
  e_cons : forall P, produces z P -> Zbdd.consistent P;
  e_sound : forall P ρ, produces z P -> pfits V P ρ -> H ρ = true;
  e_complete : forall X, NoDup X -> Zbdd.consistent X -> literals_of V X -> Z.of_nat (length X) + slack <= k ->
    (forall ρ, pfits V X ρ -> H ρ = true) -> exists P, produces z P /\ incl P X;
  e_anti : forall P Q, produces z P -> produces z Q -> incl P Q -> P = Q;
  e_empty : produces z [] -> root_of z = ZB;
  e_zero : pi = false -> k = 0 -> terminal (root_of z) = true;
  e_clean : clean z;
  e_walk : forall k' n, n <= k' -> NoDup (walk k' z n) }.

Lemma is_module_opp j : is_module (- j) = is_module j.
Proof. unfold ZbddModules.is_module, ZbddGraph.is_gate. rewrite Z.abs_opp. auto. Qed.
Lemma is_module_abs j : is_module (Z.abs j) = is_module j.
Proof. destruct (Z.abs_spec j) as [[_ ->]|[_ ->]]; auto. apply is_module_opp. Qed.
Lemma lit_opp σ j : j <> 0 -> lit σ (- j) = negb (lit σ j).
Proof. intros N. unfold lit. destruct (Z.ltb_spec j 0), (Z.ltb_spec (- j) 0); try lia; rewrite ?Z.opp_involutive, ?negb_involutive; auto. Qed.
Lemma lit_assignment σ : assignment (lit σ).
Proof. intros i N. apply lit_opp. auto. Qed.
Lemma lit_eq σ σ' j : σ (Z.abs j) = σ' (Z.abs j) -> lit σ j = lit σ' j.
Proof. unfold lit. intros E. destruct (Z.ltb_spec j 0); [rewrite Z.abs_neq in E by lia; congruence|rewrite Z.abs_eq in E by lia; auto]. Qed.
(** A consistent product holds somewhere. *)
Lemma sat_lit P j : (forall i, In i P -> i <> 0) -> Zbdd.consistent P -> In j P -> lit (mem P) j = true.
Proof.
  intros N C J. unfold lit. destruct (j <? 0); [|apply mem_In; auto]. destruct (mem P (- j)) eqn:E; auto. apply mem_In in E. elim (C j J E).
Qed.
Lemma sat_pfits V P : literals_of V P -> Zbdd.consistent P -> pfits V P (mem P).
Proof.
  intros L C. split.
  - intros j J. apply sat_lit; auto. intros i I. apply (L i I).
  - intros _ v _ NI. destruct (mem P v) eqn:E; auto. apply mem_In in E. contradiction.
Qed.

Section Level.
(** Values of the atoms in terms of the variables, and the variables of an atom *)
Context (val : Z -> (Z -> bool) -> bool) (bel : Z -> Z -> bool).
Context (D vs : list Z) (both counts : Z -> bool).
Context (DPOS : forall a, In a D -> 0 < a).
Context (DET : forall a ρ ρ', In a D -> (forall v, bel a v = true -> ρ v = ρ' v) -> val a ρ = val a ρ').
Context (DISJ : forall a b v, In a D -> In b D -> bel a v = true -> bel b v = true -> a = b).
Context (PLAIN : forall a, In a D -> is_module a = false -> (forall ρ, val a ρ = ρ a) /\ forall v, bel a v = true <-> v = a).
Context (BPOS : forall a v, In a D -> bel a v = true -> 0 < v).
Context (VS : forall v, In v vs <-> exists a, In a D /\ bel a v = true).
Context (NONCONST : pi = true -> forall a b, In a D -> exists ρ, val a ρ = b).
Context (ZERO : pi = false -> forall a ρ, In a D -> both a = false -> (forall v, bel a v = true -> ρ v = false) -> val a ρ = false).
Context (BOTHM : pi = false -> forall a, both a = true -> is_module a = true).
Context (COSTS : pi = false -> forall j, counts j = true -> 0 < j /\ (In j D -> both j = false)).
Notation V := (fun v => In v vs).
Notation size := (Zbdd.size counts).
Notation cost := (Zbdd.cost counts).
Definition lv (ρ : Z -> bool) (j : Z) : bool := lit (fun a => val a ρ) j.
Notation sub a := (fun v => bel a v = true).

(** The function of the diagram *)
Context (F : (Z -> bool) -> bool) (FDEP : forall σ σ', (forall a, In a D -> σ a = σ' a) -> F σ = F σ').
Context (MONO : pi = true -> forall σ σ', (forall a, In a D -> both a = true -> σ a = σ' a) ->
  (forall a, In a D -> both a = false -> σ a = true -> σ' a = true) -> F σ = true -> F σ' = true).
Definition lfits (x : list Z) (σ : Z -> bool) : Prop :=
  (forall j, In j x -> lit σ j = true) /\ (forall i, In i D -> both i = false -> ~ In i x -> σ i = false).
Definition lproper (x : list Z) : Prop := forall j, In j x -> In (Z.abs j) D /\ (j < 0 -> both (- j) = true).

(** The family of the diagram up to the limit, and what is left after constant modules are gone *)
Context (limit : Z) (r r' : zt) (mods : list (Z * zbdd)).
Notation const := (constant_module G module mods).
Context (W : Zbdd.wf ord top r) (LITS : forall p, In p (fam r) -> lproper p) (SIZE : forall p, In p (fam r) -> size p <= limit).
Context (SOUND : forall p σ, In p (fam r) -> lfits p σ -> F σ = true).
Context (COMPLETE : forall x, NoDup x -> Zbdd.consistent x -> lproper x -> size x + slack <= limit ->
  (forall σ, lfits x σ -> F σ = true) -> ev (mem x) r = true).
Context (LEFT : left ord top const r r').
Context (TERM : pi = false -> limit = 0 -> terminal r' = true).
Context (CLEAN : forall j z, In (j, z) mods -> clean z).
Context (FOUND : forall j z, find_module j mods = Some z -> In (Z.abs j) D /\ exists o, 0 <= o /\ exactf (fun ρ => lv ρ j) (sub (Z.abs j)) z o).
Context (MODS : forall p j, In p (fam r) -> In j p -> is_module j = true ->
  exists z o, find_module j mods = Some z /\ exactf (fun ρ => lv ρ j) (sub (Z.abs j)) z o /\ limit - (size p - cost j) <= o).

Lemma lv_opp ρ j : j <> 0 -> lv ρ (- j) = negb (lv ρ j). Proof. apply lit_opp. Qed.
Lemma lv_plain ρ j : In (Z.abs j) D -> is_module j = false -> lv ρ j = lit ρ j.
Proof. intros I M. apply lit_eq. apply PLAIN; auto. rewrite is_module_abs. auto. Qed.
Lemma lv_det ρ ρ' j : In (Z.abs j) D -> (forall v, bel (Z.abs j) v = true -> ρ v = ρ' v) -> lv ρ j = lv ρ' j.
Proof. intros I H. apply lit_eq. apply DET; auto. Qed.
Lemma abs_cases j k : Z.abs j = Z.abs k -> k = j \/ k = - j. Proof. lia. Qed.

(** *** Products without constant modules *)
Definition okl (j : Z) : Prop := In (Z.abs j) D /\ (j < 0 -> both (- j) = true) /\
  (is_module j = true -> exists z o, find_module j mods = Some z /\ 0 <= o /\ exactf (fun ρ => lv ρ j) (sub (Z.abs j)) z o /\ terminal (root_of z) = false).
Definition okp (p : list Z) : Prop := NoDup p /\ Zbdd.consistent p /\ forall j, In j p -> okl j.
Lemma okp_cons i p : okp (i :: p) -> okp p /\ ~ In i p /\ ~ In (- i) p /\ okl i.
Proof.
  intros (N & C & H). inversion N; subst. split; [|split; auto; split].
  - split; auto. split; [|intros; apply H; simpl; auto]. intros j J K. apply (C j); simpl; auto.
  - intros J. apply (C i); simpl; auto.
  - apply H; simpl; auto.
Qed.
Lemma okl_nz j : okl j -> j <> 0. Proof. intros (I & _). apply DPOS in I. lia. Qed.
Lemma mcs_pos j : pi = false -> okl j -> is_module j = false -> 0 < j.
Proof.
  intros M (I & B & _) NM. pose proof (DPOS _ I). destruct (Z.le_gt_cases j 0); [|lia]. exfalso.
  specialize (B ltac:(lia)). apply (BOTHM M) in B. rewrite is_module_opp in B. congruence.
Qed.
(** In minimal cut sets one of the two literals of a module is constant. *)
Lemma unity j z o : pi = false -> 0 <= o -> exactf (fun ρ => lv ρ j) (sub (Z.abs j)) z o -> In (Z.abs j) D -> lv (fun _ => false) j = true -> terminal (root_of z) = true.
Proof.
  intros M Po X I L. destruct (Z.eq_dec o 0) as [->|NO]; [apply (e_zero _ _ _ _ X); auto|].
  destruct (e_complete _ _ _ _ X []) as (P & PR & IN); [constructor|intros ? []|intros ? []|simpl; lia| |].
  - intros ρ [_ H]. rewrite <- L. apply lv_det; auto.
  - assert (P = []) by (destruct P as [|u P]; auto; destruct (IN u); simpl; auto). subst P. rewrite (e_empty _ _ _ _ X PR). auto.
Qed.
Lemma no_both j : pi = false -> okl j -> okl (- j) -> is_module j = true -> False.
Proof.
  intros M O1 O2 MJ. pose proof (okl_nz j O1). destruct O1 as (I & _ & H1). destruct O2 as (I' & _ & H2).
  destruct (H1 MJ) as (z & o & _ & Po & X & T). destruct H2 as (z' & o' & _ & Po' & X' & T'); [rewrite is_module_opp; auto|].
  destruct (lv (fun _ => false) j) eqn:L.
  - rewrite (unity j z o M Po X I L) in T. discriminate.
  - assert (L' : lv (fun _ => false) (- j) = true) by (rewrite lv_opp, L by auto; auto). rewrite (unity (- j) z' o' M Po' X' I' L') in T'. discriminate.
Qed.

(** *** Expansion *)
Lemma exact_lit j z o Q u : exactf (fun ρ => lv ρ j) (sub (Z.abs j)) z o -> produces z Q -> In u Q -> u <> 0 /\ bel (Z.abs j) (Z.abs u) = true /\ (pi = false -> 0 < u).
Proof. intros X PQ U. apply (e_lits _ _ _ _ X Q PQ u U). Qed.
Lemma plain_bel j : In (Z.abs j) D -> is_module j = false -> bel (Z.abs j) (Z.abs j) = true.
Proof. intros I M. apply PLAIN; auto. rewrite is_module_abs. auto. Qed.
Lemma expands_inv i p P : expands mods (i :: p) P -> okp (i :: p) ->
  (is_module i = false /\ exists P', P = i :: P' /\ expands mods p P') \/
  (is_module i = true /\ exists z o Q P', find_module i mods = Some z /\ 0 <= o /\ exactf (fun ρ => lv ρ i) (sub (Z.abs i)) z o /\ terminal (root_of z) = false /\
     produces z Q /\ P = Q ++ P' /\ expands mods p P').
Proof.
  intros E O. destruct (okp_cons i p O) as (_ & _ & _ & OI). inversion E; subst.
  - left. split; auto. eauto.
  - right. split; auto. destruct OI as (_ & _ & H). destruct (H ltac:(auto)) as (z' & o & Fz & Po & X & T). assert (z' = z) by congruence. subst z'.
    exists z, o, Q, P0. repeat (split; auto).
Qed.
Lemma expands_in p : forall P, expands mods p P -> okp p -> forall u, In u P -> u <> 0 /\ (pi = false -> 0 < u) /\ exists j, In j p /\ bel (Z.abs j) (Z.abs u) = true.
Proof.
  induction p as [|i p IH]; intros P E O u U; [inversion E; subst; destruct U|].
  destruct (okp_cons i p O) as (O' & _ & _ & OI).
  destruct (expands_inv i p P E O) as [(M & P' & -> & E')|(M & z & o & Q & P' & Fz & Po & X & T & PQ & -> & E')].
  - destruct U as [<-|U].
    + split; [apply okl_nz; auto|]. split; [intros; apply mcs_pos; auto|]. exists i. split; [simpl; auto|]. apply plain_bel; auto. apply OI.
    + destruct (IH P' E' O' u U) as (? & ? & j & J & B). split; auto. split; auto. exists j. simpl; auto.
  - apply in_app_iff in U as [U|U].
    + destruct (exact_lit i z o Q u X PQ U) as (? & ? & ?). split; auto. split; auto. exists i. simpl; auto.
    + destruct (IH P' E' O' u U) as (? & ? & j & J & B). split; auto. split; auto. exists j. simpl; auto.
Qed.
Lemma other i p j u : okp (i :: p) -> In j p -> bel (Z.abs i) u = true -> bel (Z.abs j) u = true -> False.
Proof.
  intros O J B1 B2. destruct (okp_cons i p O) as ((_ & _ & O') & N1 & N2 & OI).
  pose proof (DISJ _ _ u (proj1 OI) (proj1 (O' j J)) B1 B2) as E. destruct (abs_cases i j E) as [->| ->]; auto.
Qed.
Lemma expands_nodup p : forall P, expands mods p P -> okp p -> NoDup P.
Proof.
  induction p as [|i p IH]; intros P E O; [inversion E; constructor|].
  destruct (okp_cons i p O) as (O' & _ & _ & OI).
  destruct (expands_inv i p P E O) as [(M & P' & -> & E')|(M & z & o & Q & P' & Fz & Po & X & T & PQ & -> & E')].
  - constructor; [|apply IH; auto]. intros U. destruct (expands_in p P' E' O' i U) as (_ & _ & j & J & B).
    apply (other i p j (Z.abs i) O J); auto. apply plain_bel; auto. apply OI.
  - apply nodup_app'; [apply (e_nodup _ _ _ _ X); auto|apply IH; auto|]. intros u U1 U2.
    destruct (exact_lit i z o Q u X PQ U1) as (_ & B1 & _). destruct (expands_in p P' E' O' u U2) as (_ & _ & j & J & B2). apply (other i p j _ O J B1 B2).
Qed.
Lemma expands_cons p : forall P, expands mods p P -> okp p -> Zbdd.consistent P.
Proof.
  induction p as [|i p IH]; intros P E O; [inversion E; intros ? []|].
  destruct (okp_cons i p O) as (O' & _ & _ & OI).
  destruct (expands_inv i p P E O) as [(M & P' & -> & E')|(M & z & o & Q & P' & Fz & Po & X & T & PQ & -> & E')].
  - assert (NI : forall u, In u P' -> Z.abs u = Z.abs i -> False).
    { intros u U EQ. destruct (expands_in p P' E' O' u U) as (_ & _ & j & J & B). apply (other i p j (Z.abs u) O J); auto. rewrite EQ. apply plain_bel; auto. apply OI. }
    intros u [<-|U] [K|K].
    + pose proof (okl_nz i OI). lia.
    + apply (NI _ K). apply Z.abs_opp.
    + apply (NI _ U). lia.
    + apply (IH P' E' O' u U K).
  - assert (NI : forall u v, In u Q -> In v P' -> Z.abs u = Z.abs v -> False).
    { intros u v U U' EQ. destruct (exact_lit i z o Q u X PQ U) as (_ & B1 & _). destruct (expands_in p P' E' O' v U') as (_ & _ & j & J & B2).
      rewrite EQ in B1. apply (other i p j _ O J B1 B2). }
    intros u U K. apply in_app_iff in U as [U|U]; apply in_app_iff in K as [K|K].
    + apply (e_cons _ _ _ _ X Q PQ u U K).
    + apply (NI u (- u) U K). rewrite Z.abs_opp. auto.
    + apply (NI (- u) u K U). apply Z.abs_opp.
    + apply (IH P' E' O' u U K).
Qed.
Lemma expands_part p : forall P, expands mods p P -> okp p -> forall j, In j p -> is_module j = true ->
  exists z o Q, find_module j mods = Some z /\ 0 <= o /\ exactf (fun ρ => lv ρ j) (sub (Z.abs j)) z o /\ terminal (root_of z) = false /\ produces z Q /\ incl Q P /\
    forall u, In u P -> bel (Z.abs j) (Z.abs u) = true -> In u Q.
Proof.
  induction p as [|i p IH]; intros P E O j J M; [destruct J|].
  destruct (okp_cons i p O) as (O' & _ & _ & OI).
  destruct (expands_inv i p P E O) as [(Mi & P' & -> & E')|(Mi & z & o & Q & P' & Fz & Po & X & T & PQ & -> & E')].
  - destruct J as [<-|J]; [congruence|]. destruct (IH P' E' O' j J M) as (z & o & Q & Fz & Po & X & T & PQ & I & H). exists z, o, Q.
    repeat (split; auto). { intros u U. right; auto. }
    intros u [<-|U] B; auto. exfalso. apply (other i p j (Z.abs i) O J); auto. apply plain_bel; auto. apply OI.
  - destruct J as [<-|J].
    + exists z, o, Q. repeat (split; auto). { intros u U. apply in_app_iff; auto. }
      intros u U B. apply in_app_iff in U as [U|U]; auto. exfalso. destruct (expands_in p P' E' O' u U) as (_ & _ & k & K & B'). apply (other i p k _ O K B B').
    + destruct (IH P' E' O' j J M) as (z' & o' & Q' & Fz' & Po' & X' & T' & PQ' & I & H). exists z', o', Q'.
      repeat (split; auto). { intros u U. apply in_app_iff; auto. }
      intros u U B. apply in_app_iff in U as [U|U]; auto. exfalso. destruct (exact_lit i z o Q u X PQ U) as (_ & B1 & _). apply (other i p j _ O J B1 B).
Qed.
Lemma expands_single p : forall P, expands mods p P -> okp p -> forall j, In j p -> is_module j = false -> In j P.
Proof.
  induction p as [|i p IH]; intros P E O j J Mj; [destruct J|]. destruct (okp_cons i p O) as (O' & _).
  destruct (expands_inv i p P E O) as [(M & P' & -> & E')|(M & z & o & Q & P' & Fz & Po & X & T & PQ & -> & E')].
  - destruct J as [<-|J]; [left; auto|]. right. apply IH; auto.
  - destruct J as [<-|J]; [congruence|]. apply in_app_iff. right. apply IH; auto.
Qed.
Lemma expand_exists X p : okp p -> (forall j, In j p -> is_module j = false -> In j X) ->
  (forall m, In m p -> is_module m = true -> exists z Q, find_module m mods = Some z /\ produces z Q /\ incl Q X) ->
  exists P, expands mods p P /\ incl P X.
Proof.
  induction p as [|i p IH]; intros O H1 H2; [exists []; split; [constructor|intros v []]|].
  destruct (okp_cons i p O) as (O' & _). destruct IH as (P & E & I); auto; [intros; apply H1; simpl; auto|intros; apply H2; simpl; auto|].
  destruct (is_module i) eqn:M.
  - destruct (H2 i (or_introl eq_refl) M) as (z & Q & Fz & PR & J). exists (Q ++ P). split; [econstructor; eauto|].
    intros v Hv. apply in_app_iff in Hv as [Hv|Hv]; auto.
  - exists (i :: P). split; [constructor; auto|]. intros v [<-|Hv]; auto. apply H1; simpl; auto.
Qed.
(** A product contains another one: so it is before the expansion. *)
Lemma nonunity z Q o j : exactf (fun ρ => lv ρ j) (sub (Z.abs j)) z o -> terminal (root_of z) = false -> produces z Q -> exists u, In u Q.
Proof. intros X T PQ. destruct Q as [|u Q]; [|exists u; simpl; auto]. rewrite (e_empty _ _ _ _ X PQ) in T. discriminate. Qed.
Lemma expands_incl p q P Q : okp p -> okp q -> expands mods p P -> expands mods q Q -> incl P Q -> incl p q.
Proof.
  intros Op Oq EP EQ I j J. pose proof (proj2 (proj2 Op) j J) as OJ. destruct (is_module j) eqn:M.
  - destruct (expands_part p P EP Op j J M) as (z & o & R & Fz & Po & X & T & PR & IR & HR).
    destruct (nonunity z R o j X T PR) as (u & U). destruct (exact_lit j z o R u X PR U) as (_ & B & _).
    destruct (expands_in q Q EQ Oq u (I u (IR u U))) as (_ & _ & k & K & B').
    pose proof (proj2 (proj2 Oq) k K) as OK. pose proof (DISJ _ _ _ (proj1 OJ) (proj1 OK) B B') as E.
    destruct (abs_cases j k E) as [->| ->]; auto. exfalso. destruct (flag pi) as [Pi|Pi]; [|apply (no_both j); auto].
    destruct (expands_part q Q EQ Oq (- j) K) as (z' & o' & R' & Fz' & Po' & X' & T' & PR' & IR' & HR'); [rewrite is_module_opp; auto|].
    assert (C' : Zbdd.consistent R') by (apply (e_cons _ _ _ _ X' R' PR')).
    assert (S1 : lv (mem R') j = true).
    { apply (e_sound _ _ _ _ X R); auto. split; [|intros; congruence]. intros w Iw. apply sat_lit; auto.
      - intros w' Iw'. apply (e_lits _ _ _ _ X' R' PR' w' Iw').
      - apply HR'; auto. rewrite Z.abs_opp. apply (exact_lit j z o R w X PR Iw). }
    assert (S2 : lv (mem R') (- j) = true).
    { apply (e_sound _ _ _ _ X' R'); auto. split; [|intros; congruence]. intros w Iw. apply sat_lit; auto. intros w' Iw'. apply (e_lits _ _ _ _ X' R' PR' w' Iw'). }
    rewrite lv_opp, S1 in S2 by (apply okl_nz; auto). discriminate.
  - assert (JP : In j Q) by (apply I, (expands_single p P EP Op j J M)).
    destruct (expands_in q Q EQ Oq j JP) as (_ & _ & k & K & B).
    pose proof (proj2 (proj2 Oq) k K) as OK. pose proof (DISJ _ _ _ (proj1 OJ) (proj1 OK) (plain_bel j (proj1 OJ) M) B) as E.
    destruct (abs_cases j k E) as [->| ->]; auto. exfalso.
    apply (expands_cons q Q EQ Oq j JP). apply (expands_single q Q EQ Oq (- j) K). rewrite is_module_opp. auto.
Qed.
Lemma expands_eq p : forall P Q, expands mods p P -> expands mods p Q -> okp p -> incl P Q -> P = Q.
Proof.
  induction p as [|i p IH]; intros R T ER ET O I; [inversion ER; inversion ET; auto|].
  destruct (okp_cons i p O) as (O' & NI & _ & OI).
  destruct (expands_inv i p R ER O) as [(M & P & -> & EP)|(M & z & o & Q & P & Fz & Po & X & TZ & PQ & -> & EP)],
           (expands_inv i p T ET O) as [(M' & P' & -> & EP')|(M' & z' & o' & Q' & P' & Fz' & Po' & X' & TZ' & PQ' & -> & EP')]; try congruence.
  - f_equal. apply IH; auto. intros v Hv. destruct (I v (or_intror Hv)) as [<-|]; auto. exfalso.
    destruct (expands_in p P EP O' i Hv) as (_ & _ & j & J & B). apply (other i p j _ O J (plain_bel i (proj1 OI) M) B).
  - assert (z' = z) by congruence. subst z'. f_equal.
    + apply (e_anti _ _ _ _ X); auto. intros v Hv. destruct (exact_lit i z o Q v X PQ Hv) as (_ & B & _).
      destruct (proj1 (in_app_iff _ _ _) (I v (proj2 (in_app_iff _ _ _) (or_introl Hv)))) as [|V']; auto. exfalso.
      destruct (expands_in p P' EP' O' v V') as (_ & _ & j & J & B'). apply (other i p j _ O J B B').
    + apply IH; auto. intros v Hv. destruct (proj1 (in_app_iff _ _ _) (I v (proj2 (in_app_iff _ _ _) (or_intror Hv)))) as [V'|]; auto. exfalso.
      destruct (exact_lit i z o Q' v X PQ' V') as (_ & B & _). destruct (expands_in p P EP O' v Hv) as (_ & _ & j & J & B'). apply (other i p j _ O J B B').
Qed.

(** *** Products of the diagram *)
Lemma const_some j : is_module j = true -> const j = None -> forall z, find_module j mods = Some z -> terminal (root_of z) = false.
Proof. intros M C z Fz. unfold constant_module in C. rewrite M, Fz in C. destruct z as [[] l]; auto; discriminate. Qed.
Lemma okl_of p j : In p (fam r) -> In j p -> const j = None -> okl j.
Proof.
  intros P J C. destruct (LITS p P j J) as [I B]. split; auto. split; auto. intros M.
  destruct (MODS p j P J M) as (z & o & Fz & X & L). exists z, o. split; auto. split; [|split; auto; apply (const_some j M C z Fz)].
  destruct (FOUND j z Fz) as (_ & _). pose proof (SIZE p P). pose proof (cost_range counts j). lia.
Qed.
Lemma okp_left p : In p (fam r') -> okp p.
Proof.
  intros P. pose proof (l_wf _ _ _ _ _ LEFT) as W'. split; [apply (nodup_fam ord top counts r' W'); auto|].
  split; [apply (consistent_fam ord top counts ORD r' W'); auto|]. intros j J.
  destruct (l_lits _ _ _ _ _ LEFT j) as [(p0 & P0 & J0) C]; [exists p; auto|]. apply (okl_of p0); auto.
Qed.
Lemma okp_remaining p : In p (fam r) -> okp (remaining const p).
Proof.
  intros P. split; [apply NoDup_filter; apply (nodup_fam ord top counts r W); auto|]. split.
  - intros j J K. apply filter_In in J as [J _]. apply filter_In in K as [K _]. apply (consistent_fam ord top counts ORD r W p P j J K).
  - intros j J. apply filter_In in J as [J C]. apply (okl_of p); auto. destruct (const j); [discriminate|auto].
Qed.
(** Where no module occurs with both signs, what is left comes from one product. *)
Lemma from_one p : pi = false -> In p (fam r') -> exists p0, In p0 (fam r) /\ alive const p0 = true /\ forall j, In j (remaining const p0) <-> In j p.
Proof.
  intros M P. pose proof (okp_left p P) as O.
  set (Lb := fun j => if is_module j then match find_module j mods with Some z => negb (terminal (root_of z)) | None => false end else 0 <? j).
  assert (LO : forall j, okl j -> Lb j = true).
  { intros j OJ. unfold Lb. destruct (is_module j) eqn:MJ; [|apply Z.ltb_lt, mcs_pos; auto].
    destruct OJ as (_ & _ & H). destruct (H MJ) as (z & o & -> & _ & _ & ->). auto. }
  assert (NB : forall j, okl j -> Lb (- j) = false).
  { intros j OJ. destruct (Lb (- j)) eqn:E; auto. exfalso. unfold Lb in E. rewrite is_module_opp in E. destruct (is_module j) eqn:MJ.
    - destruct (find_module (- j) mods) as [z|] eqn:Fz; [|discriminate]. destruct (FOUND _ _ Fz) as (I & o & Po & X).
      rewrite Z.abs_opp in *. pose proof OJ as (_ & _ & H1). destruct (H1 MJ) as (z1 & o1 & _ & Po1 & X1 & T1).
      assert (T2 : terminal (root_of z) = false) by (destruct (terminal (root_of z)); auto; discriminate).
      destruct (lv (fun _ => false) j) eqn:L.
      + rewrite (unity j z1 o1 M Po1 X1 I L) in T1. discriminate.
      + assert (L' : lv (fun _ => false) (- j) = true) by (rewrite lv_opp, L by (apply okl_nz; auto); auto).
        assert (X' : exactf (fun ρ => lv ρ (- j)) (sub (Z.abs (- j))) z o) by (rewrite Z.abs_opp; auto).
        rewrite (unity (- j) z o M Po X') in T2; auto; [discriminate|]. rewrite Z.abs_opp. auto.
    - apply Z.ltb_lt in E. pose proof (mcs_pos j M OJ MJ). lia. }
  set (v := fun j => if mem p j then true else if mem p (- j) then false else if 0 <? j then negb (Lb j) else Lb (- j)).
  assert (AV : assignment v).
  { intros i Ni. unfold v. rewrite Z.opp_involutive. destruct (mem p i) eqn:E1, (mem p (- i)) eqn:E2; auto.
    - apply mem_In in E1, E2. elim (proj1 (proj2 O) i E1 E2).
    - destruct (Z.ltb_spec 0 i), (Z.ltb_spec 0 (- i)); try lia; rewrite ?negb_involutive; auto. }
  assert (VF : forall j, okl j -> v j = true -> In j p).
  { intros j OJ E. unfold v in E. destruct (mem p j) eqn:E1; [apply mem_In; auto|]. destruct (mem p (- j)); [discriminate|].
    destruct (0 <? j); [rewrite (LO j OJ) in E; discriminate|rewrite (NB j OJ) in E; discriminate]. }
  destruct (l_sound _ _ _ _ _ LEFT v AV) as (p0 & P0 & AL & H).
  { apply ev_fam. exists p. split; auto. intros j J. unfold v. apply mem_In in J. rewrite J. auto. }
  exists p0. split; auto. split; auto. pose proof (okp_remaining p0 P0) as O0.
  assert (I0 : incl (remaining const p0) p) by (intros j J; apply VF; [apply O0; auto|auto]).
  pose proof (l_complete _ _ _ _ _ LEFT p0 P0 AL) as EV. apply ev_mem in EV as (p' & P' & I').
  assert (p' = p) by (apply (l_anti _ _ _ _ _ LEFT); auto; intros j J; auto). subst p'. intros j. split; auto.
Qed.

(** *** Soundness *)
Lemma true_literals p P ρ : In p (fam r') -> expands mods p P -> pfits V P ρ -> forall j, In j p -> lv ρ j = true.
Proof.
  intros IP E [H0 H1] j J. pose proof (okp_left p IP) as O. pose proof (proj2 (proj2 O) j J) as OJ. destruct (is_module j) eqn:M.
  - destruct (expands_part p P E O j J M) as (z & o & Q & Fz & Po & X & T & PQ & I & HQ). apply (e_sound _ _ _ _ X Q); auto. split.
    + intros u U. auto.
    + intros Pm w B NI. apply H1; auto; [apply VS; exists (Z.abs j); split; auto; apply OJ|]. intros K. apply NI, HQ; auto.
      assert (0 < w) by (apply (BPOS (Z.abs j)); auto; apply OJ). rewrite (Z.abs_eq w) by lia. auto.
  - rewrite lv_plain; auto; [|apply OJ]. apply H0. apply (expands_single p P E O j J M).
Qed.
Lemma constant_true j : is_module j = true -> const j = Some true -> exists z o, find_module j mods = Some z /\ exactf (fun ρ => lv ρ j) (sub (Z.abs j)) z o /\ produces z [].
Proof.
  intros M C. unfold constant_module in C. rewrite M in C. destruct (find_module j mods) as [z|] eqn:Fz; [|discriminate].
  destruct (FOUND j z Fz) as (_ & o & _ & X). exists z, o. split; auto. split; auto. destruct z as [t l]. destruct t; try discriminate.
  econstructor; [left; reflexivity|constructor].
Qed.
Lemma alive_cases p j : alive const p = true -> In j p -> const j = Some true \/ In j (remaining const p).
Proof.
  intros A J. unfold alive in A. rewrite forallb_forall in A. specialize (A j J). destruct (const j) as [[]|] eqn:C; auto; try discriminate.
  right. apply filter_In. rewrite C. auto.
Qed.
Lemma const_module j b : const j = Some b -> is_module j = true.
Proof. unfold constant_module. destruct (is_module j); [auto|discriminate]. Qed.
Lemma assemble_sound p P ρ : In p (fam r') -> expands mods p P -> pfits V P ρ -> F (fun a => val a ρ) = true.
Proof.
  intros IP E HF. pose proof (okp_left p IP) as O. pose proof (true_literals p P ρ IP E HF) as TL. destruct (flag pi) as [Pi|Pi].
  - destruct (l_sound _ _ _ _ _ LEFT (lit (fun a => val a ρ)) (lit_assignment _)) as (p0 & P0 & AL & H).
    { apply ev_fam. exists p. split; auto. }
    assert (T0 : forall j, In j p0 -> lit (fun a => val a ρ) j = true).
    { intros j J. destruct (alive_cases p0 j AL J) as [C|R]; auto.
      destruct (constant_true j (const_module j true C) C) as (z & o & Fz & X & PE). apply (e_sound _ _ _ _ X [] ρ PE). split; [intros ? []|congruence]. }
    apply (MONO Pi (fun a => if both a then val a ρ else mem p0 a)).
    + intros a _ ->. auto.
    + intros a Ia -> A. apply mem_In in A. specialize (T0 a A). pose proof (DPOS a Ia). unfold lit in T0. destruct (Z.ltb_spec a 0); [lia|auto].
    + apply (SOUND p0 _ P0). split.
      * intros j J. specialize (T0 j J). destruct (LITS p0 P0 j J) as [Ij Bj]. apply DPOS in Ij. unfold lit in *. destruct (Z.ltb_spec j 0).
        -- rewrite Bj by lia. auto.
        -- destruct (both j); auto. apply mem_In; auto.
      * intros i Ii ->. intros NI. destruct (mem p0 i) eqn:EM; auto. apply mem_In in EM. contradiction.
  - destruct (from_one p Pi IP) as (p0 & P0 & AL & H0).
    assert (FALSE : forall a, In a D -> ~ In a p -> ~ In (- a) p -> forall w, bel a w = true -> ρ w = false).
    { intros a Ia N1 N2 w B. destruct HF as [_ H1]. apply H1; auto; [apply VS; eauto|]. intros K.
      destruct (expands_in p P E O w K) as (_ & _ & k & Kp & B'). pose proof (BPOS a w Ia B). rewrite (Z.abs_eq w) in B' by lia.
      pose proof (proj2 (proj2 O) k Kp) as OK. pose proof (DISJ _ _ _ Ia (proj1 OK) B B') as EQ. pose proof (DPOS a Ia).
      destruct (Z.abs_spec k) as [[_ X]|[_ X]]; rewrite X in EQ; subst a; [auto|]. apply N2. rewrite Z.opp_involutive. auto. }
    apply (SOUND p0 _ P0). split.
    + intros j J. destruct (alive_cases p0 j AL J) as [C|R].
      * pose proof (const_module j true C) as MJ. destruct (constant_true j MJ C) as (z & o & Fz & X & PE). destruct (LITS p0 P0 j J) as [Ij _].
        apply (e_sound _ _ _ _ X [] ρ PE). split; [intros ? []|]. intros _ w B _.
        assert (NJ : ~ In j p) by (intros K; apply H0, filter_In in K as [_ K]; rewrite C in K; discriminate).
        assert (NJ' : ~ In (- j) p) by (intros K; apply H0, filter_In in K as [K _]; apply (consistent_fam ord top counts ORD r W p0 P0 j J K)).
        apply (FALSE (Z.abs j)); auto; destruct (Z.abs_spec j) as [[_ ->]|[_ ->]]; rewrite ?Z.opp_involutive; auto.
      * apply H0 in R. apply (TL j R).
    + intros a Ia Ba NI. apply (ZERO Pi a ρ Ia Ba). apply FALSE; auto.
      * intros K. apply H0, filter_In in K as [K _]. auto.
      * intros K. destruct (proj2 (proj2 O) _ K) as (_ & B & _). pose proof (DPOS a Ia). rewrite Z.opp_involutive in B. rewrite B in Ba by lia. discriminate.
Qed.

(** *** Completeness *)
Section Complete.
Context (X : list Z) (NX : NoDup X) (CX : Zbdd.consistent X) (LX : literals_of V X) (SX : Z.of_nat (length X) + slack <= limit).
Context (HX : forall ρ, pfits V X ρ -> F (fun a => val a ρ) = true).
Definition fitsb (ρ : Z -> bool) : bool := forallb (lit ρ) X && (pi || forallb (fun v => mem X v || negb (ρ v)) vs).
Lemma fitsb_iff ρ : fitsb ρ = true <-> pfits V X ρ.
Proof.
  unfold fitsb, pfits. rewrite andb_true_iff, forallb_forall, orb_true_iff, forallb_forall. split.
  - intros [H1 H2]. split; auto. intros Pi v Hv NI. destruct H2 as [H2|H2]; [congruence|]. specialize (H2 v Hv).
    destruct (mem X v) eqn:E; [apply mem_In in E; contradiction|]. simpl in H2. destruct (ρ v); auto; discriminate.
  - intros [H1 H2]. split; auto. destruct pi; [auto|right]. intros v Hv. destruct (mem X v) eqn:E; auto. simpl.
    rewrite (H2 eq_refl v Hv); auto. intros K. apply mem_In in K. congruence.
Qed.
Definition impliedb (j : Z) : bool := all_values vs (fun ρ => implb (fitsb ρ) (lv ρ j)).
Lemma implied_looks j : In (Z.abs j) D -> looks_at vs (fun ρ => implb (fitsb ρ) (lv ρ j)).
Proof.
  intros I ρ ρ' A. assert (E1 : fitsb ρ = fitsb ρ').
  { unfold fitsb. f_equal.
    - clear NX CX SX HX. induction X as [|u Y IH]; auto. cbn [forallb]. f_equal; [apply lit_eq, A; apply LX; simpl; auto|]. apply IH. intros k K. apply LX. simpl; auto.
    - f_equal. revert A. generalize vs as ws. induction ws as [|w ws IH]; auto. intros A. cbn [forallb]. rewrite (A w) by (simpl; auto). f_equal. apply IH. intros; apply A; simpl; auto. }
  rewrite E1. f_equal. apply lv_det; auto. intros v B. apply A, VS. eauto.
Qed.
Lemma implied_true j : In (Z.abs j) D -> impliedb j = true -> forall ρ, pfits V X ρ -> lv ρ j = true.
Proof.
  intros I E ρ H. pose proof (all_values_true vs _ (implied_looks j I) E ρ) as T. apply fitsb_iff in H. simpl in T. rewrite H in T. auto.
Qed.
Lemma implied_false j : impliedb j = false -> exists ρ, pfits V X ρ /\ lv ρ j = false.
Proof.
  intros E. apply all_values_false in E as [ρ E]. exists ρ. destruct (fitsb ρ) eqn:FB; [|discriminate]. apply fitsb_iff in FB. split; auto.
Qed.
Lemma sat_X : pfits V X (mem X). Proof. apply sat_pfits; auto. Qed.
Definition over (a : Z) (ρ ρ' : Z -> bool) : Z -> bool := fun v => if bel a v then ρ' v else ρ v.
Lemma over_fits a ρ ρ' : pfits V X ρ -> pfits V X ρ' -> pfits V X (over a ρ ρ').
Proof.
  intros [H1 H2] [H1' H2']. split.
  - intros j J. destruct (bel a (Z.abs j)) eqn:B.
    + rewrite (lit_eq _ ρ' j); auto. unfold over. rewrite B. auto.
    + rewrite (lit_eq _ ρ j); auto. unfold over. rewrite B. auto.
  - intros Pi v Hv NI. unfold over. destruct (bel a v); auto.
Qed.
Lemma over_val a ρ ρ' : In a D -> val a (over a ρ ρ') = val a ρ'.
Proof. intros I. apply DET; auto. intros v B. unfold over. rewrite B. auto. Qed.
Lemma over_other a b ρ ρ' : In a D -> In b D -> a <> b -> val b (over a ρ ρ') = val b ρ.
Proof. intros I J N. apply DET; auto. intros v B. unfold over. destruct (bel a v) eqn:B'; auto. elim N. apply (DISJ a b v); auto. Qed.

Definition atoms_once : list Z := nodup Z.eq_dec D.
Definition candidates : list Z := atoms_once ++ map Z.opp (List.filter both atoms_once).
Definition x : list Z := List.filter impliedb candidates.
Lemma candidates_in j : In j candidates <-> In (Z.abs j) D /\ j <> 0 /\ (j < 0 -> both (- j) = true).
Proof.
  unfold candidates, atoms_once. rewrite in_app_iff, in_map_iff, nodup_In. split.
  - intros [I|(a & <- & I)].
    + pose proof (DPOS j I). rewrite Z.abs_eq by lia. split; auto. lia.
    + apply filter_In in I as [I B]. apply nodup_In in I. pose proof (DPOS a I). rewrite Z.abs_opp, Z.abs_eq, Z.opp_involutive by lia. split; auto. split; [lia|auto].
  - intros (I & N & B). destruct (Z.abs_spec j) as [[? E]|[? E]]; rewrite E in I; [auto|]. right. exists (- j). split; [lia|].
    apply filter_In. split; [apply nodup_In; auto|auto].
Qed.
Lemma x_in j : In j x <-> In (Z.abs j) D /\ (j < 0 -> both (- j) = true) /\ impliedb j = true.
Proof.
  unfold x. rewrite filter_In, candidates_in. split; [tauto|]. intros (I & B & E). split; auto. split; auto. split; auto. apply DPOS in I. lia.
Qed.
Lemma x_nodup : NoDup x.
Proof.
  apply NoDup_filter. unfold candidates. apply nodup_app'.
  - apply NoDup_nodup.
  - apply FinFun.Injective_map_NoDup; [intros a b E; lia|]. apply NoDup_filter, NoDup_nodup.
  - intros v Hv K. apply in_map_iff in K as (a & <- & K). apply filter_In in K as [K _]. unfold atoms_once in *. apply nodup_In in Hv, K. apply DPOS in Hv, K. lia.
Qed.
Lemma x_proper : lproper x. Proof. intros j J. apply x_in in J. tauto. Qed.
Lemma x_cons : Zbdd.consistent x.
Proof.
  intros j J K. apply x_in in J as (I & _ & E). apply x_in in K as (I' & _ & E').
  pose proof (implied_true j I E _ sat_X) as T. pose proof (implied_true (- j) I' E' _ sat_X) as T'.
  rewrite lv_opp, T in T' by (apply DPOS in I; lia). discriminate.
Qed.
Definition parts (j u : Z) : bool := bel (Z.abs j) (Z.abs u).
Lemma x_share j : In j x -> cost j <= share parts j X.
Proof.
  intros J. apply x_in in J as (I & B & E). pose proof (cost_range counts j) as CR.
  assert (H : counts j = true -> exists u, In u X /\ parts j u = true).
  { intros C. destruct (existsb (parts j) X) eqn:EX; [apply existsb_exists in EX; eauto|]. exfalso.
    assert (NO : forall u, In u X -> parts j u = false).
    { intros u U. destruct (parts j u) eqn:PU; auto. rewrite <- EX. symmetry. apply existsb_exists. eauto. }
    destruct (flag pi) as [Pi|Pi].
    - destruct (NONCONST Pi (Z.abs j) (j <? 0) I) as (ρ' & R).
      assert (FO : pfits V X (over (Z.abs j) (mem X) ρ')).
      { split; [|congruence]. intros u U. rewrite (lit_eq _ (mem X) u); [apply sat_X; auto|]. unfold over. specialize (NO u U). unfold parts in NO. rewrite NO. auto. }
      pose proof (implied_true j I E _ FO) as T. unfold lv in T. rewrite (lit_eq _ (fun a => val a ρ') j) in T by (apply over_val; auto).
      unfold lit in T. destruct (Z.ltb_spec j 0).
      + rewrite Z.abs_neq in R by lia. rewrite R in T. discriminate.
      + rewrite Z.abs_eq in R by lia. rewrite R in T. discriminate.
    - destruct (COSTS Pi j C) as [Pj Bj]. rewrite Z.abs_eq in I by lia. specialize (Bj I).
      assert (T : lv (mem X) j = true) by (apply implied_true; [rewrite Z.abs_eq by lia; auto|auto|apply sat_X]).
      unfold lv, lit in T. destruct (Z.ltb_spec j 0); [lia|]. rewrite (ZERO Pi j (mem X) I Bj) in T; [discriminate|].
      intros v Bv. destruct (mem X v) eqn:EM; auto. apply mem_In in EM. specialize (NO v EM). unfold parts in NO. pose proof (BPOS j v I Bv).
      rewrite !Z.abs_eq in NO by lia. congruence. }
  unfold Zbdd.cost in *. destruct (counts j); [|unfold share; lia]. destruct (H eq_refl) as (u & U & P).
  assert (IF : In u (List.filter (parts j) X)) by (apply filter_In; auto). unfold share. destruct (List.filter (parts j) X); [contradiction|]. simpl length. lia.
Qed.
Lemma x_unique p : incl p x -> forall u j k, In u X -> In j p -> In k p -> parts j u = true -> parts k u = true -> j = k.
Proof.
  intros I u j k U J K B1 B2. apply I in J, K. pose proof J as J'. pose proof K as K'. apply x_in in J as (Ij & _). apply x_in in K as (Ik & _).
  pose proof (DISJ _ _ _ Ij Ik B1 B2) as E. destruct (abs_cases j k E) as [->| ->]; auto. elim (x_cons j J' K').
Qed.
Lemma x_size : size x + slack <= limit.
Proof.
  rewrite <- total_size. assert (total cost x <= total (fun j => share parts j X) x) by (apply total_le; intros; apply x_share; auto).
  assert (total (fun j => share parts j X) x <= Z.of_nat (length X)) by (apply total_shares; [apply x_nodup|apply x_unique, incl_refl]). lia.
Qed.
Lemma x_implies σ : lfits x σ -> F σ = true.
Proof.
  intros [H1 H2].
  assert (ONE : forall a, In a D -> exists ρ, pfits V X ρ /\ val a ρ = σ a).
  { intros a Ia. pose proof (DPOS a Ia) as Pa.
    assert (LP : forall τ, lit τ a = τ a) by (intros; unfold lit; destruct (Z.ltb_spec a 0); [lia|auto]).
    assert (LN : forall τ, lit τ (- a) = negb (τ a)) by (intros; rewrite lit_opp, LP by lia; auto).
    destruct (σ a) eqn:Sa.
    - destruct (both a) eqn:Ba.
      + assert (E : impliedb (- a) = false).
        { destruct (impliedb (- a)) eqn:E; auto. assert (J : In (- a) x) by (apply x_in; rewrite Z.abs_opp, Z.abs_eq, Z.opp_involutive by lia; auto).
          specialize (H1 _ J). rewrite LN, Sa in H1. discriminate. }
        apply implied_false in E as (ρ & FR & L). exists ρ. split; auto. unfold lv in L. rewrite LN in L. destruct (val a ρ); auto; discriminate.
      + assert (J : In a x). { destruct (in_dec Z.eq_dec a x) as [|NI]; auto. rewrite (H2 a Ia Ba NI) in Sa. discriminate. }
        apply x_in in J as (I & _ & E). exists (mem X). split; [apply sat_X|]. pose proof (implied_true a I E _ sat_X) as T. unfold lv in T. rewrite LP in T. auto.
    - assert (E : impliedb a = false).
      { destruct (impliedb a) eqn:E; auto. assert (J : In a x) by (apply x_in; rewrite Z.abs_eq by lia; split; auto; split; auto; lia).
        specialize (H1 _ J). rewrite LP, Sa in H1. discriminate. }
      apply implied_false in E as (ρ & FR & L). exists ρ. split; auto. unfold lv in L. rewrite LP in L. auto. }
  assert (ALL : forall l, incl l D -> exists ρ, pfits V X ρ /\ forall a, In a l -> val a ρ = σ a).
  { induction l as [|a l IH]; intros I; [exists (mem X); split; [apply sat_X|intros a []]|].
    destruct IH as (ρ & FR & H); [intros b B; apply I; simpl; auto|]. destruct (in_dec Z.eq_dec a l) as [J|J].
    - exists ρ. split; auto. intros b [<-|B]; auto.
    - destruct (ONE a) as (ρa & FA & Va); [apply I; simpl; auto|]. exists (over a ρ ρa). split; [apply over_fits; auto|].
      intros b [<-|B]; [rewrite over_val; auto; apply I; simpl; auto|]. rewrite over_other; auto; try (apply I; simpl; auto). intros ->. auto. }
  destruct (ALL D (incl_refl D)) as (ρ & FR & H). rewrite <- (HX ρ FR). apply FDEP. intros a Ia. symmetry. auto.
Qed.
Lemma assemble_complete : exists P, produces (Zb r' mods) P /\ incl P X.
Proof.
  pose proof (COMPLETE x x_nodup x_cons x_proper x_size x_implies) as EV. apply ev_mem in EV as (p0 & P0 & I0).
  assert (N0 : NoDup p0) by (apply (nodup_fam ord top counts r W); auto).
  assert (PM : forall j, In j p0 -> is_module j = true -> exists z Q, find_module j mods = Some z /\ produces z Q /\ incl Q X).
  { intros j J M. destruct (MODS p0 j P0 J M) as (z & o & Fz & XE & LO). pose proof (I0 j J) as Jx. apply x_in in Jx as (I & B & E).
    destruct (e_complete _ _ _ _ XE (List.filter (parts j) X)) as (Q & PQ & IQ).
    - apply NoDup_filter; auto.
    - intros u U K. apply filter_In in U as [U _]. apply filter_In in K as [K _]. apply (CX u U K).
    - intros u U. apply filter_In in U as [U PU]. destruct (LX u U) as (? & _ & ?). auto.
    - assert (TT : total cost p0 - cost j <= total (fun j => share parts j X) p0 - share parts j X).
      { apply (total_at cost (fun j => share parts j X)); auto. intros k K _. apply x_share; auto. }
      rewrite total_size in TT. assert (total (fun j => share parts j X) p0 <= Z.of_nat (length X)) by (apply total_shares; [auto|apply x_unique; auto]).
      unfold share in TT at 2. lia.
    - intros ρ [H1 H2]. rewrite <- (implied_true j I E (over (Z.abs j) (mem X) ρ)).
      + apply lit_eq. symmetry. apply over_val. auto.
      + split.
        * intros u U. destruct (bel (Z.abs j) (Z.abs u)) eqn:BU.
          -- rewrite (lit_eq _ ρ u); [apply H1, filter_In; auto|]. unfold over. rewrite BU. auto.
          -- rewrite (lit_eq _ (mem X) u); [apply sat_X; auto|]. unfold over. rewrite BU. auto.
        * intros Pi v Hv NI. unfold over. destruct (bel (Z.abs j) v) eqn:BU; [|apply sat_X; auto]. apply H2; auto. intros K. apply filter_In in K. tauto.
    - exists z, Q. split; auto. split; auto. intros u U. apply IQ, filter_In in U. tauto. }
  assert (AL : alive const p0 = true).
  { apply forallb_forall. intros j J. destruct (const j) as [[]|] eqn:C; auto. exfalso. pose proof (const_module j false C) as M.
    destruct (PM j J M) as (z & Q & Fz & PQ & _). unfold constant_module in C. rewrite M, Fz in C. destruct z as [[] l]; try discriminate. inversion PQ; simpl in *; contradiction. }
  pose proof (l_complete _ _ _ _ _ LEFT p0 P0 AL) as EV. apply ev_mem in EV as (p & Pp & Ip).
  assert (Ip0 : incl p p0) by (intros j J; apply Ip, filter_In in J; tauto).
  destruct (expand_exists X p) as (P & EP & IP).
  { apply okp_left; auto. }
  { intros j J M. pose proof (I0 j (Ip0 j J)) as Jx. apply x_in in Jx as (I & B & E). destruct (in_dec Z.eq_dec j X) as [|NI]; auto. exfalso.
    pose proof (okp_left p Pp) as O. pose proof (proj2 (proj2 O) j J) as OJ. pose proof (okl_nz j OJ) as NZ.
    assert (FO : pfits V X (put_value (mem X) (Z.abs j) (j <? 0))).
    { split.
      - intros u U. destruct (Z.eq_dec (Z.abs u) (Z.abs j)) as [EQ|NE].
        + destruct (abs_cases j u (eq_sym EQ)) as [->| ->]; [contradiction|]. unfold lit, put_value.
          destruct (Z.ltb_spec (- j) 0), (Z.ltb_spec j 0); try lia.
          * rewrite Z.opp_involutive, Z.abs_eq, Z.eqb_refl by lia. auto.
          * rewrite Z.abs_neq, Z.eqb_refl by lia. auto.
        + rewrite (lit_eq _ (mem X) u); [apply sat_X; auto|]. unfold put_value. destruct (Z.eqb_spec (Z.abs u) (Z.abs j)); [contradiction|auto].
      - intros Pi v Hv NV. unfold put_value. destruct (Z.eqb_spec v (Z.abs j)) as [->|]; [|apply sat_X; auto].
        pose proof (mcs_pos j Pi OJ M). destruct (Z.ltb_spec j 0); [lia|auto]. }
    pose proof (implied_true j I E _ FO) as T. rewrite lv_plain in T by auto. unfold lit, put_value in T. destruct (Z.ltb_spec j 0).
    - rewrite Z.abs_neq, Z.eqb_refl in T by lia. discriminate.
    - rewrite Z.abs_eq, Z.eqb_refl in T by lia. discriminate. }
  { intros m J M. apply PM; auto. }
  exists P. split; auto. econstructor; eauto.
Qed.
End Complete.

(** *** Iteration *)
Lemma walks k t : (forall p, In p (fam t) -> okp p) -> proxies_walk G module k mods t.
Proof.
  intros O j (p & P & J) M. destruct (O p P) as (_ & _ & H). destruct (H j J) as (_ & _ & HM). destruct (HM M) as (z & o & Fz & _ & X & T).
  exists z. split; auto. split; [intros E; rewrite E in T; discriminate|]. apply (walk_ok ord top G module (fun _ => false) (fun _ => 0%nat)), (e_clean _ _ _ _ X).
Qed.
Lemma walk_nodup t k : (forall p, In p (fam t) -> okp p) -> Zbdd.wf ord top t -> forall n, n <= k -> NoDup (walk_at k mods t n).
Proof.
  induction t as [| |i h IHh l IHl]; intros O WT n LE; [constructor|constructor; [intros []|constructor]|].
  cbn [ZbddModules.walk_at]. destruct (Z.leb_spec k n) as [|LT]; [constructor|].
  pose proof (wf_high ord top counts _ _ _ WT) as Wh. pose proof (wf_low ord top counts _ _ _ WT) as Wl.
  assert (Oh : forall p, In p (fam h) -> okp (i :: p)) by (intros p P; apply O, in_fam; eauto).
  assert (Ol : forall p, In p (fam l) -> okp p) by (intros p P; apply O, in_fam; eauto).
  assert (Oh' : forall p, In p (fam h) -> okp p) by (intros p P; apply (okp_cons i p (Oh p P))).
  specialize (IHh Oh' Wh). specialize (IHl Ol Wl).
  pose proof (walks k h Oh') as PWh. pose proof (walks k l Ol) as PWl.
  assert (SEP : forall p P, In p (fam h) -> expands mods (i :: p) P -> In P (walk_at k mods l n) -> False).
  { intros p P Ip E IP. apply (walk_at_ok ord top G module (fun _ => false) (fun _ => 0%nat) k mods l Wl PWl) in IP as [(q & Iq & Eq) _]; [|lia].
    assert (J : In i q) by (apply (expands_incl (i :: p) q P P (Oh p Ip) (Ol q Iq) E Eq (incl_refl P)); simpl; auto).
    pose proof (wf_after_low ord top _ _ _ WT q i Iq J). unfold Zbdd.before in *. lia. }
  destruct (is_module i) eqn:M.
  - destruct (nonempty ord top h Wh) as (p1 & P1); [destruct WT as (_ & _ & N & _); auto|].
    destruct (okp_cons i p1 (Oh p1 P1)) as (_ & _ & _ & OI). pose proof OI as (_ & _ & HM). destruct (HM M) as (z & o & Fz & Po & X & T). rewrite Fz.
    destruct (walk_ok ord top G module (fun _ => false) (fun _ => 0%nat) k z (e_clean _ _ _ _ X)) as [X0 XW].
    assert (PART : forall Q R, In Q (walk k z n) -> In R (walk_at k mods h (n + Z.of_nat (length Q))) -> List.filter (parts i) (Q ++ R) = Q).
    { intros Q R IQ IR. apply XW in IQ as [PQ SQ]; auto. apply (walk_at_ok ord top G module (fun _ => false) (fun _ => 0%nat) k mods h Wh PWh) in IR as [(p & Ip & E) _]; auto.
      rewrite filter_app. replace (List.filter (parts i) R) with (@nil Z); [rewrite app_nil_r; apply forallb_filter_id'; intros v Hv; apply (exact_lit i z o Q v); auto|].
      symmetry. apply filter_none. intros v Hv. destruct (parts i v) eqn:B; auto. exfalso.
      destruct (expands_in p R E (Oh' p Ip) v Hv) as (_ & _ & j & J & B'). apply (other i p j _ (Oh p Ip) J B B'). }
    apply nodup_app'.
    + assert (NW := e_walk _ _ _ _ X k n LE). assert (HS : forall Q, In Q (walk k z n) -> n + Z.of_nat (length Q) <= k) by (intros Q IQ; apply XW in IQ; tauto).
      revert PART NW HS. generalize (walk k z n) as L. induction L as [|Q L IHL]; intros PART NW HS; [constructor|]. simpl.
      inversion NW; subst. apply nodup_app'.
      * apply FinFun.Injective_map_NoDup; [intros a b; apply app_inv_head|]. apply IHh. apply HS; simpl; auto.
      * apply IHL; auto; [intros; apply PART; simpl; auto|intros; apply HS; simpl; auto].
      * intros P I1 I2. apply in_map_iff in I1 as (R & <- & IR). apply in_flat_map in I2 as (Q' & IQ' & I2). apply in_map_iff in I2 as (R' & E & IR').
        assert (E1 : List.filter (parts i) (Q ++ R) = Q) by (apply PART; simpl; auto). rewrite <- E, PART in E1 by (simpl; auto). subst Q'. contradiction.
    + apply IHl; auto.
    + intros P I1 I2. apply in_flat_map in I1 as (Q & IQ & I1). apply in_map_iff in I1 as (R & <- & IR). apply XW in IQ as [PQ SQ]; auto.
      apply (walk_at_ok ord top G module (fun _ => false) (fun _ => 0%nat) k mods h Wh PWh) in IR as [(p & Ip & E) _]; auto.
      apply (SEP p (Q ++ R) Ip); auto. econstructor; eauto.
  - apply nodup_app'.
    + apply FinFun.Injective_map_NoDup; [intros a b [= ->]; auto|]. apply IHh. lia.
    + apply IHl; auto.
    + intros P I1 I2. apply in_map_iff in I1 as (R & <- & IR).
      apply (walk_at_ok ord top G module (fun _ => false) (fun _ => 0%nat) k mods h Wh PWh) in IR as [(p & Ip & E) _]; [|lia].
      apply (SEP p (i :: R) Ip); auto. constructor; auto.
Qed.

Lemma assemble : exactf (fun ρ => F (fun a => val a ρ)) V (Zb r' mods) limit.
Proof.
  pose proof (l_wf _ _ _ _ _ LEFT) as W'. pose proof (l_anti _ _ _ _ _ LEFT) as A'.
  constructor.
  - intros P PR u U. inversion PR as [? ? p ? IP E]; subst. pose proof (okp_left p IP) as O.
    destruct (expands_in p P E O u U) as (? & ? & j & J & B). split; auto. split; auto. apply VS. exists (Z.abs j). split; auto. apply (proj2 (proj2 O) j J).
  - intros P PR. inversion PR as [? ? p ? IP E]; subst. apply (expands_nodup p P E). apply okp_left; auto.
  - intros P PR. inversion PR as [? ? p ? IP E]; subst. apply (expands_cons p P E). apply okp_left; auto.
  - intros P ρ PR H. inversion PR as [? ? p ? IP E]; subst. apply (assemble_sound p P ρ IP E H).
  - intros X NX CX LX SX HX. apply assemble_complete; auto.
  - intros P Q PP PQ I. inversion PP as [? ? p ? Ip EP]; subst. inversion PQ as [? ? q ? Iq EQ]; subst.
    pose proof (okp_left p Ip) as Op. pose proof (okp_left q Iq) as Oq.
    assert (p = q) by (apply A'; auto; apply (expands_incl p q P Q); auto). subst q. apply (expands_eq p P Q EP EQ Op I).
  - intros PE. inversion PE as [? ? p ? Ip EP]; subst. pose proof (okp_left p Ip) as Op. simpl.
    destruct p as [|j p]; [apply (empty_set ord top r' W' Ip)|]. exfalso.
    destruct (is_module j) eqn:M.
    + destruct (expands_part (j :: p) [] EP Op j (or_introl eq_refl) M) as (z & o & R & Fz & Po & X & T & PR & IR & _).
      destruct (nonunity z R o j X T PR) as (u & U). destruct (IR u U).
    + apply (in_nil (expands_single (j :: p) [] EP Op j (or_introl eq_refl) M)).
  - simpl. auto.
  - constructor; auto. intros j (p & Ip & J) M. destruct (okp_left p Ip) as (_ & _ & H). destruct (H j J) as (_ & _ & HM).
    destruct (HM M) as (z & o & Fz & _ & _ & T). exists z. split; auto. intros E. rewrite E in T. discriminate.
  - intros k' n LE. rewrite walk_eq. apply walk_nodup; auto. apply okp_left.
Qed.
End Level.
End Exact.
