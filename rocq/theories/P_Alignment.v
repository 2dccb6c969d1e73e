(** Property C58: the phases of an alignment cover the mission. *)
From Coq Require Import ZArith QArith Qabs String Bool List Lqa Lia.
From Verif Require Phase.
From Verif Require Import Settings Alignment.
Import ListNotations.

Local Open Scope list_scope.
Definition given := list (string * dbl * list (string * bool)).
Definition g_name (x : string * dbl * list (string * bool)) : string := fst (fst x).
Definition g_fraction (x : string * dbl * list (string * bool)) : dbl := snd (fst x).
(** The number of a finite value. *)
Definition num (a : dbl) : Q := match a with Fin q => q | _ => 0 end.
Fixpoint sum (l : list Q) : Q := match l with [] => 0 | q :: l => q + sum l end.
Definition phases_of (l : given) : list phase := map (fun x => mkPhase (fst (fst x)) (snd (fst x)) (snd x)) l.

Lemma new_phase_some n f i p : new_phase n f i = Some p <-> p = mkPhase n f i /\ (f = NaN \/ exists q, f = Fin q /\ (0 < q <= 1)%Q).
Proof.
  unfold new_phase. destruct f as [q| | |]; cbn [dle dlt orb negb].
  - destruct (Qle_bool q 0) eqn:A; cbn [orb].
    + apply Qle_bool_iff in A. split; [discriminate|]. intros (_ & [H|(q' & [= <-] & H & _)]); [discriminate|]. exfalso. apply (Qlt_irrefl 0). now apply Qlt_le_trans with q.
    + assert (P : (0 < q)%Q) by (apply Qnot_le_lt; intros L; apply Qle_bool_iff in L; congruence). destruct (Qle_bool q 1) eqn:B; cbn [negb].
      * apply Qle_bool_iff in B. split; [intros [= <-]; split; [reflexivity|right; eauto]|now intros (-> & _)].
      * split; [discriminate|]. intros (_ & [H|(q' & [= <-] & _ & H)]); [discriminate|]. apply Qle_bool_iff in H. congruence.
  - split; [discriminate|]. intros (_ & [H|(q & H & _)]); discriminate.
  - split; [discriminate|]. intros (_ & [H|(q & H & _)]); discriminate.
  - split; [intros [= <-]; auto|]. now intros (-> & _).
Qed.
Lemma add_spec l : forall acc r, add_phases l acc = Some r <->
  r = acc ++ phases_of l /\ (forall x, In x l -> g_fraction x = NaN \/ exists q, g_fraction x = Fin q /\ (0 < q <= 1)%Q) /\
  NoDup (map g_name l) /\ (forall x p, In x l -> In p acc -> ph_name p <> g_name x).
Proof.
  induction l as [|[[n f] i] l IH]; intros acc r.
  - cbn. rewrite app_nil_r. split; [intros [= <-]; repeat split; try constructor; try contradiction|now intros (-> & _)].
  - cbn [add_phases]. destruct (new_phase n f i) as [p|] eqn:N.
    + apply new_phase_some in N. destruct N as (-> & F). destruct (existsb _ acc) eqn:X.
      * split; [discriminate|]. intros (_ & _ & _ & D). apply existsb_exists in X. destruct X as (p & I & E). apply String.eqb_eq in E. elim (D _ p (or_introl eq_refl) I). exact E.
      * assert (XN : forall p, In p acc -> ph_name p <> n).
        { intros p I E. assert (T : existsb (fun q => String.eqb (ph_name q) n) acc = true) by (apply existsb_exists; exists p; split; [exact I|now apply String.eqb_eq]). congruence. }
        rewrite IH. cbn [phases_of map]. rewrite <- app_assoc. cbn [app]. split.
        -- intros (-> & A & B & C). split; [reflexivity|]. split; [intros x [<-|I]; [exact F|now apply A]|]. split.
           ++ constructor; [|exact B]. intros I. apply in_map_iff in I. destruct I as (x & E & I). eapply (C x (mkPhase n f i) I); [apply in_or_app; right; now left|]. cbn. now rewrite E.
           ++ intros x p [<-|I] J; [now apply XN|]. apply (C x p I). apply in_or_app. now left.
        -- intros (-> & A & B & C). split; [reflexivity|]. inversion B as [|? ? NI ND]; subst. split; [intros x I; apply A; now right|]. split; [exact ND|].
           intros x p I J. apply in_app_or in J. destruct J as [J|[<-|[]]]; [apply C; [now right|exact J]|]. cbn. intros ->. apply NI. exact (in_map g_name l x I).
    + split; [discriminate|]. intros (_ & A & _). specialize (A _ (or_introl eq_refl)). cbn in A.
      assert (new_phase n f i = Some (mkPhase n f i)) by (apply new_phase_some; split; [reflexivity|exact A]). congruence.
Qed.
Lemma fold_nan l : fold_left (fun s p => dadd s (ph_fraction p)) l NaN = NaN. Proof. induction l as [|p l IH]; [reflexivity|exact IH]. Qed.
Lemma fold_sum l : (forall x, In x l -> g_fraction x = NaN \/ exists q, g_fraction x = Fin q /\ (0 < q <= 1)%Q) -> forall q0,
  (exists q, fold_left (fun s p => dadd s (ph_fraction p)) (phases_of l) (Fin q0) = Fin q /\ (q == q0 + sum (map (fun x => num (g_fraction x)) l))%Q /\ forall x, In x l -> g_fraction x <> NaN) \/
  (fold_left (fun s p => dadd s (ph_fraction p)) (phases_of l) (Fin q0) = NaN /\ exists x, In x l /\ g_fraction x = NaN).
Proof.
  induction l as [|[[n f] i] l IH]; intros A q0.
  - left. exists q0. split; [reflexivity|]. split; [cbn; ring|]. contradiction.
  - cbn [phases_of map fold_left ph_fraction fst snd]. destruct (A _ (or_introl eq_refl)) as [N|(q & N & B)]; cbn in N; subst f.
    + right. cbn [dadd]. split; [apply fold_nan|]. exists (n, NaN, i). split; [now left|reflexivity].
    + cbn [dadd]. destruct (IH (fun x I => A x (or_intror I)) (q0 + q)%Q) as [(r & E & S & NN)|(E & x & I & N)].
      * left. exists r. split; [exact E|]. split; [rewrite S; cbn; ring|]. intros x [<-|I]; [discriminate|auto].
      * right. split; [exact E|]. exists x. split; [now right|exact N].
Qed.
(** Exactly the alignments whose phases have different names, fractions that are numbers above 0 and up to 1,
    and 1 as the sum of the fractions up to 1/10000; the phases are kept in their order. *)
Theorem C58_accepted (l : given) (r : list phase) : define_alignment l = Some r <->
  r = phases_of l /\ NoDup (map g_name l) /\ (forall x, In x l -> exists q, g_fraction x = Fin q /\ (0 < q <= 1)%Q) /\
  (Qabs (1 - sum (map (fun x => num (g_fraction x)) l)) <= 1 # 10000)%Q.
Proof.
  unfold define_alignment. destruct (add_phases l []) as [r'|] eqn:E.
  - apply add_spec in E. cbn [app] in E. destruct E as (-> & A & D & _). unfold validate. destruct (fold_sum l A 0) as [(q & -> & S & NN)|(-> & x & I & N)].
    + assert (A' : forall x, In x l -> exists q, g_fraction x = Fin q /\ (0 < q <= 1)%Q) by (intros x I; destruct (A x I) as [H|H]; [elim (NN x I H)|exact H]).
      unfold is_close. cbn [dopp dadd dabs dmul_fin dle].
      assert (Q0 : Qle_bool (Qabs (1 + - q)) (Qabs 1 * (1 # 10000)) = true <-> (Qabs (1 - sum (map (fun x => num (g_fraction x)) l)) <= 1 # 10000)%Q).
      { rewrite Qle_bool_iff. assert (H : (1 + - q == 1 - sum (map (fun x => num (g_fraction x)) l))%Q) by (rewrite S; ring). rewrite H. change (Qabs 1 * (1 # 10000))%Q with (1 # 10000)%Q. tauto. }
      destruct (Qle_bool _ _).
      * split; [intros [= <-]; tauto|now intros (-> & _)].
      * split; [discriminate|]. intros (_ & _ & _ & H). apply Q0 in H. discriminate.
    + cbn. split; [discriminate|]. intros (_ & _ & H & _). destruct (H x I) as (q & E & _). congruence.
  - split; [discriminate|]. intros (-> & D & A & _). assert (X : add_phases l [] = Some (phases_of l)) by (apply add_spec; cbn [app]; repeat split; auto; contradiction). congruence.
Qed.

(** ** The times analysed *)
Definition as_phase (code : string -> nat) (p : phase) : Phase.phase Q :=
  Phase.mkPhase (num (ph_fraction p)) (map (fun i => (code (fst i), snd i)) (ph_instructions p)).
Lemma run_times ps : forall s l s', Phase.run_phases Qmult ps s = Some (l, s') ->
  map (fun t => Phase.model_time t) l = map (fun p => Phase.fraction p * Phase.model_time s)%Q ps /\ map (fun t => Phase.settings_time t) l = map (fun p => Phase.fraction p * Phase.model_time s)%Q ps.
Proof.
  induction ps as [|p ps IH]; intros s l s' E; cbn [Phase.run_phases] in E; [injection E as <- <-; auto|].
  destruct (Phase.run_phase Qmult (Some p) s) as [[seen s1]|] eqn:R; [|discriminate]. unfold Phase.run_phase in R. destruct (Phase.apply_instructions _ _ _) as [[f saved]|]; [|discriminate].
  injection R as <- <-. destruct (Phase.run_phases Qmult ps _) as [[l2 s2]|] eqn:R2; [|discriminate]. injection E as <- <-. apply IH in R2. destruct R2 as (A & B). cbn [Phase.model_time] in A, B. cbn [map Phase.model_time Phase.settings_time]. now rewrite A, B.
Qed.
Lemma sum_times l t : (sum (map (fun p => Phase.fraction p * t) l) == sum (map (fun p => Phase.fraction p) l) * t)%Q.
Proof. induction l as [|p l IH]; cbn; [ring|]. rewrite IH. ring. Qed.
(** The phases of an accepted alignment are analysed one by one with a positive part of the mission time, not
    more than all of it, and together their times are the mission time up to 1/10000 of it. *)
Theorem C58_times code (l : given) (r : list phase) s seen s' : define_alignment l = Some r -> (0 < Phase.model_time s)%Q ->
  Phase.run_phases Qmult (map (as_phase code) r) s = Some (seen, s') ->
  List.length seen = List.length l /\
  (forall v, In v seen -> (0 < Phase.model_time v <= Phase.model_time s)%Q /\ Phase.settings_time v = Phase.model_time v) /\
  (Qabs (Phase.model_time s - sum (map (fun v => Phase.model_time v) seen)) <= (1 # 10000) * Phase.model_time s)%Q.
Proof.
  intros D P R. apply C58_accepted in D. destruct D as (-> & _ & A & S). apply run_times in R. destruct R as (M & T).
  assert (L : List.length seen = List.length l) by (apply (f_equal (@List.length Q)) in M; rewrite !map_length in M; unfold phases_of in M; now rewrite map_length in M).
  split; [exact L|]. split.
  - intros v I. assert (EQ : Phase.settings_time v = Phase.model_time v).
    { rewrite <- M in T. clear -T I. induction seen as [|w seen IH]; [contradiction|]. cbn in T. injection T as T1 T2. destruct I as [<-|I]; auto. }
    split; [|exact EQ]. assert (J : In (Phase.model_time v) (map (fun p => Phase.fraction p * Phase.model_time s)%Q (map (as_phase code) (phases_of l)))) by (rewrite <- M; now apply (in_map (fun v => Phase.model_time v))).
    apply in_map_iff in J. destruct J as (p & E & J). apply in_map_iff in J. destruct J as (p' & <- & J). unfold phases_of in J. apply in_map_iff in J. destruct J as (x & <- & J).
    destruct (A x J) as (q & F & B). unfold g_fraction in F. cbn in E. rewrite F in E. cbn in E. rewrite <- E. split; nra.
  - rewrite M. assert (Q0 : (sum (map (fun p => Phase.fraction p * Phase.model_time s) (map (as_phase code) (phases_of l))) == sum (map (fun x => num (g_fraction x)) l) * Phase.model_time s)%Q).
    { rewrite sum_times. unfold phases_of. rewrite !map_map. reflexivity. }
    rewrite Q0. assert (H : (Phase.model_time s - sum (map (fun x => num (g_fraction x)) l) * Phase.model_time s == (1 - sum (map (fun x => num (g_fraction x)) l)) * Phase.model_time s)%Q) by ring.
    rewrite H, Qabs_Qmult, (Qabs_pos (Phase.model_time s)) by lra. apply Qmult_le_compat_r; [exact S|lra].
Qed.
(** The fractions need not add up to one exactly: the phases can take longer than the mission. *)
Theorem C58_exact_refuted : ~ (forall l r, define_alignment l = Some r -> (sum (map (fun x => num (g_fraction x)) l) <= 1)%Q).
Proof.
  intros H. assert (E : define_alignment [("day"%string, Fin (1 # 2), []); ("night"%string, Fin (10001 # 20000), [])] = Some (phases_of [("day"%string, Fin (1 # 2), []); ("night"%string, Fin (10001 # 20000), [])])) by reflexivity.
  apply H in E. cbn in E. apply Qle_bool_iff in E. discriminate E.
Qed.
Example C58_witness : exists r seen s', define_alignment [("day"%string, Fin (1 # 2), [("valve"%string, true)]); ("night"%string, Fin (1 # 2), [])] = Some r /\
  Phase.run_phases Qmult (map (as_phase (fun _ => 0%nat)) r) (Phase.mkM (fun _ => Some false) 100%Q 100%Q) = Some (seen, s') /\ List.length seen = 2%nat /\
  (sum (map (fun v => Phase.model_time v) seen) == 100)%Q.
Proof. do 3 eexists. split; [reflexivity|]. split; [reflexivity|]. split; reflexivity. Qed.
Example C58_rejected : define_alignment [("day"%string, Fin (1 # 2), []); ("day"%string, Fin (1 # 2), [])] = None /\ define_alignment [("day"%string, NaN, [])] = None /\ define_alignment [] = None.
Proof. repeat split. Qed.
