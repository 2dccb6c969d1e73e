(** Timing of the traversal: what the visit times say about the graph. *)
From stdpp Require Import gmap.
From Coq Require Import List ZArith Lia Bool.
Import ListNotations.
From Verif Require Import Pdag PdagProofs PdagSem ZbddGraph ZbddModules ZbddModulesProofs Preproc Order Modules.
Open Scope Z_scope.

Section Timing.
Context (G : graph) (root : Z) (r : Z -> nat) (RK : ranked G r) (NC : forall i x, gs G !! i = Some x -> constant x = false).
Notation under := (ZbddModules.under G).
Notation en := enter_time. Notation ex := exit_time.
Definition re (V : times) (j : Z) : Z := third (V j).
Definition edge (p j : Z) : Prop := exists x a, gs G !! p = Some x /\ In a (g_args x) /\ Z.abs a = j.
Lemma edge_under g p j : edge p j -> under g p -> under g j.
Proof. intros (x & a & E & J & <-) U. exact (under_arg G g p x a U E J). Qed.
Lemma under_edge g j : under g j -> j = g \/ exists p, under g p /\ edge p j.
Proof. intros U. destruct U as [|i x a U E J]; auto. right. exists i. split; auto. exists x, a. auto. Qed.
Lemma no_cycle p j : edge p j -> under j p -> False.
Proof.
  intros (x & a & E & J & <-) U. pose proof (under_rank G r RK _ _ U (mk_is_Some _ _ E)) as R.
  assert (S : is_Some (gs G !! Z.abs a)).
  { destruct (gs G !! Z.abs a) as [y|] eqn:Ey; [eauto|]. exfalso. assert (p = Z.abs a); [|congruence]. clear -U Ey. induction U as [|k z e U IH Ek Je]; congruence. }
  pose proof (RK p x a E J S). lia.
Qed.
Lemma under_antisym a b : under a b -> under b a -> a = b.
Proof.
  intros A B. destruct (under_edge a b A) as [->|(p & U & E)]; auto. exfalso. apply (no_cycle p b E). eapply under_trans; eauto.
Qed.

(** [tau]: p visits its argument j then, only ancestors of p being open. *)
Definition visited_at (V : times) (p j tau : Z) : Prop :=
  (tau = en V j \/ (re V j <> 0 /\ ex V j < tau <= re V j)) /\
  forall g, is_Some (gs G !! g) -> en V g <> 0 -> en V g <= tau -> (ex V g = 0 \/ tau <= ex V g) -> g = j \/ under g p.
Definition seen (V : times) (t p j : Z) : Prop := exists tau, en V p < tau <= t /\ (ex V p <> 0 -> tau < ex V p) /\ visited_at V p j tau.
Record inv (s : Z * times) : Prop := {
  t_bounds : forall j, 0 <= en s.2 j <= s.1 /\ 0 <= ex s.2 j <= s.1 /\ 0 <= re s.2 j <= s.1;
  t_order : forall j, (en s.2 j = 0 -> ex s.2 j = 0) /\ (ex s.2 j = 0 -> re s.2 j = 0) /\ (ex s.2 j <> 0 -> en s.2 j <= ex s.2 j) /\ (re s.2 j <> 0 -> ex s.2 j < re s.2 j);
  t_gate : forall j, is_Some (gs G !! j) -> ex s.2 j <> 0 -> en s.2 j < ex s.2 j;
  t_var : forall j, gs G !! j = None -> en s.2 j <> 0 -> ex s.2 j <> 0;
  t_edge : forall p j, edge p j -> ex s.2 p <> 0 -> seen s.2 s.1 p j;
  t_nested : forall g c, ex s.2 g <> 0 -> en s.2 g < en s.2 c -> en s.2 c < ex s.2 g -> ex s.2 c <> 0 /\ ex s.2 c < ex s.2 g;
  t_enter : forall j, en s.2 j <> 0 -> j = root \/ exists p, edge p j /\ en s.2 p <> 0 /\ en s.2 p < en s.2 j /\ (ex s.2 p <> 0 -> en s.2 j < ex s.2 p);
  t_again : forall j, re s.2 j <> 0 -> exists p, edge p j /\ en s.2 p <> 0 /\ en s.2 p < re s.2 j /\ (ex s.2 p <> 0 -> re s.2 j < ex s.2 p) }.
Record grows (s s' : Z * times) : Prop := {
  g_time : s.1 <= s'.1;
  g_enter : forall j, en s.2 j <> 0 -> en s'.2 j = en s.2 j;
  g_exit : forall j, ex s.2 j <> 0 -> ex s'.2 j = ex s.2 j;
  g_again : forall j, re s.2 j <= re s'.2 j;
  g_new_enter : forall j, en s.2 j = 0 -> en s'.2 j = 0 \/ s.1 < en s'.2 j;
  g_new_exit : forall j, ex s.2 j = 0 -> ex s'.2 j = 0 \/ s.1 < ex s'.2 j;
  g_re : forall j, re s'.2 j = re s.2 j \/ s.1 < re s'.2 j }.
Lemma grows_refl s : grows s s.
Proof. split; auto; try lia. Qed.
Lemma grows_trans a b c : inv a -> inv b -> grows a b -> grows b c -> grows a c.
Proof.
  intros IA IB A B. destruct A as [A1 A2 A3 A4 A5 A6 A7], B as [B1 B2 B3 B4 B5 B6 B7]. split.
  - lia.
  - intros j N. specialize (A2 j N). rewrite B2; congruence.
  - intros j N. specialize (A3 j N). rewrite B3; congruence.
  - intros j. specialize (A4 j). specialize (B4 j). lia.
  - intros j N. destruct (A5 j N) as [E|E]; [destruct (B5 j E); [auto|right; lia]|]. right. rewrite B2; [auto|]. pose proof (t_bounds a IA j). lia.
  - intros j N. destruct (A6 j N) as [E|E]; [destruct (B6 j E); [auto|right; lia]|]. right. rewrite B3; [auto|]. pose proof (t_bounds a IA j). lia.
  - intros j. destruct (B7 j) as [->|]; [auto|right; lia].
Qed.
Lemma seen_grows s s' p j : inv s -> grows s s' -> en s.2 p <> 0 -> seen s.2 s.1 p j -> en s.2 j <> 0 -> seen s'.2 s'.1 p j.
Proof.
  intros I W N (tau & T1 & T2 & (T3 & T4)) NJ. pose proof (g_time _ _ W). exists tau. rewrite (g_enter _ _ W p N). split; [lia|]. split.
  - intros E. destruct (Z.eq_dec (ex s.2 p) 0) as [Z0|NZ]; [destruct (g_new_exit _ _ W p Z0); lia|]. rewrite (g_exit _ _ W p NZ). auto.
  - split.
    + rewrite (g_enter _ _ W j NJ). destruct T3 as [|[R1 R2]]; auto. right. pose proof (g_again _ _ W j). pose proof (t_bounds s I j). split; [lia|].
      rewrite (g_exit _ _ W j); [lia|]. intros E0. elim R1. apply (t_order s I j). auto.
    + intros g SG E1 E2 E3. destruct (Z.eq_dec (en s.2 g) 0) as [Z0|NZ]; [destruct (g_new_enter _ _ W g Z0); lia|]. rewrite (g_enter _ _ W g NZ) in E2.
      apply T4; auto. destruct (Z.eq_dec (ex s.2 g) 0) as [Z1|NZ1]; auto. rewrite (g_exit _ _ W g NZ1) in E3. auto.
Qed.
Lemma seen_visited s p j : inv s -> en s.2 p <> 0 -> seen s.2 s.1 p j -> en s.2 j <> 0.
Proof.
  intros I N (tau & T1 & _ & [-> | [R1 _]] & _) E.
  - pose proof (t_bounds s I p). lia.
  - apply R1. apply (t_order s I j). apply (t_order s I j). auto.
Qed.

(** Single visits. *)
Lemma visit_at k j t V : fst (visit j t V) k = if k =? j then (if first (V j) =? 0 then Visits t (second (V j)) (third (V j)) else if second (V j) =? 0 then Visits (first (V j)) t (third (V j)) else Visits (first (V j)) (second (V j)) t) else V k.
Proof. unfold visit, set_visits. destruct (first (V j) =? 0); [|destruct (second (V j) =? 0)]; simpl; destruct (k =? j); auto. Qed.
Lemma visit_again j t V : snd (visit j t V) = negb (first (V j) =? 0) && negb (second (V j) =? 0).
Proof. unfold visit. destruct (first (V j) =? 0); [auto|]. destruct (second (V j) =? 0); auto. Qed.

(* all open gates are at or above p *)
Definition open_above (V : times) (p : Z) : Prop := forall g, is_Some (gs G !! g) -> en V g <> 0 -> ex V g = 0 -> under g p.
Definition same_open (V V' : times) : Prop := forall g, is_Some (gs G !! g) -> (en V' g <> 0 /\ ex V' g = 0 <-> en V g <> 0 /\ ex V g = 0).
Lemma same_refl V : same_open V V. Proof. intros g SG. tauto. Qed.
Lemma same_trans A B C : same_open A B -> same_open B C -> same_open A C.
Proof. intros P Q g SG. rewrite (Q g SG). auto. Qed.

(** A visit of a closed node (a gate visited before, or a variable) by the open gate p. *)
Lemma step_again t V V' p j : inv (t, V) -> edge p j -> en V p <> 0 -> ex V p = 0 -> open_above V p -> en V j <> 0 -> ex V j <> 0 ->
  (forall k, en V' k = en V k) -> (forall k, ex V' k = ex V k) -> (forall k, re V' k = if k =? j then t + 1 else re V k) ->
  inv (t + 1, V') /\ grows (t, V) (t + 1, V') /\ same_open V V' /\ seen V' (t + 1) p j.
Proof.
  intros I E NP XP OA NJ XJ EN EX RE.
  pose proof (t_bounds _ I) as TB. cbn [fst snd] in TB.
  assert (W : grows (t, V) (t + 1, V')).
  { split; cbn [fst snd]; try (intros k; rewrite ?EN, ?EX; auto; fail); [lia| |].
    - intros k. rewrite RE. destruct (k =? j); [pose proof (TB k); lia|lia].
    - intros k. rewrite RE. destruct (k =? j); [right; lia|auto]. }
  assert (SE : seen V' (t + 1) p j).
  { exists (t + 1). rewrite EN, EX. pose proof (TB p). pose proof (TB j). split; [lia|]. split; [intros X; contradiction|]. split.
    - right. rewrite EX, RE, Z.eqb_refl. lia.
    - intros g SG. rewrite EN, EX. intros N1 _ [X|X]; [right; apply OA; auto|]. pose proof (TB g). lia. }
  split; [|split; [exact W|split; [|exact SE]]].
  - split; cbn [fst snd].
    + intros k. rewrite EN, EX, RE. pose proof (TB k). destruct (k =? j); lia.
    + intros k. rewrite EN, EX, RE. pose proof (t_order _ I k) as O. cbn [fst snd] in O. destruct (Z.eqb_spec k j) as [->|]; [pose proof (TB j); lia|lia].
    + intros k. rewrite EN, EX. apply (t_gate _ I).
    + intros k. rewrite EN, EX. apply (t_var _ I).
    + intros q k EQ. rewrite EX. intros XQ. assert (NQ : en V q <> 0) by (intros Z0; apply XQ; apply (t_order _ I q); auto).
      pose proof (t_edge _ I q k EQ XQ) as SQ. exact (seen_grows (t, V) (t + 1, V') q k I W NQ SQ (seen_visited (t, V) q k I NQ SQ)).
    + intros g c. rewrite !EN, !EX. apply (t_nested _ I).
    + intros k. rewrite EN. intros N. destruct (t_enter _ I k N) as [|(q & Q)]; auto. right. exists q. rewrite !EN, !EX. exact Q.
    + intros k. rewrite RE. destruct (Z.eqb_spec k j) as [->|NE].
      * intros _. exists p. rewrite EN, EX. pose proof (TB p). split; [auto|]. split; [auto|]. split; [lia|]. intros X; contradiction.
      * intros N. destruct (t_again _ I k N) as (q & Q). exists q. rewrite EN, EX. exact Q.
  - intros g SG. rewrite EN, EX. tauto.
Qed.

(** The first visit of a node, which is left open (a gate) or closed at once (a variable). *)
Lemma step_enter t V V' (caller : option Z) j (open : bool) : inv (t, V) -> 0 <= t ->
  match caller with Some p => edge p j /\ en V p <> 0 /\ ex V p = 0 /\ open_above V p | None => j = root /\ forall g, is_Some (gs G !! g) -> en V g <> 0 -> ex V g <> 0 end ->
  en V j = 0 -> (open = true <-> is_Some (gs G !! j)) ->
  (forall k, en V' k = if k =? j then t + 1 else en V k) -> (forall k, ex V' k = if (k =? j) && negb open then t + 1 else ex V k) -> (forall k, re V' k = re V k) ->
  inv (t + 1, V') /\ grows (t, V) (t + 1, V') /\
  (forall g, is_Some (gs G !! g) -> (en V' g <> 0 /\ ex V' g = 0 <-> g = j \/ (en V g <> 0 /\ ex V g = 0))) /\
  match caller with Some p => seen V' (t + 1) p j | None => True end.
Proof.
  intros I T0 C NJ OP EN EX RE. pose proof (t_bounds _ I) as TB. cbn [fst snd] in TB.
  assert (XJ : ex V j = 0) by (apply (t_order _ I j); auto). assert (RJ : re V j = 0) by (apply (t_order _ I j); auto).
  assert (W : grows (t, V) (t + 1, V')).
  { split; cbn [fst snd]; [lia| | | | | |].
    - intros k N. rewrite EN. destruct (Z.eqb_spec k j) as [->|]; [contradiction|auto].
    - intros k N. rewrite EX. destruct (Z.eqb_spec k j) as [->|]; [contradiction|auto].
    - intros k. rewrite RE. lia.
    - intros k N. rewrite EN. destruct (k =? j); [right; lia|auto].
    - intros k N. rewrite EX. destruct ((k =? j) && negb open); [right; lia|auto].
    - intros k. rewrite RE. auto. }
  assert (SE : match caller with Some p => seen V' (t + 1) p j | None => True end).
  { destruct caller as [p|]; auto. destruct C as (E & NP & XP & OA). assert (PJ : p <> j) by (intros ->; contradiction).
    exists (t + 1). rewrite EN, EX, (proj2 (Z.eqb_neq _ _) PJ). cbn [andb]. pose proof (TB p). split; [lia|]. split; [intros; contradiction|]. split.
    - left. rewrite EN, Z.eqb_refl. auto.
    - intros g SG. rewrite EN, EX. destruct (Z.eqb_spec g j) as [->|NE]; [auto|]. cbn [andb]. intros N1 _ [X|X]; [right; apply OA; auto|]. pose proof (TB g). lia. }
  split; [|split; [exact W|split; [|exact SE]]].
  - split; cbn [fst snd].
    + intros k. rewrite EN, EX, RE. pose proof (TB k). destruct (k =? j), open; simpl; lia.
    + intros k. rewrite EN, EX, RE. pose proof (t_order _ I k) as O. cbn [fst snd] in O. destruct (Z.eqb_spec k j) as [->|], open; simpl; lia.
    + intros k SK. rewrite EN, EX. destruct (Z.eqb_spec k j) as [->|]; [|apply (t_gate _ I); auto]. rewrite (proj2 OP SK). simpl. contradiction.
    + intros k SK. rewrite EN, EX. destruct (Z.eqb_spec k j) as [->|]; [|apply (t_var _ I); auto]. intros _.
      destruct open; [destruct (proj1 OP eq_refl); congruence|]. simpl. lia.
    + intros q k EQ XQ. destruct (Z.eq_dec q j) as [->|NE].
      * exfalso. assert (SQ : is_Some (gs G !! j)) by (destruct EQ as (x & a & Ex & _); eauto). rewrite EX, Z.eqb_refl, (proj2 OP SQ) in XQ. simpl in XQ. auto.
      * rewrite EX, (proj2 (Z.eqb_neq _ _) NE) in XQ. cbn [andb] in XQ. assert (NQ : en V q <> 0) by (intros Z0; apply XQ; apply (t_order _ I q); auto).
        pose proof (t_edge _ I q k EQ XQ) as SQ. exact (seen_grows (t, V) (t + 1, V') q k I W NQ SQ (seen_visited (t, V) q k I NQ SQ)).
    + intros g c. rewrite !EN, !EX. pose proof (TB g). pose proof (TB c). destruct (Z.eqb_spec g j) as [->|NG], (Z.eqb_spec c j) as [->|NC']; cbn [andb]; intros X L1 L2.
      * lia.
      * destruct open; simpl in *; lia.
      * lia.
      * apply (t_nested _ I); auto.
    + intros k. rewrite EN. destruct (Z.eqb_spec k j) as [->|NE].
      * intros _. destruct caller as [p|]; [|left; tauto]. destruct C as (E & NP & XP & OA). right. exists p. assert (PJ : p <> j) by (intros ->; contradiction).
        rewrite EN, EX, (proj2 (Z.eqb_neq _ _) PJ). cbn [andb]. pose proof (TB p). split; [auto|]. split; [auto|]. split; [lia|]. intros; contradiction.
      * intros N. destruct (t_enter _ I k N) as [|(q & Q1 & Q2 & Q3)]; auto. right. exists q. cbn [snd] in Q2. assert (QJ : q <> j) by (intros ->; contradiction).
        rewrite EN, EX, (proj2 (Z.eqb_neq _ _) QJ). auto.
    + intros k. rewrite RE. intros N. destruct (t_again _ I k N) as (q & Q1 & Q2 & Q3). exists q. cbn [snd] in Q2. assert (QJ : q <> j) by (intros ->; contradiction).
      rewrite EN, EX, (proj2 (Z.eqb_neq _ _) QJ). auto.
  - intros g SG. rewrite EN, EX. destruct (Z.eqb_spec g j) as [->|]; [|intuition]. rewrite (proj2 OP SG). simpl. intuition lia.
Qed.
(** The gate i is left. *)
Lemma step_exit t V V' i : inv (t, V) -> is_Some (gs G !! i) -> en V i <> 0 -> ex V i = 0 ->
  (forall c, en V i < en V c -> ex V c <> 0) -> (forall j, edge i j -> seen V t i j) ->
  (forall k, en V' k = en V k) -> (forall k, ex V' k = if k =? i then t + 1 else ex V k) -> (forall k, re V' k = re V k) ->
  inv (t + 1, V') /\ grows (t, V) (t + 1, V') /\ (forall g, is_Some (gs G !! g) -> (en V' g <> 0 /\ ex V' g = 0 <-> g <> i /\ en V g <> 0 /\ ex V g = 0)).
Proof.
  intros I SI NI XI CL SEEN EN EX RE. pose proof (t_bounds _ I) as TB. cbn [fst snd] in TB.
  assert (W : grows (t, V) (t + 1, V')).
  { split; cbn [fst snd]; [lia| | | | | |]; try (intros k; rewrite ?EN, ?RE; auto; lia).
    - intros k N. rewrite EX. destruct (Z.eqb_spec k i) as [->|]; [contradiction|auto].
    - intros k N. rewrite EX. destruct (k =? i); [right; lia|auto]. }
  split; [|split; [exact W|]].
  - split; cbn [fst snd].
    + intros k. rewrite EN, EX, RE. pose proof (TB k). destruct (k =? i); lia.
    + intros k. rewrite EN, EX, RE. pose proof (t_order _ I k) as O. cbn [fst snd] in O. pose proof (TB k). destruct (Z.eqb_spec k i) as [->|]; lia.
    + intros k SK. rewrite EN, EX. pose proof (TB k). destruct (Z.eqb_spec k i) as [->|]; [lia|]. apply (t_gate _ I). auto.
    + intros k SK. rewrite EN, EX. destruct (Z.eqb_spec k i) as [->|]; [destruct SI; congruence|]. apply (t_var _ I). auto.
    + intros q k EQ XQ. assert (Q : en V q <> 0 /\ seen V t q k).
      { destruct (Z.eq_dec q i) as [->|NE]; [auto|]. rewrite EX, (proj2 (Z.eqb_neq _ _) NE) in XQ.
        split; [intros Z0; apply XQ; apply (t_order _ I q); auto|]. apply (t_edge _ I q k EQ XQ). }
      destruct Q as [NQ SQ]. exact (seen_grows (t, V) (t + 1, V') q k I W NQ SQ (seen_visited (t, V) q k I NQ SQ)).
    + intros g c. rewrite !EN, !EX. pose proof (TB c). destruct (Z.eqb_spec g i) as [->|NG], (Z.eqb_spec c i) as [->|NC']; try lia.
      * intros _ L1 _. specialize (CL c L1). lia.
      * intros X L1 L2. destruct (t_nested _ I g i X L1 L2) as [N _]. cbn [snd] in N. contradiction.
      * apply (t_nested _ I).
    + intros k. rewrite EN. intros N. destruct (t_enter _ I k N) as [|(q & Q1 & Q2 & Q3 & Q4)]; auto. right. exists q. cbn [fst snd] in *. rewrite EN, EX. pose proof (TB k). destruct (Z.eqb_spec q i) as [->|]; [|auto].
      split; [auto|]. split; [auto|]. split; [auto|]. lia.
    + intros k. rewrite RE. intros N. destruct (t_again _ I k N) as (q & Q1 & Q2 & Q3 & Q4). exists q. cbn [fst snd] in *. rewrite EN, EX. pose proof (TB k). destruct (Z.eqb_spec q i) as [->|]; [|auto].
      split; [auto|]. split; [auto|]. split; [auto|]. lia.
  - intros g SG. rewrite EN, EX. pose proof (TB i). destruct (Z.eqb_spec g i) as [->|]; [split; intros; [exfalso|]; lia|]. intuition.
Qed.

Ltac vis := unfold enter_time, exit_time, re, visit_variable in *; cbn [fst snd] in *; rewrite ?visit_at in *.
Lemma variable_ok s p v : inv s -> 0 <= s.1 -> gs G !! v = None -> edge p v -> en s.2 p <> 0 -> ex s.2 p = 0 -> open_above s.2 p ->
  let s' := visit_variable s v in inv s' /\ grows s s' /\ same_open s.2 s'.2 /\ seen s'.2 s'.1 p v.
Proof.
  intros I T0 NV E NP XP OA. destruct s as [t V]. cbv zeta. cbn [fst snd] in *. pose proof (t_bounds _ I v) as TB. cbn [fst snd] in TB. pose proof (t_order _ I v) as TO. cbn [fst snd] in TO. pose proof (t_var _ I v NV) as TV. cbn [fst snd] in TV.
  unfold visit_variable. cbn [fst snd]. set (V' := fst (visit v (t + 1) (fst (visit v (t + 1) V)))).
  assert (VV : forall k, V' k = if k =? v then (if en V v =? 0 then Visits (t + 1) (t + 1) (third (V v)) else Visits (en V v) (ex V v) (t + 1)) else V k).
  { intros k. unfold V'. rewrite !visit_at. rewrite Z.eqb_refl. unfold enter_time, exit_time in *. destruct (Z.eqb_spec k v) as [->|]; [|auto].
    destruct (Z.eqb_spec (first (V v)) 0) as [Z0|NZ]; simpl.
    - destruct (Z.eqb_spec (t + 1) 0); [lia|]. destruct (Z.eqb_spec (second (V v)) 0); [auto|lia].
    - destruct (Z.eqb_spec (second (V v)) 0) as [Z1|NZ1]; [elim (TV NZ Z1)|]. simpl. rewrite (proj2 (Z.eqb_neq _ _) NZ), (proj2 (Z.eqb_neq _ _) NZ1). auto. }
  clearbody V'. destruct (Z.eq_dec (en V v) 0) as [Z0|NZ].
  - destruct (step_enter t V V' (Some p) v false I T0) as (A & B & C & D); auto.
    + split; [discriminate|]. intros [x Ex]. congruence.
    + intros k. unfold enter_time at 1. rewrite VV, Z0. destruct (k =? v); auto.
    + intros k. unfold exit_time at 1. rewrite VV, Z0. destruct (k =? v); auto.
    + intros k. unfold re. rewrite VV, Z0. destruct (Z.eqb_spec k v) as [->|]; auto.
    + split; [exact A|]. split; [exact B|]. split; [|exact D]. intros g SG. rewrite (C g SG). assert (g <> v) by (intros ->; destruct SG; congruence). tauto.
  - apply (step_again t V V' p v); auto.
    + intros k. unfold enter_time at 1. rewrite VV, (proj2 (Z.eqb_neq _ _) NZ). destruct (Z.eqb_spec k v) as [->|]; auto.
    + intros k. unfold exit_time at 1. rewrite VV, (proj2 (Z.eqb_neq _ _) NZ). destruct (Z.eqb_spec k v) as [->|]; auto.
    + intros k. unfold re. rewrite VV, (proj2 (Z.eqb_neq _ _) NZ). destruct (Z.eqb_spec k v) as [->|]; auto.
Qed.
Lemma open_same V V' p : open_above V p -> same_open V V' -> open_above V' p.
Proof. intros A B g SG N X. destruct (proj1 (B g SG) (conj N X)). auto. Qed.
Lemma assign_S fuel g s : assign_timing G (S fuel) g s =
  let t := s.1 + 1 in let '(V, again) := visit g t s.2 in if again then Some (t, V) else
  x ← gs G !! g; if constant x then None else
  s ← (fix go (l : list Z) (s : Z * times) : option (Z * times) := match l with [] => Some s | c :: l => s ← assign_timing G fuel c s; go l s end) (gate_args G x) (t, V);
  let s := fold_left visit_variable (variable_args G x) s in
  let t := s.1 + 1 in let '(V, again) := visit g t s.2 in if again then None else Some (t, V).
Proof. reflexivity. Qed.
Definition call_ok (caller : option Z) (i : Z) (V : times) : Prop :=
  match caller with Some p => edge p i /\ en V p <> 0 /\ ex V p = 0 /\ open_above V p | None => i = root /\ en V i = 0 /\ forall g, is_Some (gs G !! g) -> en V g <> 0 -> ex V g <> 0 end.
Lemma assign_ok : forall fuel caller i s, (r i < fuel)%nat -> is_Some (gs G !! i) -> inv s -> 0 <= s.1 -> call_ok caller i s.2 ->
  exists s', assign_timing G fuel i s = Some s' /\ inv s' /\ grows s s' /\ same_open s.2 s'.2 /\ (ex s.2 i = 0 -> ex s'.2 i <> 0) /\
    match caller with Some p => seen s'.2 s'.1 p i | None => True end.
Proof.
  induction fuel as [|fuel IH]; intros caller i [t V] F [x Ex] I T0 C; [lia|]. rewrite assign_S. cbn [fst snd]. cbv zeta. cbn [fst snd] in C, T0.
  destruct (visit i (t + 1) V) as [V1 again] eqn:VI.
  pose proof (visit_again i (t + 1) V) as VA. rewrite VI in VA. cbn [snd] in VA. assert (EV1 : V1 = fst (visit i (t + 1) V)) by (rewrite VI; auto). clear VI.
  assert (CLOSED : en V i <> 0 -> ex V i <> 0).
  { intros N X. destruct caller as [p|]; [|destruct C as (_ & Z0 & _); contradiction]. destruct C as (E & NP & XP & OA). apply (no_cycle p i E). apply OA; eauto. }
  destruct (Z.eq_dec (en V i) 0) as [Z0|NZ].
  2:{ pose proof (CLOSED NZ) as XI. destruct again; [|exfalso; unfold enter_time, exit_time in *; destruct (Z.eqb_spec (first (V i)) 0), (Z.eqb_spec (second (V i)) 0); simpl in VA; congruence].
      destruct caller as [p|]; [|destruct C as (_ & Z0 & _); contradiction]. destruct C as (E & NP & XP & OA). exists (t + 1, V1). split; [auto|].
      destruct (step_again t V V1 p i) as (A & B & D & S); auto.
      - intros k. subst V1. unfold enter_time, exit_time in *. rewrite visit_at, (proj2 (Z.eqb_neq _ _) NZ), (proj2 (Z.eqb_neq _ _) XI). destruct (Z.eqb_spec k i) as [->|]; auto.
      - intros k. subst V1. unfold enter_time, exit_time in *. rewrite visit_at, (proj2 (Z.eqb_neq _ _) NZ), (proj2 (Z.eqb_neq _ _) XI). destruct (Z.eqb_spec k i) as [->|]; auto.
      - intros k. subst V1. unfold re, enter_time, exit_time in *. rewrite visit_at, (proj2 (Z.eqb_neq _ _) NZ), (proj2 (Z.eqb_neq _ _) XI). destruct (Z.eqb_spec k i) as [->|]; auto.
      - split; [exact A|]. split; [exact B|]. split; [exact D|]. split; [|exact S]. intros X. cbn [snd] in X. contradiction. }
  assert (again = false) as -> by (rewrite VA; unfold enter_time in Z0; rewrite Z0; auto).
  rewrite Ex. cbn [mbind option_bind]. rewrite (NC i x Ex).
  destruct (step_enter t V V1 caller i true I T0) as (I1 & W1 & O1 & S1); auto.
  { destruct caller as [p|]; [exact C|]. destruct C as (A & _ & B). auto. }
  { split; [eauto|auto]. }
  { intros k. subst V1. unfold enter_time in *. rewrite visit_at, Z0. simpl. destruct (Z.eqb_spec k i) as [->|]; auto. }
  { intros k. subst V1. unfold enter_time, exit_time in *. rewrite visit_at, Z0. simpl. rewrite andb_false_r. destruct (Z.eqb_spec k i) as [->|]; auto. }
  { intros k. subst V1. unfold re, enter_time in *. rewrite visit_at, Z0. simpl. destruct (Z.eqb_spec k i) as [->|]; auto. }
  assert (E1 : en V1 i = t + 1) by (subst V1; unfold enter_time in *; rewrite visit_at, Z0, Z.eqb_refl; auto).
  assert (X1 : ex V1 i = 0).
  { subst V1. unfold enter_time, exit_time in *. rewrite visit_at, Z0, Z.eqb_refl. simpl. apply (t_order _ I i). auto. }
  assert (OA1 : open_above V1 i).
  { intros g SG N X. destruct (proj1 (O1 g SG) (conj N X)) as [->|[N' X']]; [constructor|]. destruct caller as [p|]; [|elim (proj2 (proj2 C) g SG N' X')].
    destruct C as (E & NP & XP & OA). apply (edge_under g p i E). auto. }
  clear EV1 VA.
  (* gates *)
  assert (GO : forall l s0, (forall c, In c l -> edge i c /\ is_Some (gs G !! c)) -> inv s0 -> t + 1 <= s0.1 -> en s0.2 i = t + 1 -> ex s0.2 i = 0 -> open_above s0.2 i ->
    exists s', (fix go (l : list Z) (s : Z * times) : option (Z * times) := match l with [] => Some s | c :: l => s ← assign_timing G fuel c s; go l s end) l s0 = Some s' /\
      inv s' /\ grows s0 s' /\ same_open s0.2 s'.2 /\ t + 1 <= s'.1 /\ en s'.2 i = t + 1 /\ ex s'.2 i = 0 /\ open_above s'.2 i /\ forall c, In c l -> seen s'.2 s'.1 i c).
  { induction l as [|c l IHl]; intros s0 H I0 L0 E0 X0 OA0.
    - exists s0. split; [auto|]. split; [auto|]. split; [apply grows_refl|]. split; [apply same_refl|]. repeat (split; [auto|]). intros ? [].
    - destruct (H c (or_introl eq_refl)) as [EC SC]. 
      assert (LT : (r c < r i)%nat) by (destruct EC as (y & a & Ey & J & <-); apply (RK i y a Ey J SC)).
      destruct (IH (Some i) c s0) as (s1 & T1 & I1' & W1' & O1' & _ & S1'); auto; [lia|lia|split; [auto|split; [lia|auto]]|].
      assert (E1' : en s1.2 i = t + 1) by (rewrite (g_enter _ _ W1'); lia).
      assert (X1' : ex s1.2 i = 0) by (apply (O1' i ltac:(eauto)); split; [lia|auto]).
      pose proof (open_same _ _ i OA0 O1') as OA1'. pose proof (g_time _ _ W1').
      destruct (IHl s1) as (s2 & T2 & I2 & W2 & O2 & L2 & E2 & X2 & OA2 & S2); auto; [intros u U; apply H; right; auto|lia|].
      exists s2. rewrite T1. cbn [mbind option_bind]. split; [auto|]. split; [auto|]. split; [exact (grows_trans s0 s1 s2 I0 I1' W1' W2)|]. split; [eapply same_trans; eauto|].
      repeat (split; [auto|]). intros u [<-|U]; auto. assert (N1 : en s1.2 i <> 0) by lia. apply (seen_grows s1 s2 i c I1' W2 N1 S1' (seen_visited s1 i c I1' N1 S1')). }
  destruct (GO (gate_args G x) (t + 1, V1)) as (s2 & T2 & I2 & W2 & O2 & L2 & E2 & X2 & OA2 & S2); cbn [fst snd]; auto; [|lia|].
  { intros c J. apply filter_In in J as [J GA]. split; [|unfold gate_at in GA; destruct (gs G !! c); [eauto|discriminate]].
    apply in_map_iff in J as (a & <- & J). exists x, a. auto. }
  rewrite T2. cbn [mbind option_bind].
  (* variables *)
  assert (VS : forall l s0, (forall c, In c l -> edge i c /\ gs G !! c = None) -> inv s0 -> t + 1 <= s0.1 -> en s0.2 i = t + 1 -> ex s0.2 i = 0 -> open_above s0.2 i ->
    let s' := fold_left visit_variable l s0 in
      inv s' /\ grows s0 s' /\ same_open s0.2 s'.2 /\ t + 1 <= s'.1 /\ en s'.2 i = t + 1 /\ ex s'.2 i = 0 /\ open_above s'.2 i /\ forall c, In c l -> seen s'.2 s'.1 i c).
  { induction l as [|c l IHl]; intros s0 H I0 L0 E0 X0 OA0; cbn [fold_left]; cbv zeta.
    - split; [auto|]. split; [apply grows_refl|]. split; [apply same_refl|]. repeat (split; [auto|]). intros ? [].
    - destruct (H c (or_introl eq_refl)) as [EC SC]. destruct (variable_ok s0 i c) as (I1' & W1' & O1' & S1'); auto; [lia|lia|].
      set (s1 := visit_variable s0 c) in *.
      assert (E1' : en s1.2 i = t + 1) by (rewrite (g_enter _ _ W1'); lia).
      assert (X1' : ex s1.2 i = 0) by (apply (O1' i ltac:(eauto)); split; [lia|auto]).
      pose proof (open_same _ _ i OA0 O1') as OA1'. pose proof (g_time _ _ W1').
      destruct (IHl s1) as (I3 & W3 & O3 & L3 & E3 & X3 & OA3 & S3); auto; [intros u U; apply H; right; auto|lia|].
      split; [auto|]. split; [exact (grows_trans s0 s1 _ I0 I1' W1' W3)|]. split; [eapply same_trans; eauto|].
      repeat (split; [auto|]). intros u [<-|U]; auto. assert (N1 : en s1.2 i <> 0) by lia. apply (seen_grows s1 _ i c I1' W3 N1 S1' (seen_visited s1 i c I1' N1 S1')). }
  destruct (VS (variable_args G x) s2) as (I3 & W3 & O3 & L3 & E3 & X3 & OA3 & S3); auto.
  { intros c J. apply filter_In in J as [J GA]. split; [|unfold gate_at in GA; destruct (gs G !! c); [discriminate|auto]].
    apply in_map_iff in J as (a & <- & J). exists x, a. auto. }
  set (s3 := fold_left visit_variable (variable_args G x) s2) in *. clearbody s3. destruct s3 as [t3 V3]. cbn [fst snd] in *.
  pose proof (visit_again i (t3 + 1) V3) as VA3. destruct (visit i (t3 + 1) V3) as [V4 again] eqn:VI4. cbn [snd] in VA3.
  assert (EV4 : V4 = fst (visit i (t3 + 1) V3)) by (rewrite VI4; auto). clear VI4.
  assert (N3 : first (V3 i) =? 0 = false) by (apply Z.eqb_neq; unfold enter_time in E3; lia).
  assert (Z3 : second (V3 i) =? 0 = true) by (apply Z.eqb_eq; exact X3).
  assert (again = false) as -> by (rewrite VA3, N3, Z3; auto).
  assert (SEEN : forall j, edge i j -> seen V3 t3 i j).
  { intros j (y & a & Ey & J & <-). rewrite Ex in Ey. injection Ey as <-. assert (J' : In (Z.abs a) (map Z.abs (g_args x))) by (apply in_map; auto). destruct (gate_at G (Z.abs a)) eqn:GA.
    - assert (K : In (Z.abs a) (gate_args G x)) by (apply filter_In; auto). specialize (S2 _ K). assert (N2 : en s2.2 i <> 0) by lia.
      apply (seen_grows s2 (t3, V3) i _ I2 W3 N2 S2 (seen_visited s2 i _ I2 N2 S2)).
    - apply S3, filter_In. rewrite GA. auto. }
  assert (CLO : forall c, en V3 i < en V3 c -> ex V3 c <> 0).
  { intros c L. destruct (gs G !! c) as [y|] eqn:Ec.
    - intros X. assert (OP : en V3 c <> 0 /\ ex V3 c = 0) by (split; [lia|auto]). apply (O3 c ltac:(eauto)) in OP. apply (O2 c ltac:(eauto)) in OP. pose proof OP as OP1. apply (O1 c ltac:(eauto)) in OP as [->|[N X0]]; [lia|].
      pose proof (t_bounds _ I c). cbn [fst snd] in *. pose proof (g_enter _ _ W1 c N) as Q1. cbn [snd] in Q1. 
      assert (Q2 : en s2.2 c = en V1 c) by (apply (g_enter _ _ W2); tauto). assert (Q3 : en V3 c = en s2.2 c) by (apply (g_enter _ _ W3); rewrite Q2; tauto). lia.
    - intros X. apply (t_var _ I3 c Ec); auto. cbn [snd]. lia. }
  destruct (step_exit t3 V3 V4 i I3 ltac:(eauto) ltac:(lia) X3 CLO SEEN) as (I4 & W4 & O4).
  { intros k. subst V4. unfold enter_time. rewrite visit_at, N3, Z3. destruct (Z.eqb_spec k i) as [->|]; auto. }
  { intros k. subst V4. unfold exit_time. rewrite visit_at, N3, Z3. destruct (Z.eqb_spec k i) as [->|]; auto. }
  { intros k. subst V4. unfold re. rewrite visit_at, N3, Z3. destruct (Z.eqb_spec k i) as [->|]; auto. }
  assert (W13 : grows (t + 1, V1) (t3, V3)) by (apply (grows_trans _ s2 _ I1 I2 W2 W3)).
  assert (W14 : grows (t + 1, V1) (t3 + 1, V4)) by (apply (grows_trans _ (t3, V3) _ I1 I3 W13 W4)).
  assert (W04 : grows (t, V) (t3 + 1, V4)) by (apply (grows_trans _ (t + 1, V1) _ I I1 W1 W14)).
  exists (t3 + 1, V4). split; [auto|]. split; [auto|]. split; [auto|]. split; [|split].
  - intros g SG. cbn [snd]. rewrite (O4 g SG). rewrite (O3 g SG), (O2 g SG), (O1 g SG). split; [intros [NI [Q|Q]]; [contradiction|auto]|].
    intros Q. split; [|auto]. intros ->. destruct Q; contradiction.
  - intros _. cbn [snd]. subst V4. unfold exit_time. rewrite visit_at, N3, Z3, Z.eqb_refl. simpl. lia.
  - destruct caller as [p|]; auto. cbn [fst snd]. destruct C as (E & NP & XP & OA).
    assert (NP1 : en V1 p <> 0) by (pose proof (g_enter _ _ W1 p NP) as Q; cbn [snd] in Q; congruence).
    apply (seen_grows (t + 1, V1) (t3 + 1, V4) p i I1 W14 NP1 S1 (seen_visited (t + 1, V1) p i I1 NP1 S1)).
Qed.
Lemma start_inv : inv (0, unvisited).
Proof. split; cbn [fst snd]; intros; unfold unvisited, enter_time, exit_time, re in *; simpl in *; try lia; try tauto. Qed.

(** The final times. *)
Record timed (V : times) : Prop := {
  f_enter : forall j, under root j -> 0 < en V j;
  f_exit : forall j, under root j -> en V j <= ex V j /\ (is_Some (gs G !! j) -> en V j < ex V j);
  f_last : forall j, under root j -> re V j = 0 \/ ex V j < re V j;
  f_edge : forall p j, under root p -> edge p j -> exists tau, en V p < tau < ex V p /\ en V j <= tau <= last_visit V j /\ (revisited V j = false -> tau = en V j) /\
    forall g, under root g -> is_Some (gs G !! g) -> en V g <= tau <= ex V g -> g = j \/ under g p;
  f_nested : forall g c, under root g -> under root c -> en V g < en V c -> en V c < ex V g -> ex V c < ex V g;
  f_parent : forall j, under root j -> j <> root -> exists p, under root p /\ edge p j /\ en V p < en V j < ex V p;
  f_again : forall j, under root j -> re V j <> 0 -> exists p, under root p /\ edge p j /\ en V p < re V j < ex V p }.
Lemma assign_root fuel : (r root < fuel)%nat -> is_Some (gs G !! root) -> (forall i, is_Some (gs G !! i) -> under root i) ->
  exists t V, assign_timing G fuel root (0, unvisited) = Some (t, V) /\ timed V.
Proof.
  intros F SR ALL. destruct (assign_ok fuel None root (0, unvisited) F SR start_inv ltac:(simpl; lia)) as ([t V] & T & I & W & O & X & _).
  { split; [auto|split; [reflexivity|]]. intros g _ N. elim N. reflexivity. }
  exists t, V. split; auto. cbn [fst snd] in *. specialize (X eq_refl).
  assert (CL : forall g, is_Some (gs G !! g) -> en V g <> 0 -> ex V g <> 0).
  { intros g SG N E. destruct (proj1 (O g SG) (conj N E)) as [N' _]. elim N'. reflexivity. }
  pose proof (t_bounds _ I) as TB. pose proof (t_order _ I) as TO. cbn [fst snd] in TB, TO.
  assert (VIS : forall j, under root j -> en V j <> 0 /\ ex V j <> 0).
  { intros j U. induction U as [|i x a U IH E J].
    - split; auto. intros Z0. apply X. apply TO. auto.
    - destruct IH as [N1 N2]. pose proof (t_edge _ I i (Z.abs a) ltac:(exists x, a; auto) N2) as S. pose proof (seen_visited _ _ _ I N1 S) as N3. cbn [snd] in N3. split; auto.
      destruct (gs G !! Z.abs a) eqn:Ea; [apply CL; eauto|apply (t_var _ I _ Ea); auto]. }
  assert (LV : forall j, last_visit V j = if re V j =? 0 then ex V j else re V j) by reflexivity.
  split.
  - intros j U. pose proof (VIS j U). pose proof (TB j). lia.
  - intros j U. pose proof (VIS j U) as [A B]. split; [apply TO; auto|]. intros SJ. apply (t_gate _ I j SJ B).
  - intros j U. destruct (Z.eq_dec (re V j) 0); auto. right. apply TO. auto.
  - intros p j U E. destruct (VIS p U) as [N1 N2]. destruct (t_edge _ I p j E N2) as (tau & T1 & T2 & T3 & T4). cbn [snd] in *. exists tau. specialize (T2 N2). split; [lia|].
    destruct (VIS j (edge_under root p j E U)) as [J1 J2]. pose proof (TB j). pose proof (TO j) as OJ. rewrite LV. split; [|split].
    + destruct (Z.eqb_spec (re V j) 0) as [R0|R0]; destruct T3 as [->|[R1 R2]]; try contradiction; lia.
    + unfold revisited. fold (re V j). rewrite negb_false_iff, Z.eqb_eq. intros R0. destruct T3 as [|[R1 R2]]; [auto|contradiction].
    + intros g UG SG B. apply T4; auto; [apply VIS; auto|lia|right; lia].
  - intros g c UG UC. destruct (VIS g UG) as [_ N]. intros A B. apply (t_nested _ I g c N A B).
  - intros j U NR. destruct (VIS j U) as [N _]. destruct (t_enter _ I j N) as [|(p & E & P1 & P2 & P3)]; [contradiction|]. cbn [snd] in *. exists p.
    assert (SP : is_Some (gs G !! p)) by (destruct E as (x & a & Ex & _); eauto). pose proof (CL p SP P1). split; [auto|]. split; [auto|]. specialize (P3 ltac:(auto)). lia.
  - intros j U NR. destruct (t_again _ I j NR) as (p & E & P1 & P2 & P3). cbn [snd] in *. exists p.
    assert (SP : is_Some (gs G !! p)) by (destruct E as (x & a & Ex & _); eauto). pose proof (CL p SP P1). split; [auto|]. split; [auto|]. specialize (P3 ltac:(auto)). lia.
Qed.
End Timing.
