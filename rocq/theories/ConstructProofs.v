(** Proofs about the construction of the graph (Construct.v). *)
From stdpp Require Import gmap.
From Coq Require Import List ZArith Lia Bool Permutation.
Import ListNotations.
From Verif Require Import Pdag PdagProofs PdagSem Formula P_Formula Construct.
Open Scope Z_scope.

Section Proofs.
Context (ev_id : nat -> nat) (kTrue kFalse : nat).
Context (ev_kind : nat -> kind) (formula_of : nat -> option formula) (house : nat -> bool)
        (ccf_gate : nat -> option nat) (ccf : bool).
(** Whether the flag for coherence is of interest. *)
Context (KC : bool).
Notation replaced := (replaced ccf_gate ccf).
Notation formula_ok := (formula_ok ev_id kTrue kFalse).
(** The gate of the model that an event stands for. *)
Definition target (e : nat) : option nat :=
  match ev_kind e with KGate => Some e | KBasic => replaced e | KHouse => None end.
Record sound_formula (f : formula) : Prop := {
  f_ok : formula_ok f;
  f_gates : forall a g, In a (f_args f) -> target (event a) = Some g -> is_Some (formula_of g);
  f_private : forall a e, In a (f_args f) -> replaced e <> Some (event a) }.
Context (R : nat -> nat)
  (SF : forall g f, formula_of g = Some f -> sound_formula f)
  (SP : forall e e' g, replaced e = Some g -> replaced e' = Some g -> e = e')
  (SR : forall g f a g', formula_of g = Some f -> In a (f_args f) -> target (event a) = Some g' -> (R g' < R g)%nat).

Notation gather := (gather ev_kind formula_of ccf_gate ccf).
Notation construct := (construct ev_kind formula_of house ccf_gate ccf).
Notation add_event := (add_event ev_kind formula_of house ccf_gate ccf).
Notation add_events := (add_events ev_kind formula_of house ccf_gate ccf).

Lemma target_inj f a b g : sound_formula f -> In a (f_args f) -> In b (f_args f) ->
  target (event a) = Some g -> target (event b) = Some g -> event a = event b.
Proof.
  intros S Ia Ib. unfold target. destruct (ev_kind (event a)) eqn:Ka, (ev_kind (event b)) eqn:Kb; try discriminate; intros Ea Eb.
  - congruence.
  - injection Ea as <-. elim (f_private f S a (event b) Ia Eb).
  - injection Eb as <-. elim (f_private f S b (event a) Ib Ea).
  - eapply SP; eauto.
Qed.
Lemma distinct_events f : sound_formula f -> NoDup (map event (f_args f)).
Proof. intros [[D _] _ _]. unfold distinct_ids in D. rewrite <- (map_map event ev_id) in D. apply NoDup_map_inv in D. auto. Qed.

(** ** Variables *)
Definition registered (s : st) (e : nat) : Prop :=
  match target e with
  | Some g => is_Some (gates s !! g)
  | None => ev_kind e = KBasic -> is_Some (vars s !! e)
  end.
Definition closed (s : st) : Prop := forall g f a, is_Some (gates s !! g) -> formula_of g = Some f -> In a (f_args f) -> registered s (event a).
(** Nothing but variables in the graph, numbered as listed. *)
Record gathered (s : st) : Prop := {
  v_gates : gs (graph s) = ∅;
  v_reg : reg (graph s) = true /\ nulls (graph s) = [];
  v_next : nxt (graph s) = 2 + Z.of_nat (length (basics s));
  v_vars : forall e v, vars s !! e = Some v <-> exists k, nth_error (basics s) k = Some e /\ v = 2 + Z.of_nat k;
  v_nodup : NoDup (basics s);
  v_none : forall g o, gates s !! g = Some o -> o = None;
  v_flags : coh s = true /\ norm s = true;
  v_basic : forall e, In e (basics s) -> ev_kind e = KBasic /\ replaced e = None }.
(** Basic events below an event. *)
Inductive below_event : nat -> nat -> Prop :=
| BE_here e : target e = None -> ev_kind e = KBasic -> below_event e e
| BE_gate e g f a b : target e = Some g -> formula_of g = Some f -> In a (f_args f) -> below_event (event a) b -> below_event e b.
Record grown (l : list nat) (s s' : st) : Prop := {
  w_ok : gathered s';
  w_basics : incl (basics s) (basics s');
  w_gates : forall g, is_Some (gates s !! g) -> is_Some (gates s' !! g);
  w_done : forall e, In e l -> registered s' e;
  w_closed : forall g f a, is_Some (gates s' !! g) -> gates s !! g = None -> formula_of g = Some f -> In a (f_args f) -> registered s' (event a);
  w_only : forall b, In b (basics s') -> In b (basics s) \/ exists e, In e l /\ below_event e b }.
Lemma vars_keep s s' e : gathered s -> gathered s' -> incl (basics s) (basics s') -> is_Some (vars s !! e) -> is_Some (vars s' !! e).
Proof.
  intros A B I [v V]. apply (v_vars s A) in V as (k & N & _). apply nth_error_In in N. apply I, In_nth_error in N as [k' N'].
  exists (2 + Z.of_nat k'). apply (v_vars s' B). eauto.
Qed.
Lemma registered_keep s s' e : gathered s -> gathered s' -> incl (basics s) (basics s') -> (forall g, is_Some (gates s !! g) -> is_Some (gates s' !! g)) -> registered s e -> registered s' e.
Proof. unfold registered. intros A B I G. destruct (target e); auto. intros H K. apply (vars_keep s s' e A B I). auto. Qed.
Lemma grown_refl s : gathered s -> grown [] s s.
Proof. intros A. constructor; auto; [apply incl_refl|intros e []|intros g f a [o O] N; congruence]. Qed.
Lemma grown_trans l l' s s1 s2 : gathered s -> grown l s s1 -> grown l' s1 s2 -> grown (l ++ l') s s2.
Proof.
  intros A [A1 B1 C1 D1 E1 F1] [A2 B2 C2 D2 E2 F2]. constructor; auto.
  - eapply incl_tran; eauto.
  - intros e I. apply in_app_iff in I as [I|I]; auto. apply (registered_keep s1 s2); auto.
  - intros g f a S N Ef I. destruct (gates s1 !! g) eqn:G1; [|eapply E2; eauto]. apply (registered_keep s1 s2); auto. apply (E1 g f a); eauto.
  - intros b I. destruct (F2 b I) as [I1|(e & Ie & Be)].
    + destruct (F1 b I1) as [|(e & Ie & Be)]; auto. right. exists e. split; auto. apply in_app_iff; auto.
    + right. exists e. split; auto. apply in_app_iff; auto.
Qed.
Lemma new_variable_ok e s : gathered s -> ev_kind e = KBasic -> replaced e = None -> vars s !! e = None -> grown [e] s (new_variable e s).
Proof.
  intros [A B C D E F G H] K RP N. assert (NI : ~ In e (basics s)).
  { intros I. apply In_nth_error in I as [k I]. assert (vars s !! e = Some (2 + Z.of_nat k)) by (apply D; eauto). congruence. }
  assert (T : target e = None) by (unfold target; rewrite K; auto).
  constructor; unfold new_variable; cbn [graph gates vars basics coh norm].
  - constructor; cbn [graph gates vars basics coh norm gs reg nulls nxt]; auto.
    + rewrite app_length. simpl. lia.
    + intros e' v. destruct (decide (e' = e)) as [->|Ne].
      * rewrite lookup_insert, C. split.
        -- intros [= <-]. exists (length (basics s)). rewrite nth_error_app2, Nat.sub_diag by lia. auto.
        -- intros (k & Nk & ->). f_equal. f_equal. destruct (Nat.lt_ge_cases k (length (basics s))) as [L|L].
           ++ rewrite nth_error_app1 in Nk by lia. apply nth_error_In in Nk. contradiction.
           ++ rewrite nth_error_app2 in Nk by lia. destruct (k - length (basics s))%nat eqn:Q; [lia|]. simpl in Nk. destruct n; discriminate.
      * rewrite lookup_insert_ne, D by auto. split; intros (k & Nk & ->); exists k; split; auto.
        -- rewrite nth_error_app1; auto. apply nth_error_Some. congruence.
        -- destruct (Nat.lt_ge_cases k (length (basics s))) as [L|L].
           ++ rewrite nth_error_app1 in Nk by lia. auto.
           ++ rewrite nth_error_app2 in Nk by lia. destruct (k - length (basics s))%nat as [|q]; simpl in Nk; [congruence|destruct q; discriminate].
    + apply (Permutation_NoDup (Permutation_cons_append (basics s) e)). constructor; auto.
    + intros b I. apply in_app_iff in I as [I|[<-|[]]]; auto.
  - intros b I. apply in_app_iff; auto.
  - auto.
  - intros b [<-|[]]. unfold registered. rewrite T. intros _. cbn [vars]. rewrite lookup_insert. eauto.
  - intros g f a [o O] NO. congruence.
  - intros b I. apply in_app_iff in I as [|[<-|[]]]; auto. right. exists e. split; [simpl; auto|]. constructor; auto.
Qed.
Lemma gather_ok : forall fuel n f s, (n < fuel)%nat -> sound_formula f -> (forall a g, In a (f_args f) -> target (event a) = Some g -> (R g < n)%nat) -> gathered s ->
  exists s', gather fuel f s = Some s' /\ grown (map event (f_args f)) s s'.
Proof.
  induction fuel as [|fuel IH]; intros n f s F SFf RK A; [lia|]. cbn [Construct.gather].
  assert (GG : forall g s, (R g < n)%nat -> is_Some (formula_of g) -> gathered s -> exists s', gather_gate formula_of (gather fuel) g s = Some s' /\ is_Some (gates s' !! g) /\
    gathered s' /\ incl (basics s) (basics s') /\ (forall h, is_Some (gates s !! h) -> is_Some (gates s' !! h)) /\
    (forall h f' a, is_Some (gates s' !! h) -> gates s !! h = None -> formula_of h = Some f' -> In a (f_args f') -> registered s' (event a)) /\
    (forall b, In b (basics s') -> In b (basics s) \/ exists f' a, formula_of g = Some f' /\ In a (f_args f') /\ below_event (event a) b)).
  { clear s A. intros g s Rg [f' Ef] A. unfold gather_gate. destruct (gates s !! g) as [o|] eqn:Gg.
    - exists s. split; auto. split; [rewrite Gg; eauto|]. split; auto. split; [apply incl_refl|]. split; auto. split; auto. intros h f0 a [x X] N. congruence.
    - rewrite Ef. cbn [mbind option_bind]. assert (A1 : gathered (with_gate s g None)).
      { destruct A as [a1 a2 a3 a4 a5 a6 a7 a8]. constructor; auto. intros h o O. unfold with_gate in O. cbn [gates] in O. destruct (decide (h = g)) as [->|N].
        - rewrite lookup_insert in O. congruence.
        - rewrite lookup_insert_ne in O by auto. eauto. }
      destruct (IH (R g) f' (with_gate s g None)) as (s' & E & [b1 b2 b3 b4 b5 b6]); eauto; [lia|].
      exists s'. split; auto. split.
      { apply b3. unfold with_gate. cbn [gates]. rewrite lookup_insert. eauto. }
      split; auto. split; auto. split.
      { intros h [o O]. apply b3. unfold with_gate. cbn [gates]. destruct (decide (h = g)) as [->|N]; [rewrite lookup_insert|rewrite lookup_insert_ne by auto]; eauto. }
      split.
      { intros h f0 a S N Eh I. destruct (decide (h = g)) as [->|Ne].
        - rewrite Ef in Eh. injection Eh as <-. apply b4. apply in_map. auto.
        - apply (b5 h f0 a S); auto. unfold with_gate. cbn [gates]. rewrite lookup_insert_ne; auto. }
      intros b I. destruct (b6 b I) as [|(e & Ie & Be)]; auto. right. apply in_map_iff in Ie as (a & <- & Ia). eauto. }
  assert (LOOP : forall l s, incl l (f_args f) -> gathered s -> exists s', gather_args ev_kind formula_of ccf_gate ccf (gather fuel) l s = Some s' /\ grown (map event l) s s').
  { clear s A. induction l as [|a l IHl]; intros s IL A; [exists s; split; auto; apply grown_refl; auto|].
    cbn [gather_args map]. assert (Ia : In a (f_args f)) by (apply IL; simpl; auto).
    assert (ST : exists s1, gather_event ev_kind formula_of ccf_gate ccf (gather fuel) (event a) s = Some s1 /\ grown [event a] s s1).
    { assert (GATE : forall g, target (event a) = Some g -> exists s1, gather_gate formula_of (gather fuel) g s = Some s1 /\ grown [event a] s s1).
      { intros g T. destruct (GG g s) as (s1 & E1 & G1 & A1 & B1 & C1 & D1 & H1); auto; [eapply RK; eauto|eapply f_gates; eauto|].
        exists s1. split; auto. constructor; auto.
        - intros e [<-|[]]. unfold registered. rewrite T. auto.
        - intros b Ib. destruct (H1 b Ib) as [|(f' & a' & Ef & Ia' & Be)]; auto. right. exists (event a). split; [simpl; auto|]. econstructor; eauto. }
      unfold gather_event, gather_basic. unfold target in GATE. destruct (ev_kind (event a)) eqn:K; auto.
      - destruct (replaced (event a)) as [g|] eqn:RP; auto. destruct (vars s !! event a) as [v|] eqn:V.
        + exists s. split; auto. destruct (grown_refl s A) as [a1 a2 a3 a4 a5 a6]. constructor; auto.
          intros e [<-|[]]. unfold registered, target. rewrite K, RP. intros _. rewrite V. eauto.
        + eexists. split; eauto. apply new_variable_ok; auto.
      - exists s. split; auto. destruct (grown_refl s A) as [a1 a2 a3 a4 a5 a6]. constructor; auto.
        intros e [<-|[]]. unfold registered, target. rewrite K. discriminate. }
    destruct ST as (s1 & E1 & G1). rewrite E1. cbn [mbind option_bind]. destruct (IHl s1) as (s2 & E2 & G2); [intros x X; apply IL; simpl; auto|apply G1|].
    exists s2. split; auto. apply (grown_trans [event a] (map event l) s s1 s2); auto. }
  apply LOOP; auto. apply incl_refl.
Qed.

(** ** Gates *)
Definition node (s : st) (P : Z -> Prop) (j : Z) (x : gate) : Prop := gs (graph s) !! j = Some x /\ ~ P j.
(** The literal that stands for an argument. *)
Inductive res (s : st) (P : Z -> Prop) : bool -> nat -> Z -> Prop :=
| RVar c e v : ev_kind e = KBasic -> replaced e = None -> vars s !! e = Some v -> res s P c e (sign c v)
| RGate c e g i : target e = Some g -> gates s !! g = Some (Some i) -> res s P c e (sign c i)
| RHouse c e j : ev_kind e = KHouse -> node s P j (Gate kNull 0 [sign (xorb c (negb (house e))) 1]) -> res s P c e j.
Definition pres (s : st) (P : Z -> Prop) (ce : bool * nat) (l : Z) : Prop := res s P ce.1 ce.2 l.
Definition pairs (l : list arg) : list (bool * nat) := map (fun a => (complement a, event a)) l.
Definition well (k : Z) (xs : list Z) : gate :=
  if k =? 0 then Gate kNull k [1] else if k =? 1 then Gate kOr k xs else if k =? size xs then Gate kAnd k xs else Gate kAtleast k xs.
(** The gates of a formula. *)
Definition described (s : st) (P : Z -> Prop) (f : formula) (i : Z) : Prop :=
  match f_conn f with
  | Iff => exists x xs ls, node s P i (Gate kNull 0 [- x]) /\ node s P x (Gate kXor 0 xs) /\ Permutation xs ls /\ Forall2 (pres s P) (pairs (f_args f)) ls
  | Imply => exists a b xs ls, f_args f = [a; b] /\ node s P i (Gate kOr 0 xs) /\ Permutation xs ls /\
      Forall2 (pres s P) [(negb (complement a), event a); (complement b, event b)] ls
  | Cardinality => exists x y xs ls zs, node s P i (Gate kAnd 0 zs) /\ Permutation zs [x; y] /\ node s P x (well (f_min f) xs) /\
      node s P y (well (Z.of_nat (length (f_args f)) - f_max f) (rev (map Z.opp xs))) /\ Permutation xs ls /\ Forall2 (pres s P) (pairs (f_args f)) ls
  | c => exists t xs ls, simple c = Some t /\ node s P i (Gate t (match c with Atleast => f_min f | _ => 0 end) xs) /\ Permutation xs ls /\ Forall2 (pres s P) (pairs (f_args f)) ls
  end.
(** Formulas that leave the graph coherent. *)
Definition monotone (f : formula) : bool :=
  match f_conn f with And | Or | Atleast | Null => negb (existsb complement (f_args f)) | _ => false end.
Definition unreg (s : st) (j : Z) : Prop := exists x, gs (graph s) !! j = Some x /\ g_type x = kNull /\ ~ In j (nulls (graph s)).
Record ext (n : nat) (Q : Z -> Prop) (s s' : st) : Prop := {
  x_nxt : nxt (graph s) <= nxt (graph s');
  x_gs : forall j x, gs (graph s) !! j = Some x -> ~ Q j -> gs (graph s') !! j = Some x;
  x_some : forall j, is_Some (gs (graph s) !! j) -> is_Some (gs (graph s') !! j);
  x_none : forall j, j < nxt (graph s) -> gs (graph s) !! j = None -> gs (graph s') !! j = None;
  x_all : forall j, nxt (graph s) <= j < nxt (graph s') -> is_Some (gs (graph s') !! j);
  x_vars : vars s' = vars s;
  x_basics : basics s' = basics s;
  x_dom : forall g, is_Some (gates s' !! g) <-> is_Some (gates s !! g);
  x_keep : forall g i, gates s !! g = Some (Some i) -> gates s' !! g = Some (Some i);
  x_fresh : forall g i, gates s' !! g = Some (Some i) -> gates s !! g = Some (Some i) \/ nxt (graph s) <= i /\ (R g < n)%nat;
  x_unreg : forall j, unreg s' j -> unreg s j \/ Q j;
  x_coh : coh s' = true -> coh s = true;
  x_norm : norm s' = true -> norm s = true;
  x_nulls : incl (nulls (graph s)) (nulls (graph s')) }.
(** The flags tell the truth. *)
Definition coherent_gate (x : gate) : Prop := (g_type x = kAnd \/ g_type x = kOr \/ g_type x = kAtleast \/ g_type x = kNull) /\ forall a, In a (g_args x) -> 0 < a \/ a = -1.
Definition normal_gate (x : gate) : Prop := g_type x = kAnd \/ g_type x = kOr \/ g_type x = kNull.
(** The number of arguments suits the connective; a constant is the argument of a pass-through gate only. *)
Definition suited (x : gate) : Prop :=
  (g_type x = kNot \/ g_type x = kNull -> length (g_args x) <= 1)%nat /\ (g_type x = kXor -> length (g_args x) <= 2)%nat /\ (constant x = true -> g_type x = kNull).
Definition sober (s : st) (x : gate) : Prop := (norm s = true -> normal_gate x) /\ (KC = true -> coh s = true -> coherent_gate x) /\ suited x.
Record inv (lev : Z -> nat) (P : Z -> Prop) (s : st) : Prop := {
  i_wf : PdagProofs.wf (graph s);
  i_rank : ranked (graph s) lev;
  i_reg : reg (graph s) = true;
  i_vars : forall e v, vars s !! e = Some v -> 1 < v < nxt (graph s) /\ gs (graph s) !! v = None;
  i_vinj : forall e e' v, vars s !! e = Some v -> vars s !! e' = Some v -> e = e';
  i_entry : forall g i, gates s !! g = Some (Some i) -> exists f, formula_of g = Some f /\ described s P f i /\ (lev i <= 4 * R g + 3)%nat /\ (coh s = true -> monotone f = true);
  i_inj : forall g g' i, gates s !! g = Some (Some i) -> gates s !! g' = Some (Some i) -> g = g';
  i_norm : forall j x, gs (graph s) !! j = Some x -> sober s x;
  i_closed : closed s }.

Lemma ext_refl n Q s : ext n Q s s.
Proof. constructor; auto; try tauto; try lia; try apply incl_refl. Qed.
Lemma ext_weaken n n' (Q Q' : Z -> Prop) s s' : (n <= n')%nat -> (forall j, Q j -> Q' j) -> ext n Q s s' -> ext n' Q' s s'.
Proof.
  intros L H [A B C D E F G I J K M N O U]. constructor; auto.
  - intros g i X. destruct (K g i X) as [|[? ?]]; auto. right. split; auto. lia.
  - intros j X. destruct (M j X); auto.
Qed.
Lemma ext_trans n Q s s1 s2 : ext n Q s s1 -> ext n Q s1 s2 -> ext n Q s s2.
Proof.
  intros [A B C D E F G I J K M N O U] [A' B' C' D' E' F' G' I' J' K' M' N' O' U']. constructor; auto; try congruence; try (eapply incl_tran; eauto; fail).
  - lia.
  - intros j L X. apply D'; auto. lia.
  - intros j X. destruct (Z.lt_ge_cases j (nxt (graph s1))); [apply C', E; lia|apply E'; lia].
  - intros g. rewrite I'. auto.
  - intros g i X. destruct (K' g i X) as [Y|[? ?]]; [auto|]. right. split; auto. lia.
  - intros j X. destruct (M' j X); auto.
Qed.
Lemma ext_close n Q s s' : PdagProofs.wf (graph s) -> ext n Q s s' -> (forall j, Q j -> nxt (graph s) <= j /\ ~ unreg s' j) -> ext n (fun _ => False) s s'.
Proof.
  intros [_ W] [A B C D E F G I J K M N O U] H. constructor; auto.
  - intros j x X _. apply B; auto. intros q. destruct (H j q). apply W in X. lia.
  - intros j X. destruct (M j X) as [|q]; auto. destruct (H j q). contradiction.
Qed.
Lemma described_node s P f i : described s P f i -> exists x, node s P i x.
Proof. unfold described. destruct (f_conn f); intros; firstorder eauto. Qed.
Definition sim (P : Z -> Prop) (s s' : st) : Prop :=
  (forall j x, gs (graph s) !! j = Some x -> ~ P j -> gs (graph s') !! j = Some x) /\ vars s' = vars s /\
  forall g i, gates s !! g = Some (Some i) -> gates s' !! g = Some (Some i).
Lemma ext_sim n Q (P : Z -> Prop) s s' : ext n Q s s' -> (forall j, Q j -> P j) -> sim P s s'.
Proof. intros X H. split; [|split]; [|apply X|apply X]. intros j x E N. apply (x_gs _ _ _ _ X); auto. Qed.
Lemma node_sim P s s' j x : sim P s s' -> node s P j x -> node s' P j x.
Proof. intros (A & _) [E N]. split; auto. Qed.
Lemma res_sim P s s' c e l : sim P s s' -> res s P c e l -> res s' P c e l.
Proof.
  intros X V. pose proof X as (_ & X1 & X2). destruct V as [c' e' v A B C|c' e' g i A B|c' e' j A B].
  - apply RVar; auto. rewrite X1. auto.
  - apply (RGate s' P c' e' g i); auto.
  - apply RHouse; auto. eapply node_sim; eauto.
Qed.
Lemma all_sim P s s' l ls : sim P s s' -> Forall2 (pres s P) l ls -> Forall2 (pres s' P) l ls.
Proof. intros X F. eapply Forall2_impl; [exact F|]. intros ce v V. eapply res_sim; eauto. Qed.
Lemma described_sim P s s' f i : sim P s s' -> described s P f i -> described s' P f i.
Proof.
  intros X. pose proof (fun j x => node_sim P s s' j x X) as NS. pose proof (fun l ls => all_sim P s s' l ls X) as AS.
  unfold described. destruct (f_conn f).
  all: try (intros (t & xs & ls & A & B & C & D); exists t, xs, ls; auto; fail).
  - intros (a & b & xs & ls & A & B & C & D). exists a, b, xs, ls. auto.
  - intros (x & y & xs & ls & zs & A & B & C & D & E & F). exists x, y, xs, ls, zs. auto 10.
Qed.
Lemma all_stable n Q (P : Z -> Prop) s s' l ls : ext n Q s s' -> (forall j, Q j -> P j) -> Forall2 (pres s P) l ls -> Forall2 (pres s' P) l ls.
Proof. intros X H. apply all_sim. eapply ext_sim; eauto. Qed.
Lemma described_stable n Q (P : Z -> Prop) s s' f i : ext n Q s s' -> (forall j, Q j -> P j) -> described s P f i -> described s' P f i.
Proof. intros X H. apply described_sim. eapply ext_sim; eauto. Qed.
(** Another set of gates under construction. *)
Lemma described_pend (P P' : Z -> Prop) s f i : (forall j x, gs (graph s) !! j = Some x -> P' j -> P j) -> described s P f i -> described s P' f i.
Proof.
  intros H. assert (NS : forall j x, node s P j x -> node s P' j x).
  { intros j x [E N]. split; auto. intros p. apply N. eapply H; eauto. }
  assert (AS : forall l ls, Forall2 (pres s P) l ls -> Forall2 (pres s P') l ls).
  { intros l ls F. eapply Forall2_impl; [exact F|]. intros [c0 e0] v V. unfold pres in *. cbn [fst snd] in *. destruct V as [c e w A B C|c e g k A B|c e j A B]; [apply RVar|eapply RGate|apply RHouse]; eauto. }
  unfold described. destruct (f_conn f).
  all: try (intros (t & xs & ls & A & B & C & D); exists t, xs, ls; auto; fail).
  - intros (a & b & xs & ls & A & B & C & D). exists a, b, xs, ls. auto.
  - intros (x & y & xs & ls & zs & A & B & C & D & E & F). exists x, y, xs, ls, zs. auto 10.
Qed.
Lemma inv_pend lev (P P' : Z -> Prop) s : (forall j x, gs (graph s) !! j = Some x -> P' j -> P j) -> inv lev P s -> inv lev P' s.
Proof.
  intros H [A B C D E F G J K]. constructor; auto. intros g i X. destruct (F g i X) as (f & Y1 & Y2 & Y3). exists f. split; auto. split; auto. eapply described_pend; eauto.
Qed.
(** Steps that leave the table of gates alone. *)
Lemma inv_step n Q (P : Z -> Prop) lev lev' s s' : inv lev P s -> ext n Q s s' -> (forall j, Q j -> P j) -> gates s' = gates s ->
  PdagProofs.wf (graph s') -> ranked (graph s') lev' -> (forall j, j < nxt (graph s) -> lev' j = lev j) -> reg (graph s') = true ->
  (forall j x, gs (graph s') !! j = Some x -> sober s' x) -> inv lev' P s'.
Proof.
  intros [A B C D E F G J K] X H EG W RK L RG NM. constructor; auto.
  - intros e v V. rewrite (x_vars _ _ _ _ X) in V. destruct (D e v V) as [D1 D2]. pose proof (x_nxt _ _ _ _ X). split; [lia|]. apply (x_none _ _ _ _ X); auto. lia.
  - intros e e' v. rewrite (x_vars _ _ _ _ X). eauto.
  - intros g i V. rewrite EG in V. destruct (F g i V) as (f & Y1 & Y2 & Y3 & Y4). exists f. split; auto. split; [eapply described_stable; eauto|].
    split; [|intros c; apply Y4, (x_coh _ _ _ _ X); auto]. rewrite L; auto. destruct (described_node _ _ _ _ Y2) as (x & [Ex _]). apply A in Ex. lia.
  - rewrite EG. auto.
  - unfold closed, registered in *. rewrite EG, (x_vars _ _ _ _ X). auto.
Qed.
(** A gate under construction is edited. *)
Lemma edit_ok n lev (P : Z -> Prop) s p y x' nulls' G' : inv lev P s -> P p -> gs (graph s) !! p = Some y ->
  G' = Graph (<[p := x']> (gs (graph s))) (nxt (graph s)) nulls' true ->
  incl (nulls (graph s)) nulls' -> PdagProofs.args_ok (nxt (graph s)) (g_args x') ->
  (forall a, In a (g_args x') -> is_Some (gs (graph s) !! Z.abs a) -> (lev (Z.abs a) < lev p)%nat) ->
  sober s x' ->
  ext n (eq p) s (with_graph s G') /\ inv lev P (with_graph s G').
Proof.
  intros I Pp Ep -> IN AR LV NM.
  assert (X : ext n (eq p) s (with_graph s (Graph (<[p := x']> (gs (graph s))) (nxt (graph s)) nulls' true))).
  { constructor; cbn [graph gates vars basics coh norm with_graph gs nxt]; auto; try lia; try tauto.
    - intros j x E N. rewrite lookup_insert_ne; auto.
    - intros j [x E]. destruct (Z.eq_dec p j) as [->|N]; [rewrite lookup_insert; eauto|rewrite lookup_insert_ne; eauto].
    - intros j L E. rewrite lookup_insert_ne; auto. congruence.
    - intros j (x & E & T & N). cbn [with_graph graph gs nulls] in *. destruct (Z.eq_dec p j) as [->|D]; auto. rewrite lookup_insert_ne in E by auto. left. exists x. split; auto. }
  split; auto. eapply inv_step; [exact I|exact X|intros; subst; auto|reflexivity| | |reflexivity|reflexivity|].
  - destruct (i_wf _ _ _ I) as [W0 W]. split; cbn [graph with_graph gs nxt]; auto. intros j x E. destruct (Z.eq_dec p j) as [->|D].
    + rewrite lookup_insert in E. injection E as <-. split; auto. apply (W _ _ Ep).
    + rewrite lookup_insert_ne in E by auto. apply (W _ _ E).
  - intros j x a E J K. cbn [graph with_graph gs] in *.
    assert (K' : is_Some (gs (graph s) !! Z.abs a)).
    { destruct (Z.eq_dec p (Z.abs a)) as [<-|D]; [eauto|]. rewrite lookup_insert_ne in K by auto. auto. }
    destruct (Z.eq_dec p j) as [->|D].
    + rewrite lookup_insert in E. injection E as <-. auto.
    + rewrite lookup_insert_ne in E by auto. eapply (i_rank _ _ _ I); eauto.
  - cbn [with_graph graph gs]. intros j x E. destruct (Z.eq_dec p j) as [->|D].
    + rewrite lookup_insert in E. injection E as <-. auto.
    + rewrite lookup_insert_ne in E by auto. exact (i_norm _ _ _ I _ _ E).
Qed.
(** A new gate. *)
Lemma new_ok n L lev (P : Z -> Prop) s x' nulls' G' : inv lev P s ->
  G' = Graph (<[nxt (graph s) := x']> (gs (graph s))) (nxt (graph s) + 1) nulls' true ->
  incl (nulls (graph s)) nulls' -> PdagProofs.args_ok (nxt (graph s)) (g_args x') ->
  (forall a, In a (g_args x') -> is_Some (gs (graph s) !! Z.abs a) -> (lev (Z.abs a) < L)%nat) ->
  sober s x' ->
  let lev' := fun j => if j =? nxt (graph s) then L else lev j in
  ext n (eq (nxt (graph s))) s (with_graph s G') /\ inv lev' (fun j => j = nxt (graph s) \/ P j) (with_graph s G').
Proof.
  intros I -> IN AR LV NM. cbv zeta. pose proof (i_wf _ _ _ I) as [W0 W].
  assert (FR : gs (graph s) !! nxt (graph s) = None) by (destruct (gs (graph s) !! nxt (graph s)) eqn:E; auto; apply W in E; lia).
  assert (X : ext n (eq (nxt (graph s))) s (with_graph s (Graph (<[nxt (graph s) := x']> (gs (graph s))) (nxt (graph s) + 1) nulls' true))).
  { constructor; cbn [graph gates vars basics coh norm with_graph gs nxt]; auto; try lia; try tauto.
    - intros j x E N. rewrite lookup_insert_ne; auto.
    - intros j [x E]. rewrite lookup_insert_ne by (intros <-; congruence). eauto.
    - intros j L' E. rewrite lookup_insert_ne by lia. auto.
    - intros j L'. replace j with (nxt (graph s)) by lia. rewrite lookup_insert. eauto.
    - intros j (x & E & T & N). cbn [with_graph graph gs nulls] in *. destruct (Z.eq_dec (nxt (graph s)) j) as [->|D]; auto. rewrite lookup_insert_ne in E by auto. left. exists x. split; auto. }
  split; auto. eapply inv_step with (lev := lev); [|exact X|intros; auto|reflexivity| | | |reflexivity|].
  - eapply inv_pend; [|exact I]. intros j x Ej [->|]; auto. congruence.
  - split; cbn [graph with_graph gs nxt]; [lia|]. intros j x E. destruct (Z.eq_dec (nxt (graph s)) j) as [<-|D].
    + rewrite lookup_insert in E. injection E as <-. split; [lia|]. eapply args_ok_mono; eauto. lia.
    + rewrite lookup_insert_ne in E by auto. apply W in E as [? ?]. split; [lia|]. eapply args_ok_mono; eauto. lia.
  - intros j x a E J K. cbn [graph with_graph gs] in *.
    assert (BA : Z.abs a < nxt (graph s)).
    { destruct (Z.eq_dec (nxt (graph s)) j) as [<-|D].
      - rewrite lookup_insert in E. injection E as <-. apply (proj2 AR a J).
      - rewrite lookup_insert_ne in E by auto. apply W in E as [_ [_ H]]. apply (H a J). }
    rewrite lookup_insert_ne in K by lia. destruct (Z.eqb_spec (Z.abs a) (nxt (graph s))); [lia|].
    destruct (Z.eq_dec (nxt (graph s)) j) as [<-|D].
    + rewrite lookup_insert in E. injection E as <-. rewrite Z.eqb_refl. auto.
    + rewrite lookup_insert_ne in E by auto. destruct (Z.eqb_spec j (nxt (graph s))); [congruence|]. eapply (i_rank _ _ _ I); eauto.
  - intros j Lj. destruct (Z.eqb_spec j (nxt (graph s))); [lia|auto].
  - cbn [with_graph graph gs]. intros j x E. destruct (Z.eq_dec (nxt (graph s)) j) as [<-|D].
    + rewrite lookup_insert in E. injection E as <-. auto.
    + rewrite lookup_insert_ne in E by auto. exact (i_norm _ _ _ I _ _ E).
Qed.

Lemma sign_abs c i : Z.abs (sign c i) = Z.abs i.
Proof. destruct c; simpl; lia. Qed.
Lemma entry_gate lev P s g i : inv lev P s -> gates s !! g = Some (Some i) -> 1 < i < nxt (graph s) /\ is_Some (gs (graph s) !! i) /\ ~ P i.
Proof. intros I E. destruct (i_entry _ _ _ I g i E) as (f & _ & D & _). apply described_node in D as (x & D & N). split; [apply (i_wf _ _ _ I) in D; lia|]. split; eauto. Qed.
Lemma res_bound lev P s c e l : inv lev P s -> res s P c e l -> 1 < Z.abs l < nxt (graph s).
Proof.
  intros I [c' e' v A B C|c' e' g i A B|c' e' j A B].
  - rewrite sign_abs. apply (i_vars _ _ _ I) in C. lia.
  - rewrite sign_abs. apply (entry_gate _ _ _ _ _ I) in B. lia.
  - destruct B as [B _]. apply (i_wf _ _ _ I) in B. lia.
Qed.
Lemma all_bound lev P s l ls : inv lev P s -> Forall2 (pres s P) l ls -> forall a, In a ls -> 1 < Z.abs a < nxt (graph s).
Proof. intros I F a J. induction F as [|ce v l ls V F IH]; [destruct J|]. destruct J as [<-|J]; auto. eapply res_bound; eauto. Qed.
Lemma no_constant x : (forall a, In a (g_args x) -> 1 < Z.abs a) -> constant x = false.
Proof. intros H. unfold constant. apply orb_false_iff. split; apply has_false; intros J; apply H in J; simpl in J; lia. Qed.
Lemma described_const lev P s f i x : inv lev P s -> described s P f i -> gs (graph s) !! i = Some x -> constant x = false.
Proof.
  intros I D E. apply no_constant. intros a J.
  assert (S : forall c t k xs l ls, node s P i (Gate t k xs) -> Permutation xs ls -> c = l -> Forall2 (pres s P) l ls -> 1 < Z.abs a).
  { intros c t k xs l ls [N _] PM _ F. rewrite N in E. injection E as <-. cbn [g_args] in J. rewrite PM in J. eapply all_bound; eauto. }
  unfold described in D. destruct (f_conn f).
  all: try (destruct D as (t & xs & ls & _ & A & B & C); eapply S; eauto; fail).
  - destruct D as (y & xs & ls & [A _] & [B _] & _). rewrite A in E. injection E as <-. destruct J as [<-|[]]. apply (i_wf _ _ _ I) in B. lia.
  - destruct D as (a1 & b1 & xs & ls & _ & A & B & C). eapply S; eauto.
  - destruct D as (y & z & xs & ls & zs & [A _] & B & [C _] & [D _] & _). rewrite A in E. injection E as <-. cbn [g_args] in J. rewrite B in J.
    apply (i_wf _ _ _ I) in C. apply (i_wf _ _ _ I) in D. destruct J as [<-|[<-|[]]]; lia.
Qed.
(** An argument is added to a gate under construction. *)
Lemma add_ok n lev (P : Z -> Prop) s p t k xs a : inv lev P s -> P p -> gs (graph s) !! p = Some (Gate t k xs) ->
  (t = kNot \/ t = kNull -> xs = []) -> (t = kXor -> (length xs <= 1)%nat) -> 0 <= k -> (forall b, In b xs -> 1 < Z.abs b) ->
  1 < Z.abs a < nxt (graph s) -> (is_Some (gs (graph s) !! Z.abs a) -> (lev (Z.abs a) < lev p)%nat) -> ~ In a xs -> ~ In (- a) xs -> (KC = true -> coh s = true -> 0 < a) ->
  exists s', add p a s = Some s' /\ ext n (eq p) s s' /\ inv lev P s' /\ gs (graph s') !! p = Some (Gate t k (set_insert a xs)) /\
    (forall j, j <> p -> gs (graph s') !! j = gs (graph s) !! j) /\ nxt (graph s') = nxt (graph s) /\ nulls (graph s') = nulls (graph s) /\ gates s' = gates s /\ coh s' = coh s.
Proof.
  intros I Pp Ep R1 R2 K0 NC BA LA N1 N2 CA.
  set (G' := Graph (<[p := Gate t k (set_insert a xs)]> (gs (graph s))) (nxt (graph s)) (nulls (graph s)) true).
  assert (AO : PdagProofs.args_ok (nxt (graph s)) xs) by (apply (i_wf _ _ _ I) in Ep as [_ ?]; auto).
  destruct (edit_ok n lev P s p _ (Gate t k (set_insert a xs)) (nulls (graph s)) G' I Pp Ep eq_refl (incl_refl _)) as [X1 X2].
  - apply args_ok_insert; auto; lia.
  - cbn [g_args]. intros b J S. apply set_insert_In in J as [->|J]; auto. eapply (i_rank _ _ _ I); eauto.
  - destruct (i_norm _ _ _ I p _ Ep) as (S1 & S2 & S5). split; [exact S1|]. split; [intros KK C; destruct (S2 KK C) as [S3 S4]; split; [exact S3|]; cbn [g_args] in *; intros b J; apply set_insert_In in J as [->|J]; auto|].
    assert (LI : length (set_insert a xs) = S (length xs)) by (rewrite (Permutation_length (set_insert_perm a xs N1)); reflexivity).
    split; [cbn [g_type g_args]; intros T; rewrite LI, (R1 T); auto|]. split; [cbn [g_type g_args]; intros T; rewrite LI; specialize (R2 T); lia|].
    intros C. rewrite no_constant in C; [discriminate|]. cbn [g_args]. intros b J. apply set_insert_In in J as [-> | J]; [lia|auto].
  - exists (with_graph s G'). split.
    + unfold add, add_any. rewrite Ep. cbn [mbind option_bind]. replace (a =? 1) with false by lia. replace (a =? -1) with false by lia. cbn [orb].
      unfold add_arg. rewrite Ep. cbn [mbind option_bind g_args].
      assert (AS : add_asserts (Gate t k xs) = true).
      { unfold add_asserts. cbn [g_type g_args g_min]. rewrite (no_constant (Gate t k xs)) by auto. cbn [negb andb].
        replace (0 <=? k) with true by lia. rewrite andb_true_r. apply andb_true_iff. split; apply negb_true_iff, andb_false_iff.
        - destruct t; cbn; auto; rewrite R1 by auto; auto.
        - destruct t; cbn; auto. right. specialize (R2 eq_refl). unfold size. lia. }
      rewrite AS. cbn [negb orb]. replace (a =? 0) with false by lia. rewrite (proj2 (has_false a xs) N1), (proj2 (has_false (- a) xs) N2).
      unfold add_new. rewrite Ep. cbn [mbind option_bind g_args]. rewrite AS, (proj2 (has_false a xs) N1), (proj2 (has_false (- a) xs) N2). cbn [negb andb mbind option_bind].
      unfold put, with_args. cbn [g_type g_min]. rewrite (i_reg _ _ _ I). reflexivity.
    + split; auto. split; auto. cbn [with_graph graph gs G' nxt nulls gates coh]. split; [apply lookup_insert|]. split; auto. intros j Nj. apply lookup_insert_ne. auto.
Qed.
(** A gate of the model is entered into the table. *)
Lemma table_ok lev P s g i f : inv lev P s -> gates s !! g = Some None -> formula_of g = Some f -> described s P f i -> (lev i <= 4 * R g + 3)%nat ->
  (coh s = true -> monotone f = true) -> (forall h, gates s !! h <> Some (Some i)) -> inv lev P (with_gate s g (Some i)).
Proof.
  intros [A B C D E F G J K] Eg Ef De Le Co Ne.
  assert (S : sim P s (with_gate s g (Some i))).
  { split; [auto|]. split; [auto|]. unfold with_gate. cbn [gates]. intros h k H. rewrite lookup_insert_ne; auto. congruence. }
  constructor; cbn [with_gate graph vars gates norm coh]; auto.
  - intros h k H. destruct (decide (h = g)) as [->|N].
    + rewrite lookup_insert in H. injection H as <-. exists f. split; auto. split; auto. eapply described_sim; eauto.
    + rewrite lookup_insert_ne in H by auto. destruct (F h k H) as (f' & ? & ? & ?). exists f'. split; auto. split; auto. eapply described_sim; eauto.
  - intros h h' k H H'. destruct (decide (h = g)) as [->|N], (decide (h' = g)) as [->|N']; auto.
    + rewrite lookup_insert in H. rewrite lookup_insert_ne in H' by auto. elim (Ne h'). congruence.
    + rewrite lookup_insert in H'. rewrite lookup_insert_ne in H by auto. elim (Ne h). congruence.
    + rewrite lookup_insert_ne in H, H' by auto. eauto.
  - assert (DM : forall h, is_Some (<[g := Some i]> (gates s) !! h) <-> is_Some (gates s !! h)).
    { intros h. destruct (decide (h = g)) as [->|N]; [rewrite lookup_insert, Eg; split; eauto|rewrite lookup_insert_ne by auto; tauto]. }
    intros h f' a H Eh Ia. cbn [with_gate gates] in H. apply DM in H. pose proof (K h f' a H Eh Ia) as X. unfold registered in *. cbn [gates vars with_gate]. destruct (target (event a)); auto. apply DM. auto.
Qed.

Lemma distinct_lit lev P s c e l done ls : inv lev P s -> res s P c e l -> ev_kind e <> KHouse -> Forall2 (pres s P) done ls ->
  (forall ce, In ce done -> ce.2 <> e /\ forall g, target ce.2 = Some g -> target e <> Some g) -> forall b, In b ls -> Z.abs b <> Z.abs l.
Proof.
  intros I V NH F DI. induction F as [|ce v dn ls W F IH]; intros b J; [destruct J|]. destruct J as [<-|J]; [|apply IH; auto; intros; apply DI; simpl; auto].
  destruct (DI ce (or_introl eq_refl)) as [D1 D2]. destruct ce as [c1 e1]. unfold pres in W. cbn [fst snd] in *. clear IH F DI. intros EQ.
  assert (EN : forall g i, gates s !! g = Some (Some i) -> is_Some (gs (graph s) !! i)) by (intros g i H; apply (entry_gate _ _ _ _ _ I H)).
  assert (EA : forall g i, gates s !! g = Some (Some i) -> Z.abs i = i) by (intros g i H; apply (entry_gate _ _ _ _ _ I) in H; lia).
  assert (VA : forall g i, vars s !! g = Some i -> Z.abs i = i) by (intros g i H; apply (i_vars _ _ _ I) in H; lia).
  assert (VN : forall g i, vars s !! g = Some i -> gs (graph s) !! i = None) by (intros g i H; apply (i_vars _ _ _ I) in H; tauto).
  destruct V as [c' e' v' A B C|c' e' g i A B|c' e' j A B]; [| |congruence].
  - destruct W as [c2 e2 v2 A2 B2 C2|c2 e2 g2 i2 A2 B2|c2 e2 j2 A2 [B2 _]]; rewrite !sign_abs in EQ.
    + rewrite (VA _ _ C), (VA _ _ C2) in EQ. subst v2. apply D1. eapply (i_vinj _ _ _ I); eauto.
    + rewrite (VA _ _ C), (EA _ _ B2) in EQ. subst i2. apply EN in B2 as [x X]. apply VN in C. congruence.
    + rewrite (VA _ _ C) in EQ. apply VN in C. pose proof B2 as B3. apply (i_wf _ _ _ I) in B3. rewrite Z.abs_eq in EQ by lia. congruence.
  - destruct W as [c2 e2 v2 A2 B2 C2|c2 e2 g2 i2 A2 B2|c2 e2 j2 A2 [B2 _]]; rewrite !sign_abs in EQ.
    + rewrite (VA _ _ C2), (EA _ _ B) in EQ. subst v2. apply EN in B as [x X]. apply VN in C2. congruence.
    + rewrite (EA _ _ B), (EA _ _ B2) in EQ. subst i2. assert (g2 = g) by (eapply (i_inj _ _ _ I); eauto). subst g2. elim (D2 g A2 A).
    + rewrite (EA _ _ B) in EQ. pose proof B2 as B3. apply (i_wf _ _ _ I) in B3. rewrite Z.abs_eq in EQ by lia. subst j2.
      destruct (i_entry _ _ _ I g i B) as (f & _ & De & _). pose proof (described_const _ _ _ _ _ _ I De B2) as K. unfold constant, has in K. cbn [g_args existsb] in K.
      destruct (xorb c2 (negb (house e2))); discriminate K.
Qed.

Definition construct_spec (fuel : nat) : Prop := forall n f s lev (P : Z -> Prop), (n < fuel)%nat -> sound_formula f -> (forall a g, In a (f_args f) -> target (event a) = Some g -> (R g < n)%nat) ->
  inv lev P s -> (forall j, P j -> j < nxt (graph s)) -> (forall a, In a (f_args f) -> registered s (event a)) ->
  exists i s' lev', construct fuel f s = Some (i, s') /\ ext n (fun _ => False) s s' /\ inv lev' P s' /\ (forall j, j < nxt (graph s) -> lev' j = lev j) /\
    described s' P f i /\ (lev' i <= 4 * n + 3)%nat /\ nxt (graph s) <= i /\ (forall g, gates s' !! g <> Some (Some i)) /\ (coh s' = true -> monotone f = true).

Lemma house_made s h : h = 1 \/ h = -1 -> reg (graph s) = true -> let '(s0, j0) := make kNull s in
  j0 = nxt (graph s) /\ add j0 h s0 = Some (with_graph s (Graph (<[nxt (graph s) := Gate kNull 0 [h]]> (gs (graph s))) (nxt (graph s) + 1) (nulls (graph s) ++ [nxt (graph s)]) true)).
Proof.
  intros HB RG. unfold make, new_gate. split; auto. set (j := nxt (graph s)). unfold add. cbn [with_graph graph].
  set (G0 := Graph (<[j := Gate kNull 0 []]> (gs (graph s))) (j + 1) (nulls (graph s)) (reg (graph s))).
  assert (E0 : gs G0 !! j = Some (Gate kNull 0 [])) by apply lookup_insert.
  assert (MC : forall b, make_constant j b G0 = Some (Graph (<[j := Gate kNull 0 [if b then 1 else -1]]> (gs (graph s))) (j + 1) (nulls (graph s) ++ [j]) true)).
  { intros b. unfold make_constant, erase_args. rewrite E0. cbn [mbind option_bind constant has g_args existsb orb]. unfold set_type, put. cbn [gs with_args g_type g_min]. rewrite lookup_insert.
    cbn [mbind option_bind gs]. rewrite lookup_insert. cbn [mbind option_bind g_type g_min g_args nxt nulls reg conn_eqb andb]. rewrite !insert_insert. unfold G0. cbn [reg nulls nxt gs]. rewrite RG, insert_insert. reflexivity. }
  unfold add_any. rewrite E0. cbn [mbind option_bind]. replace ((h =? 1) || (h =? -1)) with true by (destruct HB as [-> | ->]; auto). cbn [constant has g_args existsb orb].
  unfold add_constant_arg. rewrite E0. cbn [mbind option_bind g_type]. destruct HB as [-> | ->]; cbn [Z.ltb Z.compare]; rewrite MC; reflexivity.
Qed.
Section Args.
Context (fuel : nat) (SPEC : construct_spec fuel) (n : nat) (NF : (n <= fuel)%nat) (P : Z -> Prop) (p : Z) (Pp : P p) (t : conn) (k : Z) (K0 : 0 <= k).
Definition fits (l : nat) : Prop := (t = kNot \/ t = kNull -> (l <= 1)%nat) /\ (t = kXor -> (l <= 2)%nat).
Definition may_add (e : nat) : Prop := forall g, target e = Some g -> (R g < n)%nat /\ is_Some (formula_of g).
Definition apart (done : list (bool * nat)) (e : nat) : Prop := forall ce, In ce done -> ce.2 <> e /\ forall g, target ce.2 = Some g -> target e <> Some g.
Lemma add_event_ok lev s xs extra done ls e c : inv lev P s -> (forall j, P j -> j < nxt (graph s)) -> gs (graph s) !! p = Some (Gate t k xs) -> Permutation xs (extra ++ ls) ->
  (forall b, In b extra -> is_Some (gs (graph s) !! Z.abs b) /\ forall g, gates s !! g <> Some (Some (Z.abs b))) -> (KC = true -> coh s = true -> c = false) ->
  Forall2 (pres s P) done ls -> fits (S (length extra + length done)) -> (4 * n + 1 <= lev p)%nat -> registered s e -> may_add e -> apart done e ->
  exists s' lev' l xs', add_event (construct fuel) p e c s = Some s' /\ ext n (eq p) s s' /\ inv lev' P s' /\ (forall j, j < nxt (graph s) -> lev' j = lev j) /\
    gs (graph s') !! p = Some (Gate t k xs') /\ Permutation xs' (extra ++ ls ++ [l]) /\ Forall2 (pres s' P) (done ++ [(c, e)]) (ls ++ [l]).
Proof.
  intros I PD Ep PM EX CC F FT LP RG MA AP.
  assert (LX : length xs = (length extra + length done)%nat) by (rewrite (Permutation_length PM), app_length; f_equal; symmetry; eapply Forall2_length; eauto).
  assert (XB : forall b, In b extra -> 1 < Z.abs b < nxt (graph s)) by (intros b J; destruct (EX b J) as [[x E] _]; apply (i_wf _ _ _ I) in E; lia).
  assert (SPL : forall l, (forall b, In b extra -> Z.abs b <> Z.abs l) -> (forall b, In b ls -> Z.abs b <> Z.abs l) -> forall b, In b xs -> Z.abs b <> Z.abs l).
  { intros l H1 H2 b J. rewrite PM in J. apply in_app_iff in J as [J|J]; auto. }
  (* the literal exists already *)
  assert (OLD : forall s1 lev1 l, ext n (eq p) s s1 -> inv lev1 P s1 -> (forall j, j < nxt (graph s) -> lev1 j = lev j) -> gs (graph s1) !! p = Some (Gate t k xs) ->
    res s1 P c e l -> (is_Some (gs (graph s1) !! Z.abs l) -> (lev1 (Z.abs l) < lev1 p)%nat) -> (forall b, In b xs -> Z.abs b <> Z.abs l) -> (KC = true -> coh s1 = true -> 0 < l) ->
    exists s' lev' xs', add p l s1 = Some s' /\ ext n (eq p) s s' /\ inv lev' P s' /\ (forall j, j < nxt (graph s) -> lev' j = lev j) /\
    gs (graph s') !! p = Some (Gate t k xs') /\ Permutation xs' (extra ++ ls ++ [l]) /\ Forall2 (pres s' P) (done ++ [(c, e)]) (ls ++ [l])).
  { intros s1 lev1 l X1 I1 A1 E1 V LV NI CL.
    assert (F1 : Forall2 (pres s1 P) done ls) by (eapply all_stable; eauto; intros; subst; auto).
    assert (D1 : ~ In l xs) by (intros J; apply NI in J; lia). assert (D2 : ~ In (- l) xs) by (intros J; apply NI in J; lia).
    destruct (add_ok n lev1 P s1 p t k xs l I1 Pp E1) as (s2 & Y1 & Y2 & Y3 & Y4 & _); auto.
    - intros T. apply (proj1 FT) in T. destruct xs; auto. simpl in LX. lia.
    - intros T. apply (proj2 FT) in T. lia.
    - intros b J. rewrite PM in J. apply in_app_iff in J as [J|J]; [apply XB in J; lia|]. eapply all_bound in F1; eauto. lia.
    - eapply res_bound; eauto.
    - exists s2, lev1, (set_insert l xs). split; auto. split; [eapply ext_trans; eauto|]. split; auto. split; auto. split; auto. split.
      + rewrite set_insert_perm, PM, app_assoc by auto. apply Permutation_cons_append.
      + eapply all_stable; [exact Y2|intros; subst; auto|]. apply Forall2_app; auto. }
  assert (EXP : (p < nxt (graph s))) by auto.
  (* gates *)
  assert (GATE : forall g, target e = Some g -> ev_kind e <> KHouse -> exists s' lev' l xs', add_gate formula_of (construct fuel) p g c s = Some s' /\ ext n (eq p) s s' /\ inv lev' P s' /\ (forall j, j < nxt (graph s) -> lev' j = lev j) /\
    gs (graph s') !! p = Some (Gate t k xs') /\ Permutation xs' (extra ++ ls ++ [l]) /\ Forall2 (pres s' P) (done ++ [(c, e)]) (ls ++ [l])).
  { intros g T NH. destruct (MA g T) as [RGg [f Ef]]. unfold registered in RG. rewrite T in RG. destruct RG as [o Eo]. unfold add_gate. rewrite Eo. destruct o as [i|].
    - assert (V : res s P c e (sign c i)) by (eapply RGate; eauto).
      destruct (OLD s lev (sign c i)) as (s' & lev' & xs' & H); auto; [apply ext_refl| | | |eauto 10].
      + intros _. rewrite sign_abs. destruct (i_entry _ _ _ I g i Eo) as (f' & _ & _ & L & _). apply (entry_gate _ _ _ _ _ I) in Eo. rewrite Z.abs_eq by lia. lia.
      + apply SPL; [|eapply distinct_lit; eauto]. intros b J. rewrite sign_abs. pose proof (entry_gate _ _ _ _ _ I Eo) as [BI _]. rewrite (Z.abs_eq i) by lia. intros Q. apply (proj2 (EX b J) g). rewrite Q. auto.
      + intros KK C. rewrite (CC KK C). pose proof (entry_gate _ _ _ _ _ I Eo) as [BI _]. simpl. lia.
    - rewrite Ef. cbn [mbind option_bind].
      destruct (SPEC (R g) f s lev P) as (i & s1 & lev1 & C1 & C2 & C3 & C4 & C5 & C6 & C7 & C8 & C9); auto; [lia|eapply SF; eauto|intros; eapply SR; eauto|intros; eapply (i_closed _ _ _ I); eauto|].
      rewrite C1. cbn [mbind option_bind].
      assert (E1 : gates s1 !! g = Some None).
      { destruct (proj2 (x_dom _ _ _ _ C2 g) (ex_intro _ _ Eo)) as [[j|] Ej]; auto. destruct (x_fresh _ _ _ _ C2 g j Ej) as [H|[_ H]]; [congruence|lia]. }
      pose proof (table_ok lev1 P s1 g i f C3 E1 Ef C5 C6 C9 C8) as I2. set (s2 := with_gate s1 g (Some i)) in *.
      assert (X2 : ext n (eq p) s s2).
      { destruct C2 as [a1 a2 a3 a4 a5 a6 a7 a8 a9 a10 a11 a12 a13 a14]. constructor; cbn [s2 with_gate graph vars basics gates coh norm]; auto.
        - intros h. rewrite <- a8. destruct (decide (h = g)) as [->|N]; [rewrite lookup_insert, E1; split; eauto|rewrite lookup_insert_ne by auto; tauto].
        - intros h j H. rewrite lookup_insert_ne by congruence. auto.
        - intros h j H. destruct (decide (h = g)) as [->|N].
          + rewrite lookup_insert in H. injection H as <-. right. split; auto.
          + rewrite lookup_insert_ne in H by auto. destruct (a10 h j H) as [|[? ?]]; auto. right. split; auto. lia.
        - intros j H. destruct (a11 j H); [auto|contradiction]. }
      assert (V : res s2 P c e (sign c i)) by (apply (RGate s2 P c e g i); auto; unfold s2; cbn [with_gate gates]; apply lookup_insert).
      assert (Ii : 1 < i < nxt (graph s2)) by (apply (entry_gate lev1 P s2 g i I2); unfold s2; cbn [with_gate gates]; apply lookup_insert).
      destruct (OLD s2 lev1 (sign c i)) as (s' & lev' & xs' & H); auto.
      + apply (x_gs _ _ _ _ C2); auto.
      + intros _. rewrite sign_abs. rewrite Z.abs_eq by lia. rewrite (C4 p) by auto. lia.
      + apply SPL; intros b J; rewrite sign_abs; [pose proof (XB b J)|pose proof (all_bound _ _ _ _ _ I F b J)]; lia.
      + intros KK C. rewrite (CC KK (x_coh _ _ _ _ X2 C)). simpl. lia.
      + eauto 10. }
  unfold Construct.add_event. unfold target in GATE. destruct (ev_kind e) eqn:KE.
  - apply GATE; auto.
  - destruct (replaced e) as [g|] eqn:RP; [apply GATE; auto; discriminate|].
    unfold registered, target in RG. rewrite KE, RP in RG. destruct (RG eq_refl) as [v Ev]. rewrite Ev. cbn [mbind option_bind].
    assert (V : res s P c e (sign c v)) by (apply RVar; auto).
    destruct (OLD s lev (sign c v)) as (s' & lev' & xs' & H); auto; [apply ext_refl| | | |eauto 10].
    + intros [x X]. rewrite sign_abs in X. apply (i_vars _ _ _ I) in Ev as [B N]. rewrite Z.abs_eq in X by lia. congruence.
    + apply SPL; [|eapply distinct_lit; eauto; congruence]. intros b J. rewrite sign_abs. pose proof (i_vars _ _ _ I _ _ Ev) as [BI NV]. rewrite (Z.abs_eq v) by lia. destruct (EX b J) as [[x Ex] _]. intros Q. rewrite Q in Ex. congruence.
    + intros KK C. rewrite (CC KK C). pose proof (i_vars _ _ _ I _ _ Ev) as [BI NV]. simpl. lia.
  - (* a house event *)
    set (h := sign (xorb c (negb (house e))) 1). set (j := nxt (graph s)).
    assert (HB : h = 1 \/ h = -1) by (unfold h; destruct (xorb c (negb (house e))); simpl; auto).
    set (G1 := Graph (<[j := Gate kNull 0 [h]]> (gs (graph s))) (j + 1) (nulls (graph s) ++ [j]) true).
    pose proof (house_made s h HB (i_reg _ _ _ I)) as HM. fold j in HM. fold G1 in HM. destruct (make kNull s) as [s0 j0]. destruct HM as [-> HM]. rewrite HM. clear HM s0. cbn [mbind option_bind].
    destruct (new_ok n 0 lev P s (Gate kNull 0 [h]) (nulls (graph s) ++ [j]) G1 I eq_refl) as [X1 I1].
    + intros x J. apply in_app_iff; auto.
    + cbn [g_args]. pose proof (i_wf _ _ _ I) as [W0 _]. apply args_ok_single; lia.
    + cbn [g_args]. intros a [<-|[]] [x E]. destruct HB as [HB | HB]; rewrite HB in E; apply (i_wf _ _ _ I) in E; simpl in E; lia.
    + split; [unfold normal_gate; auto|]. split; [intros _ _; split; [cbn [g_type]; auto|]; cbn [g_args]; intros a [<-|[]]; destruct HB as [-> | ->]; auto; lia|]. split; [cbn; auto|]. split; [discriminate|auto].
    + cbv zeta in *. set (lev1 := fun j0 => if j0 =? nxt (graph s) then 0%nat else lev j0) in *.
      assert (I1' : inv lev1 P (with_graph s G1)) by (eapply inv_pend; [|exact I1]; intros; right; auto).
      assert (NU : ~ unreg (with_graph s G1) j).
      { intros (x & _ & _ & N). apply N. cbn [with_graph graph nulls G1]. apply in_app_iff. right. simpl; auto. }
      assert (X1' : ext n (eq p) s (with_graph s G1)).
      { apply (ext_weaken n n (fun _ => False)); auto; [tauto|]. eapply ext_close; [apply (i_wf _ _ _ I)|exact X1|]. intros x <-. split; [lia|auto]. }
      assert (NJ : ~ P j) by (intros H; apply PD in H; unfold j in H; lia).
      destruct (OLD (with_graph s G1) lev1 j) as (s' & lev' & xs' & H1 & H2 & H3 & H4 & H5 & H6 & H7); auto.
      * intros x L. unfold lev1. destruct (Z.eqb_spec x (nxt (graph s))); [lia|auto].
      * cbn [with_graph graph gs G1]. rewrite lookup_insert_ne; auto. unfold j. lia.
      * apply RHouse; auto. split; auto. cbn [with_graph graph gs G1]. apply lookup_insert.
      * intros _. unfold lev1. pose proof (i_wf _ _ _ I) as [W0 _]. rewrite Z.abs_eq by (unfold j; lia). unfold j. rewrite Z.eqb_refl. destruct (Z.eqb_spec p (nxt (graph s))); lia.
      * apply SPL; intros b J; [pose proof (XB b J)|pose proof (all_bound _ _ _ _ _ I F b J)]; unfold j; lia.
      * intros _ _. pose proof (i_wf _ _ _ I) as [W0 _]. unfold j. lia.
      * rewrite H1. cbn [mbind option_bind].
        assert (SM : sim P s' (push_null j s')) by (split; [auto|split; auto]).
        exists (push_null j s'), lev', j, xs'. split; auto. split; [|split; [|split; [|split; [|split]]]]; auto.
        -- destruct H2 as [a1 a2 a3 a4 a5 a6 a7 a8 a9 a10 a11 a12 a13 a14]. constructor; auto; [|intros x J; cbn [push_null with_graph graph nulls]; apply in_app_iff; auto]. intros x (y & Ey & Ty & Ny). apply a11. exists y. split; auto. split; auto. intros Q. apply Ny. cbn [push_null with_graph graph nulls]. apply in_app_iff; auto.
        -- destruct H3 as [a1 a2 a3 a4 a5 a6 a7 a8 a9]. constructor; auto. intros g i E. destruct (a6 g i E) as (f & ? & ? & ?). exists f. split; auto. split; auto. eapply described_sim; eauto.
        -- eapply all_sim; eauto.
Qed.
Lemma registered_ext m Q s s' e : ext m Q s s' -> registered s e -> registered s' e.
Proof. intros X. unfold registered. rewrite (x_vars _ _ _ _ X). destruct (target e); auto. apply (x_dom _ _ _ _ X). Qed.
Lemma add_events_ok : forall l lev s xs done ls, inv lev P s -> (forall j, P j -> j < nxt (graph s)) -> gs (graph s) !! p = Some (Gate t k xs) -> Permutation xs ls ->
  Forall2 (pres s P) done ls -> fits (length done + length l) -> (4 * n + 1 <= lev p)%nat -> (forall a, In a l -> registered s (event a)) -> (forall a, In a l -> may_add (event a)) ->
  (forall l1 ce l2, done ++ pairs l = l1 ++ ce :: l2 -> apart l1 ce.2) -> (KC = true -> coh s = true -> forall a, In a l -> complement a = false) ->
  exists s' lev' ls' xs', add_events (construct fuel) p l s = Some s' /\ ext n (eq p) s s' /\ inv lev' P s' /\ (forall j, j < nxt (graph s) -> lev' j = lev j) /\
    gs (graph s') !! p = Some (Gate t k xs') /\ Permutation xs' ls' /\ Forall2 (pres s' P) (done ++ pairs l) ls'.
Proof.
  induction l as [|a l IH]; intros lev s xs done ls I PD Ep PM F FT LP RG MA AP CC.
  - exists s, lev, ls, xs. simpl. rewrite app_nil_r. split; auto. split; [apply ext_refl|]. auto.
  - cbn [Construct.add_events]. assert (BP : p < nxt (graph s)) by auto.
    destruct (add_event_ok lev s xs [] done ls (event a) (complement a)) as (s1 & lev1 & l1 & xs1 & A1 & A2 & A3 & A4 & A5 & A6 & A7); auto; try (apply RG; simpl; auto; fail); try (apply MA; simpl; auto; fail).
    + intros b [].
    + intros KK C. apply (CC KK C). simpl; auto.
    + destruct FT as [T1 T2]. simpl length in *. split; intros T; [specialize (T1 T)|specialize (T2 T)]; lia.
    + apply (AP done (complement a, event a) (pairs l)). reflexivity.
    + rewrite A1. cbn [mbind option_bind]. pose proof (x_nxt _ _ _ _ A2) as NX.
      destruct (IH lev1 s1 xs1 (done ++ [(complement a, event a)]) (ls ++ [l1])) as (s' & lev' & ls' & xs' & B1 & B2 & B3 & B4 & B5 & B6 & B7); auto.
      * intros j H. apply PD in H. lia.
      * rewrite app_length. simpl length in *. replace (length done + 1 + length l)%nat with (length done + S (length l))%nat by lia. auto.
      * rewrite A4; auto.
      * intros b J. eapply registered_ext; eauto. apply RG. simpl; auto.
      * intros b J. apply MA. simpl; auto.
      * intros l2 ce l3 E. rewrite <- app_assoc in E. apply (AP l2 ce l3). exact E.
      * intros KK C b J. apply (CC KK (x_coh _ _ _ _ A2 C)). simpl; auto.
      * exists s', lev', ls', xs'. split; auto. split; [eapply ext_trans; eauto|]. split; auto. split; [intros j H; rewrite B4 by lia; auto|]. split; auto. split; auto.
        rewrite <- app_assoc in B7. exact B7.
Qed.
End Args.

Lemma apart_args f : sound_formula f -> forall l1 ce l2, pairs (f_args f) = l1 ++ ce :: l2 -> apart l1 ce.2.
Proof.
  intros S l1 ce l2 E c J. pose proof (distinct_events f S) as ND.
  assert (M : map event (f_args f) = map snd (pairs (f_args f))) by (unfold pairs; rewrite map_map; auto). rewrite M, E, map_app in ND. simpl in ND.
  apply NoDup_remove_2 in ND.
  assert (NE : c.2 <> ce.2) by (intros H; apply ND, in_app_iff; left; rewrite <- H; apply in_map; auto). split; auto.
  assert (IN : forall x, In x (pairs (f_args f)) -> exists a, In a (f_args f) /\ event a = x.2).
  { intros x X. apply in_map_iff in X as (a & <- & X). exists a. auto. }
  destruct (IN c) as (a & Ia & Ea); [rewrite E; apply in_app_iff; auto|]. destruct (IN ce) as (b & Ib & Eb); [rewrite E; apply in_app_iff; simpl; auto|].
  intros g Tc Te. apply NE. rewrite <- Ea, <- Eb in *. eapply target_inj; eauto.
Qed.
Lemma flags_ok m Q lev P s c d : (c = true -> coh s = true) -> (d = true -> norm s = true) -> inv lev P s ->
  let s' := St (graph s) (gates s) (vars s) (basics s) c d in ext m Q s s' /\ inv lev P s'.
Proof.
  intros HC HD I. cbv zeta. assert (X : forall Q, ext m Q s (St (graph s) (gates s) (vars s) (basics s) c d)).
  { intros Q'. constructor; cbn [graph gates vars basics coh norm]; auto; try tauto; try lia; try apply incl_refl. }
  split; auto. apply (inv_step m (fun _ => False) P lev lev s); auto; try apply I; [tauto|].
  intros j x E. destruct (i_norm _ _ _ I j x E) as (S1 & S2 & S3). split; [|split]; cbn [norm coh]; auto.
Qed.
(** A new gate without arguments. *)
Lemma start_ok m L lev (P : Z -> Prop) s t k nl c d : (c = true -> coh s = true /\ (t = kAnd \/ t = kOr \/ t = kAtleast \/ t = kNull)) -> (d = true -> norm s = true /\ (t = kAnd \/ t = kOr \/ t = kNull)) -> incl (nulls (graph s)) nl -> inv lev P s ->
  let p := nxt (graph s) in
  let s' := St (Graph (<[p := Gate t k []]> (gs (graph s))) (p + 1) nl true) (gates s) (vars s) (basics s) c d in
  ext m (eq p) s s' /\ inv (fun j => if j =? p then L else lev j) (fun j => j = p \/ P j) s' /\ gs (graph s') !! p = Some (Gate t k []).
Proof.
  intros HC HD NL I. cbv zeta. destruct (flags_ok m (eq (nxt (graph s))) lev P s c d) as [X1 I1]; [intros H; apply HC; auto|intros H; apply HD; auto|auto|].
  destruct (new_ok m L lev P _ (Gate t k []) nl (Graph (<[nxt (graph s) := Gate t k []]> (gs (graph s))) (nxt (graph s) + 1) nl true) I1 eq_refl NL) as [X2 I2].
  - cbn [g_args]. split; [constructor|intros a []].
  - intros a [].
  - split; cbn [norm coh]; [intros H; apply HD; auto|]. split; [intros _ H; split; [apply HC; auto|intros a []]|]. split; [cbn; lia|]. split; [cbn; lia|discriminate].
  - split; [|split].
    + eapply ext_trans; [exact X1|]. exact X2.
    + exact I2.
    + cbn [graph gs]. apply lookup_insert.
Qed.
Lemma all_pend (P P' : Z -> Prop) s l ls : (forall j, P' j -> P j) -> Forall2 (pres s P) l ls -> Forall2 (pres s P') l ls.
Proof.
  intros H F. eapply Forall2_impl; [exact F|]. intros [c0 e0] v V. unfold pres in *. cbn [fst snd] in *.
  destruct V as [c e w A B C|c e g k A B|c e j A [B N]]; [apply RVar|eapply RGate|apply RHouse; [|split]]; eauto.
Qed.
(** The gates under construction are complete. *)
Lemma finish n (Q P P' : Z -> Prop) lev lev' s s' : inv lev P s -> ext n Q s s' -> inv lev' P' s' -> (forall j, P j -> P' j) ->
  (forall j, Q j -> P' j /\ nxt (graph s) <= j /\ ~ unreg s' j) ->
  ext n (fun _ => False) s s' /\ inv lev' P s' /\ forall j g, Q j -> gates s' !! g <> Some (Some j).
Proof.
  intros I X I' H HQ. split; [|split].
  - eapply ext_close; [apply (i_wf _ _ _ I)|exact X|]. intros j J. apply HQ in J. tauto.
  - eapply inv_pend; [|exact I']. auto.
  - intros j g J E. apply (entry_gate _ _ _ _ _ I') in E. apply HQ in J. tauto.
Qed.
(** well_form *)
Lemma well_form_ok G x k xs : gs G !! x = Some (Gate kAtleast k xs) -> (forall b, In b xs -> 1 < Z.abs b) -> reg G = true ->
  exists nulls', well_form x G = Some (Graph (<[x := well k xs]> (gs G)) (nxt G) nulls' true) /\ incl (nulls G) nulls' /\ (g_type (well k xs) = kNull -> In x nulls').
Proof.
  intros E NC RG. unfold well_form, well. rewrite E. cbn [mbind option_bind g_min g_args]. destruct (Z.eqb_spec k 0) as [->|].
  - exists (nulls G ++ [x]). split.
    + unfold make_constant, erase_args. rewrite E. cbn [mbind option_bind]. rewrite (no_constant (Gate kAtleast 0 xs)) by auto. unfold set_type, put. cbn [gs with_args g_type g_min]. rewrite lookup_insert.
      cbn [mbind option_bind gs]. rewrite lookup_insert. cbn [mbind option_bind g_type g_min g_args nxt nulls reg conn_eqb andb]. rewrite !insert_insert, RG. reflexivity.
    + split; [intros j J; apply in_app_iff; auto|]. intros _. apply in_app_iff. right. simpl; auto.
  - destruct (Z.eqb_spec k 1) as [->|]; [|destruct (Z.eqb_spec k (size xs))]; exists (nulls G).
    + unfold set_type. rewrite E. cbn [conn_eqb andb g_min g_args]. rewrite RG. split; auto. split; [apply incl_refl|discriminate].
    + unfold set_type. rewrite E. cbn [conn_eqb andb g_min g_args]. rewrite RG. split; auto. split; [apply incl_refl|discriminate].
    + split; [|split; [apply incl_refl|discriminate]]. f_equal. destruct G as [a b c d]. simpl in *. subst d. f_equal. rewrite insert_id; auto.
Qed.

Lemma well_suited k xs : (forall b, In b xs -> 1 < Z.abs b) -> suited (well k xs).
Proof.
  intros NC. unfold well. destruct (k =? 0); [split; [cbn; auto|split; [discriminate|auto]]|].
  assert (H : forall t, t <> kNot -> t <> kNull -> t <> kXor -> forall m, suited (Gate t m xs)).
  { intros t T1 T2 T3 m. split; [cbn; intros [Q|Q]; contradiction|]. split; [cbn; contradiction|]. intros Q. rewrite no_constant in Q; [discriminate|auto]. }
  destruct (k =? 1); [|destruct (k =? size xs)]; apply H; discriminate.
Qed.
Lemma may_args n f : sound_formula f -> (forall a g, In a (f_args f) -> target (event a) = Some g -> (R g < n)%nat) -> forall a, In a (f_args f) -> may_add n (event a).
Proof. intros S RK a J g T. split; [eapply RK; eauto|eapply f_gates; eauto]. Qed.
Section Step.
Context (fuel : nat) (SPEC : construct_spec fuel) (n : nat) (NF : (n <= fuel)%nat) (f : formula) (SFf : sound_formula f)
  (RK : forall a g, In a (f_args f) -> target (event a) = Some g -> (R g < n)%nat)
  (s : st) (lev : Z -> nat) (P : Z -> Prop) (I : inv lev P s) (PB : forall j, P j -> j < nxt (graph s)) (RG : forall a, In a (f_args f) -> registered s (event a)).
Let p := nxt (graph s).
Lemma simple_ok t k nl c d : (c = true -> coh s = true /\ monotone f = true /\ (t = kAnd \/ t = kOr \/ t = kAtleast \/ t = kNull)) -> (d = true -> norm s = true /\ (t = kAnd \/ t = kOr \/ t = kNull)) ->
  incl (nulls (graph s)) nl -> (t = kNull -> In p nl) -> fits t (length (f_args f)) -> 0 <= k ->
  exists s' lev' xs ls, add_events (construct fuel) p (f_args f) (St (Graph (<[p := Gate t k []]> (gs (graph s))) (p + 1) nl true) (gates s) (vars s) (basics s) c d) = Some s' /\
    ext n (fun _ => False) s s' /\ inv lev' P s' /\ (forall j, j < nxt (graph s) -> lev' j = lev j) /\
    node s' P p (Gate t k xs) /\ Permutation xs ls /\ Forall2 (pres s' P) (pairs (f_args f)) ls /\
    (lev' p <= 4 * n + 3)%nat /\ (forall g, gates s' !! g <> Some (Some p)) /\ (coh s' = true -> monotone f = true).
Proof.
  intros HC HD NL NP FT K0. set (s1 := St _ _ _ _ c d).
  destruct (start_ok n (4 * n + 3) lev P s t k nl c d) as (X1 & I1 & E1); auto; [intros H; apply HC in H; tauto|]. fold p in X1, I1, E1. fold s1 in X1, I1, E1.
  set (lev1 := fun j => if j =? p then (4 * n + 3)%nat else lev j) in *. set (P1 := fun j => j = p \/ P j) in *.
  assert (L1 : lev1 p = (4 * n + 3)%nat) by (unfold lev1; rewrite Z.eqb_refl; auto).
  assert (PB1 : forall j, P1 j -> j < nxt (graph s1)) by (intros j [-> | J]; unfold s1; cbn [graph nxt]; [lia|apply PB in J; unfold p; lia]).
  destruct (add_events_ok fuel SPEC n NF P1 p (or_introl eq_refl) t k K0 (f_args f) lev1 s1 [] [] []) as (s2 & lev2 & ls & xs & A1 & A2 & A3 & A4 & A5 & A6 & A7); auto.
  - lia.
  - apply may_args; auto.
  - apply (apart_args f SFf).
  - intros _ C a J. destruct (HC C) as (_ & M & _). assert (EB : existsb complement (f_args f) = false) by (unfold monotone in M; destruct (f_conn f); try discriminate; apply negb_true_iff; auto).
    destruct (complement a) eqn:CA; auto. rewrite (proj2 (existsb_exists complement (f_args f))) in EB; [discriminate|eauto].
  - assert (PP : p < nxt (graph s1)) by (unfold s1; cbn [graph nxt]; lia).
    destruct (finish n (eq p) P P1 lev lev2 s s2) as (F1 & F2 & F3); auto; [eapply ext_trans; eauto|intros j J; right; auto| |].
    { intros j <-. split; [left; auto|]. split; [unfold p; lia|]. intros (x & Ex & Tx & Nx). rewrite A5 in Ex. injection Ex as <-. cbn [g_type] in Tx. apply Nx, (x_nulls _ _ _ _ A2). unfold s1. cbn [graph nulls]. auto. }
    exists s2, lev2, xs, ls. split; auto. split; auto. split; auto. split; [|split; [|split; [auto|split; [|split; [|split]]]]].
    + intros j J. assert (lev1 j = lev j) by (unfold lev1; destruct (Z.eqb_spec j p); [unfold p in *; lia|auto]). rewrite A4; auto. unfold s1. cbn [graph nxt]. unfold p. lia.
    + split; auto. intros J. apply PB in J. unfold p in J. lia.
    + eapply all_pend; [|exact A7]. intros j J. right. auto.
    + rewrite A4, L1 by auto. lia.
    + auto.
    + intros C. apply (x_coh _ _ _ _ A2) in C. apply HC. exact C.
Qed.
Lemma iff_ok : f_conn f = Iff -> length (f_args f) = 2%nat ->
  exists i s' lev', construct (S fuel) f s = Some (i, s') /\ ext n (fun _ => False) s s' /\ inv lev' P s' /\ (forall j, j < nxt (graph s) -> lev' j = lev j) /\
    described s' P f i /\ (lev' i <= 4 * n + 3)%nat /\ nxt (graph s) <= i /\ (forall g, gates s' !! g <> Some (Some i)) /\ (coh s' = true -> monotone f = true).
Proof.
  intros EF LE. cbn [Construct.construct]. rewrite EF, LE. cbn [simple Nat.eqb negb].
  unfold make, new_gate, with_norm, with_coh, with_graph. cbn [graph gates vars basics coh norm nxt gs nulls reg]. rewrite (i_reg _ _ _ I). fold p. pose proof (i_wf _ _ _ I) as [W0 _].
  destruct (start_ok n (4 * n + 3) lev P s kNull 0 (nulls (graph s)) false false) as (X1 & I1 & E1); auto; try discriminate; try apply incl_refl.
  fold p in X1, I1, E1. set (s1 := St (Graph (<[p := Gate kNull 0 []]> (gs (graph s))) (p + 1) (nulls (graph s)) true) (gates s) (vars s) (basics s) false false) in X1, I1, E1.
  set (lev1 := fun j => if j =? p then (4 * n + 3)%nat else lev j) in *. set (P1 := fun j => j = p \/ P j) in *. set (x := p + 1).
  set (s2 := St (Graph (<[x := Gate kXor 0 []]> (<[p := Gate kNull 0 []]> (gs (graph s)))) (x + 1) (nulls (graph s)) true) (gates s) (vars s) (basics s) false false).
  set (lev2 := fun j => if j =? x then (4 * n + 2)%nat else lev1 j). set (P2 := fun j => j = x \/ P1 j).
  assert (ST2 : ext n (eq x) s1 s2 /\ inv lev2 P2 s2 /\ gs (graph s2) !! x = Some (Gate kXor 0 [])) by (apply (start_ok n (4 * n + 2) lev1 P1 s1 kXor 0 (nulls (graph s1)) false false); auto; try discriminate; try apply incl_refl).
  destruct ST2 as (X2 & I2 & E2). cbv beta iota zeta. fold x. fold s2.
  assert (L2 : lev2 x = (4 * n + 2)%nat) by (unfold lev2; rewrite Z.eqb_refl; auto).
  assert (L2p : lev2 p = (4 * n + 3)%nat) by (unfold lev2, lev1; rewrite Z.eqb_refl; destruct (Z.eqb_spec p x); [unfold x in *; lia|auto]).
  assert (PB2 : forall j, P2 j -> j < nxt (graph s2)) by (intros j [-> | [-> | J]]; unfold s2; cbn [graph nxt]; unfold x; try lia; apply PB in J; unfold p in *; lia).
  assert (Ep2 : gs (graph s2) !! p = Some (Gate kNull 0 [])) by (apply (x_gs _ _ _ _ X2); auto; unfold x; lia).
  destruct (add_events_ok fuel SPEC n NF P2 x (or_introl eq_refl) kXor 0 (Z.le_refl 0) (f_args f) lev2 s2 [] [] []) as (s3 & lev3 & ls & xs & A1 & A2 & A3 & A4 & A5 & A6 & A7); auto.
  - split; intros T; [destruct T; discriminate|rewrite LE; auto].
  - lia.
  - apply may_args; auto.
  - apply (apart_args f SFf).
  - discriminate.
  - rewrite A1. cbn [mbind option_bind].
    assert (N2 : p < nxt (graph s2) /\ x < nxt (graph s2)) by (split; apply PB2; unfold P2, P1; auto). pose proof (x_nxt _ _ _ _ A2) as NX.
    assert (Ep3 : gs (graph s3) !! p = Some (Gate kNull 0 [])) by (apply (x_gs _ _ _ _ A2); auto; unfold x; lia).
    destruct (add_ok n lev3 P2 s3 p kNull 0 [] (- x)) as (s4 & B1 & B2 & B3 & B4 & B5 & B6 & B7 & B8 & B9); auto; try lia.
    + unfold P2, P1. auto.
    + intros b [].
    + intros _. rewrite Z.abs_opp, Z.abs_eq by (unfold x, p; lia). rewrite !A4 by tauto. lia.
    + intros _ C. apply (x_coh _ _ _ _ A2) in C. discriminate.
    + rewrite B1. cbn [mbind option_bind]. exists p, (push_null p s4), lev3. split; auto.
      assert (I4 : inv lev3 P2 (push_null p s4)).
      { assert (SM : sim P2 s4 (push_null p s4)) by (split; [auto|split; auto]). destruct B3 as [a1 a2 a3 a4 a5 a6 a7 a8 a9]. constructor; auto.
        intros g i E. destruct (a6 g i E) as (f' & ? & ? & ?). exists f'. split; auto. split; auto. eapply described_sim; eauto. }
      assert (X4 : ext n (fun j => j = p \/ j = x) s (push_null p s4)).
      { assert (X' : ext n (fun j => j = p \/ j = x) s s4).
        { eapply ext_trans; [eapply ext_weaken; [| |exact X1]; auto|]. eapply ext_trans; [eapply ext_weaken; [| |exact X2]; auto|]. eapply ext_trans; [eapply ext_weaken; [| |exact A2]; auto|]. eapply ext_weaken; [| |exact B2]; auto. }
        destruct X' as [a1 a2 a3 a4 a5 a6 a7 a8 a9 a10 a11 a12 a13 a14]. constructor; auto.
        - intros y (z & Ey & Ty & Ny). apply a11. exists z. split; auto. split; auto. intros Q. apply Ny. cbn [push_null with_graph graph nulls]. apply in_app_iff; auto.
        - intros y J. cbn [push_null with_graph graph nulls]. apply in_app_iff; auto. }
      assert (Ex4 : gs (graph s4) !! x = Some (Gate kXor 0 xs)) by (rewrite B5 by (unfold x; lia); auto).
      destruct (finish n (fun j => j = p \/ j = x) P P2 lev lev3 s (push_null p s4)) as (F1 & F2 & F3); auto; [intros j J; right; right; auto| |].
      { intros j J. split; [unfold P2, P1; tauto|]. split; [unfold x, p in *; lia|]. intros (y & Ey & Ty & Ny). cbn [push_null with_graph graph gs nulls] in *. destruct J as [-> | ->].
        - apply Ny, in_app_iff. right. simpl; auto.
        - rewrite Ex4 in Ey. injection Ey as <-. discriminate. }
      split; auto. split; auto.
      assert (NPj : forall j, P j -> j < p) by auto.
      split; [|split; [|split; [|split; [|split]]]].
      * intros j J. assert (lev2 j = lev j) by (unfold lev2, lev1; destruct (Z.eqb_spec j x); [unfold x, p in *; lia|]; destruct (Z.eqb_spec j p); [unfold p in *; lia|auto]). rewrite A4; auto. unfold p in *. lia.
      * unfold described. rewrite EF. exists x, xs, ls. split; [split; [exact B4|intros J; apply NPj in J; lia]|]. split; [split; [exact Ex4|intros J; apply NPj in J; unfold x in J; lia]|]. split; auto.
        apply (all_pend P2); [intros j J; right; right; exact J|]. apply (all_sim P2 s4); [split; [auto|split; auto]|]. eapply all_stable; [exact B2| |exact A7]. intros j <-. unfold P2, P1. auto.
      * rewrite A4 by tauto. lia.
      * unfold p. lia.
      * intros g. apply F3. auto.
      * cbn [push_null with_graph coh]. rewrite B9. intros C. apply (x_coh _ _ _ _ A2) in C. discriminate.
Qed.
Lemma imply_ok a b : f_conn f = Imply -> f_args f = [a; b] ->
  exists i s' lev', construct (S fuel) f s = Some (i, s') /\ ext n (fun _ => False) s s' /\ inv lev' P s' /\ (forall j, j < nxt (graph s) -> lev' j = lev j) /\
    described s' P f i /\ (lev' i <= 4 * n + 3)%nat /\ nxt (graph s) <= i /\ (forall g, gates s' !! g <> Some (Some i)) /\ (coh s' = true -> monotone f = true).
Proof.
  intros EF EA. cbn [Construct.construct]. rewrite EF, EA. cbn [simple].
  unfold make, new_gate, with_norm, with_coh, with_graph. cbn [graph gates vars basics coh norm nxt gs nulls reg]. rewrite (i_reg _ _ _ I). fold p. pose proof (i_wf _ _ _ I) as [W0 _].
  destruct (start_ok n (4 * n + 3) lev P s kOr 0 (nulls (graph s)) false (norm s)) as (X1 & I1 & E1); auto; try discriminate; try apply incl_refl.
  fold p in X1, I1, E1. set (s1 := St (Graph (<[p := Gate kOr 0 []]> (gs (graph s))) (p + 1) (nulls (graph s)) true) (gates s) (vars s) (basics s) false (norm s)) in *.
  set (lev1 := fun j => if j =? p then (4 * n + 3)%nat else lev j) in *. set (P1 := fun j => j = p \/ P j) in *. cbv beta iota zeta. fold s1.
  assert (L1 : lev1 p = (4 * n + 3)%nat) by (unfold lev1; rewrite Z.eqb_refl; auto).
  assert (PB1 : forall j, P1 j -> j < nxt (graph s1)) by (intros j [-> | J]; unfold s1; cbn [graph nxt]; [lia|apply PB in J; unfold p; lia]).
  assert (PP : p < nxt (graph s1)) by (unfold s1; cbn [graph nxt]; lia).
  assert (FT : forall l, fits kOr l) by (intros l; split; [intros [T|T]; discriminate|discriminate]).
  assert (Ia : In a (f_args f)) by (rewrite EA; simpl; auto). assert (Ib : In b (f_args f)) by (rewrite EA; simpl; auto).
  destruct (add_event_ok fuel SPEC n NF P1 p (or_introl eq_refl) kOr 0 (Z.le_refl 0) lev1 s1 [] [] [] [] (event a) (negb (complement a))) as (s2 & lev2 & l1 & xs1 & A1 & A2 & A3 & A4 & A5 & A6 & A7); auto.
  - intros z [].
  - discriminate.
  - lia.
  - apply RG. auto.
  - apply (may_args n f); auto.
  - intros ce [].
  - rewrite A1. cbn [mbind option_bind]. pose proof (x_nxt _ _ _ _ A2) as NX.
    destruct (add_event_ok fuel SPEC n NF P1 p (or_introl eq_refl) kOr 0 (Z.le_refl 0) lev2 s2 xs1 [] [(negb (complement a), event a)] [l1] (event b) (complement b)) as (s3 & lev3 & l2 & xs2 & B1 & B2 & B3 & B4 & B5 & B6 & B7); auto.
    + intros j J. apply PB1 in J. lia.
    + intros z [].
    + intros _ C. apply (x_coh _ _ _ _ A2) in C. discriminate.
    + rewrite A4 by auto. lia.
    + eapply registered_ext; [exact A2|]. apply (RG b Ib).
    + apply (may_args n f); auto.
    + intros ce [<-|[]]. refine (apart_args f SFf [(complement a, event a)] (complement b, event b) [] _ (complement a, event a) (or_introl eq_refl)). unfold pairs. rewrite EA. reflexivity.
    + rewrite B1. cbn [mbind option_bind]. exists p, s3, lev3. split; auto.
      destruct (finish n (eq p) P P1 lev lev3 s s3) as (F1 & F2 & F3); auto; [eapply ext_trans; [exact X1|eapply ext_trans; eauto]|intros j J; right; auto| |].
      { intros j <-. split; [left; auto|]. split; [unfold p; lia|]. intros (x & Ex & Tx & Nx). rewrite B5 in Ex. injection Ex as <-. discriminate. }
      split; auto. split; auto. split; [|split; [|split; [|split; [|split]]]].
      * intros j J. assert (lev1 j = lev j) by (unfold lev1; destruct (Z.eqb_spec j p); [unfold p in *; lia|auto]). rewrite B4, A4; auto; unfold p in *; lia.
      * unfold described. rewrite EF. exists a, b, xs2, ([l1] ++ [l2]). split; auto. split; [split; [auto|intros J; apply PB in J; unfold p in J; lia]|]. split; auto.
        apply (all_pend P1); [intros j J; right; auto|]. exact B7.
      * rewrite B4, A4 by (auto; lia). lia.
      * unfold p; lia.
      * auto.
      * intros C. apply (x_coh _ _ _ _ B2) in C. apply (x_coh _ _ _ _ A2) in C. discriminate.
Qed.
Lemma opp_args_ok N xs : PdagProofs.args_ok N xs -> PdagProofs.args_ok N (rev (map Z.opp xs)).
Proof.
  intros [D H]. assert (IM : forall a, In a (rev (map Z.opp xs)) <-> In (- a) xs).
  { intros a. rewrite <- in_rev, in_map_iff. split; [intros (b & <- & J); rewrite Z.opp_involutive; auto|intros J; exists (- a); split; auto; lia]. }
  split.
  - apply NoDup_rev. apply (NoDup_map_inv Z.opp). rewrite map_map. rewrite (map_ext _ (fun x => x)), map_id by (intros; apply Z.opp_involutive). auto.
  - intros a J. apply IM in J. destruct (H _ J) as (H1 & H2 & H3). split; [lia|]. split; [lia|]. rewrite IM. auto.
Qed.
Lemma set_min_insert x g G N nl r k : set_min x k (Graph (<[x := g]> G) N nl r) = Some (Graph (<[x := with_min g k]> G) N nl r).
Proof. unfold set_min. cbn [gs]. rewrite lookup_insert. cbn [mbind option_bind]. unfold put. cbn [gs nxt nulls reg]. rewrite insert_insert. reflexivity. Qed.
Lemma negate_args_insert x g G N nl r : negate_args x (Graph (<[x := g]> G) N nl r) = Some (Graph (<[x := with_args g (rev (map Z.opp (g_args g)))]> G) N nl r).
Proof. unfold negate_args. cbn [gs]. rewrite lookup_insert. cbn [mbind option_bind]. unfold put. cbn [gs nxt nulls reg]. rewrite insert_insert. reflexivity. Qed.
Lemma cardinality_ok : f_conn f = Cardinality -> 0 <= f_min f <= f_max f -> f_max f <= Z.of_nat (length (f_args f)) ->
  exists i s' lev', construct (S fuel) f s = Some (i, s') /\ ext n (fun _ => False) s s' /\ inv lev' P s' /\ (forall j, j < nxt (graph s) -> lev' j = lev j) /\
    described s' P f i /\ (lev' i <= 4 * n + 3)%nat /\ nxt (graph s) <= i /\ (forall g, gates s' !! g <> Some (Some i)) /\ (coh s' = true -> monotone f = true).
Proof.
  intros EF HM HX. cbn [Construct.construct]. rewrite EF. cbn [simple].
  replace (Z.of_nat (length (f_args f)) <? f_max f) with false by lia. replace (f_max f <? f_min f) with false by lia. cbn [orb].
  unfold make, new_gate, with_norm, with_coh. cbn [with_graph graph gates vars basics coh norm nxt gs nulls reg]. rewrite (i_reg _ _ _ I). fold p. pose proof (i_wf _ _ _ I) as [W0 _].
  destruct (start_ok n (4 * n + 3) lev P s kAnd 0 (nulls (graph s)) false false) as (X1 & I1 & E1); auto; try discriminate; try apply incl_refl.
  fold p in X1, I1, E1. set (s1 := St (Graph (<[p := Gate kAnd 0 []]> (gs (graph s))) (p + 1) (nulls (graph s)) true) (gates s) (vars s) (basics s) false false) in X1, I1, E1.
  set (lev1 := fun j => if j =? p then (4 * n + 3)%nat else lev j) in *. set (P1 := fun j => j = p \/ P j) in *. set (x := p + 1).
  set (s2 := St (Graph (<[x := Gate kAtleast (f_min f) []]> (<[p := Gate kAnd 0 []]> (gs (graph s)))) (x + 1) (nulls (graph s)) true) (gates s) (vars s) (basics s) false false).
  set (lev2 := fun j => if j =? x then (4 * n + 2)%nat else lev1 j). set (P2 := fun j => j = x \/ P1 j).
  assert (ST2 : ext n (eq x) s1 s2 /\ inv lev2 P2 s2 /\ gs (graph s2) !! x = Some (Gate kAtleast (f_min f) [])) by (apply (start_ok n (4 * n + 2) lev1 P1 s1 kAtleast (f_min f) (nulls (graph s1)) false false); auto; try discriminate; try apply incl_refl).
  destruct ST2 as (X2 & I2 & E2). cbv beta iota zeta. rewrite set_min_insert. cbn [mbind option_bind with_min g_type g_args].
  change (with_graph (with_graph (with_graph _ _) _) _) with s2.
  assert (L2 : lev2 x = (4 * n + 2)%nat) by (unfold lev2; rewrite Z.eqb_refl; auto).
  assert (L2p : lev2 p = (4 * n + 3)%nat) by (unfold lev2, lev1; rewrite Z.eqb_refl; destruct (Z.eqb_spec p x); [unfold x in *; lia|auto]).
  assert (PB2 : forall j, P2 j -> j < nxt (graph s2)) by (intros j [-> | [-> | J]]; unfold s2; cbn [graph nxt]; unfold x; try lia; apply PB in J; unfold p in *; lia).
  assert (Ep2 : gs (graph s2) !! p = Some (Gate kAnd 0 [])) by (apply (x_gs _ _ _ _ X2); auto; unfold x; lia).
  destruct (add_events_ok fuel SPEC n NF P2 x (or_introl eq_refl) kAtleast (f_min f) (proj1 HM) (f_args f) lev2 s2 [] [] []) as (s3 & lev3 & ls & xs & A1 & A2 & A3 & A4 & A5 & A6 & A7); auto.
  { split; [intros [T|T]; discriminate|discriminate]. }
  { lia. }
  { apply may_args; auto. }
  { apply (apart_args f SFf). }
  { discriminate. }
  rewrite A1. cbn [mbind option_bind]. clear A1.
  assert (N2 : p < nxt (graph s2) /\ x < nxt (graph s2)) by (split; apply PB2; unfold P2, P1; auto). pose proof (x_nxt _ _ _ _ A2) as NX.
  assert (Ep3 : gs (graph s3) !! p = Some (Gate kAnd 0 [])) by (apply (x_gs _ _ _ _ A2); auto; unfold x; lia).
  assert (NC : forall b, In b xs -> 1 < Z.abs b) by (intros b J; rewrite A6 in J; pose proof (all_bound _ _ _ _ _ A3 A7 b J); lia).
  assert (NO : norm s3 = false) by (destruct (norm s3) eqn:Q; auto; apply (x_norm _ _ _ _ A2) in Q; discriminate).
  assert (CO : coh s3 = false) by (destruct (coh s3) eqn:Q; auto; apply (x_coh _ _ _ _ A2) in Q; discriminate).
  assert (AO : PdagProofs.args_ok (nxt (graph s3)) xs) by (apply (i_wf _ _ _ A3) in A5 as [_ ?]; auto).
  (* the clone *)
  set (k := Z.of_nat (length (f_args f)) - f_max f). set (ys := rev (map Z.opp xs)). set (y := nxt (graph s3)).
  assert (NCy : forall b, In b ys -> 1 < Z.abs b) by (intros b J; apply in_rev, in_map_iff in J as (z & <- & J); apply NC in J; lia).
  assert (CL : clone x (graph s3) = Some (Graph (<[y := Gate kAtleast (f_min f) xs]> (gs (graph s3))) (y + 1) (nulls (graph s3)) true, y)).
  { unfold clone. rewrite A5. cbn [g_type conn_eqb]. rewrite (no_constant (Gate kAtleast (f_min f) xs)) by auto. cbn [orb]. rewrite (i_reg _ _ _ A3). reflexivity. }
  rewrite CL. cbn [mbind option_bind]. clear CL. rewrite negate_args_insert. cbn [mbind option_bind]. unfold with_args. cbn [g_type g_min g_args]. fold ys.
  rewrite set_min_insert. cbn [mbind option_bind]. unfold with_min. cbn [g_type g_args]. fold k.
  set (G4 := Graph (<[y := Gate kAtleast k ys]> (gs (graph s3))) (y + 1) (nulls (graph s3)) true).
  destruct (new_ok n (4 * n + 2) lev3 P2 s3 (Gate kAtleast k ys) (nulls (graph s3)) G4 A3 eq_refl (incl_refl _)) as [X4 I4].
  { apply opp_args_ok; auto. }
  { cbn [g_args]. intros a J K. apply in_rev, in_map_iff in J as (z & <- & J). rewrite Z.abs_opp in *. pose proof (i_rank _ _ _ A3 x _ z A5 J K) as H. rewrite (A4 x), L2 in H by tauto. auto. }
  { split; [congruence|]. split; [congruence|]. split; [intros [T|T]; discriminate|]. split; [discriminate|]. intros Q. rewrite no_constant in Q; [discriminate|auto]. }
  cbv zeta in X4, I4. fold y in X4, I4. set (lev4 := fun j => if j =? y then (4 * n + 2)%nat else lev3 j) in *. set (P4 := fun j => j = y \/ P2 j) in *. set (s4 := with_graph s3 G4) in *.
  assert (Dxy : x <> y) by (unfold y; lia). assert (Dpy : p <> y) by (unfold y; lia). assert (Dpx : p <> x) by (unfold x; lia).
  assert (Ex4 : gs (graph s4) !! x = Some (Gate kAtleast (f_min f) xs)) by (unfold s4; cbn [with_graph graph G4 gs]; rewrite lookup_insert_ne by auto; auto).
  assert (Ep4 : gs (graph s4) !! p = Some (Gate kAnd 0 [])) by (unfold s4; cbn [with_graph graph G4 gs]; rewrite lookup_insert_ne by auto; auto).
  assert (Ey4 : gs (graph s4) !! y = Some (Gate kAtleast k ys)) by (unfold s4; cbn [with_graph graph G4 gs]; apply lookup_insert).
  assert (L4x : lev4 x = (4 * n + 2)%nat) by (unfold lev4; destruct (Z.eqb_spec x y); [contradiction|]; rewrite A4 by tauto; auto).
  assert (L4p : lev4 p = (4 * n + 3)%nat) by (unfold lev4; destruct (Z.eqb_spec p y); [contradiction|]; rewrite A4 by tauto; auto).
  assert (L4y : lev4 y = (4 * n + 2)%nat) by (unfold lev4; rewrite Z.eqb_refl; auto).
  (* first well_form *)
  destruct (well_form_ok G4 x (f_min f) xs Ex4 NC eq_refl) as (nl5 & W5 & NL5 & NX5). rewrite W5. cbn [mbind option_bind]. clear W5.
  set (G5 := Graph (<[x := well (f_min f) xs]> (gs G4)) (nxt G4) nl5 true).
  assert (WA : forall kk zs a, In a (g_args (well kk zs)) -> a = 1 \/ In a zs).
  { intros kk zs a. unfold well. destruct (kk =? 0); [|destruct (kk =? 1); [|destruct (kk =? size zs)]]; cbn [g_args]; auto. intros [<-|[]]; auto. }
  assert (WO : forall kk zs N, 1 < N -> PdagProofs.args_ok N zs -> PdagProofs.args_ok N (g_args (well kk zs))).
  { intros kk zs N HN HZ. unfold well. destruct (kk =? 0); [|destruct (kk =? 1); [|destruct (kk =? size zs)]]; cbn [g_args]; auto. apply args_ok_single; lia. }
  destruct (edit_ok n lev4 P4 s4 x (Gate kAtleast (f_min f) xs) (well (f_min f) xs) nl5 G5 I4) as [X5 I5]; auto.
  { unfold P4, P2. auto. }
  { apply WO; [apply (i_wf _ _ _ I4)|]. pose proof Ex4 as E. apply (i_wf _ _ _ I4) in E as [_ E]. exact E. }
  { intros a J K. apply WA in J as [-> | J]; [destruct K as [z K]; apply (i_wf _ _ _ I4) in K; simpl in K; lia|]. eapply (i_rank _ _ _ I4); eauto. }
  { split; [change (norm s4) with (norm s3); congruence|split; [change (coh s4) with (coh s3); congruence|apply well_suited; auto]]. }
  change (with_graph s4 G5) with (with_graph s3 G5) in X5, I5. set (s5 := with_graph s3 G5) in *.
  assert (Ex5 : gs (graph s5) !! x = Some (well (f_min f) xs)) by apply lookup_insert.
  assert (Ep5 : gs (graph s5) !! p = Some (Gate kAnd 0 [])) by (apply (x_gs _ _ _ _ X5); auto).
  assert (Ey5 : gs (graph s5) !! y = Some (Gate kAtleast k ys)) by (apply (x_gs _ _ _ _ X5); auto).
  (* second well_form *)
  destruct (well_form_ok G5 y k ys Ey5 NCy eq_refl) as (nl6 & W6 & NL6 & NX6). rewrite W6. cbn [mbind option_bind]. clear W6.
  set (G6 := Graph (<[y := well k ys]> (gs G5)) (nxt G5) nl6 true).
  destruct (edit_ok n lev4 P4 s5 y (Gate kAtleast k ys) (well k ys) nl6 G6 I5) as [X6 I6]; auto.
  { unfold P4. auto. }
  { apply WO; [apply (i_wf _ _ _ I5)|]. pose proof Ey5 as E. apply (i_wf _ _ _ I5) in E as [_ E]. exact E. }
  { intros a J K. apply WA in J as [-> | J]; [destruct K as [z K]; apply (i_wf _ _ _ I5) in K; simpl in K; lia|]. eapply (i_rank _ _ _ I5); eauto. }
  { split; [change (norm s5) with (norm s3); congruence|split; [change (coh s5) with (coh s3); congruence|apply well_suited; auto]]. }
  change (with_graph s5 G6) with (with_graph s3 G6) in X6, I6. set (s6 := with_graph s3 G6) in *.
  assert (Ex6 : gs (graph s6) !! x = Some (well (f_min f) xs)) by (apply (x_gs _ _ _ _ X6); auto).
  assert (Ep6 : gs (graph s6) !! p = Some (Gate kAnd 0 [])) by (apply (x_gs _ _ _ _ X6); auto).
  assert (Ey6 : gs (graph s6) !! y = Some (well k ys)) by apply lookup_insert.
  assert (N6 : nxt (graph s6) = y + 1) by reflexivity.
  (* the arguments *)
  destruct (add_ok n lev4 P4 s6 p kAnd 0 [] x) as (s7 & B1 & B2 & B3 & B4 & B5 & B6 & B7 & B8 & B9); auto.
  { unfold P4, P2, P1. auto. }
  { lia. }
  { intros b []. }
  { rewrite N6. unfold y, x, p in *. rewrite Z.abs_eq by lia. lia. }
  { intros _. rewrite Z.abs_eq by (unfold x, p; lia). lia. }
  { change (coh s6) with (coh s3). congruence. }
  rewrite B1. cbn [mbind option_bind]. cbn [set_insert] in B4.
  destruct (add_ok n lev4 P4 s7 p kAnd 0 [x] y) as (s8 & C1 & C2 & C3 & C4 & C5 & C6 & C7 & C8 & C9); auto.
  { unfold P4, P2, P1. auto. }
  { intros [T|T]; discriminate. }
  { lia. }
  { intros b [<-|[]]. unfold x, p. lia. }
  { rewrite B6, N6. unfold y, x, p in *. rewrite Z.abs_eq by lia. lia. }
  { intros _. rewrite Z.abs_eq by (unfold y, x, p in *; lia). lia. }
  { intros [J|[]]; auto. }
  { intros [J|[]]. unfold y, x, p in *. lia. }
  { rewrite B9. change (coh s6) with (coh s3). congruence. }
  rewrite C1. cbn [mbind option_bind]. exists p, s8, lev4. split; auto.
  assert (Ex8 : gs (graph s8) !! x = Some (well (f_min f) xs)) by (rewrite C5, B5 by auto; auto).
  assert (Ey8 : gs (graph s8) !! y = Some (well k ys)) by (rewrite C5, B5 by auto; auto).
  set (Q := fun j => j = p \/ j = x \/ j = y).
  assert (X36 : ext n Q s3 s8).
  { unfold Q. eapply ext_trans; [eapply ext_weaken; [| |exact X4]; auto|]. eapply ext_trans; [eapply ext_weaken; [| |exact X5]; auto|].
    eapply ext_trans; [eapply ext_weaken; [| |exact X6]; auto|]. eapply ext_trans; [eapply ext_weaken; [| |exact B2]; auto|]. eapply ext_weaken; [| |exact C2]; auto. }
  assert (X8 : ext n Q s s8).
  { eapply ext_trans; [eapply ext_weaken; [| |exact X1]; unfold Q; auto|]. eapply ext_trans; [eapply ext_weaken; [| |exact X2]; unfold Q; auto|]. eapply ext_trans; [eapply ext_weaken; [| |exact A2]; unfold Q; auto|]. exact X36. }
  destruct (finish n Q P P4 lev lev4 s s8) as (F1 & F2 & F3); auto.
  { intros j J. right. right. right. auto. }
  { intros j J. split; [unfold P4, P2, P1; unfold Q in J; tauto|]. split; [unfold Q, y, x, p in *; lia|]. intros (z & Ez & Tz & Nz).
    assert (NLL : nulls (graph s8) = nl6) by (rewrite C7, B7; reflexivity). rewrite NLL in Nz. destruct J as [-> | [-> | ->]].
    - rewrite C4 in Ez. injection Ez as <-. discriminate.
    - rewrite Ex8 in Ez. injection Ez as <-. apply Nz, NL6. auto.
    - rewrite Ey8 in Ez. injection Ez as <-. apply Nz. auto. }
  split; auto. split; auto. assert (NPj : forall j, P j -> j < p) by auto.
  split; [|split; [|split; [|split; [|split]]]].
  - intros j J. assert (lev2 j = lev j) by (unfold lev2, lev1; destruct (Z.eqb_spec j x); [unfold x, p in *; lia|]; destruct (Z.eqb_spec j p); [unfold p in *; lia|auto]).
    unfold lev4. destruct (Z.eqb_spec j y); [unfold y, p in *; lia|]. rewrite A4; auto. unfold p in *. lia.
  - unfold described. rewrite EF. exists x, y, xs, ls, (set_insert y [x]). split; [split; [exact C4|intros J; apply NPj in J; lia]|]. split.
    { rewrite set_insert_perm; [apply perm_swap|]. intros [J|[]]; auto. }
    split; [split; [exact Ex8|intros J; apply NPj in J; unfold x in J; lia]|]. split; [split; [exact Ey8|intros J; apply NPj in J; unfold y in J; lia]|]. split; auto.
    apply (all_pend P4); [intros j J; right; right; right; exact J|]. eapply all_stable; [exact X36| |].
    + intros j J. unfold Q in J. unfold P4, P2, P1. tauto.
    + apply (all_sim P2 s3 s3) in A7; [|split; auto].
      clear - A7 A3. eapply Forall2_impl; [exact A7|]. intros [c0 e0] v V. unfold pres in *. cbn [fst snd] in *.
      destruct V as [c e w VA VB VC|c e g kk VA VB|c e j VA [VB VN]]; [apply RVar|eapply RGate|apply RHouse; [|split]]; eauto.
      intros [-> | J]; auto. apply (i_wf _ _ _ A3) in VB. unfold y in VB. lia.
  - lia.
  - unfold p. lia.
  - intros g. apply F3. unfold Q. auto.
  - rewrite C9, B9. change (coh s6) with (coh s3). rewrite CO. discriminate.
Qed.
End Step.
Lemma construct_ok : forall fuel, construct_spec fuel.
Proof.
  induction fuel as [|fuel IH]; intros n f s lev P NF SFf RK I PB RG; [lia|]. assert (NF' : (n <= fuel)%nat) by lia.
  destruct (f_ok f SFf) as (_ & AR & NE). unfold min_number, max_number in AR.
  assert (SM : forall t k, f_conn f <> Iff -> f_conn f <> Imply -> f_conn f <> Cardinality -> simple (f_conn f) = Some t -> k = match f_conn f with Atleast => f_min f | _ => 0 end ->
     0 <= k -> fits t (length (f_args f)) -> (monotone f = true \/ existsb complement (f_args f) = true \/ t = kNot \/ t = kNand \/ t = kNor \/ t = kXor) ->
    exists i s' lev', construct (S fuel) f s = Some (i, s') /\ ext n (fun _ => False) s s' /\ inv lev' P s' /\ (forall j, j < nxt (graph s) -> lev' j = lev j) /\
    described s' P f i /\ (lev' i <= 4 * n + 3)%nat /\ nxt (graph s) <= i /\ (forall g, gates s' !! g <> Some (Some i)) /\ (coh s' = true -> monotone f = true)).
  { intros t k N1 N2 N3 SI EK K0 FT MO. cbn [Construct.construct]. rewrite SI.
    set (c := match t with kNot | kNand | kNor | kXor => false | _ => coh s end && negb (existsb complement (f_args f))).
    set (d := match t with kOr | kAnd => norm s | _ => false end).
    set (nl := match t with kNull => nulls (graph s) ++ [nxt (graph s)] | _ => nulls (graph s) end).
    destruct (simple_ok fuel IH n NF' f SFf RK s lev P I PB RG t k nl c d) as (s' & lev' & xs & ls & A1 & A2 & A3 & A4 & A5 & A6 & A7 & A8 & A9 & A10); auto.
    - intros Q. unfold c in Q. apply andb_true_iff in Q as [Q1 Q2]. apply negb_true_iff in Q2. split; [destruct t; auto; discriminate|]. split; [|destruct t; auto; discriminate].
      destruct MO as [M|[M|M]]; auto; [congruence|]. destruct M as [-> |[-> |[-> | ->]]]; discriminate.
    - unfold d. destruct t; intros Q; try discriminate; auto.
    - unfold nl. destruct t; try apply incl_refl. intros j J. apply in_app_iff; auto.
    - intros ->. unfold nl. apply in_app_iff. right. simpl; auto.
    - exists (nxt (graph s)), s', lev'. split.
      + unfold make, new_gate. rewrite (i_reg _ _ _ I). set (p := nxt (graph s)) in *.
        assert (G0 : forall s0, s0 = St (Graph (<[p := Gate t k []]> (gs (graph s))) (p + 1) nl true) (gates s) (vars s) (basics s) c d ->
          (s1 ← add_events (construct fuel) p (f_args f) s0; Some (p, s1)) = Some (p, s')) by (intros s0 ->; rewrite A1; reflexivity).
        cbv beta iota zeta. subst k. destruct (f_conn f) eqn:EC; try contradiction; injection SI as <-.
        3: unfold with_norm, with_coh, with_graph; cbn [graph]; rewrite set_min_insert.
        all: cbn [mbind option_bind]; apply G0; unfold c; destruct (existsb complement (f_args f)); cbn [negb]; rewrite ?andb_true_r, ?andb_false_r; reflexivity.
      + split; auto. split; auto. split; auto. split; [|split; [auto|split; [lia|auto]]].
        unfold described. destruct (f_conn f) eqn:EC; try contradiction; exists t, xs, ls; rewrite <- EK; auto. }
  destruct (f_conn f) eqn:EC; cbn [arity_ok takes_min takes_max] in AR.
  all: try (eapply SM; try discriminate; try reflexivity; try lia; [split; intros T; first [discriminate|destruct T; discriminate|lia]|unfold monotone; rewrite EC; destruct (existsb complement (f_args f)); simpl; auto 10]; fail).
  - destruct AR as (k & E & _ & K). injection E as <-. eapply SM; try discriminate; try reflexivity; try lia; [split; intros T; first [discriminate|destruct T; discriminate|lia]|unfold monotone; rewrite EC; destruct (existsb complement (f_args f)); simpl; auto 10].
  - apply (iff_ok fuel IH n NF' f SFf RK s lev P I PB RG); auto. lia.
  - destruct (f_args f) as [|a [|b [|c l]]] eqn:EA; cbn [length] in AR; try lia. rewrite <- EA in *. apply (imply_ok fuel IH n NF' f SFf RK s lev P I PB RG a b); auto.
  - destruct AR as (k & m & E1 & E2 & K1 & K2 & _). injection E1 as <-. injection E2 as <-. apply (cardinality_ok fuel IH n NF' f SFf RK s lev P I PB RG); auto.
Qed.
End Proofs.
