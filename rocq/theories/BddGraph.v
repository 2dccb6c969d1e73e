(** Conversion of a normalised PDAG into a BDD: src/bdd.cc ConvertGraph and the constructor.
    Modules are variables (proxies) in the diagrams that use them and have diagrams of
    their own in modules_. *)
From stdpp Require Import gmap.
From Coq Require Import List ZArith Lia Bool Permutation.
Import ListNotations.
From Verif Require Import Pdag PdagProofs ZbddGraph.
From Verif Require CacheTable Bdd BddProofs BddHistory.
Open Scope Z_scope.

Section BddGraph.
(** Orders of variables and gates; hash function and capacity policy of the computation tables. *)
Context (ord : Z -> Z) (hash : Bdd.ckey -> nat) (prime : nat -> nat).
(** The graph, the module flags, Gate::parents().size(), and the order boost::sort leaves the
    arguments in (any permutation). *)
Context (G : graph) (module : Z -> bool) (parents : Z -> nat) (arrange : list Bdd.fn -> list Bdd.fn).

(** The manager, the memo table [gates] of the traversal and modules_. *)
Record conv := Conv { c_bdd : Bdd.bdd; c_memo : gmap Z (Bdd.fn * nat); c_mods : gmap Z Bdd.fn }.

(** bdd.cc:161-166 and 170-172: a variable or a module proxy, complemented or not. *)
Definition literal (a : Z) (b : Bdd.bdd) : Bdd.bdd * Bdd.fn :=
  let '(b, v) := Bdd.find_or_add (Z.abs a) Bdd.kOne Bdd.kOne true (ord (Z.abs a)) b in (b, (a <? 0, v)).
Fixpoint literals (l : list Z) (b : Bdd.bdd) : Bdd.bdd * list Bdd.fn :=
  match l with
  | [] => (b, [])
  | a :: l => let '(b, f) := literal a b in let '(b, fs) := literals l b in (b, f :: fs)
  end.
(** Bdd::Apply(Connective, ...), bdd.cc:299-308. *)
Definition connective (t : conn) : option Bdd.conn :=
  match t with kAnd => Some Bdd.CAnd | kOr => Some Bdd.COr | _ => None end.
(** bdd.cc:185-189. *)
Fixpoint apply_all (t : Bdd.conn) (r : Bdd.fn) (l : list Bdd.fn) (b : Bdd.bdd) : option (Bdd.bdd * Bdd.fn) :=
  match l with
  | [] => Some (b, r)
  | f :: l => '(b, r) ← Bdd.apply_fn hash prime t r f b; apply_all t r l b
  end.
(** Function with the complement flag of the argument, bdd.cc:174-175. *)
Definition signed_fn (a : Z) (f : Bdd.fn) : Bdd.fn := (xorb (a <? 0) f.1, f.2).

(** ConvertGraph, bdd.cc:148-195. *)
Fixpoint convert (fuel : nat) (g : Z) (s : conv) : option (Bdd.fn * conv) :=
  match fuel with
  | O => None
  | S fuel =>
      x ← gs G !! g;
      if constant x then None else
      match c_memo s !! g with
      | Some (r, c) =>
          if negb (c <? parents g)%nat then None else
          Some (r, Conv (c_bdd s) (if (S c =? parents g)%nat then delete g (c_memo s) else <[g := (r, S c)]> (c_memo s)) (c_mods s))
      | None =>
          let '(b, vs) := literals (List.filter (fun a => negb (is_gate G a)) (g_args x)) (c_bdd s) in
          '(fs, s) ← (fix go (l : list Z) (s : conv) : option (list Bdd.fn * conv) :=
                        match l with
                        | [] => Some ([], s)
                        | a :: l =>
                            '(r, s) ← convert fuel (Z.abs a) s;
                            let '(b, f) := if module (Z.abs a) then literal a (c_bdd s) else (c_bdd s, signed_fn a r) in
                            '(fs, s) ← go l (Conv b (c_memo s) (c_mods s));
                            Some (f :: fs, s)
                        end) (List.filter (is_gate G) (g_args x)) (Conv b (c_memo s) (c_mods s));
          t ← connective (g_type x);
          match arrange (vs ++ fs) with
          | [] => None
          | r :: l =>
              '(b, r) ← apply_all t r l (c_bdd s);
              Some (r, Conv (Bdd.clear_tables b)
                            (if (1 <? parents g)%nat then <[g := (r, 1%nat)]> (c_memo s) else c_memo s)
                            (if module g then match c_mods s !! g with Some _ => c_mods s | None => <[g := r]> (c_mods s) end else c_mods s))
          end
      end
  end.

(** Bdd::Bdd, bdd.cc:41-84: the root function, modules_ and the manager; [complement] is the
    flag of the graph. *)
Definition of_graph (fuel : nat) (root : Z) (complement : bool) : option (Bdd.fn * conv) :=
  let start := Conv (Bdd.empty_bdd prime) ∅ ∅ in
  x ← gs G !! root;
  if conn_eqb (g_type x) kNull then
    match g_args x with
    | [child] =>
        if is_gate G child then None else
        if constant x then Some ((child <? 0, Bdd.kOne), start)
        else let '(b, f) := literal child (c_bdd start) in Some (f, Conv b ∅ ∅)
    | _ => None
    end
  else
    '(r, s) ← convert fuel root start;
    Some ((xorb r.1 complement, r.2), Conv (Bdd.clear_tables (c_bdd s)) (c_memo s) (c_mods s)).

(** ** Specification *)
(** Normalised for the BDD: AND/OR gates, no constants, complements anywhere. *)
Definition normal (root : Z) : Prop :=
  forall i x, gs G !! i = Some x -> active G module root i ->
    (g_type x = kAnd \/ g_type x = kOr) /\ (2 <= length (g_args x))%nat /\ constant x = false /\
    forall a, In a (g_args x) -> a <> 0.
Definition atom (g a : Z) : Prop := exists j, leaf G module g j /\ a = Z.abs j.
(** The function f of the manager b has value F under the labellings that respect the gates of
    the diagram of g, and looks at variables and modules of this diagram only. *)
Definition denotes (g : Z) (b : Bdd.bdd) (F : (Z -> bool) -> bool) (f : Bdd.fn) : Prop :=
  BddProofs.valid (Bdd.nodes b) f.2 /\
  (forall ν, respects G module g ν -> BddProofs.feval (Bdd.nodes b) ν f = F ν) /\
  (forall σ σ', (forall a, atom g a -> σ a = σ' a) -> BddProofs.feval (Bdd.nodes b) σ f = BddProofs.feval (Bdd.nodes b) σ' f).

Context (ord_inj : forall i j, ord i = ord j -> i = j) (prime_pos : forall n, (0 < prime n)%nat).
Context (ARR : forall l, Permutation (arrange l) l).
Notation wf := (BddProofs.wf ord hash).
Notation ext := BddProofs.ext.
Notation feval b := (BddProofs.feval (Bdd.nodes b)).

Lemma denotes_mono g b b' F f : wf b -> wf b' -> ext b b' -> denotes g b F f -> denotes g b' F f.
Proof.
  intros W W' (Sub & _) (V & E & D). split; [eapply BddProofs.valid_mono; eauto|].
  assert (H : forall σ, feval b' σ f = feval b σ f) by (intros; apply (BddProofs.feval_mono ord); auto; [apply W|apply W']).
  split; intros; rewrite !H; auto.
Qed.
Lemma feval_lit (a : Z) r : xorb (a <? 0) r = (if a <? 0 then negb r else r).
Proof. destruct (a <? 0), r; auto. Qed.
Lemma literal_ok a b b' f : wf b -> literal a b = (b', f) -> wf b' /\ ext b b' /\ BddProofs.valid (Bdd.nodes b') f.2 /\
  forall σ, feval b' σ f = xorb (a <? 0) (σ (Z.abs a)).
Proof.
  intros W. unfold literal. destruct (Bdd.find_or_add _ _ _ _ _ _) as [b1 v] eqn:E. intros [= <- <-].
  apply (BddProofs.find_or_add_ok ord hash) in E as (W' & X & n & En & N1 & N2 & N3 & N4 & N5); auto; try (now left); try discriminate.
  split; auto. split; auto. split; [right; simpl; eauto|]. intros σ. unfold BddProofs.feval. simpl. f_equal.
  rewrite (BddProofs.eval_node ord _ σ v n) by (auto; apply W'). rewrite N1, N3, N4, N5, (BddProofs.eval_one ord) by apply W'.
  now destruct (σ (Z.abs a)).
Qed.
Lemma lit_abs ν a : a <> 0 -> lit ν a = xorb (a <? 0) (ν (Z.abs a)).
Proof. intros N. unfold lit. rewrite feval_lit by auto. destruct (Z.ltb_spec a 0); [rewrite Z.abs_neq by lia|rewrite Z.abs_eq by lia]; auto. Qed.
Lemma literal_denotes g a b b' f : a <> 0 -> leaf G module g a -> wf b -> literal a b = (b', f) ->
  wf b' /\ ext b b' /\ denotes g b' (fun ν => lit ν a) f.
Proof.
  intros N L W E. destruct (literal_ok a b b' f W E) as (W' & X & V & H). split; auto. split; auto. split; auto. split.
  - intros ν _. rewrite H, lit_abs; auto.
  - intros σ σ' A. rewrite !H. rewrite (A (Z.abs a)); auto. exists a. auto.
Qed.
Lemma literals_denote g l : (forall a, In a l -> a <> 0 /\ leaf G module g a) -> forall b b' fs, wf b -> literals l b = (b', fs) ->
  wf b' /\ ext b b' /\ Forall2 (fun a => denotes g b' (fun ν => lit ν a)) l fs.
Proof.
  induction l as [|a l IH]; intros HL b b' fs W E; cbn [literals] in E; [injection E as <- <-; split; auto; split; [apply BddProofs.ext_refl|constructor]|].
  destruct (literal a b) as [b1 f] eqn:E1. destruct (literals l b1) as [b2 fs2] eqn:E2. injection E as <- <-.
  destruct (HL a (or_introl eq_refl)) as [N L]. destruct (literal_denotes g a b b1 f N L W E1) as (W1 & X1 & D1).
  destruct (IH (fun a' J => HL a' (or_intror J)) b1 b2 fs2 W1 E2) as (W2 & X2 & D2).
  split; auto. split; [eapply BddProofs.ext_trans; eauto|]. constructor; auto. apply (denotes_mono g b1 b2); auto.
Qed.
Definition opv (t : Bdd.conn) : bool -> bool -> bool := BddProofs.opb t.
Lemma apply_all_ok g t : forall l Fs F r b, wf b -> denotes g b F r -> Forall2 (denotes g b) Fs l ->
  exists b' r', apply_all t r l b = Some (b', r') /\ wf b' /\ ext b b' /\
    denotes g b' (fun ν => fold_left (opv t) (map (fun F => F ν) Fs) (F ν)) r'.
Proof.
  induction l as [|f l IH]; intros Fs F r b W D DS; inversion DS as [|F1 ? Fs' ? D1 DS']; subst; cbn [apply_all].
  - exists b, r. split; auto. split; auto. split; [apply BddProofs.ext_refl|auto].
  - destruct D as (V & E & SU). destruct D1 as (V1 & E1 & SU1). destruct r as [c v], f as [c1 v1].
    destruct (BddProofs.apply_ok ord ord_inj hash prime prime_pos (S (Z.to_nat (v + v1))) t v v1 c c1 b W V V1)
      as (b1 & r1 & EA & W1 & X1 & Vr & Sr & _); [lia|].
    unfold Bdd.apply_fn. simpl fst. simpl snd. rewrite EA. cbn.
    destruct (IH Fs' (fun ν => opv t (F ν) (F1 ν)) r1 b1 W1) as (b2 & r2 & E2 & W2 & X2 & D2).
    + split; auto. split.
      * intros ν R. rewrite Sr, E, E1; auto.
      * intros σ σ' A. rewrite !Sr. rewrite (SU σ σ' A), (SU1 σ σ' A). auto.
    + eapply Forall2_impl; [exact DS'|]. intros F' f' D'. apply (denotes_mono g b b1); auto.
    + exists b2, r2. split; auto. split; auto. split; [eapply BddProofs.ext_trans; eauto|auto].
Qed.

(** Sub-diagrams *)
Lemma active_snoc' g x a k : gs G !! g = Some x -> In a (g_args x) -> is_Some (gs G !! Z.abs a) -> module (Z.abs a) = false ->
  active G module (Z.abs a) k -> active G module g k.
Proof.
  intros E J S K A. induction A as [|k y b A IH Ek Jk Sk Kk].
  - apply (active_arg G module g g x a); auto. constructor.
  - apply (active_arg G module g k y b); auto.
Qed.
Lemma denotes_sub g x a b r : gs G !! g = Some x -> In a (g_args x) -> a <> 0 -> is_Some (gs G !! Z.abs a) -> module (Z.abs a) = false ->
  denotes (Z.abs a) b (fun ν => ν (Z.abs a)) r -> denotes g b (fun ν => lit ν a) (signed_fn a r).
Proof.
  intros E J N S K (V & EV & SV).
  assert (F : forall σ, feval b σ (signed_fn a r) = xorb (a <? 0) (feval b σ r)).
  { intros σ. destruct r as [c v]. unfold signed_fn, BddProofs.feval. simpl. destruct (a <? 0), c, (BddProofs.eval (Bdd.nodes b) σ v); auto. }
  split; [auto|]. split.
  - intros ν R. rewrite F, lit_abs by auto. rewrite EV; [auto|]. intros i y Ei Ai. apply R; auto. apply (active_snoc' g x a i); auto.
  - intros σ σ' A. rewrite !F. f_equal. apply SV. intros c (j & (i & y & Ei & Ai & Ji & Kj) & ->). apply A. exists j. split; auto.
    exists i, y. split; auto. split; auto. apply (active_snoc' g x a i); auto.
Qed.

Context (NORM : forall g, is_Some (gs G !! g) -> normal g).
Definition conv_ok (s : conv) : Prop :=
  wf (c_bdd s) /\
  (forall g r c, c_memo s !! g = Some (r, c) -> (c < parents g)%nat /\ denotes g (c_bdd s) (fun ν => ν g) r) /\
  (forall g r, c_mods s !! g = Some r -> is_Some (gs G !! g) /\ module g = true /\ denotes g (c_bdd s) (fun ν => ν g) r).
(** Modules that have been registered. *)
Definition known (s s' : conv) : Prop := forall g, is_Some (c_mods s !! g) -> is_Some (c_mods s' !! g).
Definition registers (g : Z) (s : conv) : Prop :=
  (module g = true -> is_Some (c_mods s !! g)) /\
  forall j, leaf G module g j -> is_Some (gs G !! Z.abs j) -> is_Some (c_mods s !! Z.abs j).
(** The modules below every registered module are registered. *)
Definition closed (s : conv) : Prop :=
  (forall g, is_Some (c_mods s !! g) -> registers g s) /\ (forall g r c, c_memo s !! g = Some (r, c) -> registers g s).
Lemma registers_mono g s s' : known s s' -> registers g s -> registers g s'.
Proof. intros K [A B]. split; auto. Qed.
Lemma conv_mono s b : conv_ok s -> wf b -> ext (c_bdd s) b -> conv_ok (Conv b (c_memo s) (c_mods s)).
Proof.
  intros (W & M & D) W' X. split; auto. split; simpl.
  - intros g r c E. destruct (M g r c E). split; auto. apply (denotes_mono g (c_bdd s) b); auto.
  - intros g r E. destruct (D g r E) as (? & ? & ?). split; auto. split; auto. apply (denotes_mono g (c_bdd s) b); auto.
Qed.

Lemma fold_opv t b l : fold_left (opv t) l b = conn_value (match t with Bdd.CAnd => kAnd | Bdd.COr => kOr end) 0 (b :: l).
Proof.
  destruct t; simpl; revert b; (induction l as [|x l IH]; intros b; simpl; [rewrite ?andb_true_r, ?orb_false_r; auto|rewrite IH]).
  - symmetry. apply andb_assoc.
  - symmetry. apply orb_assoc.
Qed.

Lemma convert_ok (r0 : Z -> nat) : ranked G r0 -> forall fuel g s, conv_ok s -> closed s -> is_Some (gs G !! g) -> (r0 g < fuel)%nat ->
  exists r s', convert fuel g s = Some (r, s') /\ conv_ok s' /\ ext (c_bdd s) (c_bdd s') /\ denotes g (c_bdd s') (fun ν => ν g) r /\
    known s s' /\ closed s' /\ registers g s'.
Proof.
  intros RK. induction fuel as [|fuel IH]; intros g s OK CL SG F; [lia|]. pose proof SG as [x Ex]. cbn [convert]. rewrite Ex. simpl.
  destruct (NORM g SG g x Ex) as (T & LA & NC & HA); [constructor|]. rewrite NC.
  destruct (c_memo s !! g) as [[r c]|] eqn:Em.
  - pose proof OK as (W & M & D). destruct (M g r c Em) as (Lc & R). assert (Lb : (c <? parents g)%nat = true) by (apply Nat.ltb_lt; auto). rewrite Lb. simpl.
    eexists _, _. split; [reflexivity|]. assert (K : forall g' r' c', (if (S c =? parents g)%nat then delete g (c_memo s) else <[g:=(r, S c)]> (c_memo s)) !! g' = Some (r', c') ->
       (exists c0, c_memo s !! g' = Some (r', c0)) /\ (c' < parents g')%nat).
    { intros g' r' c' E'. destruct (Nat.eqb_spec (S c) (parents g)) as [Eq|Ne].
      - apply lookup_delete_Some in E' as [_ E']. split; eauto. apply M in E'. apply E'.
      - apply lookup_insert_Some in E' as [[<- E']|[_ E']]; [injection E' as <- <-; split; eauto; lia|]. split; eauto. apply M in E'. apply E'. }
    split; [|split; [apply BddProofs.ext_refl|split; [auto|split; [intros ?; auto|split]]]].
    + split; auto. split; auto. simpl. intros g' r' c' E'. destruct (K _ _ _ E') as [(c0 & E0) L]. split; auto. apply (M _ _ _ E0).
    + destruct CL as [C1 C2]. split; [apply C1|]. simpl. intros g' r' c' E'. destruct (K _ _ _ E') as [(c0 & E0) L]. apply (C2 _ _ _ E0).
    + apply (proj2 CL g r c Em).
  - set (vars := List.filter (fun a => negb (is_gate G a)) (g_args x)).
    set (gates := List.filter (is_gate G) (g_args x)).
    destruct (literals vars (c_bdd s)) as [b vs] eqn:EV.
    assert (HV : forall a, In a vars -> a <> 0 /\ leaf G module g a).
    { intros a J. apply filter_In in J as [J K]. split; auto. exists g, x. split; auto. split; [constructor|]. split; auto. left.
      unfold is_gate in K. destruct (gs G !! Z.abs a); [discriminate|auto]. }
    destruct (literals_denote g vars HV (c_bdd s) b vs (proj1 OK) EV) as (Wb & Xb & DV).
    pose proof (conv_mono s b OK Wb Xb) as OK1.
    assert (CL1 : closed (Conv b (c_memo s) (c_mods s))) by exact CL.
    assert (HG : forall a, In a gates -> In a (g_args x) /\ is_Some (gs G !! Z.abs a) /\ a <> 0).
    { intros a J. apply filter_In in J as [J K]. unfold is_gate in K. destruct (gs G !! Z.abs a) eqn:Ea; [|discriminate].
      split; [auto|]. split; [eauto|auto]. }
    match goal with |- context [?go gates (Conv b (c_memo s) (c_mods s))] => match type of go with list Z -> conv -> _ =>
      assert (GO : forall l s1, incl l gates -> conv_ok s1 -> closed s1 -> exists fs s2, go l s1 = Some (fs, s2) /\ conv_ok s2 /\ ext (c_bdd s1) (c_bdd s2) /\
        Forall2 (fun a => denotes g (c_bdd s2) (fun ν => lit ν a)) l fs /\ known s1 s2 /\ closed s2 /\ forall a, In a l -> registers (Z.abs a) s2) end end.
    { induction l as [|a l IHl]; intros s1 IL OK2 CL2.
      - exists [], s1. split; auto. split; auto. split; [apply BddProofs.ext_refl|]. split; [constructor|]. split; [intros ?; auto|]. split; auto. intros a [].
      - destruct (HG a (IL a (or_introl eq_refl))) as (Ia & Sa & Na).
        destruct (IH (Z.abs a) s1 OK2 CL2 Sa) as (r & s2 & E2 & OK3 & X3 & D3 & K3 & CL3 & R3).
        { pose proof (RK g x a Ex Ia Sa). lia. }
        rewrite E2. cbn [mbind option_bind].
        assert (LF : exists b3 f, (if module (Z.abs a) then literal a (c_bdd s2) else (c_bdd s2, signed_fn a r)) = (b3, f) /\ wf b3 /\ ext (c_bdd s2) b3 /\ denotes g b3 (fun ν => lit ν a) f).
        { destruct (module (Z.abs a)) eqn:Ma.
          - destruct (literal a (c_bdd s2)) as [b3 f] eqn:EL. exists b3, f. split; auto. apply (literal_denotes g a (c_bdd s2)); auto; [|apply OK3].
            exists g, x. split; auto. split; [constructor|]. auto.
          - exists (c_bdd s2), (signed_fn a r). split; auto. split; [apply OK3|]. split; [apply BddProofs.ext_refl|]. apply (denotes_sub g x a); auto. }
        destruct LF as (b3 & f & -> & W3 & X3' & D3').
        pose proof (conv_mono s2 b3 OK3 W3 X3') as OK4.
        destruct (IHl (Conv b3 (c_memo s2) (c_mods s2))) as (fs & s4 & E4 & OK5 & X4 & D4 & K4 & CL4 & R4); auto.
        { intros c J. apply IL. right; auto. }
        simpl in E4. rewrite E4. cbn. exists (f :: fs), s4. split; auto. split; auto.
        split; [eapply BddProofs.ext_trans; [exact X3|]; eapply BddProofs.ext_trans; [exact X3'|exact X4]|].
        split; [constructor; auto; apply (denotes_mono g b3 (c_bdd s4)); auto; apply OK5|].
        split; [intros h Hh; apply K4, K3; auto|]. split; auto.
        intros c [<-|J]; [|apply R4; auto]. apply (registers_mono _ s2); auto. }
    destruct (GO gates (Conv b (c_memo s) (c_mods s)) ltac:(intros ? J; exact J) OK1 CL1) as (fs & s2 & E2 & OK2 & X2 & D2 & K2 & CL2 & R2).
    simpl in E2. rewrite E2. cbn [mbind option_bind].
    assert (CT : exists t, connective (g_type x) = Some t /\ g_type x = match t with Bdd.CAnd => kAnd | Bdd.COr => kOr end).
    { destruct T as [-> | ->]; [exists Bdd.CAnd|exists Bdd.COr]; auto. }
    destruct CT as (t & CT1 & CT2). rewrite CT1. cbn [mbind option_bind].
    assert (DA : Forall2 (denotes g (c_bdd s2)) (map (fun a ν => lit ν a) (vars ++ gates)) (vs ++ fs)).
    { rewrite map_app. apply Forall2_app; apply Forall2_fmap_l; [|exact D2].
      eapply Forall2_impl; [exact DV|]. intros a f D. apply (denotes_mono g b (c_bdd s2)); auto. apply OK2. }
    pose proof (ARR (vs ++ fs)) as PA. set (arr := arrange (vs ++ fs)) in *.
    apply Forall2_flip in DA. destruct (Permutation_Forall2 (Permutation_sym PA) DA) as (Fs & PF & RF). apply Forall2_flip in RF.
    assert (LEN : length arr = length (g_args x)).
    { apply Forall2_length in DV, D2. rewrite (Permutation_length PA), app_length, <- DV, <- D2, <- app_length. apply Permutation_length, filter_split. }
    destruct arr as [|r l] eqn:Earr; [simpl in LEN; lia|].
    inversion RF as [|F1 ? Fs' ? RF1 RF' E1' E2']; subst.
    destruct (apply_all_ok g t l Fs' F1 r (c_bdd s2) (proj1 OK2) RF1 RF') as (b3 & r3 & E3 & W3 & X3 & D3).
    rewrite E3. cbn [mbind option_bind]. eexists _, _. split; [reflexivity|].
    assert (DG : denotes g b3 (fun ν => ν g) r3).
    { destruct D3 as (V3 & EV3 & SV3). split; auto. split; auto. intros ν Rν. rewrite EV3 by auto.
      rewrite (Rν g x Ex (active_root G module g)). unfold gate_value. rewrite fold_opv, <- CT2. symmetry.
      change (F1 ν :: map (fun F => F ν) Fs') with (map (fun F : (Z -> bool) -> bool => F ν) (F1 :: Fs')).
      apply conn_perm; auto. etransitivity; [|apply Permutation_map; exact PF]. rewrite map_map. apply Permutation_map. symmetry. apply filter_split. }
    assert (WC : wf (Bdd.clear_tables b3)) by (apply BddProofs.wf_clear; auto).
    set (s3 := Conv _ _ _).
    assert (KN : known s2 s3).
    { intros h Sh. unfold s3. cbn [c_mods]. destruct (module g); auto. destruct (c_mods s2 !! g) eqn:Eg; auto.
      destruct (Z.eq_dec g h) as [<-|N]; [rewrite lookup_insert; eauto|rewrite lookup_insert_ne by auto; auto]. }
    assert (RG : registers g s3).
    { split.
      - intros Mg. unfold s3. cbn [c_mods]. rewrite Mg. destruct (c_mods s2 !! g) eqn:Eg; eauto. rewrite lookup_insert. eauto.
      - intros j (i & y & Ei & Ai & Ji & Kj) Sj.
        assert (HC : exists a, In a gates /\ ((i = g /\ y = x /\ a = j) \/ (module (Z.abs a) = false /\ active G module (Z.abs a) i))).
        { clear -Ei Ai Ji Ex Sj. revert y j Ei Ji Sj. induction Ai as [|i z a A IHA E J S K]; intros y j Ei Ji Sj.
          - exists j. split.
            + apply filter_In. split; [congruence|]. unfold is_gate. destruct Sj as [? ->]. auto.
            + left. split; auto. split; congruence.
          - destruct (IHA z a E J S) as (c & Jc & [(-> & -> & ->)|[Mc Ac]]).
            + exists a. split; auto. right. split; auto. constructor.
            + exists c. split; auto. right. split; auto. apply (active_arg G module (Z.abs c) i z a); auto. }
        destruct HC as (a & Ja & [(-> & -> & ->)|[Ma Aa]]).
        + apply KN. destruct Kj as [Kj|Kj]; [destruct Sj; congruence|]. apply (proj1 (R2 j Ja)); auto.
        + apply KN. apply (proj2 (R2 a Ja)); auto. exists i, y. auto. }
    split; [|split; [|split; [auto|split; [|split; auto]]]].
    + pose proof (conv_mono s2 (Bdd.clear_tables b3) OK2 WC X3) as (W4 & M4 & D4). split; auto. split; unfold s3; cbn [c_memo c_mods c_bdd].
      * intros g' r' c' E'. destruct (Nat.ltb_spec 1 (parents g)) as [Eq|Ne]; [|apply (M4 g' r' c' E')].
        apply lookup_insert_Some in E' as [[<- E']|[_ E']]; [|apply (M4 g' r' c' E')]. injection E' as <- <-. auto.
      * intros g' r' E'. destruct (module g) eqn:Mg; [|apply (D4 g' r' E')]. destruct (c_mods s2 !! g) eqn:Eg; [apply (D4 g' r' E')|].
        apply lookup_insert_Some in E' as [[<- E']|[_ E']]; [|apply (D4 g' r' E')]. subst r'. eauto.
    + eapply BddProofs.ext_trans; [exact Xb|]. eapply BddProofs.ext_trans; [exact X2|exact X3].
    + intros h Sh. apply KN, K2, Sh.
    + destruct CL2 as [C1 C2]. split.
      * intros h Sh. destruct (decide (h = g)) as [->|N]; auto. apply (registers_mono h s2); auto. apply C1.
        unfold s3 in Sh. cbn [c_mods] in Sh. destruct (module g); auto. destruct (c_mods s2 !! g); auto. rewrite lookup_insert_ne in Sh by auto. auto.
      * intros h r' c' E'. destruct (decide (h = g)) as [->|N]; auto. apply (registers_mono h s2); auto. unfold s3 in E'. cbn [c_memo] in E'.
        destruct (1 <? parents g)%nat; [rewrite lookup_insert_ne in E' by auto|]; apply (C2 h r' c' E').
Qed.
End BddGraph.
