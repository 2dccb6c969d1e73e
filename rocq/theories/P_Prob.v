(** C19, C21, C22: probabilities and importance factors on the BDD.
    Vocabulary: [graph], [node_value] (Pdag.v); [fails] and [prepared] (P_BddProducts.v): the root
    of the graph fails, what the preprocessor leaves; [prob p vs F] (Expect.v): the sum over the
    sets of events among vs that make F true of the probability that exactly they occur. *)
From stdpp Require Import gmap.
From Coq Require Import List ZArith Lia Bool Permutation Reals Lra.
Import ListNotations.
From Verif Require Import Pdag PdagProofs PdagSem ZbddGraph ZbddModules ZbddModulesProofs BddGraph BddModules P_BddProducts.
From Verif Require Import Expect Prob ProbProofs ProbGraph.
From Verif Require CacheTable Bdd BddProofs BddHistory BddZbdd.
Open Scope Z_scope.

(** ** Histories of calls *)
(** CalculateTotalProbability with some probabilities, CalculateMif for a variable with the
    probabilities of the last call before (ProbabilityAnalyzerBase::p_vars). *)
Inductive command (T : Type) := Total (p : Z -> T) | Mif (x : Z).
Arguments Total {T}. Arguments Mif {T}.
Section Session.
Context {T : Type} (A : arith T) (ord : Z -> Z) (nodes : gmap Z Bdd.node) (mods : gmap Z Bdd.fn) (is_module : Z -> bool).
Fixpoint session (fuel : nat) (f : Bdd.fn) (cs : list (command T)) (p : Z -> T) (s : analyzer) : option (list T) :=
  match cs with
  | [] => Some []
  | Total p :: cs => '(x, s) ← total A nodes mods is_module fuel f p s; xs ← session fuel f cs p s; Some (x :: xs)
  | Mif i :: cs => '(x, a) ← marginal A nodes mods is_module fuel f p (ord i) (at_ s);
                   xs ← session fuel f cs p (Analyzer (current_mark s) a); Some (x :: xs)
  end.
End Session.

Section Analysis.
Context (G : graph) (root : Z) (complement : bool).
Context (ord : Z -> Z) (top : Z) (hash : Bdd.ckey -> nat) (prime : nat -> nat) (module coherent : Z -> bool) (parents : Z -> nat)
  (arrange : list Bdd.fn -> list Bdd.fn).
(** The BDD: new (ProbabilityAnalyzer::CreateBdd, probability_analysis.cc:246-265), or after its
    use for the products (constructor, 224-231). *)
Definition bdd_of (used : option (bool * Z)) (fuel : nat) : option (Bdd.fn * gmap Z Bdd.node * gmap Z Bdd.fn) :=
  '(f, s) ← BddGraph.of_graph ord hash prime G module parents arrange fuel root complement;
  match used with
  | None => Some (f, Bdd.nodes (c_bdd s), c_mods s)
  | Some (pi, limit) =>
      '(_, b) ← build ord top hash prime pi G module coherent (c_mods s) fuel fuel f (negb complement && coherent root) limit (c_bdd s);
      Some (f, Bdd.nodes b, c_mods s)
  end.
Definition analysis {T} (A : arith T) (used : option (bool * Z)) (fuel steps : nat) (p : Z -> T) (cs : list (command T)) : option (list T) :=
  '(f, nodes, mods) ← bdd_of used fuel;
  session A ord nodes mods (ZbddModules.is_module G module) steps f (Total p :: cs) p (new_analyzer f (new_attrs A)).

(** ** Specification *)
(** The answers, by the definitions. *)
Fixpoint answers (sign : R) (vs : list Z) (F : (Z -> bool) -> bool) (cs : list (command R)) (p : Z -> R) : list R :=
  match cs with
  | [] => []
  | Total p :: cs => prob p vs F :: answers sign vs F cs p
  | Mif x :: cs => (sign * (prob (given p x 1) vs F - prob (given p x 0) vs F))%R :: answers sign vs F cs p
  end.
(** The order of a module and of what is below it. *)
Record ordered : Prop := {
  o_above : forall m v, ZbddModules.under G root m -> is_Some (gs G !! m) -> module m = true -> ZbddModules.under G m v -> v <> m -> ord v < ord m;
  o_block : forall m v u, ZbddModules.under G root m -> is_Some (gs G !! m) -> module m = true -> ZbddModules.under G root u ->
    ZbddModules.under G m v -> ~ ZbddModules.under G m u -> ord v < ord u -> ord m < ord u }.

Context (prime_pos : forall n, (0 < prime n)%nat) (ARR : forall l, Permutation (arrange l) l).
Context (P : prepared G root ord top module coherent).
Notation var := (ZbddModules.var G).
Notation is_module := (ZbddModules.is_module G module).
Notation fails := (P_BddProducts.fails G root complement).

Section Facts.
Context (r0 : Z -> nat) (RK : ranked G r0).
Notation AO := (gates_ok G root ord top module coherent P).
Notation MOD := (p_modules _ _ _ _ _ _ P).
Notation inj := (p_inj _ _ _ _ _ _ P).
(** The BDD is that of the graph. *)
Record is_bdd (b : Bdd.bdd) (mods : gmap Z Bdd.fn) (f : Bdd.fn) : Prop := {
  i_wf : BddProofs.wf ord hash b;
  i_mods : forall m f, mods !! m = Some f -> is_Some (gs G !! m) /\ denotes G module m b (fun ν => ν m) f;
  i_have : forall m, is_Some (mods !! m) -> have G module mods m;
  i_root : have G module mods root;
  i_fun : denotes G module root b (fun ν => xorb complement (ν root)) f }.
Lemma bdd_ok used fuel : (match used with Some (_, limit) => 0 <= limit | None => True end) -> (S (S (r0 root) + S (Z.to_nat (top + 1))) <= fuel)%nat ->
  exists f b mods, bdd_of used fuel = Some (f, Bdd.nodes b, mods) /\ is_bdd b mods f.
Proof.
  intros LIM F.
  assert (NORM : forall g, is_Some (gs G !! g) -> normal G module g) by (intros g _ i x E _; apply (AO i x E)).
  assert (OK : conv_ok ord hash G module parents (Conv (Bdd.empty_bdd prime) ∅ ∅)).
  { split; [apply BddProofs.empty_wf; auto|]. split; intros g r; [intros c E|intros E]; simpl in E.
    - elim (lookup_empty_Some (M := gmap Z) g (r, c) E).
    - elim (lookup_empty_Some (M := gmap Z) g r E). }
  assert (CL : closed G module (Conv (Bdd.empty_bdd prime) ∅ ∅)).
  { split; [intros g [r E]|intros g r c E]; simpl in E; [elim (lookup_empty_Some (M := gmap Z) g r E)|elim (lookup_empty_Some (M := gmap Z) g (r, c) E)]. }
  destruct (p_root _ _ _ _ _ _ P) as [x Ex].
  destruct (convert_ok ord hash prime G module parents arrange inj prime_pos ARR NORM r0 RK fuel root (Conv (Bdd.empty_bdd prime) ∅ ∅) OK CL) as (r & s & E & OK' & X & D & K & CL' & RG); [eauto|lia|].
  assert (EG : BddGraph.of_graph ord hash prime G module parents arrange fuel root complement =
    Some ((xorb r.1 complement, r.2), Conv (Bdd.clear_tables (c_bdd s)) (c_memo s) (c_mods s))).
  { unfold BddGraph.of_graph. rewrite Ex. cbn [mbind option_bind]. destruct (AO root x Ex) as (T & _).
    replace (conn_eqb (g_type x) kNull) with false by (destruct T as [-> | ->]; auto). rewrite E. reflexivity. }
  pose proof OK' as (WB & _ & DM).
  assert (WC : BddProofs.wf ord hash (Bdd.clear_tables (c_bdd s))) by (apply BddProofs.wf_clear; auto).
  set (b := Bdd.clear_tables (c_bdd s)) in *. set (f := (xorb r.1 complement, r.2)) in *.
  assert (DF : denotes G module root b (fun ν => xorb complement (ν root)) f).
  { destruct D as (V & EV & SV).
    assert (FE : forall σ, BddProofs.feval (Bdd.nodes b) σ f = xorb complement (BddProofs.feval (Bdd.nodes b) σ r)).
    { intros σ. unfold f. destruct r as [cs v]. unfold BddProofs.feval. simpl. destruct cs, complement, (BddProofs.eval (Bdd.nodes (c_bdd s)) σ v); auto. }
    split; [auto|]. split; [intros ν Rν; rewrite FE; f_equal; apply (EV ν); auto|]. intros σ σ' A. rewrite !FE. f_equal. apply (SV σ σ'). auto. }
  assert (B0 : is_bdd b (c_mods s) f).
  { constructor; auto.
    - intros m h Em. destruct (DM m h Em) as (S1 & _ & D1). split; [exact S1|exact D1].
    - intros m Sm a (j & L & ->) Sa. destruct CL' as [CL1 _]. apply (proj2 (CL1 m Sm) j L Sa).
    - intros a (j & L & ->) Sa. apply (proj2 RG j L Sa). }
  unfold bdd_of. rewrite EG. cbn [mbind option_bind c_bdd c_mods]. destruct used as [[pi limit]|].
  - destruct (BddModules.build_ok ord top hash prime pi G module coherent (c_mods s) inj prime_pos r0 RK AO) with
      (slack := 1) (depth := fuel) (fuel := fuel) (g := root) (f := f) (coh := negb complement && coherent root)
      (limit := limit) (b := b) (c := complement) as (z & b' & EB & WB' & XB & XZ); auto; try lia.
    + intros i [y Ey]. apply (p_wf _ _ _ _ _ _ P) in Ey. lia.
    + apply (p_coherent _ _ _ _ _ _ P).
    + apply MOD.
    + intros m c Sm Mm. destruct (p_values _ _ _ _ _ _ P m c Sm Mm) as (ρ & NV). exists ρ. apply (val_node G root ord top module coherent P r0 RK ρ m c Sm); auto.
    + intros g a _ (j & (i & y & Ey & _ & J & _) & ->). destruct (arg_range G root ord top module coherent P i y j Ey J) as [NZ B]. apply (p_top _ _ _ _ _ _ P). lia.
    + apply (i_have _ _ _ B0).
    + intros m h Em. apply (DM m h Em).
    + apply (i_root _ _ _ B0).
    + intros CO. apply andb_true_iff in CO as [C1 C2]. destruct complement; [discriminate|]. auto.
    + rewrite EB. cbn [mbind option_bind]. exists f, b', (c_mods s). split; auto. destruct B0 as [W0 M0 H0 R0 F0]. constructor; auto.
      * intros m h Em. destruct (M0 m h Em) as [S1 D1]. split; auto. apply (denotes_mono ord hash G module m b b'); auto.
      * apply (denotes_mono ord hash G module root b b'); auto.
  - exists f, b, (c_mods s). auto.
Qed.

Context (b : Bdd.bdd) (mods : gmap Z Bdd.fn) (f : Bdd.fn) (B : is_bdd b mods f).
Context (vs : list Z) (ND : NoDup vs) (VS : forall v, In v vs <-> var root v).
Notation W := (i_wf _ _ _ B).
Notation nodes := (Bdd.nodes b).
Notation fun_of := (ProbGraph.fun_of G r0 b).
Notation dom := (ProbGraph.dom G module b mods root vs).
Notation reach := (ProbProofs.reach nodes mods is_module).
Notation Depth := (ProbGraph.depth r0 b root f.2).
Lemma root_height : height nodes mods is_module Depth f.2.
Proof.
  apply (lives_height ord hash inj G module r0 RK AO b W mods (i_mods _ _ _ B) (i_have _ _ _ B)); [apply (p_root _ _ _ _ _ _ P)|apply (i_root _ _ _ B)|].
  eapply denotes_lives. apply (i_fun _ _ _ B).
Qed.
Lemma root_dom : dom f.2.
Proof.
  exists root. split; [apply (p_root _ _ _ _ _ _ P)|]. split; [apply (i_root _ _ _ B)|]. split; [eapply denotes_lives; apply (i_fun _ _ _ B)|].
  split; [apply VS|constructor].
Qed.
Definition DOM := dom_edge ord hash inj G module r0 RK b W mods (i_mods _ _ _ B) (i_have _ _ _ B) root vs.
Lemma reach_dom v : reach f.2 v -> dom v.
Proof.
  intros R. pose proof root_dom as D. revert D. induction R as [v|v w u E R IH]; auto. intros D. apply IH. eapply DOM; eauto.
Qed.
Lemma root_fun ρ : xorb f.1 (fun_of f.2 ρ) = xorb complement (val G r0 root ρ).
Proof.
  destruct (i_fun _ _ _ B) as (_ & V & _). apply (V (fun a => val G r0 a ρ)). apply (val_respects G r0 RK).
Qed.
Context (F : (Z -> bool) -> bool) (HF : forall ρ, F ρ = true <-> fails ρ).
Lemma F_val ρ : F ρ = xorb complement (val G r0 root ρ).
Proof.
  apply eq_true_iff_eq. rewrite HF. apply (fails_val G root complement ord top module coherent P r0 RK).
Qed.
Lemma F_ext : extensional F.
Proof. intros ρ ρ' H. rewrite !F_val. f_equal. apply (val_extensional G r0 RK). auto. Qed.
Lemma total_value p : Prob.complement Rarith f.1 (expect p vs (fun ρ => b2r (fun_of f.2 ρ))) = prob p vs F.
Proof.
  rewrite (E_complement vs p), (prob_expect p vs F ND F_ext). apply expect_ext. intros ρ. rewrite root_fun, F_val. auto.
Qed.
Notation Val p := (ProbGraph.Val G r0 b vs p).
Notation AO' := (gates_ok G root ord top module coherent P).
Notation uniform := (ProbProofs.uniform nodes mods is_module f.2).
Notation probabilities p := (ProbProofs.probabilities nodes mods is_module (Val p) f.2).
Lemma total_ok p steps s : (Depth < steps)%nat -> uniform (current_mark s) (at_ s) ->
  exists s', Prob.total Rarith nodes mods is_module steps f p s = Some (prob p vs F, s') /\ uniform (current_mark s') (at_ s') /\ probabilities p (at_ s').
Proof.
  intros L U. unfold Prob.total. set (m := negb (current_mark s)).
  destruct (calculate_ok Rarith nodes mods is_module dom DOM p m (Val p)) with (d := Depth) (v := f.2) (fuel := steps) (a := at_ s) as (x & a' & E & V & AG & _); auto.
  - intros v T. apply (Val_one ord hash G r0 b W vs p v T).
  - intros v n pv h l D T En. apply (Val_node ord hash inj G module r0 RK AO MOD b W mods (i_mods _ _ _ B) root vs ND p v n pv h l D T En).
  - apply root_height.
  - apply root_dom.
  - intros w R T M. exfalso. rewrite (U w R T) in M. unfold m in M. destruct (current_mark s); discriminate.
  - rewrite E. cbn [mbind option_bind]. exists (Analyzer m a'). split; [|split].
    + rewrite V. rewrite total_value. auto.
    + intros u R T. apply (AG u R T).
    + intros u R T. apply (AG u R T).
Qed.
Definition sign : R := if f.1 then (-1)%R else 1%R.
Lemma derivative_value p x : In x vs -> derivative p vs x (fun_of f.2) = (sign * (prob (given p x 1) vs F - prob (given p x 0) vs F))%R.
Proof.
  intros I.
  assert (X : forall c, prob (given p x (b2r c)) vs F = expect p vs (fun ρ => b2r (F (set ρ x c)))).
  { intros c. rewrite (prob_expect _ vs F ND F_ext). unfold given.
    rewrite <- (expect_fix p vs x ND I c (fun ρ => b2r (F ρ))); auto. intros ρ ρ' H. f_equal. apply F_ext. auto. }
  change 1%R with (b2r true) at 1. change 0%R with (b2r false). rewrite !X.
  transitivity (sign * derivative p vs x F)%R; [|reflexivity]. unfold sign. 
  rewrite (derivative_ext p vs x F (fun ρ => xorb f.1 (fun_of f.2 ρ))) by (intros ρ; rewrite root_fun, F_val; auto).
  destruct (f.1).
  - rewrite (derivative_ext p vs x (fun ρ => xorb true (fun_of f.2 ρ)) (fun ρ => negb (fun_of f.2 ρ))) by (intros ρ; destruct (fun_of f.2 ρ); reflexivity). rewrite (derivative_neg p vs x (fun_of f.2)). ring.
  - rewrite Rmult_1_l. apply derivative_ext. intros ρ. destruct (fun_of f.2 ρ); auto.
Qed.
Lemma marginal_ok p x steps s : ordered -> In x vs -> (Depth < steps)%nat -> uniform (current_mark s) (at_ s) -> probabilities p (at_ s) ->
  exists a', Prob.marginal Rarith nodes mods is_module steps f p (ord x) (at_ s) = Some ((sign * (prob (given p x 1) vs F - prob (given p x 0) vs F))%R, a') /\
    uniform (current_mark s) a' /\ probabilities p a'.
Proof.
  intros O I L U PR. rewrite <- derivative_value by auto.
  assert (NX : gs G !! x = None) by (apply VS in I; apply I).
  unfold Prob.marginal. destruct (Bdd.terminal f.2) eqn:T.
  { exists (at_ s). split; auto. f_equal. f_equal. apply (ValF_one ord hash G r0 b W vs p x f.2 T). }
  assert (Mr : mark (at_ s) f.2 = current_mark s) by (apply U; auto; constructor).
  rewrite Mr.
  destruct (mif_ok Rarith nodes mods is_module dom DOM p (negb (current_mark s)) (ord x) (Val p) (ProbGraph.ValF G r0 b vs p x)) with
    (d := Depth) (v := f.2) (fuel := steps) (a := at_ s) as (y & a1 & E & V & M1 & MV); auto.
  - intros v Tv. apply (Val_one ord hash G r0 b W vs p v Tv).
  - intros v Tv. apply (ValF_one ord hash G r0 b W vs p x v Tv).
  - intros v n D Tv En Lo Nm. eapply (ValF_later ord hash inj G module r0 RK AO MOD b W mods root vs p (o_block O) x); eauto.
  - intros v n g h l z D Tv En Lo Im Eg Vh Vl Vz. eapply (ValF_module ord hash inj G module r0 RK AO MOD b W mods (i_mods _ _ _ B)); eauto; apply O.
  - intros v n h l D Tv En Eo Vh Vl. eapply (ValF_self ord hash inj G module r0 RK AO MOD b W mods); eauto.
  - intros v n pv h l D Tv En Lo Pv Vh Vl. eapply (ValF_before ord hash inj G module r0 RK AO MOD b W mods (i_mods _ _ _ B)); eauto; apply O.
  - apply root_height.
  - apply root_dom.
  - split; auto. intros w R Tw M. exfalso. rewrite (U w R Tw) in M. destruct (current_mark s); discriminate.
  - rewrite E. cbn [mbind option_bind].
    destruct (clear_ok nodes mods is_module (current_mark s) Depth f.2 steps a1 root_height L) as (a2 & E2 & M2 & C2).
    rewrite E2. cbn [mbind option_bind]. exists a2. rewrite V. split; auto.
    destruct MV as (PP & MM & PA). split.
    + intros u R Tu. destruct (Bool.bool_dec (mark a1 u) (current_mark s)) as [M|N]; [apply C2; auto|].
      assert (M : mark a1 u = negb (current_mark s)) by (destruct (mark a1 u), (current_mark s); auto; congruence).
      destruct (PA u M) as [Q|Q].
      { rewrite (U u R Tu) in Q. destruct (current_mark s); discriminate. }
      apply (clear_path nodes mods is_module (current_mark s) f.2 u a1 a2); auto.
      rewrite M1 by auto. destruct (current_mark s); discriminate.
    + intros u R Tu. destruct C2 as (P2 & _). rewrite P2, PP. apply PR; auto.
Qed.
Definition allowed (c : command R) : Prop := match c with Total _ => True | Mif x => ordered /\ var root x end.
Lemma session_ok steps : (Depth < steps)%nat -> forall cs p s, (forall c, In c cs -> allowed c) -> uniform (current_mark s) (at_ s) ->
  probabilities p (at_ s) -> session Rarith ord nodes mods is_module steps f cs p s = Some (answers sign vs F cs p).
Proof.
  intros L. induction cs as [|c cs IH]; intros p s A U PR; auto.
  assert (A' : forall c, In c cs -> allowed c) by (intros; apply A; right; auto). specialize (A c (or_introl eq_refl)).
  destruct c as [q|x]; cbn [session answers].
  - destruct (total_ok q steps s L U) as (s' & E & U' & PR'). rewrite E. cbn [mbind option_bind]. rewrite IH; auto.
  - destruct A as [O V]. apply VS in V. destruct (marginal_ok p x steps s O V L U PR) as (a' & E & U' & PR'). rewrite E. cbn [mbind option_bind]. rewrite IH; auto.
Qed.
Lemma start_ok steps cs p : (Depth < steps)%nat -> (forall c, In c cs -> allowed c) ->
  session Rarith ord nodes mods is_module steps f (Total p :: cs) p (new_analyzer f (new_attrs Rarith)) = Some (answers sign vs F (Total p :: cs) p).
Proof.
  intros L A. cbn [session answers].
  destruct (total_ok p steps (new_analyzer f (new_attrs Rarith)) L) as (s' & E & U' & PR').
  { intros u R T. simpl. destruct (Bdd.terminal f.2); auto. }
  rewrite E. cbn [mbind option_bind]. rewrite session_ok; auto.
Qed.
(** The root of a coherent graph is a plain vertex. *)
Lemma eval_ones v : BddProofs.eval nodes (fun _ => true) v = true.
Proof.
  unfold BddProofs.eval. generalize (Z.to_nat v) as k. intros k. revert v. induction k as [|k IH]; intros v; auto. cbn [BddProofs.evf]. destruct (nodes !! v); auto.
Qed.
Lemma sign_coherent : complement = false -> coherent root = true -> sign = 1%R.
Proof.
  intros C CR. unfold sign. enough (E : f.1 = false) by (rewrite E; auto).
  destruct (i_fun _ _ _ B) as (_ & V & _).
  assert (R : ZbddGraph.respects G module root (fun _ => true)).
  { intros i x E A. pose proof (BddModules.coherent_active G module coherent (p_coherent _ _ _ _ _ _ P) root i CR A) as CI.
    destruct (AO i x E) as (T & L & _). symmetry. unfold gate_value.
    assert (X : forall v, In v (map (lit (fun _ => true)) (g_args x)) -> v = true).
    { intros v J. apply in_map_iff in J as (a & <- & J). destruct (p_coherent _ _ _ _ _ _ P i x a E CI J) as [Pa _]. unfold lit. destruct (Z.ltb_spec a 0); [lia|auto]. }
    destruct T as [-> | ->]; cbn [conn_value].
    - apply forallb_forall. intros v J. apply X. auto.
    - destruct (g_args x) as [|a l]; [simpl in L; lia|]. apply existsb_exists. exists (lit (fun _ => true) a). split; [left; auto|]. apply X. left. auto. }
  specialize (V _ R). unfold BddProofs.feval in V. rewrite eval_ones, C in V. destruct (f.1); auto; discriminate.
Qed.
End Facts.

(** ** C19 *)
Theorem C19_bdd used p cs vs F : match used with Some (_, limit) => 0 <= limit | None => True end ->
  NoDup vs -> (forall v, In v vs <-> var root v) -> (forall ρ, F ρ = true <-> fails ρ) ->
  exists N, forall fuel, (N <= fuel)%nat -> exists M, forall steps, (M <= steps)%nat ->
    analysis Rarith used fuel steps p (map Total cs) = Some (map (fun q => prob q vs F) (p :: cs)).
Proof.
  intros LIM ND VS HF. pose proof (p_acyclic _ _ _ _ _ _ P) as [r0 RK].
  exists (S (S (r0 root) + S (Z.to_nat (top + 1)))). intros fuel FU. destruct (bdd_ok r0 RK used fuel LIM FU) as (f & b & mods & E & B).
  exists (S (ProbGraph.depth r0 b root f.2)). intros steps L. unfold analysis. rewrite E. cbn [mbind option_bind].
  rewrite (start_ok r0 RK b mods f B vs ND VS F HF steps (map Total cs) p); auto.
  - f_equal. cbn [answers map]. f_equal. generalize p as q. induction cs as [|c cs IH]; intros q; auto. cbn [map answers]. f_equal. auto.
  - intros c J. apply in_map_iff in J as (q & <- & _). exact I.
Qed.
(** ** C22: marginal importance *)
(** The answers to any history of calls; the sign is the same for all of them and is right for
    graphs without complements. *)
Theorem C22_mif used p cs vs F : match used with Some (_, limit) => 0 <= limit | None => True end -> ordered ->
  NoDup vs -> (forall v, In v vs <-> var root v) -> (forall ρ, F ρ = true <-> fails ρ) -> (forall x, In (Mif x) cs -> In x vs) ->
  exists N, forall fuel, (N <= fuel)%nat -> exists s M, (s = 1 \/ s = -1)%R /\ (complement = false -> coherent root = true -> s = 1%R) /\
    forall steps, (M <= steps)%nat -> analysis Rarith used fuel steps p cs = Some (answers s vs F (Total p :: cs) p).
Proof.
  intros LIM O ND VS HF AL. pose proof (p_acyclic _ _ _ _ _ _ P) as [r0 RK].
  exists (S (S (r0 root) + S (Z.to_nat (top + 1)))). intros fuel FU. destruct (bdd_ok r0 RK used fuel LIM FU) as (f & b & mods & E & B).
  exists (sign f), (S (ProbGraph.depth r0 b root f.2)). split; [unfold sign; destruct (f.1); auto|]. split; [apply (sign_coherent b mods f B)|].
  intros steps L. unfold analysis. rewrite E. cbn [mbind option_bind].
  rewrite (start_ok r0 RK b mods f B vs ND VS F HF steps cs p); auto.
  intros [q|x] J; [exact I|]. split; auto. apply VS, AL. auto.
Qed.
End Analysis.

(** ** A root that passes one event, its complement or the constant through *)
Section Trivial.
Context (G : graph) (root : Z) (ord : Z -> Z) (top : Z) (hash : Bdd.ckey -> nat) (prime : nat -> nat) (module coherent : Z -> bool) (parents : Z -> nat)
  (arrange : list Bdd.fn -> list Bdd.fn).
Context (g : gate) (c : Z) (W : PdagProofs.wf G) (AC : Pdag.acyclic G) (Eg : gs G !! root = Some g) (Tg : g_type g = kNull) (Ag : g_args g = [c]) (Nc : gs G !! Z.abs c = None).
Context (inj : forall i j, ord i = ord j -> i = j) (prime_pos : forall n, (0 < prime n)%nat) (TOP : 0 < ord (Z.abs c) <= top).
Context (CH : coherent root = true -> 0 < c).
Notation is_module := (ZbddModules.is_module G module).
Notation fails := (P_BddProducts.fails G root false).
Notation bdd_of := (bdd_of G root false ord top hash prime module coherent parents arrange).
Notation analysis := (analysis G root false ord top hash prime module coherent parents arrange).
Context (vs : list Z) (F : (Z -> bool) -> bool) (ND : NoDup vs) (VS : forall v, In v vs <-> ZbddModules.var G root v) (HF : forall ρ, F ρ = true <-> fails ρ).
Lemma trivial_vs : vs = [Z.abs c].
Proof.
  assert (H : forall v, In v vs <-> v = Z.abs c) by (intros v; rewrite VS; apply (trivial_var G root ord g c); auto).
  destruct vs as [|a l]; [exfalso; apply (proj2 (H (Z.abs c)) eq_refl)|]. assert (a = Z.abs c) by (apply H; left; auto). subst a.
  destruct l as [|a l]; auto. assert (a = Z.abs c) by (apply H; right; left; auto). subst a. inversion ND as [|? ? NI _]. elim NI. left; auto.
Qed.
Lemma trivial_F ρ : F ρ = passes c ρ.
Proof. apply eq_true_iff_eq. rewrite HF. apply (trivial_fails G root false ord g c); auto. Qed.
Lemma trivial_prob q : prob q vs F = if Z.abs c =? 1 then (if 0 <? c then 1 else 0)%R else Prob.complement Rarith (c <? 0) (q (Z.abs c)).
Proof.
  assert (C0 : c <> 0) by (apply (c_range G root ord g c); auto).
  assert (X : extensional F).
  { intros ρ ρ' H. rewrite !trivial_F. unfold passes. destruct (Z.abs c =? 1); auto. unfold lit. destruct (c <? 0); [f_equal|]; auto. }
  rewrite (prob_expect q vs F ND X), trivial_vs. cbn [expect]. rewrite !trivial_F. unfold passes. destruct (Z.abs c =? 1).
  - destruct (0 <? c); simpl; ring.
  - unfold lit, set, Prob.complement. destruct (Z.ltb_spec c 0) as [L|L].
    + replace (- c) with (Z.abs c) by lia. destruct (Z.eq_dec (Z.abs c) (Z.abs c)); [|contradiction]. simpl. ring.
    + destruct (Z.eq_dec c (Z.abs c)); [|lia]. simpl. ring.
Qed.
Lemma trivial_bdd used fuel : match used with Some (_, limit) => 0 <= limit | None => True end -> (S (S (Z.to_nat (top + 1))) <= fuel)%nat ->
  exists v nodes, bdd_of used fuel = Some ((c <? 0, v), nodes, ∅) /\
    (if Z.abs c =? 1 then v = 1 else v = 2 /\ nodes !! 2 = Some (Bdd.Node (Z.abs c) (ord (Z.abs c)) 1 1 true)).
Proof.
  intros LIM L. pose proof (c_range G root ord g c W Eg Ag inj) as C0.
  assert (UN : constant g = (Z.abs c =? 1)).
  { unfold constant, has. rewrite Ag. cbn [existsb]. rewrite !orb_false_r. apply eq_true_iff_eq. rewrite orb_true_iff, !Z.eqb_eq. lia. }
  assert (EG : exists v b, BddGraph.of_graph ord hash prime G module parents arrange fuel root false = Some ((c <? 0, v), Conv b ∅ ∅) /\
    (if Z.abs c =? 1 then v = 1 else v = 2 /\ Bdd.nodes b !! 2 = Some (Bdd.Node (Z.abs c) (ord (Z.abs c)) 1 1 true))).
  { unfold BddGraph.of_graph. rewrite Eg. cbn [mbind option_bind]. rewrite Tg, Ag. cbn [conn_eqb]. unfold is_gate. rewrite Nc, UN.
    destruct (Z.abs c =? 1).
    - eexists _, _. split; [reflexivity|]. auto.
    - cbn [c_bdd]. unfold literal, Bdd.find_or_add. cbn [Bdd.utable Bdd.empty_bdd Bdd.nodes Bdd.next_id]. 
      match goal with |- context[∅ !! ?k] => replace ((∅ : gmap _ Z) !! k) with (@None Z) by (symmetry; apply lookup_empty) end.
      eexists _, _. split; [reflexivity|]. auto. }
  destruct EG as (v & b & EG & H). unfold P_Prob.bdd_of. rewrite EG. cbn [mbind option_bind c_bdd c_mods]. destruct used as [[pi limit]|].
  - destruct (trivial_run G root false ord top hash prime module coherent parents arrange g c W Eg Tg Ag Nc inj prime_pos TOP eq_refl CH pi limit LIM fuel L)
      as (_ & _ & _ & _ & f' & b' & z1 & b1 & EG' & EB & X).
    rewrite EG in EG'. injection EG' as <- <-. rewrite EB. cbn [mbind option_bind]. exists v, (Bdd.nodes b1). split; auto.
    destruct (Z.abs c =? 1); auto. destruct H as [-> H]. split; auto. eapply lookup_weaken; [exact H|]. apply X.
  - exists v, (Bdd.nodes b). auto.
Qed.
Notation sign := (if c <? 0 then (-1)%R else 1%R).
Theorem C19_C22_trivial used p cs : match used with Some (_, limit) => 0 <= limit | None => True end -> (forall x, In (Mif x) cs -> In x vs) ->
  exists N, forall fuel, (N <= fuel)%nat -> exists M, forall steps, (M <= steps)%nat ->
    analysis Rarith used fuel steps p cs = Some (answers (if c <? 0 then (-1)%R else 1%R) vs F (Total p :: cs) p).
Proof.
  intros LIM AL. exists (S (S (Z.to_nat (top + 1)))). intros fuel L. destruct (trivial_bdd used fuel LIM L) as (v & nodes & E & H).
  exists 2%nat. intros steps L2. unfold P_Prob.analysis. rewrite E. cbn [mbind option_bind]. clear E.
  assert (C0 : c <> 0) by (apply (c_range G root ord g c); auto).
  destruct steps as [|[|steps]]; [lia|lia|]. 
  assert (D : forall q, (prob (given q (Z.abs c) 1) vs F - prob (given q (Z.abs c) 0) vs F)%R = (if Z.abs c =? 1 then 0%R else if c <? 0 then (-1)%R else 1%R)).
  { intros q. rewrite !trivial_prob. destruct (Z.abs c =? 1); [ring|]. unfold given, Prob.complement. destruct (Z.eq_dec (Z.abs c) (Z.abs c)); [|contradiction].
    destruct (c <? 0); simpl; ring. }
  destruct (Z.eqb_spec (Z.abs c) 1) as [C1|C1].
  - subst v. enough (X : forall s q, session Rarith ord nodes ∅ is_module (S (S steps)) (c <? 0, 1) (Total p :: cs) q s = Some (answers sign vs F (Total p :: cs) q)) by apply X.
    assert (AL' : forall x, In (Mif x) (Total p :: cs) -> In x vs) by (intros x [X|X]; [discriminate|auto]). revert AL'.
    generalize (Total p :: cs) as l. clear AL p cs. induction l as [|[q'|x] l IH]; intros AL s q; auto; cbn [session answers].
    + unfold total. cbn [calculate snd fst]. change (Bdd.terminal 1) with true. cbn [mbind option_bind]. rewrite IH by (intros; apply AL; right; auto). cbn [mbind option_bind].
      f_equal. f_equal. rewrite trivial_prob. replace (Z.abs c =? 1) with true by (symmetry; apply Z.eqb_eq; auto). unfold Prob.complement. simpl.
      destruct (Z.ltb_spec c 0), (Z.ltb_spec 0 c); try lia; ring.
    + unfold marginal. cbn [snd]. change (Bdd.terminal 1) with true. cbn [mbind option_bind]. rewrite IH by (intros; apply AL; right; auto). cbn [mbind option_bind].
      assert (x = Z.abs c) as ->. { specialize (AL x (or_introl eq_refl)). rewrite trivial_vs in AL. simpl in AL. intuition. }
      f_equal. f_equal. rewrite D. simpl. ring.
  - destruct H as [-> H].
    enough (X : forall s q, mark (at_ s) 2 = current_mark s -> session Rarith ord nodes ∅ is_module (S (S steps)) (c <? 0, 2) (Total p :: cs) q s = Some (answers sign vs F (Total p :: cs) q)) by (apply X; auto).
    assert (AL' : forall x, In (Mif x) (Total p :: cs) -> In x vs) by (intros x [X|X]; [discriminate|auto]). revert AL'.
    assert (NM : is_module (Z.abs c) = false) by (apply trivial_module; auto).
    generalize (Total p :: cs) as l. clear AL p cs. induction l as [|[q'|x] l IH]; intros AL s q U; auto; cbn [session answers].
    + unfold total. cbn [calculate snd fst]. change (Bdd.terminal 2) with false. cbn iota. rewrite H. cbn [mbind option_bind]. rewrite U.
      replace (Bool.eqb (current_mark s) (negb (current_mark s))) with false by (destruct (current_mark s); auto).
      cbn [Bdd.n_index Bdd.n_high Bdd.n_low Bdd.n_ce]. rewrite NM. cbn [mbind option_bind]. change (Bdd.terminal 1) with true. cbn iota. cbn [mbind option_bind].
      rewrite IH by (try (intros; apply AL; right; auto); simpl; unfold upd; rewrite Z.eqb_refl; auto). cbn [mbind option_bind]. f_equal. f_equal.
      rewrite trivial_prob. destruct (Z.eqb_spec (Z.abs c) 1); [contradiction|]. f_equal. unfold Prob.complement. simpl. ring.
    + unfold marginal. cbn [mif snd fst]. change (Bdd.terminal 2) with false. cbn iota. rewrite H. cbn [mbind option_bind]. rewrite U.
      replace (Bool.eqb (current_mark s) (negb (current_mark s))) with false by (destruct (current_mark s); auto).
      assert (x = Z.abs c) as ->. { specialize (AL x (or_introl eq_refl)). rewrite trivial_vs in AL. simpl in AL. intuition. }
      cbn [Bdd.n_index Bdd.n_high Bdd.n_low Bdd.n_ce Bdd.n_order]. rewrite Z.ltb_irrefl, Z.eqb_refl, NM. cbn [mbind option_bind].
      cbn [clear_marks]. change (Bdd.terminal 2) with false. cbn iota. rewrite H. cbn [mbind option_bind]. cbn [mark set_factor set_mark]. unfold upd at 1. rewrite Z.eqb_refl.
      replace (Bool.eqb (negb (current_mark s)) (current_mark s)) with false by (destruct (current_mark s); auto).
      cbn [Bdd.n_index Bdd.n_high Bdd.n_low Bdd.n_ce Bdd.n_order]. rewrite NM. cbn [mbind option_bind]. change (Bdd.terminal 1) with true. cbn iota. cbn [mbind option_bind].
      rewrite IH by (try (intros; apply AL; right; auto); simpl; unfold upd; rewrite Z.eqb_refl; auto). cbn [mbind option_bind]. f_equal. f_equal.
      rewrite D. destruct (Z.eqb_spec (Z.abs c) 1); [contradiction|]. unfold retrieve, Prob.complement. change (Bdd.terminal 1) with true. simpl. destruct (c <? 0); ring.
Qed.
End Trivial.

(** The probability is in [0, 1]. *)
Theorem C19_range p vs F : NoDup vs -> (forall v, In v vs -> 0 <= p v <= 1)%R -> (0 <= prob p vs F <= 1)%R.
Proof.
  intros ND R.
  assert (WP : forall X, (0 <= weight p vs X)%R).
  { intros X. unfold weight. clear ND. induction vs as [|v l IH]; simpl; [lra|]. apply Rmult_le_pos; [|apply IH; intros; apply R; right; auto].
    pose proof (R v (or_introl eq_refl)). destruct (occurs X v); lra. }
  split.
  - unfold prob, sum. generalize (subsets vs) as l. induction l as [|X l IH]; simpl; [lra|]. pose proof (WP X). destruct (F (occurs X)); lra.
  - apply Rle_trans with (prob p vs (fun _ => true)).
    + unfold prob, sum. generalize (subsets vs) as l. induction l as [|X l IH]; simpl; [lra|]. pose proof (WP X). destruct (F (occurs X)); lra.
    + rewrite prob_expect by (auto; intros ? ? ?; auto). rewrite expect_const. simpl. lra.
Qed.

(** ** The hypotheses are met by non-trivial cases *)
Lemma no_modules G root ord : ordered G root ord (fun _ => false).
Proof. split; discriminate. Qed.
(* 11 = 2 and not 9, 9 = 5 or 8, module 8 = 3 and not 4 *)
Definition ex_ord (i : Z) : Z := if i =? 5 then 10 else if i =? 10 then 5 else i.
Example ex_prepared : prepared ex_g 11 ex_ord 20 (Z.eqb 8) (fun _ => false).
Proof.
  destruct P_BddProducts.ex_prepared. split; auto; unfold ex_ord.
  - intros i j. destruct (Z.eqb_spec i 5), (Z.eqb_spec j 5), (Z.eqb_spec i 10), (Z.eqb_spec j 10); lia.
  - intros i. simpl. destruct (Z.eqb_spec i 5), (Z.eqb_spec i 10); lia.
Qed.
Example ex_ordered : ordered ex_g 11 ex_ord (Z.eqb 8).
Proof.
  assert (U : forall i, ZbddModules.under ex_g 8 i -> i = 8 \/ i = 3 \/ i = 4).
  { induction 1 as [|i x a U IH E J]; auto. destruct (ex_gates i x E) as [[-> ->]|[[-> ->]|[-> ->]]]; simpl in J; lia. }
  assert (U11 : forall i, ZbddModules.under ex_g 11 i -> i = 11 \/ i = 9 \/ i = 2 \/ i = 5 \/ i = 8 \/ i = 3 \/ i = 4).
  { induction 1 as [|i x a U' IH E J]; auto. destruct (ex_gates i x E) as [[-> ->]|[[-> ->]|[-> ->]]]; simpl in J; lia. }
  split; intros m v.
  - intros _ _ M V N. apply Z.eqb_eq in M. subst m. apply U in V. destruct V as [->|[->| ->]]; unfold ex_ord; simpl; lia.
  - intros u _ _ M Ru V NU. apply Z.eqb_eq in M. subst m. apply U in V. apply U11 in Ru.
    assert (~ (u = 8 \/ u = 3 \/ u = 4)).
    { intros [->|[->| ->]]; apply NU; [constructor| |]; [apply (under_arg ex_g 8 8 (Gate kAnd 0 [-4; 3]) 3)|apply (under_arg ex_g 8 8 (Gate kAnd 0 [-4; 3]) (-4))]; solve [constructor|simpl; auto|reflexivity]. }
    destruct Ru as [->|[->|[->|[->|[->|[->| ->]]]]]], V as [->|[->| ->]]; unfold ex_ord; simpl; lia.
Qed.
(** The arithmetic of integers, to run the model on certain events. *)
Definition Zarith : arith Z := Arith 0 1 Z.add Z.sub Z.mul Z.opp.
Definition ex_analysis (complement : bool) (used : option (bool * Z)) :=
  analysis ex_g 11 complement ex_ord 20 (fun _ => 0%nat) S (Z.eqb 8) (fun _ => false) (fun _ => 1%nat) (fun l => l) Zarith used 30 30
    (fun i => if i =? 2 then 1 else 0) [Mif 4; Mif 5; Mif 3; Mif 2; Total (fun i => if i <=? 3 then 1 else 0); Mif 4; Mif 3].
(* not 11: the sign is right *)
Example ex_run_complement : ex_analysis true None = Some [0; 0; 1; 1; -1; 1; -1; 1].
Proof. vm_compute. reflexivity. Qed.
(* 11: the sign of every marginal importance is wrong, see below *)
Example ex_run_plain : ex_analysis false None = Some [1; 0; 1; 1; -1; 0; -1; 1] /\ ex_analysis false (Some (true, 10)) = ex_analysis false None.
Proof. split; vm_compute; reflexivity. Qed.

(** ** C22 refuted: the marginal importance has the wrong sign when the root is complemented *)
(* 6 = 2 xor 3, as the preprocessor expands it. When 3 does not occur, 6 is 2: the marginal
   importance of 2 is 1, but -1 is reported. *)
Definition xor_g : graph := Graph {[4 := Gate kAnd 0 [-3; 2]; 5 := Gate kAnd 0 [-2; 3]; 6 := Gate kOr 0 [4; 5]]} 7 [] true.
Lemma xor_gates i x : gs xor_g !! i = Some x -> (i = 4 /\ x = Gate kAnd 0 [-3; 2]) \/ (i = 5 /\ x = Gate kAnd 0 [-2; 3]) \/ (i = 6 /\ x = Gate kOr 0 [4; 5]).
Proof. unfold xor_g. cbn [gs]. intros E. gate_cases E. Qed.
Lemma xor_prepared : prepared xor_g 6 (fun i => i) 20 (fun _ => false) (fun _ => false).
Proof.
  split.
  - split; [simpl; lia|]. intros i x E. destruct (xor_gates i x E) as [[-> ->]|[[-> ->]|[-> ->]]]; (split; [simpl; lia|]); (split; [simpl; repeat constructor; simpl; intuition lia|]);
      intros a Ha; simpl in Ha; simpl; intuition (subst; simpl; lia).
  - exists (fun j => if j =? 6 then 1%nat else 0%nat). intros i x a E Ha [y Hy].
    destruct (xor_gates i x E) as [[-> ->]|[[-> ->]|[-> ->]]]; destruct (xor_gates _ y Hy) as [[Ey _]|[[Ey _]|[Ey _]]]; simpl in Ha; rewrite Ey; simpl; lia.
  - vm_compute. eauto.
  - intros i x E. destruct (xor_gates i x E) as [[-> ->]|[[-> ->]|[-> ->]]]; simpl; auto.
  - discriminate.
  - discriminate.
  - discriminate.
  - auto.
  - intros i. simpl. lia.
Qed.
Lemma xor_vars v : In v [2; 3] <-> ZbddModules.var xor_g 6 v.
Proof.
  split.
  - assert (U : forall a, In a [2; 3] -> ZbddModules.under xor_g 6 a).
    { assert (U4 : ZbddModules.under xor_g 6 4) by (apply (under_arg xor_g 6 6 (Gate kOr 0 [4; 5]) 4); [constructor|auto|simpl; auto]).
      intros a [<-|[<-|[]]]; [apply (under_arg xor_g 6 4 (Gate kAnd 0 [-3; 2]) 2)|apply (under_arg xor_g 6 4 (Gate kAnd 0 [-3; 2]) (-3))]; simpl; auto. }
    intros I. split; [apply U; auto|]. destruct I as [<-|[<-|[]]]; reflexivity.
  - intros [U N]. induction U as [|i x a U IH E J]; [discriminate|]. destruct (xor_gates i x E) as [[-> ->]|[[-> ->]|[-> ->]]]; simpl in J; simpl;
      destruct J as [<-|[<-|[]]]; auto; simpl in N; discriminate.
Qed.
Lemma xor_fails ρ : xorb (ρ 2) (ρ 3) = true <-> P_BddProducts.fails xor_g 6 false ρ.
Proof.
  split.
  - intros H. exists (fun i => match i with 1 => true | 2 => ρ 2 | 3 => ρ 3 | 4 => negb (ρ 3) && ρ 2 | 5 => negb (ρ 2) && ρ 3 | 6 => xorb (ρ 2) (ρ 3) | _ => ρ i end). split; [|split; [|auto]].
    + split; auto. intros i x E. destruct (xor_gates i x E) as [[-> ->]|[[-> ->]|[-> ->]]]; unfold gate_value; simpl; unfold lit; simpl; destruct (ρ 2), (ρ 3); auto.
    + intros i R N. assert (i = 2 \/ i = 3 \/ i = 4 \/ i = 5 \/ i = 6) as [->|[->|[->|[->| ->]]]] by (simpl in R; lia); auto; discriminate.
  - intros (ν & C & V & N). pose proof (proj2 C 6 _ eq_refl) as E6. pose proof (proj2 C 4 _ eq_refl) as E4. pose proof (proj2 C 5 _ eq_refl) as E5.
    unfold gate_value in *. simpl in *. unfold lit in *. simpl in *. rewrite E4, E5 in E6. rewrite <- (V 2), <- (V 3) by (simpl; auto; lia).  change (- (-3)) with 3 in *. change (- (-2)) with 2 in *. rewrite N in E6. destruct (ν 2), (ν 3); simpl in *; congruence.
Qed.
Definition xor_analysis (p : Z -> R) (x : Z) :=
  analysis xor_g 6 false (fun i => i) 20 (fun _ => 0%nat) S (fun _ => false) (fun _ => false) (fun _ => 1%nat) (fun l => l) Rarith None 30 30 p [Mif x].
Theorem C22_mif_refuted :
  prepared xor_g 6 (fun i => i) 20 (fun _ => false) (fun _ => false) /\ ordered xor_g 6 (fun i => i) (fun _ => false) /\
  (forall v, In v [2; 3] <-> ZbddModules.var xor_g 6 v) /\ (forall ρ, xorb (ρ 2) (ρ 3) = true <-> P_BddProducts.fails xor_g 6 false ρ) /\
  let p := fun _ => 0%R in
  xor_analysis p 2 = Some [0%R; (-1)%R] /\ let F := fun ρ : Z -> bool => xorb (ρ 2) (ρ 3) in
  (prob (given p 2 1) [2; 3]%Z F - prob (given p 2 0) [2; 3]%Z F = 1)%R.
Proof.
  split; [apply xor_prepared|]. split; [apply no_modules|]. split; [apply xor_vars|]. split; [apply xor_fails|]. cbv zeta. split.
  - assert (H : exists a b, xor_analysis (fun _ => 0%R) 2 = Some [a; b] /\ a = 0%R /\ b = (-1)%R).
    { eexists _, _. split; [vm_compute; reflexivity|]. split; ring. }
    destruct H as (a & b & -> & -> & ->). auto.
  - unfold prob, weight, sum, given. simpl. ring.
Qed.
Print Assumptions C19_bdd.
Print Assumptions C22_mif.
Print Assumptions C19_C22_trivial.
Print Assumptions C19_range.
Print Assumptions C22_mif_refuted.
