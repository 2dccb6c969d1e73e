(** The functions of the vertices of the BDD of a graph: what they depend on, their
    probabilities and derivatives. *)
From stdpp Require Import gmap.
From Coq Require Import List ZArith Lia Bool Permutation Reals Lra.
Import ListNotations.
From Verif Require Import Pdag PdagProofs PdagSem ZbddGraph ZbddModules ZbddModulesProofs BddGraph BddModules.
From Verif Require Import Expect Prob ProbProofs.
From Verif Require CacheTable Bdd BddProofs BddHistory BddZbdd.
Open Scope Z_scope.

Definition Rarith : arith R := Arith 0%R 1%R Rplus Rminus Rmult Ropp.

Section Graph.
Context (ord : Z -> Z) (hash : Bdd.ckey -> nat) (ord_inj : forall i j, ord i = ord j -> i = j).
Context (G : graph) (module : Z -> bool) (r0 : Z -> nat) (RK : ranked G r0).
Context (AO : forall i x, gs G !! i = Some x -> (g_type x = kAnd \/ g_type x = kOr) /\ (2 <= length (g_args x))%nat /\ constant x = false /\ forall a, In a (g_args x) -> a <> 0).
Context (MOD : forall m, is_Some (gs G !! m) -> module m = true -> modular G m).
Context (b : Bdd.bdd) (W : BddProofs.wf ord hash b) (mods : gmap Z Bdd.fn).
Notation is_module := (ZbddModules.is_module G module).
Notation atom := (ZbddModulesProofs.atom G module).
Notation bel := (ZbddModulesProofs.bel G module r0).
Notation var := (ZbddModules.var G).
Notation under := (ZbddModules.under G).
Notation nodes := (Bdd.nodes b).
Notation eval := (BddProofs.eval nodes).
Notation val := (BddModules.val G r0).
Notation above := (BddProofs.above nodes).
Notation edge := (ProbProofs.edge nodes mods is_module).
Definition have (g : Z) : Prop := forall a, atom g a -> is_Some (gs G !! a) -> is_Some (mods !! a).
Context (DM : forall m f, mods !! m = Some f -> is_Some (gs G !! m) /\ denotes G module m b (fun ν => ν m) f).
Context (HM : forall m, is_Some (mods !! m) -> have m).

(** Vertices of the diagram of a gate *)
Definition lives (g v : Z) : Prop := BddProofs.valid nodes v /\ BddZbdd.over (atom g) b v.
Lemma atom_dec g : is_Some (gs G !! g) -> forall a, {atom g a} + {~ atom g a}.
Proof.
  intros SG a. destruct (in_dec Z.eq_dec a (atoms G module r0 g)) as [I|N]; [left|right]; rewrite <- (atoms_in G module r0 RK g a) in * by auto; auto.
Qed.
Lemma lives_node g v n : is_Some (gs G !! g) -> lives g v -> nodes !! v = Some n ->
  atom g (Bdd.n_index n) /\ Bdd.n_order n = ord (Bdd.n_index n) /\ lives g (Bdd.n_high n) /\ lives g (Bdd.n_low n) /\
  above (ord (Bdd.n_index n)) (Bdd.n_high n) /\ above (ord (Bdd.n_index n)) (Bdd.n_low n) /\ 1 <= Bdd.n_high n < v /\ 1 <= Bdd.n_low n < v.
Proof.
  intros SG [V O] En. pose proof (BddProofs.w_store _ _ _ W v n En) as (_ & Eo & Ah & Al & Lh & Ll & _).
  split; [apply (BddZbdd.node_in ord hash (atom g) (atom_dec g SG) 0 ord_inj b W v n En O)|]. split; auto.
  split; [split; [eapply BddProofs.above_valid; eauto|apply (BddZbdd.over_high ord hash (atom g) 0 b W v n En O)]|].
  split; [split; [eapply BddProofs.above_valid; eauto|apply (BddZbdd.over_low ord hash (atom g) 0 b W v n En O)]|].
  rewrite <- Eo. auto.
Qed.
Lemma denotes_lives g F f : denotes G module g b F f -> lives g f.2.
Proof.
  intros (V & _ & S). split; auto. intros σ σ' H. assert (X : BddProofs.feval nodes σ f = BddProofs.feval nodes σ' f) by (apply S; exact H).
  unfold BddProofs.feval in X. destruct (f.1), (eval σ f.2), (eval σ' f.2); simpl in X; auto; discriminate.
Qed.
(** The value of a vertex under an assignment of the variables *)
Definition fun_of (v : Z) (ρ : Z -> bool) : bool := eval (fun a => val a ρ) v.
Lemma fun_node v n ρ : nodes !! v = Some n -> fun_of v ρ = if val (Bdd.n_index n) ρ then fun_of (Bdd.n_high n) ρ else xorb (Bdd.n_ce n) (fun_of (Bdd.n_low n) ρ).
Proof. intros E. exact (BddProofs.eval_node ord nodes (fun a => val a ρ) v n (BddProofs.w_store _ _ _ W) E). Qed.
Lemma fun_one ρ : fun_of 1 ρ = true.
Proof. apply (BddProofs.eval_one ord). apply W. Qed.
Lemma eval_tail o w : above o w -> forall σ σ', (forall i, o < ord i -> σ i = σ' i) -> eval σ w = eval σ' w.
Proof.
  pose proof (BddProofs.w_store _ _ _ W) as ST.
  enough (H : forall k w o, (Z.to_nat w <= k)%nat -> above o w -> forall σ σ', (forall i, o < ord i -> σ i = σ' i) -> eval σ w = eval σ' w) by (apply (H (Z.to_nat w)); auto).
  clear o w. induction k as [|k IH]; intros w o L Aw σ σ' H.
  - pose proof (BddProofs.valid_pos ord nodes w ST (BddProofs.above_valid _ _ _ Aw)). lia.
  - destruct Aw as [->|(n & E & Lo)]; [rewrite !(BddProofs.eval_one ord) by auto; auto|]. destruct (ST w n E) as (_ & Eo & Ah & Al & Lh & Ll & _).
    rewrite !(BddProofs.eval_node ord nodes _ w n) by auto. rewrite (H (Bdd.n_index n)) by lia.
    rewrite (IH (Bdd.n_high n) (Bdd.n_order n) ltac:(lia) Ah σ σ'), (IH (Bdd.n_low n) (Bdd.n_order n) ltac:(lia) Al σ σ') by (intros; apply H; lia). auto.
Qed.
Lemma fun_tail g o w ρ ρ' : lives g w -> above o w -> (forall a, atom g a -> o < ord a -> val a ρ = val a ρ') -> fun_of w ρ = fun_of w ρ'.
Proof.
  intros [_ O] Aw H. unfold fun_of. transitivity (eval (fun a => if o <? ord a then val a ρ else val a ρ') w).
  - apply (eval_tail o); auto. intros i L. destruct (Z.ltb_spec o (ord i)); [auto|lia].
  - apply O. intros a At. destruct (Z.ltb_spec o (ord a)); auto.
Qed.
Lemma val_bel g a ρ ρ' : is_Some (gs G !! g) -> atom g a -> (forall v, bel a v = true -> ρ v = ρ' v) -> val a ρ = val a ρ'.
Proof.
  intros SG At H. apply (val_under G r0 RK). intros v V. apply H. pose proof (atom_pos G AO module g a At) as P.
  destruct (atom_kind G AO module g a At) as [[N M]|(S & M & I)].
  - unfold ZbddModulesProofs.bel. rewrite M. apply Z.eqb_eq. destruct V as [U NV]. destruct U as [|i x c U E J]; auto. exfalso. clear -U N E. revert x E. induction U as [|i y d U IH E' J']; intros x E; [congruence|]. apply (IH y E').
  - apply (bel_module G r0 RK module); auto.
Qed.
Lemma fun_other g w a ρ ρ' : is_Some (gs G !! g) -> lives g w -> atom g a -> above (ord a) w -> (forall v, bel a v = false -> ρ v = ρ' v) -> fun_of w ρ = fun_of w ρ'.
Proof.
  intros SG L At Aw H. apply (fun_tail g (ord a)); auto. intros c Ac Lc. apply (val_bel g); auto. intros v B. apply H.
  destruct (bel a v) eqn:Ba; auto. assert (a = c) by (apply (bel_disjoint G r0 RK AO module MOD g a c v); auto). subst c. lia.
Qed.
Lemma module_fun m f ρ : mods !! m = Some f -> xorb f.1 (fun_of f.2 ρ) = val m ρ.
Proof. intros E. destruct (DM m f E) as (_ & _ & V & _). apply (V (fun a => val a ρ)). apply (val_respects G r0 RK). Qed.
Lemma val_extensional a : extensional (val a). Proof. intros ρ ρ' H. apply (val_under G r0 RK). auto. Qed.
Lemma fun_extensional g v : is_Some (gs G !! g) -> lives g v -> extensional (fun_of v).
Proof. intros SG [_ O] ρ ρ' H. apply O. intros a _. apply val_extensional. auto. Qed.

(** The graph of vertices is well founded. *)
Definition depth (g v : Z) : nat := (r0 g * Z.to_nat (Bdd.next_id b) + Z.to_nat v)%nat.
Lemma lives_height : forall g v, is_Some (gs G !! g) -> have g -> lives g v -> height nodes mods is_module (depth g v) v.
Proof.
  enough (H : forall k g v, (depth g v <= k)%nat -> is_Some (gs G !! g) -> have g -> lives g v -> height nodes mods is_module (depth g v) v) by (intros g v; apply (H (depth g v)); auto).
  induction k as [k IH] using lt_wf_ind. intros g v L SG HG LV. destruct (Bdd.terminal v) eqn:Tv; [destruct (depth g v); left; auto|].
  destruct LV as [V O]. destruct V as [->|[n En]]; [discriminate|].
  destruct (lives_node g v n SG (conj (or_intror (ex_intro _ n En)) O) En) as (At & _ & Lh & Ll & _ & _ & Ih & Il).
  pose proof (BddProofs.w_lt _ _ _ W v n En) as LN.
  assert (SUB : forall d w, height nodes mods is_module d w -> (d < depth g v)%nat -> height nodes mods is_module (pred (depth g v)) w).
  { intros d w H Ld. apply (height_le nodes mods is_module d); auto. lia. }
  destruct (depth g v) as [|d] eqn:Ed; [unfold depth in Ed; lia|]. right. exists n. split; auto. cbn [pred] in SUB.
  assert (D1 : (depth g (Bdd.n_high n) < S d)%nat) by (rewrite <- Ed; unfold depth; lia).
  assert (D2 : (depth g (Bdd.n_low n) < S d)%nat) by (rewrite <- Ed; unfold depth; lia).
  split; [apply (SUB (depth g (Bdd.n_high n))); auto; apply (IH (depth g (Bdd.n_high n))); auto; lia|].
  split; [apply (SUB (depth g (Bdd.n_low n))); auto; apply (IH (depth g (Bdd.n_low n))); auto; lia|].
  intros M. destruct (atom_kind G AO module g _ At) as [[_ M']|(SI & _ & _)]; [congruence|]. destruct (HG _ At SI) as [f Ef]. exists f. split; auto.
  destruct (DM _ _ Ef) as [_ D]. pose proof (denotes_lives _ _ _ D) as LF.
  assert (D3 : (depth (Bdd.n_index n) f.2 < S d)%nat).
  { rewrite <- Ed. unfold depth. pose proof (atom_rank G r0 RK module g _ At SI) as R.
    assert (f.2 < Bdd.next_id b) by (pose proof (BddProofs.w_next _ _ _ W); destruct LF as [[E1|[n' E']] _]; [lia|apply (BddProofs.w_lt _ _ _ W _ _ E')]).
    assert (P : (S (r0 (Bdd.n_index n)) * Z.to_nat (Bdd.next_id b) <= r0 g * Z.to_nat (Bdd.next_id b))%nat) by (apply Nat.mul_le_mono_r; lia).
    cbn [Nat.mul] in P. pose proof (BddProofs.w_next _ _ _ W). lia. }
  apply (SUB (depth (Bdd.n_index n) f.2)); auto. apply (IH (depth (Bdd.n_index n) f.2)); auto; lia.
Qed.

(** The vertices of the BDD of a graph whose variables are among vs *)
Context (root : Z) (vs : list Z) (ND : NoDup vs).
Definition dom (v : Z) : Prop := exists g, is_Some (gs G !! g) /\ have g /\ lives g v /\ (forall u, var g u -> In u vs) /\ under root g.
Lemma var_atom g a u : atom g a -> var a u -> var g u.
Proof.
  intros At [U N]. split; auto. apply (under_trans G g a u); auto. apply (atom_under G module g a At).
Qed.
Lemma dom_edge v w : dom v -> edge v w -> dom w.
Proof.
  intros (g & SG & HG & L & VS & UR) [Tv (n & En & C)]. destruct (lives_node g v n SG L En) as (At & _ & Lh & Ll & _).
  destruct C as [->|[->|(M & f & Ef & ->)]]; [exists g; auto 6|exists g; auto 6|].
  destruct (DM _ _ Ef) as [S D]. exists (Bdd.n_index n). split; auto. split; [apply HM; eauto|]. split; [eapply denotes_lives; eauto|].
  split; [intros u U; apply VS; apply (var_atom g (Bdd.n_index n)); auto|].
  apply (under_trans G root g); auto. apply (atom_under G module g _ At).
Qed.

(** *** Probability *)
Context (p_vars : Z -> R).
Notation E F := (expect p_vars vs (fun ρ => b2r (F ρ))).
Definition Val (v : Z) (x : R) : Prop := x = E (fun_of v).
Lemma fun_terminal v ρ : Bdd.terminal v = true -> fun_of v ρ = true.
Proof.
  intros Tv. unfold fun_of, BddProofs.eval. destruct (Z.to_nat v) as [|k]; auto. cbn [BddProofs.evf]. destruct (nodes !! v) as [n|] eqn:En; auto.
  apply (BddProofs.w_store _ _ _ W) in En as (L & _). unfold Bdd.terminal in Tv. apply Z.ltb_lt in Tv. lia.
Qed.
Lemma Val_one v : Bdd.terminal v = true -> Val v (one Rarith).
Proof.
  intros Tv. unfold Val. rewrite (expect_ext p_vars vs _ (fun _ => 1%R)) by (intros ρ; rewrite fun_terminal; auto). rewrite expect_const. auto.
Qed.
Lemma E_complement c (F : (Z -> bool) -> bool) : complement Rarith c (E F) = E (fun ρ => xorb c (F ρ)).
Proof.
  unfold complement. destruct c; cbn [xorb]; [|apply expect_ext; intros ρ; destruct (F ρ); auto].
  cbn [sub one Rarith]. rewrite <- (expect_neg p_vars vs F). apply expect_ext. intros ρ. destruct (F ρ); auto.
Qed.
Lemma Val_atom g v n pv : is_Some (gs G !! g) -> lives g v -> (forall u, var g u -> In u vs) -> nodes !! v = Some n ->
  (if is_module (Bdd.n_index n) then exists f x, mods !! Bdd.n_index n = Some f /\ Val f.2 x /\ pv = complement Rarith f.1 x else pv = p_vars (Bdd.n_index n)) ->
  pv = E (val (Bdd.n_index n)).
Proof.
  intros SG L VS En PV. destruct (lives_node g v n SG L En) as (At & _). destruct (is_module (Bdd.n_index n)) eqn:M.
  - destruct PV as (f & x & Ef & -> & ->). rewrite E_complement. apply expect_ext. intros ρ. rewrite (module_fun _ _ ρ Ef). auto.
  - subst pv. destruct (atom_kind G AO module g _ At) as [[N _]|(_ & _ & I)]; [|congruence].
    rewrite <- (expect_var p_vars (Bdd.n_index n) vs); auto.
    + apply expect_ext. intros ρ. rewrite (val_var G r0) by auto. auto.
    + apply VS. split; auto. apply (atom_under G module g _ At).
Qed.
Lemma Val_node v n pv h l : dom v -> Bdd.terminal v = false -> nodes !! v = Some n ->
  (if is_module (Bdd.n_index n) then exists f x, mods !! Bdd.n_index n = Some f /\ Val f.2 x /\ pv = complement Rarith f.1 x else pv = p_vars (Bdd.n_index n)) ->
  Val (Bdd.n_high n) h -> Val (Bdd.n_low n) l ->
  Val v (add Rarith (mul Rarith pv h) (mul Rarith (sub Rarith (one Rarith) pv) (complement Rarith (Bdd.n_ce n) l))).
Proof.
  intros (g & SG & HG & L & VS & UR) Tv En PV Hh Hl. pose proof (Val_atom g v n pv SG L VS En PV) as ->. destruct (lives_node g v n SG L En) as (At & _ & Lh & Ll & Ah & Al & _).
  unfold Val in *. subst h l. rewrite E_complement. cbn [add mul sub one Rarith].
  transitivity (E (fun ρ => if val (Bdd.n_index n) ρ then fun_of (Bdd.n_high n) ρ else xorb (Bdd.n_ce n) (fun_of (Bdd.n_low n) ρ)));
    [symmetry|apply expect_ext; intros ρ; rewrite (fun_node v n) by auto; auto].
  apply (expect_ite p_vars (bel (Bdd.n_index n)) vs (val (Bdd.n_index n)) (fun_of (Bdd.n_high n)) (fun ρ => xorb (Bdd.n_ce n) (fun_of (Bdd.n_low n) ρ))).
  - intros ρ ρ' H. apply (val_bel g); auto.
  - intros ρ ρ' H. apply (fun_other g _ (Bdd.n_index n)); auto.
  - intros ρ ρ' H. f_equal. apply (fun_other g _ (Bdd.n_index n)); auto.
Qed.

(** *** Derivatives *)
(** A module comes after what is below it, and nothing else comes in between. *)
Context (ABOVE : forall m v, under root m -> is_Some (gs G !! m) -> module m = true -> under m v -> v <> m -> ord v < ord m).
Context (BLOCK : forall m v u, under root m -> is_Some (gs G !! m) -> module m = true -> under root u -> under m v -> ~ under m u -> ord v < ord u -> ord m < ord u).
Context (x : Z) (NX : gs G !! x = None).
Notation D F := (derivative p_vars vs x F).
Definition ValF (v : Z) (y : R) : Prop := y = D (fun_of v).
Lemma ValF_one v : Bdd.terminal v = true -> ValF v (zero Rarith).
Proof. intros Tv. unfold ValF. symmetry. apply derivative_none. intros ρ c. rewrite !fun_terminal by auto. auto. Qed.
Lemma D_complement c (F : (Z -> bool) -> bool) : negate Rarith c (D F) = D (fun ρ => xorb c (F ρ)).
Proof.
  unfold negate. destruct c.
  - cbn [opp Rarith]. rewrite <- derivative_neg. apply derivative_ext. intros ρ. destruct (F ρ); auto.
  - apply derivative_ext. intros ρ. destruct (F ρ); auto.
Qed.
Lemma atom_module g a : atom g a -> bel a x = true -> a <> x -> is_Some (gs G !! a) /\ module a = true /\ under a x.
Proof.
  intros At B N. pose proof (atom_pos G AO module g a At) as P. destruct (atom_kind G AO module g a At) as [[Na M]|(S & M & I)].
  - unfold ZbddModulesProofs.bel in B. rewrite M in B. apply Z.eqb_eq in B. congruence.
  - apply (bel_module G r0 RK module) in B; auto. destruct B. auto.
Qed.
(** Nothing after an atom that comes after x contains x. *)
Lemma later g a c : is_Some (gs G !! g) -> under root g -> atom g a -> atom g c -> ord x < ord a -> (ord a < ord c \/ a = c /\ is_module a = false) -> bel c x = false.
Proof.
  intros SG UR Aa Ac L K. destruct (bel c x) eqn:B; auto. exfalso.
  destruct (Z.eq_dec c x) as [->|NC]; [destruct K as [K|[-> _]]; lia|].
  destruct (atom_module g c Ac B NC) as (S & M & U). destruct K as [K|[-> K]].
  - assert (UC : under root c) by (apply (under_trans G root g); auto; apply (atom_under G module g _ Ac)).
    assert (UA : under root a) by (apply (under_trans G root g); auto; apply (atom_under G module g _ Aa)).
    destruct (Z.eq_dec a c) as [->|NE]; [lia|].
    assert (~ under c a) by (intros UCA; apply NE; apply (atom_sep G r0 RK module MOD g a c); auto).
    pose proof (BLOCK c x a UC S M UA U H L). lia.
  - pose proof (atom_pos G AO module g c Ac). destruct (atom_kind G AO module g c Ac) as [[Nc _]|(_ & _ & I)]; [rewrite Nc in S; destruct S; discriminate|congruence].
Qed.
Lemma set_off g w o : is_Some (gs G !! g) -> lives g w -> above o w -> (forall a, atom g a -> o < ord a -> bel a x = false) -> forall ρ c, fun_of w (set ρ x c) = fun_of w ρ.
Proof.
  intros SG L Aw H ρ c. apply (fun_tail g o); auto. intros a At Lo. apply (val_bel g); auto. intros v B. unfold set. destruct (Z.eq_dec v x) as [->|]; auto.
  rewrite (H a At Lo) in B. discriminate.
Qed.
Lemma node_parts v n g : is_Some (gs G !! g) -> lives g v -> nodes !! v = Some n ->
  (forall F ρ ρ', F = val (Bdd.n_index n) -> (forall u, bel (Bdd.n_index n) u = true -> ρ u = ρ' u) -> F ρ = F ρ') /\
  (forall ρ ρ', (forall u, bel (Bdd.n_index n) u = false -> ρ u = ρ' u) -> fun_of (Bdd.n_high n) ρ = fun_of (Bdd.n_high n) ρ') /\
  (forall ρ ρ', (forall u, bel (Bdd.n_index n) u = false -> ρ u = ρ' u) -> xorb (Bdd.n_ce n) (fun_of (Bdd.n_low n) ρ) = xorb (Bdd.n_ce n) (fun_of (Bdd.n_low n) ρ')).
Proof.
  intros SG L En. destruct (lives_node g v n SG L En) as (At & _ & Lh & Ll & Ah & Al & _). split; [|split].
  - intros F ρ ρ' -> H. apply (val_bel g); auto.
  - intros ρ ρ' H. apply (fun_other g _ (Bdd.n_index n)); auto.
  - intros ρ ρ' H. f_equal. apply (fun_other g _ (Bdd.n_index n)); auto.
Qed.
Lemma D_node v n : nodes !! v = Some n ->
  D (fun_of v) = D (fun ρ => if val (Bdd.n_index n) ρ then fun_of (Bdd.n_high n) ρ else xorb (Bdd.n_ce n) (fun_of (Bdd.n_low n) ρ)).
Proof. intros En. apply derivative_ext. intros ρ. apply fun_node. auto. Qed.
Lemma ValF_later v n : dom v -> Bdd.terminal v = false -> nodes !! v = Some n -> ord x < Bdd.n_order n -> is_module (Bdd.n_index n) = false -> ValF v (zero Rarith).
Proof.
  intros (g & SG & HG & L & VS & UR) Tv En LT M. destruct (lives_node g v n SG L En) as (At & Eo & Lh & Ll & Ah & Al & _). rewrite Eo in LT.
  unfold ValF. symmetry. apply derivative_none. apply (set_off g v (ord (Bdd.n_index n) - 1)); auto.
  - right. exists n. split; auto. lia.
  - intros a Aa La. apply (later g (Bdd.n_index n) a); auto. destruct (Z.eq_dec (ord (Bdd.n_index n)) (ord a)) as [Eq|NE]; [right; split; auto|left; lia].
Qed.
Lemma ValF_module v n f h l y : dom v -> Bdd.terminal v = false -> nodes !! v = Some n -> ord x < Bdd.n_order n -> is_module (Bdd.n_index n) = true ->
  mods !! Bdd.n_index n = Some f -> Val (Bdd.n_high n) h -> Val (Bdd.n_low n) l -> ValF f.2 y ->
  ValF v (mul Rarith (sub Rarith h (complement Rarith (Bdd.n_ce n) l)) (negate Rarith f.1 y)).
Proof.
  intros (g & SG & HG & L & VS & UR) Tv En LT M Ef Hh Hl Hy. destruct (lives_node g v n SG L En) as (At & Eo & Lh & Ll & Ah & Al & _). rewrite Eo in LT.
  unfold Val, ValF in *. subst h l y. rewrite E_complement, D_complement. rewrite (derivative_ext p_vars vs x (fun ρ => xorb f.1 (fun_of f.2 ρ)) (val (Bdd.n_index n))) by (intros ρ; apply module_fun; auto).
  rewrite (D_node v n En). cbn [mul sub Rarith]. destruct (node_parts v n g SG L En) as (P1 & P2 & P3).
  destruct (bel (Bdd.n_index n) x) eqn:B.
  - symmetry. apply (derivative_chooser p_vars vs x (bel (Bdd.n_index n)) (val (Bdd.n_index n)) (fun_of (Bdd.n_high n)) (fun ρ => xorb (Bdd.n_ce n) (fun_of (Bdd.n_low n) ρ))); auto.
  - assert (OFF : forall w ρ c, lives g w -> above (ord (Bdd.n_index n)) w -> fun_of w (set ρ x c) = fun_of w ρ).
    { intros w ρ c Lw Aw. apply (set_off g w (ord (Bdd.n_index n))); auto. intros a Aa La. apply (later g (Bdd.n_index n) a); auto. }
    assert (VOFF : forall ρ c, val (Bdd.n_index n) (set ρ x c) = val (Bdd.n_index n) ρ).
    { intros ρ c. apply (P1 (val (Bdd.n_index n))); auto. intros u U. unfold set. destruct (Z.eq_dec u x); [congruence|auto]. }
    rewrite (derivative_none p_vars vs x (val (Bdd.n_index n)) VOFF). rewrite derivative_none; [ring|]. intros ρ c. rewrite VOFF, !OFF by auto. auto.
Qed.
Lemma ValF_self v n h l : dom v -> Bdd.terminal v = false -> nodes !! v = Some n -> Bdd.n_order n = ord x ->
  Val (Bdd.n_high n) h -> Val (Bdd.n_low n) l -> is_module (Bdd.n_index n) = false /\ ValF v (sub Rarith h (complement Rarith (Bdd.n_ce n) l)).
Proof.
  intros (g & SG & HG & L & VS & UR) Tv En EQ Hh Hl. destruct (lives_node g v n SG L En) as (At & Eo & Lh & Ll & Ah & Al & _). rewrite Eo in EQ. apply ord_inj in EQ.
  assert (M : is_module (Bdd.n_index n) = false).
  { destruct (atom_kind G AO module g _ At) as [[_ M]|(S & _ & _)]; auto. rewrite EQ in S. rewrite NX in S. destruct S; discriminate. }
  split; auto. unfold Val, ValF in *. subst h l. rewrite E_complement, (D_node v n En). destruct (node_parts v n g SG L En) as (P1 & P2 & P3).
  assert (VX : forall ρ, val (Bdd.n_index n) ρ = ρ x) by (intros ρ; rewrite EQ; apply (val_var G r0); auto).
  rewrite (derivative_chooser p_vars vs x (bel (Bdd.n_index n)) (val (Bdd.n_index n)) (fun_of (Bdd.n_high n)) (fun ρ => xorb (Bdd.n_ce n) (fun_of (Bdd.n_low n) ρ))); auto.
  - rewrite (derivative_ext p_vars vs x (val (Bdd.n_index n)) (fun ρ => ρ x) VX), derivative_var. cbn [sub Rarith]. ring.
  - unfold ZbddModulesProofs.bel. rewrite M. apply Z.eqb_eq. auto.
Qed.
Lemma ValF_before v n pv h l : dom v -> Bdd.terminal v = false -> nodes !! v = Some n -> Bdd.n_order n < ord x ->
  (if is_module (Bdd.n_index n) then exists f y, mods !! Bdd.n_index n = Some f /\ Val f.2 y /\ pv = complement Rarith f.1 y else pv = p_vars (Bdd.n_index n)) ->
  ValF (Bdd.n_high n) h -> ValF (Bdd.n_low n) l ->
  ValF v (add Rarith (mul Rarith pv h) (mul Rarith (sub Rarith (one Rarith) pv) (negate Rarith (Bdd.n_ce n) l))).
Proof.
  intros (g & SG & HG & L & VS & UR) Tv En LT PV Hh Hl. pose proof (Val_atom g v n pv SG L VS En PV) as ->.
  destruct (lives_node g v n SG L En) as (At & Eo & Lh & Ll & Ah & Al & _). rewrite Eo in LT.
  unfold ValF in *. subst h l. rewrite D_complement, (D_node v n En). destruct (node_parts v n g SG L En) as (P1 & P2 & P3). cbn [add mul sub one Rarith]. symmetry.
  apply (derivative_branches p_vars vs x (bel (Bdd.n_index n)) (val (Bdd.n_index n)) (fun_of (Bdd.n_high n)) (fun ρ => xorb (Bdd.n_ce n) (fun_of (Bdd.n_low n) ρ))); auto.
  - destruct (bel (Bdd.n_index n) x) eqn:B; auto. destruct (Z.eq_dec (Bdd.n_index n) x) as [EX|NE]; [rewrite EX in LT; lia|].
    destruct (atom_module g _ At B NE) as (S & M & U). pose proof (ABOVE (Bdd.n_index n) x) as K.
    assert (ord x < ord (Bdd.n_index n)); [|lia]. apply K; auto. apply (under_trans G root g); auto. apply (atom_under G module g _ At).
Qed.
End Graph.
