(** Propagation of complements: the invariant. *)
From stdpp Require Import gmap.
From Coq Require Import Lia Permutation List.
From Verif Require Import Pdag PdagProofs PdagAdd PdagSem PdagKeeps Complement.
Open Scope Z_scope.

Lemma negate_gate_spec g G x t : gs G !! g = Some x -> dual (g_type x) = Some t ->
  exists G', negate_gate g G = Some G' /\ gs G' = <[g := Gate t (g_min x) (rev (map Z.opp (g_args x)))]> (gs G) /\ nxt G' = nxt G.
Proof.
  intros E D. unfold negate_gate. rewrite E. cbn [mbind option_bind]. rewrite D. cbn [mbind option_bind]. unfold set_type. rewrite E. cbn [mbind option_bind]. unfold negate_args. cbn [gs]. rewrite lookup_insert. cbn [mbind option_bind].
  eexists. split; [reflexivity|]. unfold put, with_args. cbn [gs g_type g_min g_args nxt]. rewrite insert_insert. auto.
Qed.
Lemma args_ok_neg n l : args_ok n l -> args_ok n (rev (map Z.opp l)).
Proof.
  intros [A B]. split; [apply NoDup_rev, FinFun.Injective_map_NoDup; auto; intros x y; lia|].
  intros a Ha. rewrite <- in_rev in *. apply in_map_iff in Ha as (b & <- & Hb). destruct (B b Hb) as (? & ? & N). split; [lia|]. split; [lia|]. rewrite in_map_iff. intros (c & Ec & Hc). apply N. replace (- b) with c by lia. auto.
Qed.
Lemma in_neg a l : In a (rev (map Z.opp l)) <-> In (- a) l.
Proof. rewrite <- in_rev, in_map_iff. split; [intros (b & <- & H); now rewrite Z.opp_involutive|intros H; exists (- a); split; auto; lia]. Qed.

(** Membership in unions. *)
Lemma in_more (a : Z) (X Y : gset Z) : a ∈ Y -> a ∈ X ∪ Y. Proof. intros H. apply elem_of_union. auto. Qed.
Lemma in_one (a : Z) (Y : gset Z) : a ∈ ({[a]} : gset Z) ∪ Y. Proof. apply elem_of_union. left. apply elem_of_singleton. auto. Qed.
Lemma notin_more (a b : Z) (Y : gset Z) : a <> b -> a ∉ Y -> a ∉ ({[b]} : gset Z) ∪ Y. Proof. intros N H J. apply elem_of_union in J as [J|J]; auto. apply elem_of_singleton in J. auto. Qed.
Ltac elt := first [assumption | apply in_one | apply in_more; assumption | apply notin_more; assumption | intuition auto].

Section Run.
Context (G0 : graph) (root : Z) (r0 : Z -> nat) (W0 : wf G0) (R0 : ranked G0 r0).
Notation reached := (in_memory root G0 ∅).
(** The gates below the root: AND and OR, a NULL gate only at the root, no constants. *)
Definition tidy : Prop :=
  is_Some (gs G0 !! root) /\
  forall i x, reached i -> gs G0 !! i = Some x ->
    (g_type x = kAnd \/ g_type x = kOr \/ i = root /\ g_type x = kNull /\ length (g_args x) = 1%nat) /\ 0 <= g_min x /\ constant x = false.
Context (T0 : tidy).

Notation holds := (parent).
(** Ghost state: the gate of the initial graph a gate comes from, whether it is its complement, and
    the replacements that are due. *)
Notation pendings := (gmap (Z * Z) Z).
Definition signed (b : bool) (n : Z) : Z := if b then - n else n.
Definition slit (o : Z -> Z) (s : Z -> bool) (a : Z) : Z := signed (xorb (a <? 0) (s (Z.abs a))) (o (Z.abs a)).
Definition eff (o : Z -> Z) (s : Z -> bool) (pend : pendings) (p a : Z) : Z :=
  match pend !! (p, a) with Some c => slit o s c | None => slit o s a end.
Definition tflip (b : bool) (t : conn) : conn := if b then match t with kAnd => kOr | kOr => kAnd | t => t end else t.

Record inv (G : graph) (M : gset Z) (C : gmap Z Z) (K : gset Z) (pend : pendings) (o : Z -> Z) (s : Z -> bool) : Prop := {
  v_wf : wf G;
  v_rank : ranked G (fun j => r0 (o j));
  v_root : is_Some (gs G !! root) /\ o root = root;
  v_vars : forall j, 0 < j < nxt G -> gs G !! j = None -> j < nxt G0 /\ gs G0 !! j = None /\ o j = j /\ s j = false;
  v_struct : forall i x, in_memory root G C i -> gs G !! i = Some x -> exists y, gs G0 !! o i = Some y /\ reached (o i) /\
    g_type x = tflip (s i) (g_type y) /\ g_min x = g_min y /\ Permutation (map (eff o s pend i) (g_args x)) (map (fun a => signed (s i) a) (g_args y));
  v_marks : forall i, i ∈ M -> is_Some (gs G !! i) /\ (r0 (o i) <= r0 root)%nat /\
    (i = root \/ (exists p x, p ∈ M /\ gs G !! p = Some x /\ In i (g_args x)) \/ exists p a, pend !! (p, a) = Some i);
  v_pend : forall p a c, pend !! (p, a) = Some c -> p ∈ K /\ p ∈ M /\ a < 0 /\ (exists x, gs G !! p = Some x /\ In a (g_args x)) /\ is_Some (gs G !! (- a)) /\
    c ∈ M /\ o c = o (- a) /\ (c = - a \/ exists g, C !! g = Some c);
  v_comps : forall g c, C !! g = Some c -> c ∈ M /\ is_Some (gs G !! g) /\ o c = o g /\ s c = negb (s g) /\
    ((forall p, ~ holds G p c) \/ exists p x, p ∈ M /\ gs G !! p = Some x /\ In c (g_args x));
  v_done : forall p x a, p ∈ M -> p ∉ K -> gs G !! p = Some x -> In a (g_args x) -> is_Some (gs G !! Z.abs a) -> 0 < a /\ a ∈ M }.

Section Facts.
Context (G : graph) (M : gset Z) (C : gmap Z Z) (K : gset Z) (pend : pendings) (o : Z -> Z) (s : Z -> bool).
Context (I : inv G M C K pend o s).
Lemma abs_gate j : is_Some (gs G !! j) -> Z.abs j = j /\ 1 < j < nxt G.
Proof. intros [x E]. apply (v_wf _ _ _ _ _ _ _ I) in E. lia. Qed.
Lemma comp_gate g c : C !! g = Some c -> is_Some (gs G !! c).
Proof. intros E. apply (v_comps _ _ _ _ _ _ _ I) in E as [E _]. apply (v_marks _ _ _ _ _ _ _ I c E). Qed.
Lemma marked_in_memory i : i ∈ M -> in_memory root G C i.
Proof.
  assert (X : forall n i, (r0 root - r0 (o i) < n)%nat -> i ∈ M -> in_memory root G C i); [|intros; eapply X; eauto].
  induction n as [|n IH]; intros j L Mj; [lia|]. destruct (v_marks _ _ _ _ _ _ _ I j Mj) as (Sj & Rj & [->|[(p & x & Mp & Ep & Ip)|(p & a & Ep)]]).
  - apply mem_root, (v_root _ _ _ _ _ _ _ I).
  - destruct (abs_gate j Sj) as [Aj _]. assert (Q : (r0 (o j) < r0 (o p))%nat) by (rewrite <- Aj at 1; apply (v_rank _ _ _ _ _ _ _ I p x j); auto; rewrite Aj; auto). destruct (v_marks _ _ _ _ _ _ _ I p Mp) as (_ & Rp & _). rewrite <- Aj. eapply mem_arg; [apply (IH p); auto; lia|eauto|eauto|rewrite Aj; auto].
  - destruct (v_pend _ _ _ _ _ _ _ I p a j Ep) as (_ & Mp & Na & (x & Ex & Ia) & Sa & _ & _ & [->|[g Eg]]); [|eapply mem_comp; eauto].
    assert (Q : (r0 (o (Z.abs a)) < r0 (o p))%nat) by (apply (v_rank _ _ _ _ _ _ _ I p x a); auto; rewrite Z.abs_neq by lia; auto). destruct (v_marks _ _ _ _ _ _ _ I p Mp) as (_ & Rp & _). rewrite Z.abs_neq in Q by lia.
    replace (- a) with (Z.abs a) by lia. eapply mem_arg; [apply (IH p); auto; lia|eauto|eauto|rewrite Z.abs_neq by lia; auto].
Qed.
Lemma slit_abs a : o (Z.abs a) <> 0 -> Z.abs (slit o s a) = Z.abs (o (Z.abs a)).
Proof. intros _. unfold slit, signed. destruct (xorb _ _); lia. Qed.
Lemma eff_abs p x a : gs G !! p = Some x -> In a (g_args x) -> Z.abs (eff o s pend p a) = Z.abs (o (Z.abs a)).
Proof.
  intros Ex Ia. unfold eff. destruct (pend !! (p, a)) as [c|] eqn:E; [|unfold slit, signed; destruct (xorb _ _); lia].
  destruct (v_pend _ _ _ _ _ _ _ I p a c E) as (_ & _ & Na & _ & _ & Mc & Oc & _). destruct (v_marks _ _ _ _ _ _ _ I c Mc) as (Sc & _). destruct (abs_gate c Sc) as [Ac _]. unfold slit, signed. rewrite Ac, Oc. rewrite (Z.abs_neq a) by lia. destruct (xorb _ _); lia.
Qed.
(** The arguments of a gate come from different nodes. *)
Lemma distinct p x a b : in_memory root G C p -> gs G !! p = Some x -> In a (g_args x) -> In b (g_args x) -> o (Z.abs a) = o (Z.abs b) -> a = b.
Proof.
  intros Ap Ex Ia Ib Q. destruct (v_struct _ _ _ _ _ _ _ I p x Ap Ex) as (y & Ey & _ & _ & _ & P).
  assert (ND : List.NoDup (map Z.abs (map (eff o s pend p) (g_args x)))).
  { rewrite P. rewrite map_map. rewrite (map_ext _ Z.abs) by (intros c; unfold signed; destruct (s p); lia). destruct (proj2 W0 _ _ Ey) as [_ [N1 N2]].
    clear - N1 N2. induction (g_args y) as [|c l IH]; cbn; [constructor|]. inversion N1; subst. constructor; [|apply IH; auto; intros d Hd; destruct (N2 d (or_intror Hd)) as (? & ? & N); repeat split; auto; intros Q; apply N; right; auto].
    intros J. apply in_map_iff in J as (d & Ed & Hd). destruct (N2 c (or_introl eq_refl)) as (_ & _ & N). assert (d = c \/ d = - c) as [->| ->] by lia; auto. apply N. right. auto. }
  rewrite map_map in ND. clear P. pose proof (fun c => eff_abs p x c Ex) as EA. clear Ex. induction (g_args x) as [|c l IH]; [destruct Ia|]. cbn in ND. inversion ND as [|? ? N1 N2]; subst.
  destruct Ia as [->|Ia], Ib as [->|Ib]; auto.
  - elim N1. apply in_map_iff. exists b. split; auto. rewrite !EA by (cbn; auto). congruence.
  - elim N1. apply in_map_iff. exists a. split; auto. rewrite !EA by (cbn; auto). congruence.
  - apply IH; auto. intros d Hd. apply EA. right. auto.
Qed.
Lemma mem_type i x : in_memory root G C i -> gs G !! i = Some x ->
  (g_type x = kAnd \/ g_type x = kOr \/ o i = root /\ g_type x = kNull /\ length (g_args x) = 1%nat) /\ 0 <= g_min x /\ constant x = false.
Proof.
  intros A Ey. destruct (v_struct _ _ _ _ _ _ _ I _ _ A Ey) as (z & Ez & Az & Tz & Mz & Pz). destruct (proj2 T0 _ _ Az Ez) as (TT & MM & CC). split; [|split; [lia|]].
  - rewrite Tz. destruct TT as [->|[->|(? & -> & L)]]; [destruct (s _); cbn; auto|destruct (s _); cbn; auto|right; right]. split; auto. split; [destruct (s i); auto|]. apply Permutation_length in Pz. rewrite !map_length in Pz. congruence.
  - apply not_true_iff_false. intros CY. apply not_true_iff_false in CC. apply CC. unfold constant in *. apply orb_true_iff in CY. rewrite !has_In in CY.
    assert (X : exists b, In b (g_args x) /\ Z.abs b = 1) by (destruct CY; eexists; split; eauto). destruct X as (b & Ib & Ab). apply orb_true_iff. rewrite !has_In.
    assert (Nb : gs G !! 1 = None) by (destruct (gs G !! 1) eqn:E1; auto; apply (v_wf _ _ _ _ _ _ _ I) in E1; lia). destruct (v_vars _ _ _ _ _ _ _ I 1) as (_ & _ & O1 & _); [pose proof (proj1 (v_wf _ _ _ _ _ _ _ I)); lia|auto|].
    pose proof (eff_abs _ _ b Ey Ib) as EA. rewrite Ab, O1 in EA. assert (J : In (eff o s pend i b) (map (fun a0 => signed (s i) a0) (g_args z))) by (rewrite <- Pz; apply in_map; auto). apply in_map_iff in J as (d & Ed & Id). rewrite <- Ed in EA. unfold signed in EA. assert (d = 1 \/ d = -1) as [->| ->] by (destruct (s i); lia); auto.
Qed.
(** A gate argument below a marked gate is AND or OR. *)
Lemma arg_type p x a y : p ∈ M -> gs G !! p = Some x -> In a (g_args x) -> gs G !! Z.abs a = Some y ->
  (g_type y = kAnd \/ g_type y = kOr) /\ in_memory root G C (Z.abs a) /\ (r0 (o (Z.abs a)) < r0 (o p))%nat /\ (r0 (o (Z.abs a)) < r0 root)%nat /\ constant y = false.
Proof.
  intros Mp Ex Ia Ey. destruct (v_marks _ _ _ _ _ _ _ I p Mp) as (_ & Rp & _). pose proof (v_rank _ _ _ _ _ _ _ I p x a Ex Ia ltac:(eauto)) as Q. cbn beta in Q.
  assert (A : in_memory root G C (Z.abs a)) by (apply (mem_arg root G C p x a); [apply marked_in_memory; auto|auto|auto|eauto]). destruct (mem_type _ _ A Ey) as (TT & MM & CC).
  split; [destruct TT as [?|[?|[E _]]]; auto; rewrite E in Q; lia|]. split; [auto|]. split; [auto|]. split; [lia|auto].
Qed.
End Facts.

(** ** Steps *)
Lemma init_ok : inv G0 {[root]} ∅ {[root]} ∅ (fun j => j) (fun _ => false).
Proof.
  constructor; auto.
  - split; auto. apply T0.
  - intros j Hj N. repeat split; auto. lia.
  - intros i x A E. exists x. repeat split; auto. replace (map (eff (fun j => j) (fun _ => false) ∅ i) (g_args x)) with (map (fun a => signed false a) (g_args x)); auto. apply map_ext. intros a. unfold eff. rewrite lookup_empty. unfold slit, signed. rewrite xorb_false_r. destruct (Z.ltb_spec a 0); lia.
  - intros i J. apply elem_of_singleton in J as ->. split; [apply T0|]. split; [lia|auto].
  - intros p a c E. rewrite lookup_empty in E. discriminate.
  - intros g c E. rewrite lookup_empty in E. discriminate.
  - intros p x a J N. apply elem_of_singleton in J as ->. elim N. apply elem_of_singleton. auto.
Qed.
Lemma visit_ok G M C K pend o s p x i : inv G M C K pend o s -> p ∈ M -> gs G !! p = Some x -> In i (g_args x) -> is_Some (gs G !! i) -> inv G ({[i]} ∪ M) C ({[i]} ∪ K) pend o s.
Proof.
  intros I Mp Ex Ii Si. destruct (abs_gate _ _ _ _ _ _ _ I i Si) as [Ai _]. pose proof I as [a b c d e f g h k]. constructor; auto.
  - intros j J. apply elem_of_union in J as [J|J].
    + apply elem_of_singleton in J as ->. split; auto. split; [|right; left; exists p, x; repeat split; auto; elt]. destruct (f p Mp) as (_ & Rp & _). pose proof (b p x i Ex Ii) as Q. cbn beta in Q. rewrite Ai in Q. specialize (Q Si). lia.
    + destruct (f j J) as (A1 & A2 & [->|[(q & y & Mq & Eq & Iq)|A3]]); repeat split; auto. right. left. exists q, y. repeat split; auto. elt.
  - intros q a' c' E. destruct (g q a' c' E) as (A1 & A2 & A3 & A4 & A5 & A6 & A7). repeat split; auto; elt.
  - intros q c' E. destruct (h q c' E) as (A1 & A2 & A3 & A4 & A5). repeat split; auto; [elt|]. destruct A5 as [A5|(u & y & A5 & A6)]; auto. right. exists u, y. split; auto. elt.
  - intros q y a' Jq Nq Eq Ia Sa. apply not_elem_of_union in Nq as [N1 N2]. apply elem_of_union in Jq as [Jq|Jq]; [tauto|]. destruct (k q y a' Jq N2 Eq Ia Sa). split; auto. elt.
Qed.
Lemma finish_ok G M C K pend o s p x : inv G M C ({[p]} ∪ K) pend o s -> gs G !! p = Some x -> (forall a, pend !! (p, a) = None) -> (forall a, In a (g_args x) -> is_Some (gs G !! Z.abs a) -> 0 < a /\ a ∈ M) -> inv G M C K pend o s.
Proof.
  intros [a b c d e f g h k] Ex NP FN. constructor; auto.
  - intros q a' c' E. destruct (g q a' c' E) as (A1 & A2). split; auto. apply elem_of_union in A1 as [A1|]; auto. apply elem_of_singleton in A1 as ->. congruence.
  - intros q y a' Jq Nq Eq Ia Sa. destruct (decide (q = p)) as [->|N]; [rewrite Ex in Eq; injection Eq as <-; auto|]. apply (k q y a'); auto. elt.
Qed.
Lemma slit_neg o s g : 0 < g -> slit o s (- g) = signed (negb (s g)) (o g).
Proof. intros L. unfold slit. rewrite Z.abs_neq by lia. rewrite Z.opp_involutive. destruct (Z.ltb_spec (- g) 0); [|lia]. auto. Qed.
Lemma slit_pos o s g : 0 < g -> slit o s g = signed (s g) (o g).
Proof. intros L. unfold slit. rewrite Z.abs_eq by lia. destruct (Z.ltb_spec g 0); [lia|]. destruct (s g); auto. Qed.
Lemma known_ok G M C K pend o s p x g c : inv G M C K pend o s -> p ∈ M -> p ∈ K -> gs G !! p = Some x -> In (- g) (g_args x) -> 0 < g -> C !! g = Some c -> pend !! (p, - g) = None ->
  c ∈ M /\ inv G M C K (<[(p, - g) := c]> pend) o s.
Proof.
  intros I Mp Kp Ex Ig Lg Ec NP. pose proof (comp_gate _ _ _ _ _ _ _ I g c Ec) as Sc. destruct (abs_gate _ _ _ _ _ _ _ I c Sc) as [Ac Lc]. pose proof I as [a b d e f m q h k]. destruct (h g c Ec) as (Mc & Sg & Oc & Scg & HO). split; auto. constructor; auto.
  - intros i y A E. destruct (f i y A E) as (z & ? & ? & ? & ? & P). exists z. repeat split; auto. rewrite <- P. replace (map (eff o s (<[(p, - g) := c]> pend) i) (g_args y)) with (map (eff o s pend i) (g_args y)); auto. apply map_ext_in. intros a' Ia. unfold eff. destruct (decide ((p, - g) = (i, a'))) as [Q|N]; [|rewrite lookup_insert_ne by auto; auto]. injection Q as <- <-. rewrite lookup_insert, NP. rewrite slit_neg, slit_pos by lia. congruence.
  - intros i J. destruct (m i J) as (A1 & A2 & A3). repeat split; auto. destruct A3 as [|[|(u & v & A3)]]; auto. right. right. exists u, v. rewrite lookup_insert_ne; auto. congruence.
  - intros u v c' E. destruct (decide ((p, - g) = (u, v))) as [Q|N]; [|rewrite lookup_insert_ne in E by auto; auto]. injection Q as <- <-. rewrite lookup_insert in E. injection E as <-. split; [auto|]. split; [auto|]. split; [lia|]. split; [eauto|]. rewrite Z.opp_involutive. split; [auto|]. split; [auto|]. split; [auto|eauto].
Qed.

Lemma dual_flip b t u t' : t = tflip b u -> dual t = Some t' -> t' = tflip (negb b) u.
Proof. intros -> D. destruct b, u; cbn in *; congruence. Qed.
Lemma flip_args (f f' : Z -> Z) b l l0 : Permutation (map f l) (map (fun a => signed b a) l0) -> (forall a, In a l -> f' (- a) = - f a) ->
  Permutation (map f' (rev (map Z.opp l))) (map (fun a => signed (negb b) a) l0).
Proof.
  intros P Q. rewrite <- Permutation_rev, map_map. replace (map (fun a => f' (- a)) l) with (map Z.opp (map f l)) by (rewrite map_map; apply map_ext_in; intros a Ia; symmetry; auto).
  rewrite P, map_map. replace (map (fun a => - signed b a) l0) with (map (fun a => signed (negb b) a) l0); auto. apply map_ext. intros a. unfold signed. destruct b; cbn; lia.
Qed.
Lemma slit_opp o s a : a <> 0 -> slit o s (- a) = - slit o s a.
Proof. intros N. unfold slit. rewrite Z.abs_opp. destruct (Z.ltb_spec a 0), (Z.ltb_spec (- a) 0); try lia; destruct (s (Z.abs a)); cbn; lia. Qed.

Lemma flip_ok G M C K pend o s p x g y t G' : inv G M C K pend o s -> p ∈ M -> p ∈ K -> gs G !! p = Some x -> In (- g) (g_args x) -> 0 < g -> gs G !! g = Some y -> C !! g = None -> pend !! (p, - g) = None ->
  (forall q, in_memory root G C q -> holds G q g -> q = p) -> dual (g_type y) = Some t ->
  gs G' = <[g := Gate t (g_min y) (rev (map Z.opp (g_args y)))]> (gs G) -> nxt G' = nxt G ->
  g ∉ M /\ inv G' ({[g]} ∪ M) C ({[g]} ∪ K) (<[(p, - g) := g]> pend) o (fun j => if j =? g then negb (s j) else s j).
Proof.
  intros I Mp Kp Ex Ig Lg Ey Ec NP UQ DU EG' NG'. assert (AG : Z.abs (- g) = g) by lia.
  pose proof (marked_in_memory _ _ _ _ _ _ _ I p Mp) as Ap. destruct (arg_type _ _ _ _ _ _ _ I p x (- g) y Mp Ex Ig ltac:(rewrite AG; auto)) as (Ty & Ag & Rg & Rr & Cy). rewrite AG in Ag, Rg, Rr.
  assert (NPG : p <> g) by (intros ->; lia).
  assert (GM : g ∉ M).
  { intros J. destruct (v_marks _ _ _ _ _ _ _ I g J) as (_ & _ & [->|[(q & z & Mq & Eq & Iq)|(q & a & Eq)]]); [rewrite (proj2 (v_root _ _ _ _ _ _ _ I)) in Rr; lia| |].
    - assert (q = p) as -> by (apply UQ; [eapply marked_in_memory; eauto|exists z; auto]). rewrite Ex in Eq. injection Eq as <-. assert (g = - g); [|lia]. apply (distinct _ _ _ _ _ _ _ I p x); auto. f_equal. lia.
    - destruct (v_pend _ _ _ _ _ _ _ I q a g Eq) as (_ & Mq & Na & (z & Ez & Ia) & _ & _ & _ & [->|[g0 E0]]).
      + assert (q = p) as -> by (apply UQ; [eapply marked_in_memory; eauto|exists z; split; auto; rewrite Z.opp_involutive; auto]). rewrite Z.opp_involutive in NP. congruence.
      + destruct (v_comps _ _ _ _ _ _ _ I g0 g E0) as (_ & _ & _ & _ & [NH|(u & w & Mu & Eu & Iu)]); [apply (NH p); exists x; auto|].
        assert (u = p) as -> by (apply UQ; [eapply marked_in_memory; eauto|exists w; auto]). rewrite Ex in Eu. injection Eu as <-. assert (g = - g); [|lia]. apply (distinct _ _ _ _ _ _ _ I p x); auto. f_equal. lia. }
  split; auto. pose proof I as [iw ir irt iv ist im ip ic idn].
  assert (SM : forall j, is_Some (gs G' !! j) <-> is_Some (gs G !! j)) by (intros j; rewrite EG'; destruct (decide (g = j)) as [<-|N]; [rewrite lookup_insert, Ey; split; eauto|rewrite lookup_insert_ne by auto; tauto]).
  assert (OT : forall j, j <> g -> gs G' !! j = gs G !! j) by (intros j N; rewrite EG', lookup_insert_ne; auto).
  assert (GG : gs G' !! g = Some (Gate t (g_min y) (rev (map Z.opp (g_args y))))) by (rewrite EG', lookup_insert; auto).
  assert (AR : forall j z a, gs G' !! j = Some z -> In a (g_args z) -> exists z0 a0, gs G !! j = Some z0 /\ In a0 (g_args z0) /\ Z.abs a0 = Z.abs a /\ (j = g -> a0 = - a) /\ (j <> g -> a0 = a /\ z0 = z)).
  { intros j z a Ej Ia. destruct (decide (j = g)) as [->|N].
    - rewrite GG in Ej. injection Ej as <-. cbn in Ia. apply in_neg in Ia. exists y, (- a). repeat split; auto; [lia|tauto|tauto].
    - rewrite OT in Ej by auto. exists z, a. repeat split; auto. tauto. }
  assert (MS : forall j, in_memory root G' C j -> in_memory root G C j).
  { induction 1 as [H|g0 c0 H1 H2|j z a H1 IH H2 H3 H4]; [apply mem_root; apply SM; auto|eapply mem_comp; eauto; apply SM; auto|]. destruct (AR j z a H2 H3) as (z0 & a0 & E1 & E2 & E3 & _). rewrite <- E3. eapply mem_arg; eauto. rewrite E3. apply SM. auto. }
  assert (NK : forall a, pend !! (g, a) = None) by (intros a; destruct (pend !! (g, a)) eqn:E; auto; apply ip in E as (_ & E & _); tauto).
  set (s' := fun j => if j =? g then negb (s j) else s j).
  assert (SL : forall a, Z.abs a <> g -> slit o s' a = slit o s a) by (intros a N; unfold slit, s'; destruct (Z.eqb_spec (Z.abs a) g); [lia|auto]).
  assert (EF : forall q a, Z.abs a <> g -> (q, a) <> (p, - g) -> eff o s' (<[(p, - g) := g]> pend) q a = eff o s pend q a).
  { intros q a N1 N2. unfold eff. rewrite lookup_insert_ne by auto. destruct (pend !! (q, a)) as [c|] eqn:E; auto. apply SL. apply ip in E as (_ & _ & _ & _ & _ & Mc & _). destruct (im c Mc) as (Sc & _). destruct (abs_gate _ _ _ _ _ _ _ I c Sc) as [-> _]. intros ->. tauto. }
  constructor; auto.
  - split; [rewrite NG'; apply iw|]. intros j z Ej. rewrite NG'. destruct (decide (j = g)) as [->|N]; [|rewrite OT in Ej by auto; apply iw; auto]. rewrite GG in Ej. injection Ej as <-. destruct (proj2 iw g y Ey). split; auto. cbn. apply args_ok_neg. auto.
  - intros j z a Ej Ia Sa. destruct (AR j z a Ej Ia) as (z0 & a0 & E1 & E2 & E3 & _). rewrite <- E3. apply (ir j z0 a0); auto. rewrite E3. apply SM. auto.
  - split; [apply SM|]; apply irt.
  - intros j Hj N. rewrite NG' in Hj. assert (N' : gs G !! j = None) by (destruct (gs G !! j) eqn:E; auto; assert (X : is_Some (gs G' !! j)) by (apply SM; eauto); rewrite N in X; destruct X; discriminate). destruct (iv j Hj N') as (? & ? & ? & ?). repeat split; auto. unfold s'. destruct (Z.eqb_spec j g) as [->|]; [congruence|auto].
  - intros j z Aj Ej. apply MS in Aj. destruct (decide (j = g)) as [->|N].
    + rewrite GG in Ej. injection Ej as <-. destruct (ist g y Ag Ey) as (w & Ew & Rw & Tw & Mw & Pw). exists w. cbn [g_type g_min g_args]. unfold s' at 1 3. rewrite Z.eqb_refl. split; [auto|]. split; [auto|]. split; [eapply dual_flip; eauto|]. split; [auto|].
      apply (flip_args (eff o s pend g)); auto. intros a Ia. assert (NA : Z.abs a <> g) by (intros Q; pose proof (ir g y a Ey Ia ltac:(rewrite Q; eauto)); rewrite Q in *; lia). rewrite EF; [|lia|congruence]. unfold eff. rewrite !NK. apply slit_opp. destruct (proj2 iw g y Ey) as [_ [_ Z0]]. apply Z0 in Ia. lia.
    + rewrite OT in Ej by auto. destruct (ist j z Aj Ej) as (w & Ew & Rw & Tw & Mw & Pw). exists w. assert (SJ : s' j = s j) by (unfold s'; destruct (Z.eqb_spec j g); [lia|auto]). rewrite SJ. split; [auto|]. split; [auto|]. split; [auto|]. split; [auto|]. rewrite <- Pw.
      replace (map (eff o s' (<[(p, - g) := g]> pend) j) (g_args z)) with (map (eff o s pend j) (g_args z)); auto. apply map_ext_in. intros a Ia. symmetry. destruct (decide ((p, - g) = (j, a))) as [Q|NQ].
      * injection Q as <- <-. unfold eff. rewrite lookup_insert, NP. rewrite slit_neg, slit_pos by lia. unfold s'. rewrite Z.eqb_refl. auto.
      * apply EF; auto. intros Q. assert (j = p) as ->. { apply UQ; auto. exists z. split; auto. destruct (Z.abs_spec a) as [[_ Q']|[_ Q']]; [left|right]; replace g with (Z.abs a) by lia; rewrite Q'; [auto|rewrite Z.opp_involutive; auto]. }
        rewrite Ex in Ej. injection Ej as <-. apply NQ. f_equal. apply (distinct _ _ _ _ _ _ _ I p x); auto. f_equal. lia.
  - intros j J. apply elem_of_union in J as [J|J].
    + apply elem_of_singleton in J as ->. split; [eauto|]. split; [lia|]. right. right. exists p, (- g). apply lookup_insert.
    + destruct (im j J) as (A1 & A2 & A3). split; [apply SM; auto|]. split; [auto|]. destruct A3 as [|[(q & z & Mq & Eq & Iq)|(q & a & A3)]]; auto.
      * right. left. exists q, z. split; [elt|]. rewrite OT by (intros ->; tauto). auto.
      * right. right. exists q, a. rewrite lookup_insert_ne; auto. congruence.
  - intros q a c E. destruct (decide ((p, - g) = (q, a))) as [Q|N].
    + injection Q as <- <-. rewrite lookup_insert in E. injection E as <-. split; [elt|]. split; [elt|]. split; [lia|]. split; [exists x; rewrite OT; auto|]. rewrite Z.opp_involutive. split; [eauto|]. split; [elt|auto].
    + rewrite lookup_insert_ne in E by auto. destruct (ip q a c E) as (B1 & B2 & B3 & (z & B4 & B4') & B5 & B6 & B7 & B8). split; [elt|]. split; [elt|]. split; [auto|]. split; [exists z; rewrite OT by (intros ->; tauto); auto|]. split; [apply SM; auto|]. split; [elt|auto].
  - intros g0 c E. destruct (ic g0 c E) as (B1 & B2 & B3 & B4 & B5). split; [elt|]. split; [apply SM; auto|]. split; [auto|]. split.
    + unfold s'. destruct (Z.eqb_spec c g) as [->|]; [tauto|]. destruct (Z.eqb_spec g0 g) as [->|]; [congruence|auto].
    + destruct B5 as [B5|(u & z & B5 & B6 & B7)]; [left|right; exists u, z; split; [elt|rewrite OT by (intros ->; tauto); auto]]. intros q (z & Eq & Iq). apply (B5 q). destruct (decide (q = g)) as [->|N]; [|exists z; rewrite <- OT by auto; auto]. rewrite GG in Eq. injection Eq as <-. exists y. split; auto. cbn in Iq. rewrite !in_neg, Z.opp_involutive in Iq. tauto.
  - intros q z a Jq Nq Eq Ia Sa. apply not_elem_of_union in Nq as [N1 N2]. apply elem_of_union in Jq as [Jq|Jq]; [tauto|]. rewrite OT in Eq by (intros ->; tauto). destruct (idn q z a Jq N2 Eq Ia ltac:(apply SM; auto)). split; auto. elt.
Qed.

Lemma clone_ok G M C K pend o s p x g y t G' c : inv G M C K pend o s -> p ∈ M -> p ∈ K -> gs G !! p = Some x -> In (- g) (g_args x) -> 0 < g -> gs G !! g = Some y -> C !! g = None -> pend !! (p, - g) = None ->
  (forall a, pend !! (g, a) = None) -> dual (g_type y) = Some t -> c = nxt G ->
  gs G' = <[c := Gate t (g_min y) (rev (map Z.opp (g_args y)))]> (gs G) -> nxt G' = nxt G + 1 ->
  inv G' ({[c]} ∪ M) (<[g := c]> C) ({[c]} ∪ K) (<[(p, - g) := c]> pend) (fun j => if j =? c then o g else o j) (fun j => if j =? c then negb (s g) else s j).
Proof.
  intros I Mp Kp Ex Ig Lg Ey Ec NP NK DU Hc EG' NG'. assert (AG : Z.abs (- g) = g) by lia.
  pose proof (marked_in_memory _ _ _ _ _ _ _ I p Mp) as Ap. destruct (arg_type _ _ _ _ _ _ _ I p x (- g) y Mp Ex Ig ltac:(rewrite AG; auto)) as (Ty & Ag & Rg & Rr & Cy). rewrite AG in Ag, Rg, Rr.
  pose proof I as [iw ir irt iv ist im ip ic idn].
  assert (LT : forall j, is_Some (gs G !! j) -> 1 < j < c) by (intros j [z Ej]; apply iw in Ej; lia).
  assert (LA : forall j z a, gs G !! j = Some z -> In a (g_args z) -> Z.abs a < c) by (intros j z a Ej Ia; apply iw in Ej as [_ [_ Q]]; apply Q in Ia; lia).
  assert (L1 : 1 < c) by (pose proof (proj1 iw); lia).
  assert (OT : forall j, j <> c -> gs G' !! j = gs G !! j) by (intros j N; rewrite EG', lookup_insert_ne; auto).
  assert (GC : gs G' !! c = Some (Gate t (g_min y) (rev (map Z.opp (g_args y))))) by (rewrite EG', lookup_insert; auto).
  assert (OS : forall j, is_Some (gs G !! j) -> is_Some (gs G' !! j)) by (intros j Sj; rewrite OT; auto; apply LT in Sj; lia).
  assert (SO : forall j, is_Some (gs G' !! j) -> j <> c -> is_Some (gs G !! j)) by (intros j Sj N; rewrite OT in Sj; auto).
  assert (OG : forall j z, gs G !! j = Some z -> gs G' !! j = Some z) by (intros j z Ej; rewrite OT; auto; destruct (LT j); eauto; lia).
  set (o' := fun j => if j =? c then o g else o j). set (s' := fun j => if j =? c then negb (s g) else s j).
  assert (OC : forall j, j <> c -> o' j = o j) by (intros j N; unfold o'; destruct (Z.eqb_spec j c); [lia|auto]).
  assert (SC : forall j, j <> c -> s' j = s j) by (intros j N; unfold s'; destruct (Z.eqb_spec j c); [lia|auto]).
  assert (Oc : o' c = o g) by (unfold o'; rewrite Z.eqb_refl; auto). assert (Sc : s' c = negb (s g)) by (unfold s'; rewrite Z.eqb_refl; auto).
  assert (LG : g < c) by (apply LT; eauto).
  assert (PC : forall q a d, pend !! (q, a) = Some d -> 0 < d < c /\ q < c /\ - a < c) by (intros q a d E; apply ip in E as (_ & Mq & _ & (z & Ez & _) & Sa & Md & _); destruct (im d Md) as (Sd & _); apply LT in Sd; apply LT in Sa; destruct (LT q); eauto; lia).
  assert (SL : forall a, Z.abs a < c -> slit o' s' a = slit o s a) by (intros a N; unfold slit; rewrite OC, SC by lia; auto).
  assert (EF : forall q a, Z.abs a < c -> (q, a) <> (p, - g) -> eff o' s' (<[(p, - g) := c]> pend) q a = eff o s pend q a).
  { intros q a N1 N2. unfold eff. rewrite lookup_insert_ne by auto. destruct (pend !! (q, a)) as [d|] eqn:E; [|apply SL; auto]. apply SL. apply PC in E. lia. }
  assert (AR : forall j z a, gs G' !! j = Some z -> In a (g_args z) -> exists j0 z0 a0, gs G !! j0 = Some z0 /\ In a0 (g_args z0) /\ Z.abs a0 = Z.abs a /\ Z.abs a < c /\ o' j = o j0 /\ (j = c -> j0 = g) /\ (j <> c -> j0 = j)).
  { intros j z a Ej Ia. destruct (decide (j = c)) as [->|N].
    - rewrite GC in Ej. injection Ej as <-. cbn in Ia. apply in_neg in Ia. exists g, y, (- a). pose proof (LA _ _ _ Ey Ia). repeat split; auto; lia.
    - rewrite OT in Ej by auto. exists j, z, a. repeat split; auto; [eapply LA; eauto|tauto]. }
  assert (MS : forall j, in_memory root G' (<[g := c]> C) j -> j = c \/ in_memory root G C j).
  { induction 1 as [H|g0 c0 H1 H2|j z a H1 IH H2 H3 H4].
    - right. apply mem_root. apply irt.
    - destruct (decide (g = g0)) as [<-|N]; [rewrite lookup_insert in H1; injection H1 as <-; auto|]. rewrite lookup_insert_ne in H1 by auto. right. eapply mem_comp; eauto. eapply comp_gate; eauto.
    - right. destruct (AR j z a H2 H3) as (j0 & z0 & a0 & E1 & E2 & E3 & E4 & _ & E5 & E6). rewrite <- E3. eapply mem_arg; [|eauto|eauto|rewrite E3; apply SO; auto; lia]. destruct (decide (j = c)) as [->|N]; [rewrite E5; auto|rewrite E6 by auto]. destruct IH; tauto. }
  assert (PG : p <> c) by (destruct (LT p); eauto; lia).
  constructor; auto.
  - split; [rewrite NG'; pose proof (proj1 iw); lia|]. intros j z Ej. rewrite NG'. destruct (decide (j = c)) as [->|N].
    + rewrite GC in Ej. injection Ej as <-. split; [lia|]. cbn. apply args_ok_neg. destruct (proj2 iw g y Ey) as [_ Q]. eapply args_ok_mono; eauto. lia.
    + rewrite OT in Ej by auto. apply iw in Ej as [? Q]. split; [lia|]. eapply args_ok_mono; eauto. lia.
  - intros j z a Ej Ia Sa. destruct (AR j z a Ej Ia) as (j0 & z0 & a0 & E1 & E2 & E3 & E4 & E5 & _). rewrite E5, OC by lia. rewrite <- E3. apply (ir j0 z0 a0); auto. rewrite E3. apply SO; auto. lia.
  - split; [apply OS, irt|]. rewrite OC; [apply irt|]. destruct (LT root); [apply irt|lia].
  - intros j Hj N. assert (j <> c) by congruence. rewrite OT in N by auto. rewrite OC, SC by auto. apply iv; auto. lia.
  - intros j z Aj Ej. apply MS in Aj. destruct (decide (j = c)) as [->|N].
    + rewrite GC in Ej. injection Ej as <-. destruct (ist g y Ag Ey) as (w & Ew & Rw & Tw & Mw & Pw). exists w. cbn [g_type g_min g_args]. rewrite Oc, Sc. split; [auto|]. split; [auto|]. split; [eapply dual_flip; eauto|]. split; [auto|].
      apply (flip_args (eff o s pend g)); auto. intros a Ia. pose proof (LA _ _ _ Ey Ia). unfold eff. rewrite lookup_insert_ne by congruence. rewrite NK. destruct (pend !! (c, - a)) eqn:E; [apply PC in E; lia|]. rewrite SL by lia. apply slit_opp. destruct (proj2 iw g y Ey) as [_ [_ Z0]]. apply Z0 in Ia. lia.
    + destruct Aj as [|Aj]; [tauto|]. rewrite OT in Ej by auto. rewrite OC, SC by auto. destruct (ist j z Aj Ej) as (w & Ew & Rw & Tw & Mw & Pw). exists w. split; [auto|]. split; [auto|]. split; [auto|]. split; [auto|]. rewrite <- Pw.
      replace (map (eff o' s' (<[(p, - g) := c]> pend) j) (g_args z)) with (map (eff o s pend j) (g_args z)); auto. apply map_ext_in. intros a Ia. symmetry. destruct (decide ((p, - g) = (j, a))) as [Q|NQ].
      * injection Q as <- <-. unfold eff. rewrite lookup_insert, NP. rewrite slit_neg, slit_pos by lia. rewrite Oc, Sc. auto.
      * apply EF; auto. eapply LA; eauto.
  - intros j J. apply elem_of_union in J as [J|J].
    + apply elem_of_singleton in J as ->. split; [eauto|]. rewrite Oc. split; [lia|]. right. right. exists p, (- g). apply lookup_insert.
    + destruct (im j J) as (A1 & A2 & A3). pose proof (LT j A1). split; [apply OS; auto|]. rewrite OC by lia. split; [auto|]. destruct A3 as [|[(q & z & Mq & Eq & Iq)|(q & a & A3)]]; auto.
      * right. left. exists q, z. split; [elt|]. auto.
      * right. right. exists q, a. rewrite lookup_insert_ne; auto. congruence.
  - intros q a d E. destruct (decide ((p, - g) = (q, a))) as [Q|N].
    + injection Q as <- <-. rewrite lookup_insert in E. injection E as <-. split; [elt|]. split; [elt|]. split; [lia|]. split; [exists x; auto|]. rewrite Z.opp_involutive. split; [eauto|]. split; [elt|]. rewrite Oc, OC by lia. split; [auto|]. right. exists g. apply lookup_insert.
    + rewrite lookup_insert_ne in E by auto. destruct (PC q a d E) as (P1 & P2 & P3). destruct (ip q a d E) as (B1 & B2 & B3 & (z & B4 & B4') & B5 & B6 & B7 & B8). split; [elt|]. split; [elt|]. split; [auto|]. split; [exists z; auto|]. split; [auto|]. split; [elt|]. rewrite !OC by lia. split; [auto|]. destruct B8 as [B8|[g0 B8]]; auto. right. exists g0. rewrite lookup_insert_ne; auto. congruence.
  - intros g0 d E. destruct (decide (g = g0)) as [<-|N].
    + rewrite lookup_insert in E. injection E as <-. split; [elt|]. split; [eauto|]. rewrite Oc, Sc, OC, SC by lia. split; [auto|]. split; [auto|]. left. intros q (z & Eq & Iq).
      assert (X : exists a, In a (g_args z) /\ Z.abs a = c) by (destruct Iq as [Iq|Iq]; eexists; split; eauto; lia). destruct X as (a & Ia & Aa). destruct (AR q z a Eq Ia) as (_ & _ & _ & _ & _ & _ & E4 & _). lia.
    + rewrite lookup_insert_ne in E by auto. destruct (ic g0 d E) as (B1 & B2 & B3 & B4 & B5). pose proof (LT _ B2). destruct (im d B1) as (Sd & _). pose proof (LT _ Sd). split; [elt|]. split; [auto|]. rewrite !OC, !SC by lia. split; [auto|]. split; [auto|].
      destruct B5 as [B5|(u & z & B5 & B6 & B7)]; [left|right; exists u, z; split; [elt|auto]]. intros q (z & Eq & Iq). destruct (decide (q = c)) as [->|N2]; [|apply (B5 q); exists z; rewrite <- OT by auto; auto].
      rewrite GC in Eq. injection Eq as <-. apply (B5 g). exists y. split; auto. cbn in Iq. rewrite !in_neg, Z.opp_involutive in Iq. tauto.
  - intros q z a Jq Nq Eq Ia Sa. apply not_elem_of_union in Nq as [N1 N2]. apply elem_of_union in Jq as [Jq|Jq]; [tauto|]. destruct (AR q z a Eq Ia) as (_ & _ & _ & _ & _ & _ & LL & _). rewrite OT in Eq by (intros ->; apply N1; apply elem_of_singleton; auto). destruct (idn q z a Jq N2 Eq Ia ltac:(apply SO; auto; lia)). split; auto. elt.
Qed.

Lemma swap_ok G M C K pend o s p x a c : inv G M C K pend o s -> gs G !! p = Some x -> pend !! (p, a) = Some c ->
  exists G1 G2 x2, erase_arg p a G = Some G1 /\ add_arg p c G1 = Some G2 /\ gs G2 !! p = Some x2 /\ constant x2 = false /\ nxt G2 = nxt G /\ gs G2 = <[p := x2]> (gs G) /\
    x2 = with_args x (set_insert c (set_erase a (g_args x))) /\ inv G2 M C K (delete (p, a) pend) o s.
Proof.
  intros I Ex EP. pose proof I as [iw ir irt iv ist im ip ic idn]. destruct (ip p a c EP) as (Kp & Mp & Na & (x' & Ex' & Ia) & Sa & Mc & Oc & HC). rewrite Ex in Ex'. injection Ex' as <-.
  pose proof (marked_in_memory _ _ _ _ _ _ _ I p Mp) as Ap. destruct (mem_type _ _ _ _ _ _ _ I p x Ap Ex) as (TX & MX & CX).
  destruct (im c Mc) as (Sc & _). destruct (abs_gate _ _ _ _ _ _ _ I c Sc) as [Ac Lc]. destruct (proj2 iw p x Ex) as [Lp OKx]. destruct OKx as [NDx OKx].
  assert (NI : forall b, In b (set_erase a (g_args x)) -> Z.abs b <> c).
  { intros b Ib Q. apply set_erase_In in Ib as [Ib NB]. apply NB. apply (distinct _ _ _ _ _ _ _ I p x); auto. rewrite Q, Oc, (Z.abs_neq a) by lia. auto. }
  assert (N1 : ~ In c (set_erase a (g_args x))) by (intros J; apply (NI c J); lia). assert (N2 : ~ In (- c) (set_erase a (g_args x))) by (intros J; apply (NI _ J); lia).
  set (x1 := with_args x (set_erase a (g_args x))). set (x2 := with_args x (set_insert c (set_erase a (g_args x)))).
  assert (CE : constant x1 = false).
  { apply not_true_iff_false. intros Q. apply not_true_iff_false in CX. apply CX. unfold constant in *. apply orb_true_iff in Q. apply orb_true_iff. cbn [x1 with_args g_args] in Q. rewrite !has_In in *. rewrite !set_erase_In in Q. tauto. }
  assert (PL : Permutation (g_args x) (a :: set_erase a (g_args x))) by (apply set_erase_perm; auto).
  assert (AA : add_asserts x1 = true).
  { unfold add_asserts. rewrite CE. cbn [negb andb x1 with_args g_type g_args g_min]. assert (0 <=? g_min x = true) as -> by (apply Z.leb_le; auto). rewrite andb_true_r. destruct TX as [->|[->|(_ & -> & L)]]; auto. apply Permutation_length in PL. cbn [length] in PL. unfold size. rewrite L in PL. injection PL as <-. reflexivity. }
  exists (put p x1 G), (put p x2 G), x2. unfold erase_arg. rewrite Ex. cbn [mbind option_bind]. rewrite (proj2 (has_In _ _) Ia). split; [reflexivity|].
  assert (ADD : add_arg p c (put p x1 G) = Some (put p x2 G)).
  { assert (E1 : gs (put p x1 G) !! p = Some x1) by (cbn; apply lookup_insert). unfold add_arg. rewrite E1. cbn [mbind option_bind]. rewrite AA. destruct (Z.eqb_spec c 0); [lia|]. cbn [negb orb]. cbn [x1 with_args g_args]. rewrite (proj2 (has_false _ _) N1), (proj2 (has_false _ _) N2). unfold add_new. fold x1. rewrite E1. cbn [mbind option_bind]. rewrite AA. cbn [x1 with_args g_args]. rewrite (proj2 (has_false _ _) N1), (proj2 (has_false _ _) N2). cbn [negb andb]. unfold put. cbn [gs nxt nulls reg]. rewrite insert_insert. reflexivity. }
  split; [exact ADD|]. assert (E2 : gs (put p x2 G) !! p = Some x2) by (cbn; apply lookup_insert). split; [auto|].
  assert (IN2 : forall b, In b (g_args x2) <-> b = c \/ In b (g_args x) /\ b <> a) by (intros b; cbn; rewrite set_insert_In, set_erase_In; tauto).
  assert (C2 : constant x2 = false).
  { apply not_true_iff_false. intros Q. apply not_true_iff_false in CX. apply CX. unfold constant in *. apply orb_true_iff in Q. apply orb_true_iff. rewrite !has_In in *. rewrite !IN2 in Q. destruct Q as [[Q|[Q _]]|[Q|[Q _]]]; auto; lia. }
  split; [auto|]. split; [auto|]. split; [auto|]. split; [auto|].
  assert (SM : forall j, is_Some (gs (put p x2 G) !! j) <-> is_Some (gs G !! j)) by (intros j; cbn; destruct (decide (p = j)) as [<-|N]; [rewrite lookup_insert, Ex; split; eauto|rewrite lookup_insert_ne by auto; tauto]).
  assert (OT : forall j, j <> p -> gs (put p x2 G) !! j = gs G !! j) by (intros j N; cbn; rewrite lookup_insert_ne; auto).
  assert (AM : Z.abs a = - a) by lia.
  assert (MS : forall j, in_memory root (put p x2 G) C j -> in_memory root G C j).
  { induction 1 as [H|g0 c0 H1 H2|j z b H1 IH H2 H3 H4]; [apply mem_root; apply SM; auto|eapply mem_comp; eauto; apply SM; auto|]. apply (proj1 (SM _)) in H4. destruct (decide (j = p)) as [->|N]; [|rewrite OT in H2 by auto; eapply mem_arg; eauto].
    rewrite E2 in H2. injection H2 as <-. apply IN2 in H3 as [->|[H3 _]]; [|eapply mem_arg; eauto]. rewrite Ac. apply (marked_in_memory _ _ _ _ _ _ _ I c Mc). }
  assert (HP : forall q z b, gs G !! q = Some z -> In b (g_args z) -> 0 < b -> exists z', gs (put p x2 G) !! q = Some z' /\ In b (g_args z')).
  { intros q z b Eq Ib L. destruct (decide (q = p)) as [->|N]; [|exists z; rewrite OT by auto; auto]. rewrite Ex in Eq. injection Eq as <-. exists x2. split; auto. apply IN2. right. split; auto. lia. }
  assert (SP : forall j, j ∈ M -> 0 < j) by (intros j J; destruct (im j J) as (Sj & _); apply (abs_gate _ _ _ _ _ _ _ I) in Sj; lia).
  constructor; auto.
  - split; [apply iw|]. intros j z Ej. destruct (decide (j = p)) as [->|N]; [|rewrite OT in Ej by auto; apply iw; auto]. rewrite E2 in Ej. injection Ej as <-. split; [auto|]. cbn [x2 with_args g_args nxt put]. apply args_ok_insert; auto; try lia. apply args_ok_erase. split; auto.
  - intros j z b Ej Ib Sb. apply (proj1 (SM _)) in Sb. destruct (decide (j = p)) as [->|N]; [|rewrite OT in Ej by auto; eapply ir; eauto]. rewrite E2 in Ej. injection Ej as <-. apply IN2 in Ib as [->|[Ib _]]; [|eapply ir; eauto]. rewrite Ac, Oc. rewrite <- AM. apply (ir p x a); auto. rewrite AM. auto.
  - split; [apply SM|]; apply irt.
  - intros j Hj N. apply iv; auto. destruct (gs G !! j) eqn:E; auto. assert (X : is_Some (gs (put p x2 G) !! j)) by (apply SM; eauto). rewrite N in X. destruct X; discriminate.
  - intros j z Aj Ej. apply MS in Aj. destruct (decide (j = p)) as [->|N].
    + rewrite E2 in Ej. injection Ej as <-. destruct (ist p x Ap Ex) as (w & Ew & Rw & Tw & Mw & Pw). exists w. split; [auto|]. split; [auto|]. split; [auto|]. split; [auto|]. rewrite <- Pw. rewrite PL. cbn [x2 with_args g_args]. rewrite set_insert_perm by auto. cbn [map].
      assert (EA : eff o s (delete (p, a) pend) p c = eff o s pend p a).
      { unfold eff. rewrite EP. rewrite lookup_delete_ne by (intros Q; injection Q; lia). destruct (pend !! (p, c)) eqn:E; auto. apply ip in E as (_ & _ & E & _). lia. }
      rewrite EA. apply perm_skip. replace (map (eff o s (delete (p, a) pend) p) (set_erase a (g_args x))) with (map (eff o s pend p) (set_erase a (g_args x))); auto. apply map_ext_in. intros b Ib. apply set_erase_In in Ib as [_ Ib]. unfold eff. rewrite lookup_delete_ne by congruence. auto.
    + rewrite OT in Ej by auto. destruct (ist j z Aj Ej) as (w & Ew & Rw & Tw & Mw & Pw). exists w. split; [auto|]. split; [auto|]. split; [auto|]. split; [auto|]. rewrite <- Pw. replace (map (eff o s (delete (p, a) pend) j) (g_args z)) with (map (eff o s pend j) (g_args z)); auto. apply map_ext. intros b. unfold eff. rewrite lookup_delete_ne by congruence. auto.
  - intros j J. destruct (im j J) as (A1 & A2 & A3). split; [apply SM; auto|]. split; [auto|]. destruct A3 as [|[(q & z & Mq & Eq & Iq)|(q & b & A3)]]; auto.
    + right. left. destruct (HP q z j Eq Iq (SP j J)) as (z' & E' & I'). exists q, z'. auto.
    + destruct (decide ((p, a) = (q, b))) as [Q|N]; [injection Q as <- <-; rewrite EP in A3; injection A3 as <-; right; left; exists p, x2; split; [auto|split; [auto|apply IN2; auto]]|]. right. right. exists q, b. rewrite lookup_delete_ne; auto.
  - intros q b d E. apply lookup_delete_Some in E as [N E]. destruct (ip q b d E) as (B1 & B2 & B3 & (z & B4 & B4') & B5 & B6 & B7 & B8). repeat split; auto. destruct (decide (q = p)) as [->|NQ]; [|exists z; rewrite OT by auto; auto]. rewrite Ex in B4. injection B4 as <-. exists x2. split; auto. apply IN2. right. split; auto. congruence. apply SM. auto.
  - intros g0 d E. destruct (ic g0 d E) as (B1 & B2 & B3 & B4 & B5). split; [auto|]. split; [apply SM; auto|]. split; [auto|]. split; [auto|]. pose proof (SP d B1). destruct B5 as [B5|(u & z & B5 & B6 & B7)].
    + destruct (decide (d = c)) as [->|N]; [right; exists p, x2; split; [auto|split; [auto|apply IN2; auto]]|]. left. intros q (z & Eq & Iq). destruct (decide (q = p)) as [->|NQ]; [|apply (B5 q); exists z; rewrite <- OT by auto; auto]. rewrite E2 in Eq. injection Eq as <-. apply (B5 p). exists x. split; auto. rewrite !IN2 in Iq. destruct Iq as [[|[? _]]|[|[? _]]]; auto; lia.
    + right. destruct (HP u z d B6 B7 H) as (z' & E' & I'). exists u, z'. auto.
  - intros q z b Jq Nq Eq Ib Sb. rewrite OT in Eq by (intros ->; tauto). apply (idn q z b); auto. apply SM. auto.
Qed.

(** ** The recursion *)
(** What a call may change: only gates of rank below [b]. *)
Record ext (b : nat) (G : graph) (M : gset Z) (o : Z -> Z) (s : Z -> bool) (G' : graph) (M' : gset Z) (o' : Z -> Z) (s' : Z -> bool) : Prop := {
  e_nxt : nxt G <= nxt G';
  e_old : forall j, j < nxt G -> o' j = o j;
  e_gates : forall j, j < nxt G -> (is_Some (gs G' !! j) <-> is_Some (gs G !! j));
  e_marks : M ⊆ M';
  e_sign : forall j, j ∈ M -> s' j = s j;
  e_same : forall j, is_Some (gs G !! j) -> (b <= r0 (o j))%nat -> gs G' !! j = gs G !! j }.
Lemma ext_refl b G M o s : ext b G M o s G M o s.
Proof. constructor; auto; try lia; try tauto. Qed.
Lemma ext_trans b G M o s G1 M1 o1 s1 G2 M2 o2 s2 : wf G -> ext b G M o s G1 M1 o1 s1 -> ext b G1 M1 o1 s1 G2 M2 o2 s2 -> ext b G M o s G2 M2 o2 s2.
Proof.
  intros W [a1 b1 c1 d1 f1 g1] [a2 b2 c2 d2 f2 g2]. constructor.
  - lia.
  - intros j L. rewrite b2, b1 by lia. auto.
  - intros j L. rewrite c2, c1 by lia. tauto.
  - etransitivity; eauto.
  - intros j J. rewrite f2, f1; auto.
  - intros j Sj L. assert (j < nxt G) by (destruct Sj as [z Ej]; apply W in Ej; lia). rewrite g2, g1; auto; [apply c1; auto|rewrite b1; auto].
Qed.
Lemma ext_less b b' G M o s G' M' o' s' : (b <= b')%nat -> ext b G M o s G' M' o' s' -> ext b' G M o s G' M' o' s'.
Proof. intros L [a1 b1 c1 d1 f1 g1]. constructor; auto. intros j Sj L'. apply g1; auto. lia. Qed.
Lemma ext_weak b G M M0 o s G' M' o' s' : M0 ⊆ M -> ext b G M o s G' M' o' s' -> ext b G M0 o s G' M' o' s'.
Proof. intros L [a1 b1 c1 d1 f1 g1]. constructor; auto. etransitivity; eauto. Qed.

Context (single : graph -> gmap Z Z -> Z -> bool) (order : graph -> Z -> list Z).
Context (SINGLE : forall G C g, single G C g = true -> forall p q, in_memory root G C p -> in_memory root G C q -> holds G p g -> holds G q g -> p = q).
Context (ORDER : forall G i x, gs G !! i = Some x -> Permutation (order G i) (List.filter (fun a => bool_decide (is_Some (gs G !! Z.abs a))) (g_args x))).
Fixpoint add_sw (p : Z) (sw : list (Z * Z)) (pend : pendings) : pendings :=
  match sw with [] => pend | (a, c) :: sw => add_sw p sw (<[(p, a) := c]> pend) end.
Lemma add_sw_commute p sw pend a c : ~ In a (map fst sw) -> add_sw p sw (<[(p, a) := c]> pend) = <[(p, a) := c]> (add_sw p sw pend).
Proof. revert pend. induction sw as [|[b d] sw IH]; intros pend N; cbn in *; auto. rewrite <- IH by tauto. rewrite insert_commute; auto. intros Q. injection Q as ->. tauto. Qed.
Lemma add_sw_other p sw pend q a : p <> q \/ ~ In a (map fst sw) -> add_sw p sw pend !! (q, a) = pend !! (q, a).
Proof. revert pend. induction sw as [|[b d] sw IH]; intros pend N; cbn in *; auto. rewrite IH by tauto. apply lookup_insert_ne. intros Q. injection Q as -> ->. tauto. Qed.

Lemma swaps_ok p sw : forall G M C K pend o s x, inv G M C K (add_sw p sw pend) o s -> gs G !! p = Some x -> List.NoDup (map fst sw) -> (forall a, In a (map fst sw) -> pend !! (p, a) = None) ->
  exists G' x', swap_loop p sw G = Some G' /\ inv G' M C K pend o s /\ nxt G' = nxt G /\ gs G' = <[p := x']> (gs G) /\
    (forall b, In b (g_args x') -> (0 < b /\ b ∈ M) \/ In b (g_args x) /\ ~ In b (map fst sw)).
Proof.
  induction sw as [|[a c] sw IH]; intros G M C K pend o s x I Ex ND PN.
  - exists G, x. cbn [swap_loop add_sw map] in *. split; [auto|]. split; [auto|]. split; [auto|]. split; [rewrite insert_id; auto|]. intros b Ib. right. split; auto.
  - cbn [map fst] in ND, PN. inversion ND as [|? ? N1 N2]; subst. cbn [add_sw] in I. rewrite add_sw_commute in I by auto.
    destruct (swap_ok _ _ _ _ _ _ _ p x a c I Ex (lookup_insert _ _ _)) as (G1 & G2 & x2 & E1 & E2 & E3 & E4 & E5 & E6 & E7 & I2).
    destruct (v_pend _ _ _ _ _ _ _ I p a c (lookup_insert _ _ _)) as (_ & _ & Na & _ & _ & Mc & _). assert (Lc : 0 < c) by (destruct (v_marks _ _ _ _ _ _ _ I c Mc) as (Sc & _); apply (abs_gate _ _ _ _ _ _ _ I) in Sc; lia).
    rewrite delete_insert in I2 by (rewrite add_sw_other by auto; apply PN; cbn; auto). destruct (IH G2 M C K pend o s x2 I2 E3 N2) as (G' & x' & F1 & F2 & F3 & F4 & F5); [intros b Ib; apply PN; cbn; auto|].
    exists G', x'. cbn [swap_loop]. destruct (Z.leb_spec 0 a); [lia|]. rewrite E1. cbn [mbind option_bind]. rewrite E2. cbn [mbind option_bind]. rewrite E3. cbn [mbind option_bind]. rewrite E4. split; [auto|]. split; [auto|]. split; [lia|]. split; [rewrite F4, E6, insert_insert; auto|].
    intros b Ib. destruct (F5 b Ib) as [?|[J N]]; auto. rewrite E7 in J. cbn in J. apply set_insert_In in J as [->|J]; auto. apply set_erase_In in J as [J NA]. right. cbn. split; auto. intros [->|Q]; tauto.
Qed.

(** The specification of a call. *)
Definition call_ok (fuel : nat) : Prop := forall i G M C K pend o s,
  inv G ({[i]} ∪ M) C (if decide (i ∈ M) then K else {[i]} ∪ K) pend o s -> is_Some (gs G !! i) -> (r0 (o i) < fuel)%nat ->
  (forall q, q ∈ K -> is_Some (gs G !! q) /\ (r0 (o i) < r0 (o q))%nat) -> (i ∉ M -> forall a, pend !! (i, a) = None) ->
  exists G' M' C' o' s', propagate single order fuel i (PSt G M C) = Some (PSt G' M' C') /\ inv G' M' C' K pend o' s' /\ ext (S (r0 (o i))) G ({[i]} ∪ M) o s G' M' o' s'.
Lemma loop_ok fuel p x : call_ok fuel -> forall l G M C K pend o s,
  inv G M C K pend o s -> p ∈ M -> p ∈ K -> gs G !! p = Some x -> (r0 (o p) <= fuel)%nat -> (forall q, q ∈ K -> is_Some (gs G !! q) /\ (r0 (o p) <= r0 (o q))%nat) ->
  List.NoDup l -> (forall a, In a l -> In a (g_args x) /\ is_Some (gs G !! Z.abs a) /\ pend !! (p, a) = None) ->
  exists G' M' C' sw o' s', args_loop single (propagate single order fuel) l (PSt G M C) = Some (PSt G' M' C', sw) /\ inv G' M' C' K (add_sw p sw pend) o' s' /\ ext (r0 (o p)) G M o s G' M' o' s' /\
    (forall a, In a l -> (0 < a /\ a ∈ M') \/ In a (map fst sw)) /\ List.NoDup (map fst sw) /\ (forall a, In a (map fst sw) -> In a l).
Proof.
  intros CALL. induction l as [|a l IH]; intros G M C K pend o s I Mp Kp Ex Hf HK ND HL.
  - exists G, M, C, [], o, s. cbn. split; [auto|]. split; [auto|]. split; [apply ext_refl|]. split; [intros a []|]. split; [constructor|intros a []].
  - inversion ND as [|? ? NA ND']; subst. destruct (HL a (or_introl eq_refl)) as (Ia & Sa & Pa). pose proof (v_wf _ _ _ _ _ _ _ I) as W. assert (NZ : a <> 0) by (destruct (proj2 W p x Ex) as [_ [_ Q]]; apply Q in Ia; lia).
    pose proof (v_rank _ _ _ _ _ _ _ I p x a Ex Ia Sa) as RA. cbn beta in RA. assert (Lp : p < nxt G) by (apply W in Ex; lia).
    assert (LK : forall q, q ∈ K -> q < nxt G) by (intros q Kq; destruct (HK q Kq) as [[z Eq] _]; apply W in Eq; lia).
    assert (NKa : Z.abs a ∉ K) by (intros Q; apply HK in Q as [_ Q]; lia).
    (* the rest of the loop after a call *)
    assert (REST : forall G1 M1 C1 pend1 o1 s1, inv G1 M1 C1 K pend1 o1 s1 -> ext (r0 (o p)) G M o s G1 M1 o1 s1 -> (forall b, In b l -> pend1 !! (p, b) = None) ->
      exists G' M' C' sw o' s', args_loop single (propagate single order fuel) l (PSt G1 M1 C1) = Some (PSt G' M' C', sw) /\ inv G' M' C' K (add_sw p sw pend1) o' s' /\ ext (r0 (o p)) G M o s G' M' o' s' /\ M1 ⊆ M' /\
        (forall a, In a l -> (0 < a /\ a ∈ M') \/ In a (map fst sw)) /\ List.NoDup (map fst sw) /\ (forall a, In a (map fst sw) -> In a l)).
    { intros G1 M1 C1 pend1 o1 s1 I1 X1 P1. assert (O1 : o1 p = o p) by (apply (e_old _ _ _ _ _ _ _ _ _ X1); auto).
      destruct (IH G1 M1 C1 K pend1 o1 s1 I1) as (G' & M' & C' & sw & o' & s' & A1 & A2 & A3 & A4 & A5 & A6); auto.
      - apply (e_marks _ _ _ _ _ _ _ _ _ X1). auto.
      - rewrite (e_same _ _ _ _ _ _ _ _ _ X1 p); eauto.
      - rewrite O1. auto.
      - intros q Kq. destruct (HK q Kq) as [Sq Rq]. rewrite (e_old _ _ _ _ _ _ _ _ _ X1 q), O1 by auto. split; auto. apply (e_gates _ _ _ _ _ _ _ _ _ X1); auto.
      - intros b Ib. destruct (HL b (or_intror Ib)) as (B1 & B2 & B3). split; [auto|]. split; [apply (e_gates _ _ _ _ _ _ _ _ _ X1); auto|auto]. destruct (proj2 W p x Ex) as [_ [_ Q]]. apply Q in B1. lia.
      - exists G', M', C', sw, o', s'. split; [auto|]. split; [auto|]. split; [rewrite O1 in A3; eapply ext_trans; eauto|]. split; [apply A3|auto]. }
    cbn [args_loop p_comps p_marks p_graph]. destruct (Z.ltb_spec 0 a) as [La|La].
    + assert (Aa : Z.abs a = a) by lia. rewrite Aa in *.
      destruct (CALL a G M C K pend o s) as (G1 & M1 & C1 & o1 & s1 & E1 & I1 & X1); auto.
      { destruct (decide (a ∈ M)) as [J|J]; [|apply (visit_ok _ _ _ _ _ _ _ p x); auto]. replace ({[a]} ∪ M) with M; auto. apply set_eq. intros z. rewrite elem_of_union, elem_of_singleton. split; [auto|intros [->|]; auto]. }
      { lia. } { intros q Kq. destruct (HK q Kq). split; auto. lia. } { intros _ b. destruct (pend !! (a, b)) eqn:E; auto. apply (v_pend _ _ _ _ _ _ _ I) in E as (E & _). tauto. }
      rewrite E1. cbn [mbind option_bind].
      destruct (REST G1 M1 C1 pend o1 s1 I1) as (G' & M' & C' & sw & o' & s' & A1 & A2 & A3 & A4 & A5 & A6 & A7).
      { eapply ext_less; [|eapply ext_weak; [|exact X1]]; [lia|apply union_subseteq_r]. } { intros b Ib. apply HL. right. auto. }
      exists G', M', C', sw, o', s'. split; [auto|]. split; [auto|]. split; [auto|]. split; [|split; [auto|intros b Ib; right; auto]].
      intros b [<-|Ib]; auto. left. split; auto. apply A4, (e_marks _ _ _ _ _ _ _ _ _ X1). apply elem_of_union. left. apply elem_of_singleton. auto.
    + assert (Aa : Z.abs a = - a) by lia. set (g := - a) in *. assert (Ag : a = - g) by lia. rewrite Aa in *. assert (Lg : 0 < g) by lia. destruct Sa as [y Ey].
      destruct (arg_type _ _ _ _ _ _ _ I p x a y Mp Ex Ia ltac:(rewrite Aa; auto)) as (Ty & Agm & _ & _ & Cy).
      assert (PB : forall c b, In b l -> <[(p, a) := c]> pend !! (p, b) = None) by (intros c b Ib; rewrite lookup_insert_ne by (intros Q; injection Q as ->; tauto); apply HL; right; auto).
      assert (DU : exists t, dual (g_type y) = Some t) by (destruct Ty as [-> | ->]; cbn; eauto). destruct DU as [t DU].
      destruct (C !! g) as [c|] eqn:Ec.
      * destruct (known_ok _ _ _ _ _ _ _ p x g c I Mp Kp Ex ltac:(rewrite <- Ag; auto) Lg Ec ltac:(rewrite <- Ag; auto)) as [Mc I1]. rewrite <- Ag in I1. destruct (decide (c ∈ M)); [|tauto].
        destruct (REST G M C (<[(p, a) := c]> pend) o s I1 (ext_refl _ _ _ _ _) (PB c)) as (G' & M' & C' & sw & o' & s' & A1 & A2 & A3 & A4 & A5 & A6 & A7). rewrite A1. cbn [mbind option_bind].
        exists G', M', C', ((a, c) :: sw), o', s'. split; [auto|]. split; [auto|]. split; [auto|]. cbn [map fst]. split; [intros b [<-|Ib]; [right; left; auto|destruct (A5 b Ib); auto; right; right; auto]|]. split; [constructor; auto; intros Q; apply NA; auto|]. intros b [<-|Ib]; [left; auto|right; auto].
      * destruct (single G C g) eqn:SG.
        -- assert (UQ : forall q, in_memory root G C q -> holds G q g -> q = p).
           { intros q Aq Hq. apply (SINGLE G C g SG); auto; [eapply marked_in_memory; eauto|]. exists x. split; auto. right. rewrite <- Ag. auto. }
           destruct (negate_gate_spec g G y t Ey DU) as (G1 & E1 & EG1 & NG1). rewrite E1. cbn [mbind option_bind]. unfold with_graph. cbn [p_marks p_comps].
           destruct (flip_ok _ _ _ _ _ _ _ p x g y t G1 I Mp Kp Ex ltac:(rewrite <- Ag; auto) Lg Ey Ec ltac:(rewrite <- Ag; auto) UQ DU EG1 NG1) as [NM I1]. rewrite <- Ag in I1. set (s1 := fun j => if j =? g then negb (s j) else s j) in *.
           assert (SM : forall j, is_Some (gs G1 !! j) <-> is_Some (gs G !! j)) by (intros j; rewrite EG1; destruct (decide (g = j)) as [<-|N]; [rewrite lookup_insert, Ey; split; eauto|rewrite lookup_insert_ne by auto; tauto]).
           assert (NPG : forall b, <[(p, a) := g]> pend !! (g, b) = None).
           { intros b. rewrite lookup_insert_ne by (intros Q; injection Q as -> ?; tauto). destruct (pend !! (g, b)) eqn:E; auto. apply (v_pend _ _ _ _ _ _ _ I) in E as (E & _). tauto. }
           destruct (CALL g G1 M C K (<[(p, a) := g]> pend) o s1) as (G2 & M2 & C2 & o2 & s2 & E2 & I2 & X2); auto.
           { destruct (decide (g ∈ M)); [tauto|]. exact I1. } { apply SM. eauto. } { lia. } { intros q Kq. destruct (HK q Kq). split; [apply SM; auto|]. lia. }
           rewrite E2. cbn [mbind option_bind].
           assert (X1 : ext (r0 (o p)) G M o s G1 ({[g]} ∪ M) o s1).
           { constructor; auto; [lia|apply union_subseteq_r| |].
             - intros j J. unfold s1. destruct (Z.eqb_spec j g) as [->|]; [tauto|auto].
             - intros j Sj L. rewrite EG1, lookup_insert_ne; auto. intros <-. lia. }
           destruct (REST G2 M2 C2 (<[(p, a) := g]> pend) o2 s2 I2) as (G' & M' & C' & sw & o' & s' & A1 & A2 & A3 & A4 & A5 & A6 & A7).
           { eapply ext_trans; [auto|exact X1|]. eapply ext_less; [|exact X2]. lia. } { apply PB. }
           rewrite A1. cbn [mbind option_bind]. exists G', M', C', ((a, g) :: sw), o', s'. split; [auto|]. split; [auto|]. split; [auto|]. cbn [map fst]. split; [intros b [<-|Ib]; [right; left; auto|destruct (A5 b Ib); auto; right; right; auto]|]. split; [constructor; auto; intros Q; apply NA; auto|]. intros b [<-|Ib]; [left; auto|right; auto].
        -- assert (NN : conn_eqb (g_type y) kNull = false) by (destruct Ty as [-> | ->]; auto).
           unfold clone. rewrite Ey, Cy, NN. cbn [orb mbind option_bind]. set (c := nxt G). set (Gc := Graph (<[c := y]> (gs G)) (c + 1) (nulls G) (reg G)).
           destruct (negate_gate_spec c Gc y t ltac:(cbn; apply lookup_insert) DU) as (G1 & E1 & EG1 & NG1). cbn [Gc gs nxt] in EG1, NG1. rewrite insert_insert in EG1. rewrite E1. cbn [mbind option_bind].
           assert (NPG : forall b, pend !! (g, b) = None) by (intros b; destruct (pend !! (g, b)) eqn:E; auto; apply (v_pend _ _ _ _ _ _ _ I) in E as (E & _); tauto).
           pose proof (clone_ok _ _ _ _ _ _ _ p x g y t G1 c I Mp Kp Ex ltac:(rewrite <- Ag; auto) Lg Ey Ec ltac:(rewrite <- Ag; auto) NPG DU eq_refl EG1 NG1) as I1. rewrite <- Ag in I1. set (o1 := fun j => if j =? c then o g else o j) in *. set (s1 := fun j => if j =? c then negb (s g) else s j) in *.
           assert (FR : gs G !! c = None) by (destruct (gs G !! c) eqn:E; auto; apply W in E; unfold c in E; lia).
           assert (NM : c ∉ M) by (intros Q; apply (v_marks _ _ _ _ _ _ _ I) in Q as ([z Q] & _); congruence).
           assert (NKc : c ∉ K) by (intros Q; apply HK in Q as [[z Q] _]; congruence).
           assert (O1 : forall j, j <> c -> o1 j = o j) by (intros j N; unfold o1; destruct (Z.eqb_spec j c); [lia|auto]). assert (Oc : o1 c = o g) by (unfold o1; rewrite Z.eqb_refl; auto).
           destruct (CALL c G1 M (<[g := c]> C) K (<[(p, a) := c]> pend) o1 s1) as (G2 & M2 & C2 & o2 & s2 & E2 & I2 & X2); auto.
           { destruct (decide (c ∈ M)); [tauto|]. exact I1. } { rewrite EG1, lookup_insert. eauto. } { rewrite Oc. lia. } { intros q Kq. destruct (HK q Kq) as [Sq Rq]. rewrite Oc, O1 by (intros ->; tauto). split; [rewrite EG1, lookup_insert_ne; auto; intros <-; tauto|lia]. }
           { intros _ b. rewrite lookup_insert_ne by (intros Q; injection Q as -> ?; congruence). destruct (pend !! (c, b)) eqn:E; auto. apply (v_pend _ _ _ _ _ _ _ I) in E as (E & _). tauto. }
           rewrite E2. cbn [mbind option_bind]. rewrite Oc in X2.
           assert (X1 : ext (r0 (o p)) G M o s G1 ({[c]} ∪ M) o1 s1).
           { constructor.
             - unfold c in NG1. lia.
             - intros j L. apply O1. unfold c. lia.
             - intros j L. rewrite EG1, lookup_insert_ne by (unfold c; lia). tauto.
             - apply union_subseteq_r.
             - intros j J. unfold s1. destruct (Z.eqb_spec j c) as [->|]; [tauto|auto].
             - intros j Sj L. rewrite EG1, lookup_insert_ne; auto. intros <-. rewrite FR in Sj. destruct Sj. discriminate. }
           destruct (REST G2 M2 C2 (<[(p, a) := c]> pend) o2 s2 I2) as (G' & M' & C' & sw & o' & s' & A1 & A2 & A3 & A4 & A5 & A6 & A7).
           { eapply ext_trans; [auto|exact X1|]. eapply ext_less; [|exact X2]. lia. } { apply PB. }
           rewrite A1. cbn [mbind option_bind]. exists G', M', C', ((a, c) :: sw), o', s'. split; [auto|]. split; [auto|]. split; [auto|]. cbn [map fst]. split; [intros b [<-|Ib]; [right; left; auto|destruct (A5 b Ib); auto; right; right; auto]|]. split; [constructor; auto; intros Q; apply NA; auto|]. intros b [<-|Ib]; [left; auto|right; auto].
Qed.
Lemma propagate_ok fuel : call_ok fuel.
Proof.
  induction fuel as [|fuel IH]; intros i G M C K pend o s I Si Hf HK HP; [lia|]. cbn [propagate p_marks p_graph p_comps]. destruct (decide (i ∈ M)) as [J|J].
  - exists G, M, C, o, s. assert (EM : {[i]} ∪ M = M) by (apply set_eq; intros z; rewrite elem_of_union, elem_of_singleton; split; [intros [->|]; auto|auto]). rewrite EM in *. split; [auto|]. split; [auto|]. apply ext_refl.
  - destruct Si as [x Ex]. pose proof (v_wf _ _ _ _ _ _ _ I) as W. pose proof (ORDER G i x Ex) as PO.
    assert (IO : forall a, In a (order G i) <-> In a (g_args x) /\ is_Some (gs G !! Z.abs a)) by (intros a; rewrite PO, List.filter_In, bool_decide_eq_true; tauto).
    destruct (loop_ok fuel i x IH (order G i) G ({[i]} ∪ M) C ({[i]} ∪ K) pend o s I) as (G1 & M1 & C1 & sw & o1 & s1 & A1 & A2 & A3 & A4 & A5 & A6); auto.
    { apply in_one. } { apply in_one. } { lia. } { intros q Q. apply elem_of_union in Q as [Q|Q]; [apply elem_of_singleton in Q as ->; split; [eauto|lia]|]. destruct (HK q Q). split; auto. lia. }
    { rewrite PO. apply NoDup_filter. apply (proj2 W i x Ex). } { intros a Ia. apply IO in Ia as [? ?]. auto. }
    rewrite A1. cbn [mbind option_bind p_graph p_marks p_comps]. assert (Li : i < nxt G) by (apply W in Ex; lia).
    assert (Ex1 : gs G1 !! i = Some x) by (rewrite (e_same _ _ _ _ _ _ _ _ _ A3 i); eauto).
    destruct (swaps_ok i sw G1 M1 C1 ({[i]} ∪ K) pend o1 s1 x A2 Ex1 A5 ltac:(auto)) as (G2 & x2 & B1 & B2 & B3 & B4 & B5). rewrite B1. cbn [mbind option_bind]. exists G2, M1, C1, o1, s1. split; [reflexivity|].
    assert (SM : forall j, is_Some (gs G2 !! j) <-> is_Some (gs G1 !! j)) by (intros j; rewrite B4; destruct (decide (i = j)) as [<-|N]; [rewrite lookup_insert, Ex1; split; eauto|rewrite lookup_insert_ne by auto; tauto]).
    split.
    + apply (finish_ok _ _ _ _ _ _ _ i x2 B2); [rewrite B4; apply lookup_insert|auto|]. intros b Ib Sb. destruct (B5 b Ib) as [?|[J1 J2]]; auto. apply (proj1 (SM _)) in Sb. assert (Lb : Z.abs b < nxt G) by (destruct (proj2 W i x Ex) as [_ [_ Q]]; apply Q in J1; lia). apply (e_gates _ _ _ _ _ _ _ _ _ A3 _ Lb) in Sb. destruct (A4 b); [apply IO; auto|auto|tauto].
    + destruct A3 as [a1 b1 c1 d1 f1 g1]. constructor; auto.
      * lia.
      * intros j L. rewrite SM. auto.
      * intros j Sj L. rewrite B4. destruct (decide (i = j)) as [<-|N]; [lia|]. rewrite lookup_insert_ne by auto. apply g1; auto. lia.
Qed.
End Run.
