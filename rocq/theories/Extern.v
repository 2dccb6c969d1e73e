(** Extern function signatures: Encode and the extractor table,
    src/initializer.cc:1409-1541.  int is modelled by Z; [encode_range] below shows that no
    value leaves 32 bits. *)
From Coq Require Import List ZArith Lia Bool.
Import ListNotations.
Open Scope Z_scope.

Inductive ptype := PInt | PDouble.
(** ExternParamType, initializer.cc:1410. *)
Definition digit (t : ptype) : Z := match t with PInt => 1 | PDouble => 2 end.
(** kExternTypeBase, kMaxNumParam, kNumInterfaces, initializer.cc:1411-1413. *)
Definition base : Z := 3.
Definition max_num_param : nat := 5.
Definition num_interfaces : nat := 126.

(** Run-time Encode, initializer.cc:1424-1445: a loop over the elements (return type first). *)
Fixpoint encode_loop (ret base_power : Z) (l : list ptype) : Z :=
  match l with
  | [] => ret
  | t :: l => encode_loop (ret + base_power * digit t) (base_power * base) l
  end.
Definition encode (l : list ptype) : Z := encode_loop 0 1 l.

(** Compile-time Encode, initializer.cc:1448-1460: first type plus the rest. *)
Fixpoint encode_ct (base_power : Z) (l : list ptype) : Z :=
  match l with
  | [] => 0
  | [t] => base_power * digit t
  | t :: l => base_power * digit t + encode_ct (base_power * base) l
  end.

(** unordered_map::emplace: an existing key wins. *)
Definition fmap := list (Z * list ptype).
Definition lookup (k : Z) (m : fmap) : option (list ptype) :=
  option_map snd (find (fun p => Z.eqb (fst p) k) m).
Definition emplace (k : Z) (v : list ptype) (m : fmap) : fmap :=
  match lookup k m with Some _ => m | None => (k, v) :: m end.

(** GenerateExternFunctionExtractor<N, Ts...>, initializer.cc:1474-1492; the extractor is
    represented by the type list it instantiates. *)
Fixpoint generate (n : nat) (ts : list ptype) (m : fmap) : fmap :=
  match n with
  | O => emplace (encode_ct 1 ts) ts m
  | S n => generate n (ts ++ [PDouble]) (generate n (ts ++ [PInt]) (emplace (encode_ct 1 ts) ts m))
  end.

(** The static table of DefineExternFunction, initializer.cc:1497-1504. *)
Definition extractors : fmap :=
  generate max_num_param [PDouble] (generate max_num_param [PInt] []).

Inductive outcome := ExtractorFor (sig : list ptype) | ValidityError | OutOfRange.
(** DefineExternFunction, initializer.cc:1516-1538: args includes the return type. *)
Definition define_extern (args : list ptype) : outcome :=
  if Z.of_nat (length args) - 1 >? Z.of_nat max_num_param then ValidityError
  else match lookup (encode args) extractors with
       | Some sig => ExtractorFor sig
       | None => OutOfRange     (* unordered_map::at throws *)
       end.

(** ** Proofs *)
Lemma encode_loop_acc l : forall r p, encode_loop r p l = r + encode_loop 0 p l.
Proof.
  induction l as [|t l IH]; intros r p; simpl; [lia|].
  rewrite IH. rewrite (IH (0 + p * digit t)). lia.
Qed.
Lemma encode_loop_scale l : forall p q, encode_loop 0 (q * p) l = q * encode_loop 0 p l.
Proof.
  induction l as [|t l IH]; intros p q; simpl; [lia|].
  rewrite encode_loop_acc. rewrite (encode_loop_acc l (p * digit t) (p * base)).
  rewrite <- (Z.mul_assoc q p base), IH. ring.
Qed.
Lemma encode_cons t l : encode (t :: l) = digit t + 3 * encode l.
Proof.
  unfold encode. change (encode_loop 0 1 (t :: l)) with (encode_loop (0 + 1 * digit t) (3 * 1) l).
  rewrite encode_loop_acc, encode_loop_scale. ring.
Qed.
Lemma encode_nonneg l : 0 <= encode l.
Proof. induction l; [now unfold encode|]. rewrite encode_cons. destruct a; unfold digit; lia. Qed.

Lemma encode_inj l1 : forall l2, encode l1 = encode l2 -> l1 = l2.
Proof.
  induction l1 as [|t1 l1 IH]; intros [|t2 l2] H; auto; try rewrite !encode_cons in H.
  - change (encode []) with 0 in H. pose proof (encode_nonneg l2). destruct t2; unfold digit in H; lia.
  - change (encode []) with 0 in H. pose proof (encode_nonneg l1). destruct t1; unfold digit in H; lia.
  - assert (E : encode l1 = encode l2) by (destruct t1, t2; unfold digit in H; lia).
    apply IH in E. subst. f_equal. destruct t1, t2; unfold digit in H; auto; lia.
Qed.

Lemma encode_range l : encode l < 3 ^ Z.of_nat (length l).
Proof.
  induction l; [now unfold encode|]. rewrite encode_cons.
  simpl length. rewrite Nat2Z.inj_succ, Z.pow_succ_r by lia.
  destruct a; unfold digit; lia.
Qed.

Lemma encode_ct_eq l : forall p, encode_ct p l = encode_loop 0 p l.
Proof.
  induction l as [|t l IH]; intros p; simpl; auto.
  destruct l.
  - simpl. lia.
  - rewrite IH. rewrite (encode_loop_acc _ (0 + p * digit t)). reflexivity.
Qed.

Definition inv (m : fmap) : Prop := forall k v, lookup k m = Some v -> k = encode v.

Lemma lookup_cons k k' v m : lookup k ((k', v) :: m) = if Z.eqb k' k then Some v else lookup k m.
Proof. unfold lookup. simpl. destruct (k' =? k); auto. Qed.

Lemma emplace_inv ts m : inv m -> inv (emplace (encode_ct 1 ts) ts m)
  /\ lookup (encode ts) (emplace (encode_ct 1 ts) ts m) = Some ts
  /\ (forall k v, lookup k m = Some v -> lookup k (emplace (encode_ct 1 ts) ts m) = Some v).
Proof.
  intros I. rewrite encode_ct_eq. fold (encode ts). unfold emplace.
  destruct (lookup (encode ts) m) eqn:E.
  - pose proof (I _ _ E) as H. apply encode_inj in H. subst. auto.
  - repeat split.
    + intros k v. rewrite lookup_cons. destruct (Z.eqb_spec (encode ts) k); [intros [= <-]; auto|].
      apply I.
    + rewrite lookup_cons, Z.eqb_refl. auto.
    + intros k v H. rewrite lookup_cons. destruct (Z.eqb_spec (encode ts) k); [|auto].
      subst. congruence.
Qed.

Lemma generate_inv n : forall ts m, inv m -> inv (generate n ts m)
  /\ (forall k v, lookup k m = Some v -> lookup k (generate n ts m) = Some v)
  /\ (forall l, (length l <= n)%nat -> lookup (encode (ts ++ l)) (generate n ts m) = Some (ts ++ l)).
Proof.
  induction n as [|n IH]; intros ts m I; simpl.
  - destruct (emplace_inv ts m I) as (H1 & H2 & H3). repeat split; auto.
    intros [|] Hl; [|simpl in Hl; lia]. rewrite app_nil_r. auto.
  - destruct (emplace_inv ts m I) as (A1 & A2 & A3).
    destruct (IH (ts ++ [PInt]) _ A1) as (B1 & B2 & B3).
    destruct (IH (ts ++ [PDouble]) _ B1) as (C1 & C2 & C3).
    repeat split; auto.
    intros [|[] l] Hl; simpl in Hl.
    + rewrite app_nil_r. auto.
    + replace (ts ++ PInt :: l) with ((ts ++ [PInt]) ++ l) by (rewrite <- app_assoc; reflexivity).
      apply C2, B3. lia.
    + replace (ts ++ PDouble :: l) with ((ts ++ [PDouble]) ++ l) by (rewrite <- app_assoc; reflexivity).
      apply C3. lia.
Qed.

Lemma extractors_ok args : args <> [] -> (length args <= 6)%nat ->
  lookup (encode args) extractors = Some args.
Proof.
  intros N L. unfold extractors.
  assert (I0 : inv []) by (intros k v; discriminate).
  destruct (generate_inv max_num_param [PInt] [] I0) as (A1 & A2 & A3).
  destruct (generate_inv max_num_param [PDouble] _ A1) as (B1 & B2 & B3).
  destruct args as [|[] l]; [congruence| |]; simpl in L.
  - apply B2. apply (A3 l). unfold max_num_param. lia.
  - apply (B3 l). unfold max_num_param. lia.
Qed.
