(** C45: extern function signatures are told apart. *)
From Coq Require Import List ZArith Lia Bool.
From Verif Require Import Extern.
Import ListNotations.
Open Scope Z_scope.

(** Signatures are lists of types, the return type first.  Equal codes, equal signatures
    (for any number of parameters). *)
Theorem C45_encode_injective : forall s1 s2, encode s1 = encode s2 -> s1 = s2.
Proof. exact encode_inj. Qed.
Print Assumptions C45_encode_injective.

(** A declaration with a return type and at most five parameters gets the extractor for
    precisely its own signature; one with more is refused. *)
Theorem C45_dispatch : forall ret params,
  define_extern (ret :: params) =
    if Nat.leb (length params) 5 then ExtractorFor (ret :: params) else ValidityError.
Proof.
  intros ret params. unfold define_extern.
  replace (Z.of_nat (length (ret :: params)) - 1) with (Z.of_nat (length params)) by (simpl length; lia).
  unfold max_num_param. destruct (Nat.leb_spec (length params) 5).
  - replace (Z.of_nat (length params) >? Z.of_nat 5) with false
      by (symmetry; rewrite Z.gtb_ltb; apply Z.ltb_ge; lia).
    rewrite extractors_ok; auto; [discriminate|simpl; lia].
  - replace (Z.of_nat (length params) >? Z.of_nat 5) with true
      by (symmetry; rewrite Z.gtb_ltb; apply Z.ltb_lt; lia). auto.
Qed.
Print Assumptions C45_dispatch.

(** The codes in use fit an int, and the table has exactly the announced size. *)
Theorem C45_no_overflow : forall sig, (length sig <= 6)%nat -> 0 <= encode sig < 729.
Proof.
  intros sig L. split; [apply encode_nonneg|].
  eapply Z.lt_le_trans; [apply encode_range|].
  replace 729 with (3 ^ 6) by reflexivity. apply Z.pow_le_mono_r; lia.
Qed.
Print Assumptions C45_no_overflow.

Theorem C45_table_size : length extractors = num_interfaces.
Proof. vm_compute. reflexivity. Qed.
Print Assumptions C45_table_size.

Example C45_example :
  define_extern [PDouble; PInt; PDouble] = ExtractorFor [PDouble; PInt; PDouble]
  /\ encode [PDouble; PInt; PDouble] = 23.
Proof. split; vm_compute; reflexivity. Qed.
