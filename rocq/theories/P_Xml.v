(** Properties C39 and C40: the XML report writer. *)
From Coq Require Import List Arith NArith ZArith Lia Bool Ascii String.
From Verif Require Import XmlStream XmlProofs.
Import ListNotations.
Local Open Scope list_scope.

(** C39.  Any sequence of calls that respects scopes is carried out without a failed assertion;
    exactly the calls that make no sense for the document raise an error; and once the root
    element is closed, an XML reader gets back the document that the calls describe: the same
    tree of names, with attribute values and texts exactly as given. *)
Theorem C39_round_trip (indent : bool) (ops : list op) :
  legal_run ops new_doc ->
  exists s errors,
    run ops (new_stream indent) = Some (s, errors) /\ errors = snd (means ops new_doc) /\
    forall t, d_done (fst (means ops new_doc)) = Some t -> read_doc (out s) = Some t.
Proof.
  intros L. destruct (run_sim indent ops _ _ (sim_new indent) L) as (s & R & S). exists s. eexists. split; [exact R|]. split; [reflexivity|].
  intros t D. rewrite (sim_out _ _ _ S), D. apply read_doc_ok. now apply (sim_done _ _ _ S).
Qed.
(** In particular: a program that runs without errors and closes its root element writes a document that reads back. *)
Theorem C39_well_formed (indent : bool) (ops : list op) s errors :
  legal_run ops new_doc -> run ops (new_stream indent) = Some (s, errors) ->
  has_root s = true -> live s = [] ->
  exists t, read_doc (out s) = Some t /\ d_done (fst (means ops new_doc)) = Some t.
Proof.
  intros L R H E. destruct (run_sim indent ops _ _ (sim_new indent) L) as (s' & R' & S). rewrite R in R'. injection R' as <- ->.
  assert (OP : d_open (fst (means ops new_doc)) = []). { pose proof (sim_live _ _ _ S) as LV. rewrite E in LV. destruct (d_open _); [reflexivity|contradiction]. }
  assert (INV : forall ops d, (d_started d = true -> d_open d = [] -> d_done d <> None) -> d_started (fst (means ops d)) = true -> d_open (fst (means ops d)) = [] -> d_done (fst (means ops d)) <> None).
  { clear. intros ops. induction ops as [|o ops IH]; intros d I; [exact I|]. cbn [means]. destruct (meaning o d) as [d'|] eqn:M.
    - specialize (IH d'). destruct (means ops d') as [d2 l]. cbn [fst] in *. apply IH. clear IH.
      destruct o as [[|c name]|[|k] [|c name] v|[|k] v|[|k] [|c name]|]; cbn [meaning] in M;
        try (destruct (d_open d) as [|[fn fa fc] fs]; discriminate M).
      + destruct (d_started d); [discriminate|]. injection M as <-. discriminate.
      + destruct (d_open d) as [|[fn fa [|t|l1]] fs]; try discriminate M. injection M as <-. discriminate.
      + destruct (d_open d) as [|[fn fa [|t|l1]] fs]; try discriminate M; injection M as <-; discriminate.
      + destruct (d_open d) as [|[fn fa [|t|l1]] fs]; try discriminate M; injection M as <-; discriminate.
      + destruct (d_open d) as [|[fn fa fc] [|[gn ga [|t|l1]] fs]]; try discriminate M; injection M as <-; discriminate.
    - specialize (IH d I). destruct (means ops d). exact IH. }
  destruct (d_done (fst (means ops new_doc))) as [t|] eqn:D.
  - exists t. split; [|reflexivity]. rewrite (sim_out _ _ _ S), D. apply read_doc_ok. now apply (sim_done _ _ _ S).
  - exfalso. refine (INV ops new_doc _ _ OP D); [discriminate|]. now rewrite <- (sim_root _ _ _ S).
Qed.
(** A call that raises an error leaves the file and the state alone (a misuse is reported before anything is written). *)
Theorem C39_misuse_is_error o s d indent :
  sim indent s d -> legal o d -> meaning o d = None -> step o s = Err.
Proof. intros S L M. pose proof (step_sim indent o s d S L) as H. now rewrite M in H. Qed.

Definition sample_ops : list op :=
  [ORoot (lit "report"); OAttr 0 (lit "name") (VStr (lit "a<b & ""c""")); OChild 0 (lit "size"); OText 0 (VSize 4096); OText 1 (VInt 3);
   OText 0 (VInt (-15)); OClose; OAttr 0 (lit "late") (VBool true); OChild 0 (lit "empty"); ORoot (lit "again"); OClose; OClose].
Example C39_witness :
  legal_run sample_ops new_doc /\
  exists s, run sample_ops (new_stream true) = Some (s, [false; false; false; false; true; false; false; true; false; true; false; false]) /\
    read_doc (out s) = Some (Node (lit "report") [(lit "name", lit "a<b & ""c""")]
      (CKids (NCons (Node (lit "size") [] (CText (lit "4096-15"))) (NCons (Node (lit "empty") [] CEmpty) NNil)))).
Proof.
  split.
  - vm_compute. repeat match goal with |- _ /\ _ => split | |- True => exact I end; try reflexivity; try lia; try discriminate; intuition discriminate.
  - eexists. split; vm_compute; reflexivity.
Qed.
(** Names are not checked, as the code warns: with a name that is not an XML name the output is not well formed. *)
Theorem C39_unchecked_name_refuted : exists ops s,
  run ops (new_stream true) = Some (s, [false; false]) /\ has_root s = true /\ live s = [] /\ read_doc (out s) = None.
Proof. exists [ORoot (lit "a b"); OClose]. eexists. vm_compute. auto. Qed.
(** Nothing stops a caller from setting the same attribute twice, which XML does not allow. *)
Theorem C39_duplicate_attribute_refuted : exists ops s n a c,
  legal_run ops new_doc /\ run ops (new_stream true) = Some (s, [false; false; false; false]) /\
  read_doc (out s) = Some (Node n a c) /\ ~ NoDup (map fst a).
Proof.
  exists [ORoot (lit "a"); OAttr 0 (lit "x") (VBool true); OAttr 0 (lit "x") (VBool false); OClose]. eexists _, _, _, _. split; [|split; [|split]].
  - vm_compute. repeat match goal with |- _ /\ _ => split | |- True => exact I end; try reflexivity; try lia; discriminate.
  - vm_compute. reflexivity.
  - vm_compute. reflexivity.
  - vm_compute. intros H. inversion H as [|? ? N _]. apply N. left. reflexivity.
Qed.
(** Strings are C strings: what follows a NUL character is lost. *)
Theorem C39_nul_truncation_refuted : exists s s', s <> s' /\ put_value (VStr s) = put_value (VStr s').
Proof. exists (lit "a"), (lit "a" ++ [nul] ++ lit "b"). split; [discriminate|reflexivity]. Qed.

(** C40.  Every size_t is written in decimal, within the 20-character buffer, and reads back. *)
Theorem C40_size_t (n : N) : (n < 2 ^ 64)%N -> exists l, write_size n = Some l /\ read_N l = Some n /\ List.length l <= 20.
Proof.
  intros L. exists (decimal n). split; [now apply write_size_ok|]. split; [apply read_decimal|].
  pose proof (write_size_ok n L) as W. unfold write_size in W. destruct (digits buffer_size n) as [x|] eqn:E; [|discriminate]. injection W as <-.
  rewrite rev_length. change 20 with buffer_size. clear L. revert n x E. induction buffer_size as [|f IH]; intros n x E; [discriminate|]. cbn [digits] in E.
  destruct (N.ltb 0 (n / 10)); [|injection E as <-; simpl; lia]. destruct (digits f (n / 10)) as [y|] eqn:Y; [|discriminate]. injection E as <-.
  apply IH in Y. simpl. lia.
Qed.
(** The buffer is just large enough: one digit less would overflow. *)
Theorem C40_buffer_is_tight : digits 19 (2 ^ 64 - 1) = None /\ digits 20 (2 ^ 64 - 1) <> None.
Proof. split; vm_compute; [reflexivity|discriminate]. Qed.
(** Every int except the least one is written with its sign and reads back. *)
Theorem C40_int (z : Z) : (- 2 ^ 31 < z < 2 ^ 31)%Z -> exists l, write_int z = Some l /\ read_Z l = Some z.
Proof.
  intros L. exists (text (VInt z)). split; [now apply write_int_ok|]. cbn [text]. destruct (Z.ltb_spec z 0).
  - cbn [read_Z]. change (Ascii.eqb "-" "-") with true. rewrite read_decimal. cbn [option_map]. f_equal. lia.
  - rewrite read_decimal_Z. f_equal. lia.
Qed.
(** No two numbers are written alike. *)
Theorem C40_injective (a b : N) : (a < 2 ^ 64)%N -> (b < 2 ^ 64)%N -> write_size a = write_size b -> a = b.
Proof.
  intros A B E. destruct (C40_size_t a A) as (x & X & RX & _). destruct (C40_size_t b B) as (y & Y & RY & _). congruence.
Qed.
(** The least int is not written correctly (its negation overflows): on a two's complement
    machine another number appears. *)
Theorem C40_int_min_refuted : exists l, write_int (- 2 ^ 31) = Some l /\ read_Z l = Some (- (2 ^ 64 - 2 ^ 31))%Z.
Proof. eexists. split; vm_compute; reflexivity. Qed.
Example C40_witness : write_int (-42) = Some (lit "-42") /\ write_size (2 ^ 64 - 1) = Some (lit "18446744073709551615") /\ write_size 0 = Some (lit "0").
Proof. vm_compute. auto. Qed.
