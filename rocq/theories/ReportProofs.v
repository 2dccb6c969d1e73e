(** Proofs about the report (Report.v). *)
From Coq Require Import List String Ascii Bool ZArith NArith Arith Lia.
From Verif Require Import XmlStream XmlProofs Report.
From Verif Require Serial SerialProofs P_Xml.
Import ListNotations.
Local Open Scope string_scope.
Local Open Scope list_scope.
Import SerialProofs.
Local Opaque lit.

(** ** What the calls build *)
Definition at_value (p : string * value) : str * str := (lit (fst p), XmlStream.text (snd p)).
Definition E (name : string) (l : list (string * value)) (ks : list node) : node := Node (lit name) (map at_value l) (cont ks).
Definition T (name : string) (v : value) : node := Node (lit name) [] (CText (XmlStream.text v)).
Definition okp (p : string * value) : Prop := okn (fst p) /\ ok_value (snd p).
Lemma fills_put l : Forall okp l -> forall ops a0 a c, fills ops (a0 ++ map at_value l) a c -> fills (put l ++ ops) a0 a c.
Proof.
  induction 1 as [|p l (K & V) _ IH]; intros ops a0 a c F; cbn [put map app] in *; [now rewrite app_nil_r in F|].
  apply fills_attr; [exact K|exact V|]. apply IH. rewrite <- app_assoc. exact F.
Qed.
Lemma adds_el name l ops ks : okn name -> Forall okp l -> adds ops ks -> adds (el name l ops) [E name l ks].
Proof.
  intros K L A. unfold el, E. rewrite app_assoc. apply (adds_child name (put l ++ ops)); [exact K|]. apply fills_put; [exact L|]. cbn [app]. now apply fills_kids.
Qed.
Lemma adds_tx name v : okn name -> ok_value v -> adds (tx name v) [T name v].
Proof.
  intros K V. unfold tx, el, T. apply (adds_child name [OText 0 v]); [exact K|].
  intros n rest st dn. eapply goes_cons; [reflexivity|cbn; split; [lia|exact V]|apply goes_nil].
Qed.

(** ** Reading it *)
Definition sval (v : value) : string := string_of_list_ascii (XmlStream.text v).
Arguments sval : simpl never.
Fixpoint look (k : string) (l : list (string * value)) : option value :=
  match l with [] => None | (k', v) :: l => if String.eqb k' k then Some v else look k l end.
Lemma look_app k a b : look k (a ++ b) = match look k a with Some v => Some v | None => look k b end.
Proof. induction a as [|[k' v] a IH]; [reflexivity|]. cbn. destruct (String.eqb k' k); [reflexivity|exact IH]. Qed.
Lemma value_E k n l ks : value_of k (E n l ks) = option_map sval (look k l).
Proof.
  unfold value_of, E. induction l as [|[k' v] l IH]; [reflexivity|]. cbn [map Serial.raw_attribute at_value fst snd look].
  destruct (list_eq_dec ascii_dec (lit k') (lit k)) as [Q|Q]; destruct (String.eqb_spec k' k) as [Q2|Q2]; try reflexivity; try exact IH.
  - exfalso. apply Q2. now rewrite <- (of_lit k'), Q, of_lit.
  - exfalso. apply Q. now subst.
Qed.
Lemma name_E n l ks : name_of (E n l ks) = n. Proof. apply of_lit. Qed.
Lemma name_T n v : name_of (T n v) = n. Proof. apply of_lit. Qed.
Lemma text_T n v : text_of (T n v) = Some (sval v). Proof. reflexivity. Qed.
Lemma kids_E n l ks : kids_of (E n l ks) = ks. Proof. apply kids_cont. Qed.
Lemma sval_S s : sval (S_ s) = s. Proof. apply of_lit. Qed.
Lemma read_int z : read_Z (XmlStream.text (VInt z)) = Some z.
Proof.
  cbn [XmlStream.text]. destruct (Z.ltb_spec z 0).
  - cbn [read_Z]. change (Ascii.eqb "-" "-") with true. rewrite read_decimal. cbn [option_map]. f_equal. lia.
  - rewrite read_decimal_Z. f_equal. lia.
Qed.
Lemma sval_int z : read_Z (lit (sval (VInt z))) = Some z. Proof. unfold sval. rewrite lit_of. apply read_int. Qed.
Lemma sval_size n : read_Z (lit (sval (VSize n))) = Some (Z.of_N n). Proof. unfold sval. rewrite lit_of. apply read_decimal_Z. Qed.
Lemma int_E k n l ks z : look k l = Some (VInt z) -> int_of k (E n l ks) = Some z.
Proof. intros L. unfold int_of. rewrite value_E, L. apply sval_int. Qed.
Lemma size_E k n l ks z : look k l = Some (VSize z) -> int_of k (E n l ks) = Some (Z.of_N z).
Proof. intros L. unfold int_of. rewrite value_E, L. apply sval_size. Qed.
Lemma str_E k n l ks s : look k l = Some (S_ s) -> value_of k (E n l ks) = Some s.
Proof. intros L. rewrite value_E, L. cbn. now rewrite sval_S. Qed.
Lemma no_E k n l ks : look k l = None -> value_of k (E n l ks) = None.
Proof. intros L. now rewrite value_E, L. Qed.
Lemma children_all tag n l ks : (forall c, In c ks -> name_of c = tag) -> children tag (E n l ks) = ks.
Proof.
  intros H. unfold children. rewrite kids_E. induction ks as [|c ks IH]; [reflexivity|]. cbn [filter]. rewrite (H c) by now left. rewrite String.eqb_refl. f_equal. apply IH. intros d I. apply H. now right.
Qed.
Lemma children_map {A} (g : A -> node) tag n l (xs : list A) : (forall x, In x xs -> name_of (g x) = tag) -> children tag (E n l (map g xs)) = map g xs.
Proof. intros H. apply children_all. intros c I. apply in_map_iff in I. destruct I as (x & <- & I). auto. Qed.
Lemma children_app tag n l a b : children tag (E n l (a ++ b)) = children tag (E n l a) ++ children tag (E n l b).
Proof. unfold children. rewrite !kids_E. apply filter_app. Qed.
Lemma children_none tag n l ks : (forall c, In c ks -> name_of c <> tag) -> children tag (E n l ks) = [].
Proof.
  intros H. unfold children. rewrite kids_E. induction ks as [|c ks IH]; [reflexivity|]. cbn [filter]. destruct (String.eqb_spec (name_of c) tag) as [Q|Q]; [exfalso; apply (H c); [now left|exact Q]|].
  apply IH. intros d I. apply H. now right.
Qed.

(** Strings without control characters. *)
Definition plain (s : string) : Prop := forall c, In c (lit s) -> (32 <= N_of_ascii c)%N.
Definition small (n : nat) : Prop := (Z.of_nat n < 2 ^ 31)%Z.
Definition int_range (z : Z) : Prop := (- 2 ^ 31 < z < 2 ^ 31)%Z.
Lemma plain_ok s : plain s -> ok_value (S_ s).
Proof. intros P I. apply P in I. vm_compute in I. now apply I. Qed.
Lemma size_ok n : small n -> ok_value (VSize (N.of_nat n)).
Proof. unfold small, ok_value. intros H. lia. Qed.
Lemma n_ok {A} (l : list A) : small (List.length l) -> ok_value (n_ l). Proof. apply size_ok. Qed.
Lemma nat_int n : small n -> ok_value (VInt (Z.of_nat n)). Proof. unfold small, ok_value. lia. Qed.
Local Transparent lit.
Lemma lit_app a b : lit (a ++ b)%string = lit a ++ lit b.
Proof. induction a as [|c a IH]; [reflexivity|]. change (lit (String c a ++ b)%string) with (c :: lit (a ++ b)%string). rewrite IH. reflexivity. Qed.
Lemma lit_nil : lit "" = []. Proof. reflexivity. Qed.
Lemma lit_space : lit " " = [" "%char]. Proof. reflexivity. Qed.
Local Opaque lit.
Lemma plain_app a b : plain a -> plain b -> plain (a ++ b)%string.
Proof. intros A B c I. rewrite lit_app, in_app_iff in I. destruct I; auto. Qed.
Lemma plain_lit s : forallb (fun c => N.leb 32 (N_of_ascii c)) (lit s) = true -> plain s.
Proof. intros F c I. rewrite forallb_forall in F. apply F in I. now apply N.leb_le. Qed.
Lemma plain_join l : Forall plain l -> plain (String.concat " " l).
Proof.
  induction 1 as [|s l P F IH]; [now apply plain_lit|]. cbn [String.concat]. destruct l as [|t l]; [exact P|].
  apply plain_app; [exact P|]. apply plain_app; [now apply plain_lit|exact IH].
Qed.
Ltac lits := apply plain_ok; apply plain_lit; vm_compute; reflexivity.
Ltac name_ok := split; [discriminate|vm_compute; reflexivity].
Ltac okl := repeat (apply Forall_cons; [split; [cbn [fst]; name_ok|cbn [snd]]|]); try apply Forall_nil.

(** ** Ids and events *)
Definition good_id (i : ident) : Prop :=
  match i_target i with TGate g => plain g | TSequence e s => plain e /\ plain s end /\
  match i_context i with Some (a, p) => plain a /\ plain p | None => True end.
Definition good_event (e : event) : Prop :=
  match e with Basic id => plain id | Ccf g ms n => plain g /\ Forall plain ms /\ small (List.length ms) /\ small n end.
Lemma put_context_ok c : match c with Some (a, p) => plain a /\ plain p | None => True end -> Forall okp (put_context c).
Proof. destruct c as [[a p]|]; [|intros; apply Forall_nil]. intros (A & P). unfold put_context. okl; now apply plain_ok. Qed.
Lemma put_id_ok i : good_id i -> Forall okp (put_id i).
Proof.
  intros (T0 & C). unfold put_id. apply Forall_app. split; [|now apply put_context_ok].
  destruct (i_target i); [okl; now apply plain_ok|]. destruct T0. okl; now apply plain_ok.
Qed.
Definition id_key (k : string) : bool := existsb (String.eqb k) ["name"; "alignment"; "phase"; "initiating-event"].
Lemma look_id k i l : id_key k = false -> look k (put_id i ++ l) = look k l.
Proof.
  intros K. rewrite look_app. assert (L : look k (put_id i) = None); [|now rewrite L]. unfold id_key in K. cbn [existsb] in K.
  rewrite !orb_false_iff in K. destruct K as (K1 & K2 & K3 & K4 & _). rewrite String.eqb_sym in K1, K2, K3, K4.
  unfold put_id, put_context. destruct (i_target i), (i_context i) as [[a p]|]; cbn [look app]; rewrite ?K1, ?K2, ?K3, ?K4; reflexivity.
Qed.
Lemma look_context k c l : id_key k = false -> look k (put_context c ++ l) = look k l.
Proof.
  intros K. rewrite look_app. assert (L : look k (put_context c) = None); [|now rewrite L]. unfold id_key in K. cbn [existsb] in K.
  rewrite !orb_false_iff in K. destruct K as (K1 & K2 & K3 & K4 & _). rewrite String.eqb_sym in K1, K2, K3, K4.
  unfold put_context. destruct c as [[a p]|]; cbn [look]; rewrite ?K2, ?K3; reflexivity.
Qed.
Lemma read_context_ok tag p c l ks : look "alignment" (p ++ l) = None -> look "phase" (p ++ l) = None -> look "alignment" p = None -> look "phase" p = None ->
  read_context (E tag (p ++ put_context c ++ l) ks) = Some c.
Proof.
  intros A P A' P'. unfold read_context. rewrite !value_E, !look_app, A', P'. rewrite look_app, A' in A. rewrite look_app, P' in P. rewrite A, P.
  destruct c as [[a p']|]; cbn; [now rewrite !sval_S|reflexivity].
Qed.
Lemma read_id_ok tag i l ks : (forall k, id_key k = true -> look k l = None) -> read_id (E tag (put_id i ++ l) ks) = Some i.
Proof.
  intros L. unfold read_id, read_context. rewrite !value_E, !look_app. rewrite !L by reflexivity.
  destruct i as [[g|e s] [[a p]|]]; cbn -[sval]; rewrite !sval_S; reflexivity.
Qed.
Definition member_node (m : string) : node := E "basic-event" [("name", S_ m)] [].
Definition event_node (e : event) (data : list (string * value)) : node :=
  match e with
  | Basic id => E "basic-event" (("name", S_ id) :: data) []
  | Ccf g ms n => E "ccf-event" ([("ccf-group", S_ g); ("order", n_ ms); ("group-size", VSize (N.of_nat n))] ++ data) (map member_node ms)
  end.
Lemma adds_event e data : good_event e -> Forall okp data -> adds (report_event e data) [event_node e data].
Proof.
  intros G D. destruct e as [id|g ms n]; cbn [report_event event_node].
  - apply adds_el; [name_ok| |apply adds_nil]. apply Forall_cons; [split; [name_ok|now apply plain_ok]|exact D].
  - destruct G as (G & M & L & S). apply adds_el; [name_ok| |].
    + apply Forall_app. split; [|exact D]. okl; [now apply plain_ok|now apply n_ok|now apply size_ok].
    + apply adds_map. intros m I. rewrite Forall_forall in M. apply adds_el; [name_ok| |apply adds_nil]. okl. apply plain_ok. auto.
Qed.
Lemma read_event_ok e data : read_event (event_node e data) = Some e.
Proof.
  destruct e as [id|g ms n]; unfold read_event; cbn [event_node]; rewrite name_E; cbn [String.eqb].
  - change (String.eqb "basic-event" "basic-event") with true. cbn iota. now rewrite (str_E _ _ _ _ id).
  - change (String.eqb "ccf-event" "basic-event") with false. change (String.eqb "ccf-event" "ccf-event") with true. cbn iota.
    rewrite (str_E "ccf-group" _ _ _ g) by reflexivity. rewrite (size_E "order" _ _ _ (N.of_nat (List.length ms))) by reflexivity. rewrite (size_E "group-size" _ _ _ (N.of_nat n)) by reflexivity.
    rewrite children_map by (intros; apply name_E).
    rewrite (all_map (value_of "name") member_node (fun m => m)) by (intros; now apply str_E). rewrite map_id.
    rewrite nat_N_Z, Z.eqb_refl. rewrite nat_N_Z, Nat2Z.id. reflexivity.
Qed.
Lemma name_event e data : name_of (event_node e data) = "basic-event" \/ name_of (event_node e data) = "ccf-event".
Proof. destruct e; cbn [event_node]; rewrite name_E; auto. Qed.
Lemma look_event k e data : existsb (String.eqb k) ["name"; "ccf-group"; "order"; "group-size"] = false ->
  value_of k (event_node e data) = option_map sval (look k data).
Proof.
  intros K. cbn [existsb] in K. rewrite !orb_false_iff in K. destruct K as (K1 & K2 & K3 & K4 & _). rewrite String.eqb_sym in K1, K2, K3, K4.
  destruct e; cbn [event_node]; rewrite value_E; cbn [look app]; rewrite ?K1, ?K2, ?K3, ?K4; reflexivity.
Qed.
Definition literal_node (l : bool * event) : node := if fst l then E "not" [] [event_node (snd l) []] else event_node (snd l) [].
Lemma adds_literal l : good_event (snd l) -> adds (report_literal l) [literal_node l].
Proof.
  intros G. unfold report_literal, literal_node. destruct (fst l); [|apply adds_event; [exact G|apply Forall_nil]].
  apply adds_el; [name_ok|apply Forall_nil|]. apply adds_event; [exact G|apply Forall_nil].
Qed.
Lemma read_literal_ok l : read_literal (literal_node l) = Some l.
Proof.
  destruct l as [[|] e]; unfold read_literal, literal_node; cbn [fst snd].
  - rewrite name_E. change (String.eqb "not" "not") with true. cbn iota. rewrite kids_E. now rewrite read_event_ok.
  - assert (Q : String.eqb (name_of (event_node e [])) "not" = false) by (destruct (name_event e []) as [-> | ->]; reflexivity). rewrite Q, read_event_ok. reflexivity.
Qed.

(** ** The containers *)
Definition orders (ps : list (list Z)) : list nat := map (fun p => Nat.max 1 (List.length p)) ps.
(** How many products there are of the orders 1, 2, ..., up to the largest. *)
Definition histogram_of_orders (ps : list (list Z)) : list Z :=
  map (fun k => Z.of_nat (List.length (filter (Nat.eqb k) (orders ps)))) (seq 1 (list_max (orders ps))).
Lemma bump_nth k d j : nth j (bump k d) 0%Z = (nth j d 0 + if Nat.eqb j k then 1 else 0)%Z.
Proof.
  revert d j. induction k as [|k IH]; intros [|x d] [|j]; cbn; try reflexivity; try lia.
  - destruct j; reflexivity.
  - rewrite IH. destruct j; reflexivity.
  - rewrite IH. reflexivity.
Qed.
Lemma bump_length k d : List.length (bump k d) = Nat.max (S k) (List.length d).
Proof. revert d. induction k as [|k IH]; intros [|x d]; cbn [bump List.length]; rewrite ?IH; cbn [List.length]; lia. Qed.
Lemma order_index_S p : S (order_index p) = Nat.max 1 (List.length p).
Proof. destruct p; cbn [order_index List.length]; lia. Qed.
Lemma distribution_ok ps : distribution ps = histogram_of_orders ps.
Proof.
  assert (G : forall d, (forall j, nth j (fold_left (fun d p => bump (order_index p) d) ps d) 0%Z = (nth j d 0 + Z.of_nat (List.length (filter (Nat.eqb (S j)) (orders ps))))%Z) /\
                        List.length (fold_left (fun d p => bump (order_index p) d) ps d) = Nat.max (list_max (orders ps)) (List.length d)).
  { induction ps as [|p ps IH]; intros d; cbn [fold_left orders map filter list_max]; [cbn [List.length fold_right]; split; [intros; lia|reflexivity]|].
    destruct (IH (bump (order_index p) d)) as (N & L). split.
    - intros j. rewrite N, bump_nth. fold (orders ps). rewrite <- order_index_S. change (Nat.eqb (S j) (S (order_index p))) with (Nat.eqb j (order_index p)).
      destruct (Nat.eqb j (order_index p)); cbn [List.length]; lia.
    - rewrite L, bump_length. fold (orders ps). cbn [list_max fold_right]. fold (list_max (orders ps)). rewrite order_index_S. lia. }
  destruct (G []) as (N & L). unfold distribution, histogram_of_orders. apply (nth_ext _ _ 0%Z 0%Z).
  - rewrite L, map_length, seq_length. cbn [List.length]. lia.
  - intros j J. rewrite L in J. cbn [List.length] in J. rewrite N.
    assert (Z0 : nth j [] 0%Z = 0%Z) by (destruct j; reflexivity). rewrite Z0, Z.add_0_l. clear Z0.
    rewrite (nth_indep _ 0%Z (Z.of_nat (List.length (filter (Nat.eqb 0) (orders ps))))) by (rewrite map_length, seq_length; lia).
    rewrite (map_nth (fun k => Z.of_nat (List.length (filter (Nat.eqb k) (orders ps))))), seq_nth by lia. reflexivity.
Qed.
Definition indices (ps : list (list Z)) : list nat := map Z.abs_nat (List.concat ps).
Lemma meet_ok p s : NoDup s -> NoDup (fold_left meet p s) /\ forall x, In x (fold_left meet p s) <-> In x s \/ In x (map Z.abs_nat p).
Proof.
  revert s. induction p as [|i p IH]; intros s N; cbn [fold_left map]; [split; [exact N|intros; cbn; tauto]|].
  assert (M : NoDup (meet s i) /\ forall x, In x (meet s i) <-> In x s \/ Z.abs_nat i = x).
  { unfold meet. destruct (existsb (Nat.eqb (Z.abs_nat i)) s) eqn:Q.
    - apply existsb_exists in Q. destruct Q as (y & I & Q). apply Nat.eqb_eq in Q. split; [exact N|]. intros x. split; [auto|]. intros [H|<-]; [exact H|]. now rewrite Q.
    - assert (NI : ~ In (Z.abs_nat i) s). { intros I. rewrite <- not_true_iff_false in Q. apply Q. apply existsb_exists. exists (Z.abs_nat i). split; [exact I|apply Nat.eqb_refl]. }
      split.
      + apply NoDup_rev in N. rewrite <- (rev_involutive (s ++ [Z.abs_nat i])). apply NoDup_rev. rewrite rev_app_distr. cbn. constructor; [now rewrite <- in_rev|exact N].
      + intros x. rewrite in_app_iff. cbn. tauto. }
  destruct M as (M & MI). destruct (IH _ M) as (F & FI). split; [exact F|]. intros x. rewrite FI, MI. cbn. tauto.
Qed.
Lemma product_events_ok ps : List.length (product_events ps) = List.length (nodup Nat.eq_dec (indices ps)).
Proof.
  assert (G : forall s, NoDup s -> NoDup (fold_left (fun s p => fold_left meet p s) ps s) /\
              forall x, In x (fold_left (fun s p => fold_left meet p s) ps s) <-> In x s \/ In x (indices ps)).
  { induction ps as [|p ps IH]; intros s N; cbn [fold_left]; [split; [exact N|intros; cbn; tauto]|].
    destruct (meet_ok p s N) as (M & MI). destruct (IH _ M) as (F & FI). split; [exact F|]. intros x. rewrite FI, MI. unfold indices. cbn [List.concat]. rewrite map_app, in_app_iff. tauto. }
  destruct (G [] (NoDup_nil _)) as (N & I). apply Nat.le_antisymm; apply NoDup_incl_length.
  - exact N.
  - intros x X. apply nodup_In. apply I in X. destruct X as [[]|X]; exact X.
  - apply NoDup_nodup.
  - intros x X. apply nodup_In in X. apply I. now right.
Qed.
Lemma nodup_small (l : list nat) : List.length (nodup Nat.eq_dec l) <= List.length l.
Proof. apply NoDup_incl_length; [apply NoDup_nodup|]. intros x. apply nodup_In. Qed.
(** Joining and splitting. *)
Lemma split_word w : (forall c, In c w -> c <> " "%char) -> split w = [w].
Proof.
  induction w as [|c w IH]; intros H; [reflexivity|]. cbn [split]. destruct (Ascii.eqb_spec c " "); [exfalso; apply (H c); [now left|assumption]|].
  rewrite IH; [reflexivity|]. intros d I. apply H. now right.
Qed.
Lemma split_app w s : (forall c, In c w -> c <> " "%char) -> split (w ++ " "%char :: s) = w :: split s.
Proof.
  induction w as [|c w IH]; intros H; [reflexivity|]. cbn [split app]. destruct (Ascii.eqb_spec c " "); [exfalso; apply (H c); [now left|assumption]|].
  rewrite IH; [reflexivity|]. intros d I. apply H. now right.
Qed.
Lemma digits_word l : forall acc n, read_digits l acc = Some n -> forall c, In c l -> c <> " "%char /\ (32 <= N_of_ascii c)%N.
Proof.
  induction l as [|d l IH]; intros acc n Q c I; [contradiction|]. cbn [read_digits] in Q. destruct (digit_value d) eqn:D; [|discriminate].
  destruct I as [<- |I]; [|eapply IH; eauto]. unfold digit_value in D. split; [intros ->; discriminate D|].
  destruct d as [b0 b1 b2 b3 b4 b5 b6 b7]. destruct b0, b1, b2, b3, b4, b5, b6, b7; vm_compute in D; try discriminate D; vm_compute; discriminate.
Qed.
Lemma int_chars z c : In c (XmlStream.text (VInt z)) -> c <> " "%char /\ (32 <= N_of_ascii c)%N.
Proof.
  assert (DC : forall n x, In x (decimal n) -> x <> " "%char /\ (32 <= N_of_ascii x)%N).
  { intros n x I. pose proof (read_decimal n) as R. unfold read_N in R. destruct (decimal n); [discriminate|]. exact (digits_word _ _ _ R x I). }
  cbn [XmlStream.text]. destruct (z <? 0)%Z; [|apply DC]. cbn [In]. intros [<- |I]; [split; [discriminate|vm_compute; discriminate]|]. exact (DC _ _ I).
Qed.
Lemma plain_int z : plain (int_string z). Proof. intros c I. unfold int_string in I. rewrite lit_of in I. now apply int_chars in I. Qed.
Lemma read_numbers_ok l : l <> [] -> read_numbers (String.concat " " (map int_string l)) = Some l.
Proof.
  unfold read_numbers. induction l as [|z l IH]; intros NE; [contradiction|]. cbn [map String.concat]. destruct l as [|y l].
  - cbn [map]. unfold int_string. rewrite lit_of, split_word by (intros c I; now apply int_chars in I). cbn [Serial.all]. now rewrite read_int.
  - cbn [map] in *. rewrite !lit_app. change (lit " ") with [" "%char]. cbn [app]. unfold int_string at 1. rewrite lit_of.
    rewrite split_app by (intros c I; now apply int_chars in I). cbn [Serial.all]. rewrite read_int. rewrite IH by discriminate. reflexivity.
Qed.
