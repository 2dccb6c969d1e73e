(** C60: the integers and truth values of an input file are read for what they say, or refused. *)
From Coq Require Import List String Ascii Bool ZArith NArith Lia.
From Verif Require Import XmlStream Serial P_Xml Numbers.
Import ListNotations.
Local Open Scope list_scope.

(** ** Specification *)
Definition digit (c : ascii) (d : nat) : Prop := nth_error (lit "0123456789") d = Some c.
(** [numeral s n]: the digits [s] denote [n] in decimal notation *)
Inductive numeral : str -> Z -> Prop :=
| numeral_one c d : digit c d -> numeral [c] (Z.of_nat d)
| numeral_more s n c d : numeral s n -> digit c d -> numeral (s ++ [c]) (10 * n + Z.of_nat d).
(** [integer s z]: xs:integer's lexical form *)
Inductive integer : str -> Z -> Prop :=
| integer_plain s n : numeral s n -> integer s n
| integer_plus s n : numeral s n -> integer ("+"%char :: s) n
| integer_minus s n : numeral s n -> integer ("-"%char :: s) (- n).
(** XML's white space, and the two further characters C calls so *)
Definition white (c : ascii) : Prop := In (N_of_ascii c) [9; 10; 11; 12; 13; 32]%N.
Definition blanks (s : str) : Prop := forall c, In c s -> c = " "%char.
Definition int_range (z : Z) : Prop := (- 2 ^ 31 <= z < 2 ^ 31)%Z.

(** ** Digits *)
Definition dv (c : ascii) : Z := match digit_value c with Some d => Z.of_N d | None => 0 end.
Definition val (acc : Z) (ds : str) : Z := fold_left (fun a c => 10 * a + dv c)%Z ds acc.
Definition isd (c : ascii) : Prop := digit_value c <> None.
Lemma digit_isd c d : digit c d -> digit_value c = Some (N.of_nat d).
Proof. unfold digit. do 10 (destruct d as [|d]; [intros E; injection E as <-; reflexivity|]). destruct d; discriminate. Qed.
Lemma isd_digit c : isd c -> exists d, digit c d /\ dv c = Z.of_nat d.
Proof.
  unfold isd, dv. destruct c as [[] [] [] [] [] [] [] []]; intros E; try (exfalso; apply E; reflexivity);
  first [exists 0; split; reflexivity|exists 1; split; reflexivity|exists 2; split; reflexivity|exists 3; split; reflexivity|exists 4; split; reflexivity
        |exists 5; split; reflexivity|exists 6; split; reflexivity|exists 7; split; reflexivity|exists 8; split; reflexivity|exists 9; split; reflexivity].
Qed.
Lemma val_app acc a b : val acc (a ++ b) = val (val acc a) b.
Proof. apply fold_left_app. Qed.
Lemma numeral_val s n : numeral s n -> s <> [] /\ Forall isd s /\ n = val 0 s.
Proof.
  induction 1 as [c d H|s n c d H IH D].
  - apply digit_isd in H. split; [discriminate|]. split; [constructor; [unfold isd; congruence|constructor]|].
    unfold val. cbn [fold_left]. unfold dv. rewrite H. lia.
  - destruct IH as (A & B & ->). apply digit_isd in D. split; [destruct s; discriminate|]. split.
    + apply Forall_app. split; [assumption|]. constructor; [unfold isd; congruence|constructor].
    + rewrite val_app. change (val (val 0 s) [c]) with (10 * val 0 s + dv c)%Z. unfold dv. rewrite D. lia.
Qed.
Lemma val_numeral s : s <> [] -> Forall isd s -> numeral s (val 0 s).
Proof.
  induction s as [|c s IH] using rev_ind; [congruence|]. intros _ F. apply Forall_app in F as [F G]. inversion G as [|? ? D _]; subst.
  apply isd_digit in D as (d & D & V). rewrite val_app. change (val (val 0 s) [c]) with (10 * val 0 s + dv c)%Z. rewrite V. destruct s as [|x s].
  - change (val 0 []) with 0%Z. replace (10 * 0 + Z.of_nat d)%Z with (Z.of_nat d) by lia. now constructor.
  - constructor; [apply IH; [discriminate|assumption]|assumption].
Qed.
Lemma dv_nonneg c : (0 <= dv c)%Z. Proof. unfold dv. destruct (digit_value c); lia. Qed.
Lemma val_ge acc s : (0 <= acc)%Z -> (acc <= val acc s)%Z.
Proof.
  revert acc. induction s as [|c s IH]; intros acc H; [unfold val; cbn; lia|].
  change (val acc (c :: s)) with (val (10 * acc + dv c) s). pose proof (dv_nonneg c). specialize (IH (10 * acc + dv c)%Z ltac:(lia)). lia.
Qed.

Definition stops (t : str) : Prop := match t with c :: _ => digit_value c = None | [] => True end.
Lemma scan_over lim ds t acc : Forall isd ds -> stops t -> scan lim (ds ++ t) acc true = (acc, true, List.length ds).
Proof.
  induction ds as [|c ds IH]; intros F S; cbn [app List.length].
  - destruct t as [|c t]; [reflexivity|]. cbn [scan]. cbn in S. now rewrite S.
  - inversion F as [|? ? D F']; subst. cbn [scan]. destruct (digit_value c) eqn:E; [|now elim D]. cbn [orb]. rewrite IH; auto.
Qed.
Lemma scan_spec lim ds t acc : Forall isd ds -> stops t -> (0 <= acc <= lim)%Z ->
  exists a o, scan lim (ds ++ t) acc false = (a, o, List.length ds) /\ (if o then lim < val acc ds else a = val acc ds /\ val acc ds <= lim)%Z.
Proof.
  revert acc. induction ds as [|c ds IH]; intros acc F S L; cbn [app List.length].
  - exists acc, false. split; [|unfold val; cbn; lia]. destruct t as [|c t]; [reflexivity|]. cbn [scan]. cbn in S. now rewrite S.
  - inversion F as [|? ? D F']; subst. cbn [scan]. destruct (digit_value c) as [d|] eqn:E; [|now elim D]. cbn [orb].
    change (val acc (c :: ds)) with (val (10 * acc + dv c) ds). assert (V : dv c = Z.of_N d) by (unfold dv; now rewrite E).
    destruct (Z.ltb_spec lim (acc * 10 + Z.of_N d)) as [G|G].
    + rewrite scan_over by assumption. exists acc, true. split; [reflexivity|].
      pose proof (val_ge (10 * acc + dv c) ds ltac:(lia)). lia.
    + destruct (IH (acc * 10 + Z.of_N d)%Z F' S ltac:(lia)) as (a & o & X & Y). rewrite X. exists a, o. split; [reflexivity|].
      rewrite V. replace (10 * acc + Z.of_N d)%Z with (acc * 10 + Z.of_N d)%Z by lia. exact Y.
Qed.
Lemma scan_stop lim t acc o : stops t -> scan lim t acc o = (acc, o, O).
Proof. destruct t as [|c t]; [reflexivity|]. cbn. now intros ->. Qed.
Lemma split_digits (s : str) : exists ds t, s = ds ++ t /\ Forall isd ds /\ stops t.
Proof.
  induction s as [|c s (ds & t & -> & F & S)]; [exists [], []; repeat split; constructor|].
  destruct (digit_value c) eqn:E.
  - exists (c :: ds), t. repeat split; [|assumption]. constructor; [unfold isd; congruence|assumption].
  - exists [], (c :: ds ++ t). repeat split; [constructor|assumption].
Qed.
(** ** White space *)
Lemma is_space_white c : is_space c = true <-> white c.
Proof. unfold white. destruct c as [[] [] [] [] [] [] [] []]; vm_compute; split; intros H; try discriminate; try tauto;
  repeat (destruct H as [H|H]; [discriminate|]); contradiction. Qed.
Lemma skip_ws ws s : Forall (fun c => is_space c = true) ws -> (match s with c :: _ => is_space c = false | [] => True end) ->
  skip_space (ws ++ s) = (List.length ws, s).
Proof.
  induction 1 as [|c ws H F IH]; intros S; cbn [app List.length].
  - destruct s as [|c s]; [reflexivity|]. cbn [skip_space]. now rewrite S.
  - cbn [skip_space]. rewrite H, (IH S). reflexivity.
Qed.
Lemma split_ws (s : str) : exists ws t, s = ws ++ t /\ Forall (fun c => is_space c = true) ws /\ (match t with c :: _ => is_space c = false | [] => True end).
Proof.
  induction s as [|c s (ws & t & -> & F & S)]; [exists [], []; repeat split; constructor|].
  destruct (is_space c) eqn:E; [exists (c :: ws), t; repeat split; [constructor|]; assumption|].
  exists [], (c :: ws ++ t). repeat split; [constructor|assumption].
Qed.
Lemma isd_not_space c : isd c -> is_space c = false.
Proof. unfold isd. destruct c as [[] [] [] [] [] [] [] []]; intros E; try reflexivity; exfalso; apply E; reflexivity. Qed.
Lemma isd_not_sign c : isd c -> Ascii.eqb c "-" = false /\ Ascii.eqb c "+" = false.
Proof. unfold isd. destruct c as [[] [] [] [] [] [] [] []]; intros E; try (split; reflexivity); exfalso; apply E; reflexivity. Qed.

(** ** strtoll *)
Lemma strtoll_reads ws x t z : Forall (fun c => is_space c = true) ws -> integer x z -> stops t ->
  exists r, strtoll (ws ++ x ++ t) = (r, List.length (ws ++ x)) /\
            (r = z \/ (z < - 2 ^ 63)%Z /\ r = llong_min \/ (2 ^ 63 <= z)%Z /\ r = llong_max).
Proof.
  intros W I S. unfold strtoll. rewrite app_length.
  assert (K : match x ++ t with c :: _ => is_space c = false | [] => True end).
  { inversion I as [s n H|s n H|s n H]; subst; try reflexivity. apply numeral_val in H as (A & B & C). destruct x; [congruence|]. inversion B; subst. cbn. now apply isd_not_space. }
  rewrite (skip_ws ws _ W K). inversion I as [s n H|s n H|s n H]; subst; apply numeral_val in H as (A & B & C).
  - destruct x as [|c x]; [congruence|]. inversion B as [|? ? D B']; subst. pose proof (isd_not_sign c D) as [Q P].
    cbn [app]. rewrite Q, P. cbn iota beta zeta. change (c :: x ++ t) with ((c :: x) ++ t).
    destruct (scan_spec llong_max (c :: x) t 0 B S ltac:(unfold llong_max; lia)) as (a & o & E & V).
    rewrite E. cbn [List.length]. cbn iota beta zeta. exists (if o then llong_max else a). split; [f_equal; lia|].
    unfold llong_max in *. destruct o; [right; right; split; [lia|reflexivity]|left; rewrite (proj1 V); try rewrite C; reflexivity].
  - cbn [app]. change (Ascii.eqb "+" "-") with false. change (Ascii.eqb "+" "+") with true. cbn iota beta zeta.
    destruct (scan_spec llong_max s t 0 B S ltac:(unfold llong_max; lia)) as (a & o & E & V).
    rewrite E. destruct s as [|c s]; [congruence|]. cbn [List.length]. cbn iota beta zeta. exists (if o then llong_max else a). split; [f_equal; lia|].
    unfold llong_max in *. destruct o; [right; right; split; [lia|reflexivity]|left; rewrite (proj1 V); try rewrite C; reflexivity].
  - cbn [app]. change (Ascii.eqb "-" "-") with true. cbn iota beta zeta.
    destruct (scan_spec (- llong_min) s t 0 B S ltac:(unfold llong_min; lia)) as (a & o & E & V).
    rewrite E. destruct s as [|c s]; [congruence|]. cbn [List.length]. cbn iota beta zeta. exists (if o then llong_min else (- a)%Z). split; [f_equal; lia|].
    unfold llong_min in *. destruct o; [right; left; split; [lia|reflexivity]|left; rewrite (proj1 V); try rewrite C; reflexivity].
Qed.
(** every buffer: nothing is read, or the buffer begins with white space and an integer *)
Lemma strtoll_cases buf : strtoll buf = (0%Z, O) \/
  exists ws x t z, buf = ws ++ x ++ t /\ Forall (fun c => is_space c = true) ws /\ integer x z /\ stops t.
Proof.
  destruct (split_ws buf) as (ws & s & -> & W & S).
  assert (Num : forall ds, ds <> [] -> Forall isd ds -> numeral ds (val 0 ds)) by (intros; now apply val_numeral).
  unfold strtoll. rewrite (skip_ws ws s W S). destruct s as [|c s]; [left; reflexivity|].
  destruct (Ascii.eqb_spec c "-") as [->|N1].
  { destruct (split_digits s) as (ds & t & -> & F & T). destruct ds as [|d ds].
    - left. cbn [app]. rewrite (scan_stop _ t 0%Z false T). reflexivity.
    - right. exists ws, ("-"%char :: d :: ds), t, (- val 0 (d :: ds))%Z. repeat split; [assumption| |assumption].
      apply integer_minus. apply Num; [discriminate|assumption]. }
  destruct (Ascii.eqb_spec c "+") as [->|N2].
  { destruct (split_digits s) as (ds & t & -> & F & T). destruct ds as [|d ds].
    - left. cbn [app]. rewrite (scan_stop _ t 0%Z false T). reflexivity.
    - right. exists ws, ("+"%char :: d :: ds), t, (val 0 (d :: ds))%Z. repeat split; [assumption| |assumption].
      apply integer_plus. apply Num; [discriminate|assumption]. }
  destruct (split_digits (c :: s)) as (ds & t & E & F & T). rewrite E. destruct ds as [|d ds].
  - left. cbn [app]. rewrite (scan_stop _ t 0%Z false T). reflexivity.
  - right. exists ws, (d :: ds), t, (val 0 (d :: ds)). repeat split; [assumption| |assumption].
    constructor. apply Num; [discriminate|assumption].
Qed.

Lemma app_split {A} (a b c d : list A) : a ++ b = c ++ d -> List.length a = List.length c -> a = c /\ b = d.
Proof.
  revert c. induction a as [|x a IH]; intros [|y c] E L; cbn in *; try discriminate; [now split|].
  injection E as -> E. destruct (IH c E ltac:(lia)) as [-> ->]. now split.
Qed.

(** [to<int>] on a view [v] that ends where the text ends or before a blank. *)
Lemma to_int_sound v t z : v <> [] -> blanks t -> to_int (v ++ t) (List.length v) = Value z ->
  exists ws x, v = ws ++ x /\ Forall white ws /\ integer x z /\ int_range z.
Proof.
  intros N B. unfold to_int. destruct (strtoll_cases (v ++ t)) as [E|(ws & x & t' & z' & E & W & I & S)].
  - rewrite E. destruct v; [congruence|]. discriminate.
  - rewrite E. destruct (strtoll_reads ws x t' z' W I S) as (r & R & C). rewrite R.
    destruct (Nat.eqb_spec (List.length (ws ++ x)) (List.length v)) as [L|]; [|discriminate]. cbn [negb orb].
    destruct (Z.ltb_spec (2 ^ 31 - 1) r); [discriminate|]. destruct (Z.ltb_spec r (- 2 ^ 31)); [discriminate|]. cbn [orb].
    intros Q. assert (r = z) by congruence. subst r. rewrite app_assoc in E. apply app_split in E as [-> _]; [|congruence].
    exists ws, x. split; [reflexivity|]. split; [eapply Forall_impl; [|exact W]; intros c H1; now apply is_space_white|].
    unfold llong_min, llong_max, int_range in *.
    destruct C as [->|[[C1 C2]|[C1 C2]]]; [split; [assumption|lia]|lia|lia].
Qed.
Lemma to_int_complete ws x t z : Forall white ws -> integer x z -> blanks t ->
  to_int (ws ++ x ++ t) (List.length (ws ++ x)) = if (- 2 ^ 31 <=? z)%Z && (z <? 2 ^ 31)%Z then Value z else Refused.
Proof.
  intros W I B. assert (W' : Forall (fun c => is_space c = true) ws) by (eapply Forall_impl; [|exact W]; intros c H; now apply is_space_white).
  assert (S : stops t). { destruct t as [|c t]; [exact Logic.I|]. cbn. rewrite (B c); [reflexivity|now left]. }
  unfold to_int. destruct (strtoll_reads ws x t z W' I S) as (r & R & C). rewrite R, Nat.eqb_refl. cbn [negb orb].
  unfold llong_min, llong_max in C.
  destruct C as [->|[[C1 ->]|[C1 ->]]].
  - destruct (Z.ltb_spec (2 ^ 31 - 1) z), (Z.ltb_spec z (- 2 ^ 31)), (Z.leb_spec (- 2 ^ 31) z), (Z.ltb_spec z (2 ^ 31)); cbn; try reflexivity; lia.
  - destruct (Z.leb_spec (- 2 ^ 31) z), (Z.ltb_spec z (2 ^ 31)); cbn; try reflexivity; lia.
  - destruct (Z.leb_spec (- 2 ^ 31) z), (Z.ltb_spec z (2 ^ 31)); cbn; try reflexivity; lia.
Qed.

(** ** trim *)
Lemma drop_blanks p x : blanks p -> (match x with c :: _ => c <> " "%char | [] => True end) -> drop_spaces (p ++ x) = x.
Proof.
  intros B N. induction p as [|c p IH]; cbn [app].
  - destruct x as [|c x]; [reflexivity|]. cbn. destruct (Ascii.eqb_spec c " "); [congruence|reflexivity].
  - cbn [drop_spaces]. rewrite (B c) by (now left). rewrite Ascii.eqb_refl. apply IH. intros d H. apply B. now right.
Qed.
Lemma split_blanks (s : str) : exists p x, s = p ++ x /\ blanks p /\ (match x with c :: _ => c <> " "%char | [] => True end).
Proof.
  induction s as [|c s (p & x & -> & B & N)]; [exists [], []; repeat split; intros c []|].
  destruct (ascii_dec c " ") as [->|E]; [exists (" "%char :: p), x; repeat split; [|assumption]; intros d [<-|H]; auto|].
  exists [], (c :: p ++ x). repeat split; [intros d []|assumption].
Qed.
Lemma blanks_rev p : blanks p -> blanks (rev p). Proof. intros B c H. apply B. now apply in_rev. Qed.
Lemma trim_spec s : exists p q, s = p ++ trim s ++ q /\ blanks p /\ blanks q /\ (trim s <> [] -> drop_spaces s = trim s ++ q) /\ (trim s = [] -> blanks s).
Proof.
  destruct (split_blanks s) as (p & x & -> & B & N). unfold trim. rewrite (drop_blanks p x B N).
  destruct (split_blanks (rev x)) as (q & y & E & B' & N'). rewrite E, (drop_blanks q y B' N').
  assert (X : x = rev y ++ rev q) by (rewrite <- rev_app_distr, <- E; symmetry; apply rev_involutive).
  exists p, (rev q). split; [now rewrite X|]. split; [assumption|]. split; [now apply blanks_rev|]. split; [intros _; exact X|].
  intros Z. rewrite Z in X. cbn in X. subst x. intros c H. apply in_app_or in H as [H|H]; [now apply B|]. apply (blanks_rev q B' c H).
Qed.
Lemma trim_of p v q : blanks p -> blanks q -> v <> [] -> (forall c r, v = c :: r -> c <> " "%char) -> (forall c r, v = r ++ [c] -> c <> " "%char) ->
  trim (p ++ v ++ q) = v /\ drop_spaces (p ++ v ++ q) = v ++ q.
Proof.
  intros P Q N H L. assert (D : drop_spaces (p ++ v ++ q) = v ++ q). { apply drop_blanks; [assumption|]. destruct v as [|c v]; [congruence|]. cbn. now apply (H c v). }
  split; [|assumption]. unfold trim. rewrite D, rev_app_distr, drop_blanks; [apply rev_involutive|now apply blanks_rev|].
  destruct (rev v) as [|c r] eqn:E; [exact I|]. apply (L c (rev r)). rewrite <- (rev_involutive v), E. reflexivity.
Qed.
Lemma integer_ends x z : integer x z -> x <> [] /\ (forall c r, x = c :: r -> c <> " "%char) /\ (forall c r, x = r ++ [c] -> c <> " "%char).
Proof.
  assert (A : forall s n, numeral s n -> s <> [] /\ forall c, In c s -> c <> " "%char).
  { intros s n H. apply numeral_val in H as (A & B & _). split; [assumption|]. intros c I ->. rewrite Forall_forall in B. now apply (B _ I). }
  intros H. assert (K : forall s g, s <> [] -> (forall c, In c s -> c <> " "%char) -> g <> " "%char -> (g :: s) <> [] /\ (forall c r, g :: s = c :: r -> c <> " "%char) /\ (forall c r, g :: s = r ++ [c] -> c <> " "%char)).
  { intros s g N F G. split; [discriminate|]. split; [intros c r E; congruence|]. intros c r E. assert (I : In c (g :: s)) by (rewrite E; apply in_or_app; right; now left). destruct I as [<-|I]; auto. }
  inversion H as [s n B|s n B|s n B]; subst; destruct (A _ _ B) as [N F].
  - split; [assumption|]. split; intros c r ->; apply F; [now left|apply in_or_app; right; now left].
  - apply K; auto. discriminate.
  - apply K; auto. discriminate.
Qed.

(** ** The theorems *)
(** C60.  An integer of the XML Schema, with blanks around it, is read for its value if it fits the
    program's integers, and is refused if it does not; as the text of an element or as an attribute. *)
Theorem C60_integer p x q z : blanks p -> blanks q -> integer x z ->
  text_int [PText (p ++ x ++ q)] = (if (- 2 ^ 31 <=? z)%Z && (z <? 2 ^ 31)%Z then Value z else Refused) /\
  attribute_int (Some (p ++ x ++ q)) = (if (- 2 ^ 31 <=? z)%Z && (z <? 2 ^ 31)%Z then Value (Some z) else Refused).
Proof.
  intros P Q I. destruct (integer_ends x z I) as (N & H & L). destruct (trim_of p x q P Q N H L) as [T D].
  unfold text_int, attribute_int, first_text, view. rewrite T, D. destruct x as [|c x]; [congruence|].
  pose proof (to_int_complete [] (c :: x) q z (Forall_nil _) I Q) as C. cbn [app] in C. cbn [app]. rewrite C.
  destruct ((- 2 ^ 31 <=? z)%Z && (z <? 2 ^ 31)%Z); split; reflexivity.
Qed.
(** C60.  Nothing else is read: whatever is read is an integer in that form with its value, with blanks
    around it and, before it, other white space at most. *)
Theorem C60_only s z : (text_int [PText s] = Value z \/ attribute_int (Some s) = Value (Some z)) ->
  exists p ws x q, s = p ++ ws ++ x ++ q /\ blanks p /\ Forall white ws /\ blanks q /\ integer x z /\ int_range z.
Proof.
  intros H. destruct (trim_spec s) as (p & q & E & P & Q & D & _).
  assert (K : trim s <> [] /\ to_int (trim s ++ q) (List.length (trim s)) = Value z).
  { unfold text_int, attribute_int, first_text, view in H. destruct (trim s) as [|c v] eqn:T; [destruct H; congruence|].
    split; [discriminate|]. rewrite <- D by discriminate. destruct H as [H|H]; [exact H|]. destruct (to_int _ _); congruence. }
  destruct K as [N K]. destruct (to_int_sound _ _ _ N Q K) as (ws & x & V & W & I & R).
  exists p, ws, x, q. split; [rewrite E at 1; rewrite V, <- app_assoc; reflexivity|]. tauto.
Qed.
(** C60.  An attribute is absent or blank, or it is read, or the file is refused. *)
Theorem C60_attribute a : attribute_int a = Value None <-> match a with Some s => blanks s | None => True end.
Proof.
  unfold attribute_int, view. destruct a as [s|]; [|tauto]. destruct (trim_spec s) as (p & q & E & P & Q & D & B).
  destruct (trim s) as [|c v] eqn:T; split; auto.
  - destruct (to_int _ _); discriminate.
  - intros F. exfalso. rewrite E in F. assert (C : c = " "%char) by (apply F; apply in_or_app; right; now left).
    subst c. clear -T. unfold trim in T. destruct (split_blanks s) as (p & x & -> & B & N). rewrite (drop_blanks p x B N) in T.
    destruct (split_blanks (rev x)) as (q & y & E & B' & N'). rewrite E, (drop_blanks q y B' N') in T.
    assert (X : x = rev y ++ rev q) by (rewrite <- rev_app_distr, <- E; symmetry; apply rev_involutive).
    rewrite T in X. subst x. now apply N.
Qed.
(** C60.  What is printed for an integer of the program is read back. *)
Lemma read_digits_val l acc n : read_digits l acc = Some n -> Forall isd l /\ Z.of_N n = val (Z.of_N acc) l.
Proof.
  revert acc. induction l as [|c l IH]; intros acc E; cbn in E; [injection E as <-; split; [constructor|reflexivity]|].
  destruct (digit_value c) as [d|] eqn:D; [|discriminate]. destruct (IH _ E) as [F V]. split; [constructor; [unfold isd; congruence|assumption]|].
  rewrite V. change (val (Z.of_N acc) (c :: l)) with (val (10 * Z.of_N acc + dv c) l). unfold dv. rewrite D. f_equal. lia.
Qed.
Lemma read_N_numeral l n : read_N l = Some n -> numeral l (Z.of_N n).
Proof.
  unfold read_N. destruct l as [|c l]; [discriminate|]. intros E. apply read_digits_val in E as [F V].
  change (Z.of_N 0) with 0%Z in V. rewrite V. apply val_numeral; [discriminate|assumption].
Qed.
Theorem C60_printed z p q : int_range z -> (- 2 ^ 31 < z)%Z -> blanks p -> blanks q ->
  exists l, write_int z = Some l /\ integer l z /\ text_int [PText (p ++ l ++ q)] = Value z.
Proof.
  intros R G P Q. destruct (C40_int z) as (l & W & D); [unfold int_range in R; lia|]. exists l. split; [assumption|].
  assert (I : integer l z).
  { unfold read_Z in D. destruct l as [|c l]; [discriminate|]. destruct (Ascii.eqb_spec c "-") as [->|N].
    - destruct (read_N l) as [n|] eqn:E; [|discriminate]. injection D as <-. apply integer_minus. now apply read_N_numeral.
    - destruct (read_N (c :: l)) as [n|] eqn:E; [|discriminate]. injection D as <-. apply integer_plain. now apply read_N_numeral. }
  split; [assumption|]. destruct (C60_integer p l q z P Q I) as [-> _]. unfold int_range in R.
  destruct (Z.leb_spec (- 2 ^ 31) z), (Z.ltb_spec z (2 ^ 31)); try lia. reflexivity.
Qed.
(** C60.  Truth values: the four texts of xs:boolean, and no others. *)
Definition boolean (s : str) (b : bool) : Prop := s = lit (if b then "true" else "false") \/ s = lit (if b then "1" else "0").
Theorem C60_boolean s b : attribute_bool (Some s) = Value (Some b) <-> exists p x q, s = p ++ x ++ q /\ blanks p /\ blanks q /\ boolean x b.
Proof.
  unfold attribute_bool. split.
  - intros H. destruct (trim_spec s) as (p & q & E & P & Q & _ & _). exists p, (trim s), q. repeat split; try assumption.
    destruct (trim s) as [|c v]; [discriminate|]. unfold boolean, to_bool in *.
    destruct (list_eq_dec ascii_dec (c :: v) (lit "true")) as [Y|_]; [injection H as <-; auto|].
    destruct (list_eq_dec ascii_dec (c :: v) (lit "1")) as [Y|_]; [injection H as <-; auto|].
    destruct (list_eq_dec ascii_dec (c :: v) (lit "false")) as [Y|_]; [injection H as <-; auto|].
    destruct (list_eq_dec ascii_dec (c :: v) (lit "0")) as [Y|_]; [injection H as <-; auto|]. discriminate.
  - intros (p & x & q & -> & P & Q & B).
    assert (T : trim (p ++ x ++ q) = x).
    { apply trim_of; try assumption; destruct B as [->| ->], b; cbn; try discriminate; intros c r E; 
        try (injection E as <- <-; discriminate);
        try (assert (L := f_equal (@rev ascii) E); rewrite rev_app_distr in L; cbn in L; injection L as <- _; discriminate). }
    rewrite T. destruct B as [->| ->], b; reflexivity.
Qed.
(** C60 refuted: white space that the schema ignores but that is not a blank -- a line end, a tab -- is
    passed over before a number and not after it, and not at all around a truth value. *)
Theorem C60_white_space_refuted : exists w x, white w /\ integer x 5 /\
  text_int [PText (w :: x)] = Value 5%Z /\ text_int [PText (x ++ [w])] = Refused /\
  attribute_bool (Some (w :: lit "true")) = Refused.
Proof.
  exists "010"%char, (lit "5"). split; [unfold white; cbn; tauto|]. split; [exact (integer_plain _ _ (numeral_one "5" 5 eq_refl))|].
  split; [reflexivity|]. split; reflexivity.
Qed.
(** C60 refuted: of a text with a comment in it only what stands before the comment is read -- and if
    that is blank, a null pointer is. *)
Definition whole (l : list piece) : str := flat_map (fun p => match p with PText s => s | POther => [] end) l.
Theorem C60_comment_refuted :
  (exists l, integer (whole l) 12 /\ text_int l = Value 1%Z) /\
  (exists l, integer (trim (whole l)) 5 /\ text_int l = Undefined).
Proof.
  split.
  - exists [PText (lit "1"); POther; PText (lit "2")]. split; [|reflexivity]. apply integer_plain.
    exact (numeral_more (lit "1") 1 "2" 2 (numeral_one "1" 1 eq_refl) eq_refl).
  - exists [PText (lit " "); POther; PText (lit "5")]. split; [|reflexivity]. apply integer_plain. exact (numeral_one "5" 5 eq_refl).
Qed.
Example C60_witness : text_int [PText (lit "  -42 ")] = Value (-42)%Z /\ attribute_int (Some (lit "+007")) = Value (Some 7%Z) /\
  text_int [PText (lit "1e3")] = Refused /\ text_int [PText (lit "0x10")] = Refused /\ text_int [PText (lit "2147483648")] = Refused /\
  text_int [PText (lit "-2147483648")] = Value (- 2 ^ 31)%Z /\ text_int [PText (lit "99999999999999999999")] = Refused /\
  attribute_bool (Some (lit " false ")) = Value (Some false) /\ attribute_bool (Some (lit "True")) = Refused.
Proof. repeat split. Qed.
