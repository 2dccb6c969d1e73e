(** The results of a report: what is written is what is read (Report.v). *)
From Coq Require Import List String Ascii Bool ZArith NArith Arith Lia.
From Verif Require Serial P_Xml.
From Verif Require Import SerialProofs XmlStream XmlProofs Report ReportProofs.
Import ListNotations.
Local Open Scope string_scope.
Local Open Scope list_scope.
Local Opaque lit.

Section Results.
Context {num : Type} (show : num -> string) (O : operations num).
Hypothesis show_plain : forall x, plain (show x).
Lemma D_ok x : ok_value (D_ show x). Proof. now apply plain_ok. Qed.
Lemma D_sval x : sval (D_ show x) = show x. Proof. apply sval_S. Qed.
Ltac okd := okl; try assumption; try apply D_ok.

(** ** What is said about each kind of result, from the data *)
(** A bin per bound: its number, its value, from the bound before it (zero for the first) to its own. *)
Definition bins_to (l : list (num * num)) : list said_bin :=
  map (fun x => let '(k, (a, (b, v))) := x in mkSaidBin (Z.of_nat k) (show v) (show a) (show b)) (combine (seq 1 (List.length l)) (combine (zero O :: map fst l) l)).
(** The quantiles at k / n. *)
Definition quantiles_to (l : list num) : list said_bin :=
  map (fun x => let '(k, (a, b)) := x in
        mkSaidBin (Z.of_nat k) (show (mul O (quot O (one O) (of_int O (Z.of_nat (List.length l)))) (of_int O (Z.of_nat k)))) (show a) (show b))
      (combine (seq 1 (List.length l)) (combine (zero O :: l) l)).
(** A bin between neighbouring bounds. *)
Definition bins_between (l : list (num * num)) : list said_bin :=
  map (fun x => let '(k, ((a, v), b)) := x in mkSaidBin (Z.of_nat k) (show v) (show a) (show b)) (combine (seq 1 (List.length l - 1)) (combine l (map fst (tl l)))).
Definition warned (w : string) : option string := if String.eqb w "" then None else Some w.
(** The probability of a literal, the product over a product, the sum over all. *)
Definition p_literal (c : container num) (i : Z) : num := if Z.ltb i 0 then sub O (one O) (c_prob c (Z.abs_nat i)) else c_prob c (Z.abs_nat i).
Definition p_product (c : container num) (p : list Z) : num := fold_left (mul O) (map (p_literal c) p) (one O).
Definition p_sum (c : container num) : num := fold_left (add O) (map (p_product c) (c_products c)) (zero O).
Definition said_product_of (c : container num) (pa : option (probability num)) (p : list Z) : said_product :=
  mkSaidProduct (Z.of_nat (Nat.max 1 (List.length p)))
    match pa with Some _ => Some (show (p_product c p)) | None => None end
    match pa with Some _ => if is_zero O (p_sum c) then None else Some (show (quot O (p_product c p) (p_sum c))) | None => None end
    (map (fun i => (Z.ltb i 0, c_events c (Z.abs_nat i))) p).
Definition said_products (i : ident) (c : container num) (pa : option (probability num)) : said :=
  SaidProducts i
    (match pa with
     | Some a => match warned (c_warnings c), warned (a_warnings a) with Some v, Some w => Some (v ++ "; " ++ w)%string | Some v, None => Some v | None, w => w end
     | None => warned (c_warnings c)
     end)
    (Z.of_nat (List.length (nodup Nat.eq_dec (indices (c_products c))))) (Z.of_nat (List.length (c_products c)))
    (match pa with Some a => Some (show (a_total a)) | None => None end)
    (match c_products c with [] => None | ps => Some (histogram_of_orders ps) end)
    (map (said_product_of c pa) (c_products c)).
Definition said_probability (i : ident) (a : probability num) : list said :=
  match a_curve a with [] => [] | l => [SaidCurve i (map (fun p => (show (snd p), show (fst p))) l)] end ++
  match a_sil a with
  | None => []
  | Some s => [SaidSil i (show (pfd_avg s)) (show (pfh_avg s))
      (map (fun l => (Z.of_nat (List.length l), bins_to l)) [pfd_fractions s; pfh_fractions s])]
  end.
Definition said_importance (i : ident) (a : importance num) : said :=
  SaidImportance i (warned (n_warnings a)) (Z.of_nat (List.length (n_entries a)))
    (map (fun x => let '(e, p, f) := x in (e, occurrence f, map show [p; mif f; cif f; dif f; raw f; rrw f])) (n_entries a)).
Definition said_uncertainty (i : ident) (a : uncertainty num) : said :=
  SaidMeasure i (warned (u_warnings a)) (show (u_mean a)) (show (u_sigma a)) (show (fst (u_interval a)), show (snd (u_interval a))) (show (u_error_factor a))
    (Z.of_nat (List.length (u_quantiles a)), quantiles_to (u_quantiles a))
    ((Z.of_nat (List.length (u_distribution a)) - 1)%Z, bins_between (u_distribution a)).
Definition said_sequences (r : sequences num) : said :=
  SaidSequences (e_initiating r) (e_context r) (Z.of_nat (List.length (e_sequences r))) (map (fun s => (fst s, show (snd s))) (e_sequences r)).
Definition said_finding (r : finding num) : list said :=
  match r_products r with Some c => [said_products (r_id r) c (r_probability r)] | None => [] end ++
  match r_probability r with Some a => said_probability (r_id r) a | None => [] end ++
  match r_importance r with Some a => [said_importance (r_id r) a] | None => [] end ++
  match r_uncertainty r with Some a => [said_uncertainty (r_id r) a] | None => [] end.

(** ** Conditions: strings without control characters, sizes below 2^31 *)
Definition good_container (c : container num) : Prop :=
  plain (c_warnings c) /\ (forall i, In i (indices (c_products c)) -> good_event (c_events c i)) /\
  small (List.length (c_products c)) /\ small (List.length (List.concat (c_products c))).
Definition good_sil (s : sil num) : Prop := small (List.length (pfd_fractions s)) /\ small (List.length (pfh_fractions s)).
Definition good_probability (a : probability num) : Prop := plain (a_warnings a) /\ match a_sil a with Some s => good_sil s | None => True end.
Definition good_importance (a : importance num) : Prop :=
  plain (n_warnings a) /\ small (List.length (n_entries a)) /\ Forall (fun x => good_event (fst (fst x)) /\ int_range (occurrence (snd x))) (n_entries a).
Definition good_uncertainty (a : uncertainty num) : Prop :=
  plain (u_warnings a) /\ small (List.length (u_quantiles a)) /\ small (List.length (u_distribution a)).
Definition good_sequences (r : sequences num) : Prop :=
  plain (e_initiating r) /\ match e_context r with Some (a, p) => plain a /\ plain p | None => True end /\
  small (List.length (e_sequences r)) /\ Forall (fun s => plain (fst s)) (e_sequences r).
Definition present {A} (P : A -> Prop) (a : option A) : Prop := match a with Some a => P a | None => True end.
Definition good_finding (r : finding num) : Prop :=
  good_id (r_id r) /\ present good_container (r_products r) /\ present good_probability (r_probability r) /\
  present good_importance (r_importance r) /\ present good_uncertainty (r_uncertainty r).

(** ** Bins *)
Definition bin_node (b : Z * value * value * value) : node :=
  let '(k, v, a, b) := b in E "bin" [("number", VInt k); ("value", v); ("lower-bound", a); ("upper-bound", b)] [].
Definition said_node (tag : string) (b : said_bin) : node :=
  E tag [("number", VInt (sb_number b)); ("value", S_ (sb_value b)); ("lower-bound", S_ (sb_lower b)); ("upper-bound", S_ (sb_upper b))] [].
Lemma read_bin_ok tag b : read_bin (said_node tag b) = Some b.
Proof.
  unfold read_bin, said_node. rewrite (int_E "number" _ _ _ (sb_number b)) by reflexivity. rewrite (str_E "value" _ _ _ (sb_value b)) by reflexivity.
  rewrite (str_E "lower-bound" _ _ _ (sb_lower b)) by reflexivity. rewrite (str_E "upper-bound" _ _ _ (sb_upper b)) by reflexivity. now destruct b.
Qed.
Definition bins_node (tag name : string) (v : value) (l : list said_bin) : node := E tag [("number", v)] (map (said_node name) l).
Lemma read_bins_ok tag name v l : forall z, int_of "number" (bins_node tag name v l) = Some z -> read_bins (bins_node tag name v l) = Some (z, l).
Proof.
  intros z H. unfold read_bins. rewrite H. unfold bins_node. rewrite kids_E. rewrite (all_map read_bin (said_node name) (fun b => b)) by (intros; apply read_bin_ok). now rewrite map_id.
Qed.
Lemma adds_bin k v a b : int_range k -> adds (el "bin" [("number", VInt k); ("value", D_ show v); ("lower-bound", D_ show a); ("upper-bound", D_ show b)] [])
  [said_node "bin" (mkSaidBin k (show v) (show a) (show b))].
Proof. intros K. apply adds_el; [name_ok| |apply adds_nil]. okd. Qed.
Lemma adds_bins l : forall k b0, (Z.of_nat (k + List.length l) <= 2 ^ 31)%Z ->
  adds (report_bins show (Z.of_nat k) b0 l)
    (map (said_node "bin") (map (fun x => let '(k, (a, (b, v))) := x in mkSaidBin (Z.of_nat k) (show v) (show a) (show b)) (combine (seq k (List.length l)) (combine (b0 :: map fst l) l)))).
Proof.
  induction l as [|[b v] l IH]; intros k b0 R; cbn [report_bins List.length seq combine map]; [apply adds_nil|].
  cbn [List.length] in R. apply (adds_app _ _ [_]).
  - apply adds_bin. unfold int_range in *. lia.
  - replace (Z.of_nat k + 1)%Z with (Z.of_nat (S k)) by lia. cbn [fst]. apply IH. unfold int_range in *. lia.
Qed.
Lemma adds_fractions l : small (List.length l) -> adds (report_fractions show O l) [bins_node "histogram" "bin" (n_ l) (bins_to l)].
Proof.
  intros L. unfold report_fractions, bins_node. apply adds_el; [name_ok| |].
  - okl. now apply n_ok.
  - unfold bins_to. apply (adds_bins l 1 (zero O)). unfold small, int_range in *. lia.
Qed.
Lemma adds_quantiles delta l : forall k prev, (Z.of_nat (k + List.length l) + 1 <= 2 ^ 31)%Z ->
  adds (report_quantiles show O delta (Z.of_nat k) prev l)
    (map (said_node "quantile") (map (fun x => let '(k, (a, b)) := x in mkSaidBin (Z.of_nat k) (show (mul O delta (of_int O (Z.of_nat k)))) (show a) (show b))
       (combine (seq (S k) (List.length l)) (combine (prev :: l) l)))).
Proof.
  induction l as [|u l IH]; intros k prev R; cbn [report_quantiles List.length seq combine map]; [apply adds_nil|].
  cbn [List.length] in R. replace (Z.of_nat k + 1)%Z with (Z.of_nat (S k)) by lia. apply (adds_app _ _ [_]).
  - apply adds_el; [name_ok| |apply adds_nil]. okd. change (int_range (Z.of_nat (S k))). unfold int_range in *. lia.
  - apply IH. unfold int_range in *. lia.
Qed.
Lemma adds_histogram l : forall k, (Z.of_nat (k + List.length l) <= 2 ^ 31)%Z ->
  adds (report_histogram show (Z.of_nat k) l)
    (map (said_node "bin") (map (fun x => let '(k, ((a, v), b)) := x in mkSaidBin (Z.of_nat k) (show v) (show a) (show b))
       (combine (seq (S k) (List.length l - 1)) (combine l (map fst (tl l)))))).
Proof.
  induction l as [|[a v] l IH]; intros k R; [apply adds_nil|]. destruct l as [|[b w] l]; [apply adds_nil|].
  change (report_histogram show (Z.of_nat k) ((a, v) :: (b, w) :: l)) with
    (el "bin" [("number", VInt (Z.of_nat k + 1)); ("value", D_ show v); ("lower-bound", D_ show a); ("upper-bound", D_ show b)] [] ++ report_histogram show (Z.of_nat k + 1) ((b, w) :: l)).
  cbn [List.length] in R. replace (List.length ((a, v) :: (b, w) :: l) - 1) with (S (List.length ((b, w) :: l) - 1)) by (cbn [List.length]; lia).
  cbn [tl map fst seq combine]. replace (Z.of_nat k + 1)%Z with (Z.of_nat (S k)) by lia. apply (adds_app _ _ [_]).
  - apply adds_bin. unfold int_range in *. lia.
  - apply IH. unfold int_range in *. cbn [List.length]. lia.
Qed.

(** ** Each kind of result *)
Lemma warning_ok w : plain w -> Forall okp (warning w).
Proof. intros P. unfold warning. destruct (String.eqb w ""); okl. now apply plain_ok. Qed.
Lemma look_warning k w l : String.eqb "warning" k = false -> look k (warning w ++ l) = look k l.
Proof. intros K. unfold warning. destruct (String.eqb w ""); cbn [app look]; rewrite ?K; reflexivity. Qed.
Lemma warning_warned w l : look "warning" l = None -> option_map sval (look "warning" (warning w ++ l)) = warned w.
Proof. intros L. unfold warning, warned. destruct (String.eqb w ""); cbn [app look]; [now rewrite L|]. cbn. now rewrite sval_S. Qed.
Definition reads (n : node) (s : said) : Prop := read_result n = Some s.
Definition result_ok (ops : list op) (ks : list node) (ss : list said) : Prop := adds ops ks /\ Serial.all read_result ks = Some ss.
Lemma result_nil : result_ok [] [] []. Proof. split; [apply adds_nil|reflexivity]. Qed.
Lemma result_app a b x y s t : result_ok a x s -> result_ok b y t -> result_ok (a ++ b) (x ++ y) (s ++ t).
Proof. intros (A & R) (B & R'). split; [now apply adds_app|now apply all_app]. Qed.
Lemma result_one ops n s : adds ops [n] -> read_result n = Some s -> result_ok ops [n] [s].
Proof. intros A R. split; [exact A|]. cbn [Serial.all]. now rewrite R. Qed.

Lemma order_ok p : order p = Z.of_nat (Nat.max 1 (List.length p)).
Proof. destruct p; cbn [order List.length]; [reflexivity|lia]. Qed.
Lemma product_p_ok c p : product_p O c p = p_product c p.
Proof.
  unfold product_p, p_product, p_literal. generalize (one O) at 2 4. induction p as [|i p IH]; intros x; cbn [fold_left map]; [reflexivity|]. apply IH.
Qed.
Lemma total_ok c : total O c = p_sum c.
Proof.
  unfold total, p_sum. generalize (zero O). induction (c_products c) as [|p l IH]; intros x; cbn [fold_left map]; [reflexivity|]. rewrite product_p_ok. apply IH.
Qed.
Definition product_attrs (c : container num) (pa : option (probability num)) (p : list Z) : list (string * value) :=
  [("order", VInt (order p))] ++
  match pa with
  | Some _ => [("probability", D_ show (product_p O c p))] ++ if is_zero O (total O c) then [] else [("contribution", D_ show (quot O (product_p O c p) (total O c)))]
  | None => []
  end.
Definition product_node c pa p : node := E "product" (product_attrs c pa p) (map (fun i => literal_node (literal c i)) p).
Lemma adds_product c pa p : good_container c -> In p (c_products c) -> adds (report_product show O c pa p) [product_node c pa p].
Proof.
  intros (_ & G & _ & L) I. unfold report_product, product_node. apply adds_el; [name_ok| |].
  - unfold product_attrs. assert (OK : ok_value (VInt (order p))).
    { rewrite order_ok. apply nat_int. unfold small in *. assert (List.length p <= List.length (List.concat (c_products c))); [|lia].
      clear -I. induction (c_products c) as [|q l IH]; [contradiction|]. cbn [List.concat]. rewrite app_length. destruct I as [-> |I]; [lia|]. specialize (IH I). lia. }
    apply Forall_app. split; [okl; exact OK|]. destruct pa; [|apply Forall_nil]. destruct (is_zero O (total O c)); cbn [app]; okd.
  - apply adds_map. intros i Ii. apply adds_literal. cbn [literal snd]. apply G. unfold indices. apply in_map. apply in_concat. eauto.
Qed.
Lemma read_product_ok c pa p : read_product (product_node c pa p) = Some (said_product_of c pa p).
Proof.
  unfold read_product, product_node. rewrite (int_E "order" _ _ _ (order p)) by reflexivity. rewrite kids_E.
  rewrite (all_map read_literal (fun i => literal_node (literal c i)) (literal c)) by (intros; apply read_literal_ok).
  rewrite !value_E. unfold said_product_of. rewrite <- order_ok, <- product_p_ok, <- total_ok. unfold product_attrs.
  destruct pa; [destruct (is_zero O (total O c))|]; cbn -[sval order product_p total]; rewrite ?D_sval; reflexivity.
Qed.
Definition sop_attrs (c : container num) (pa : option (probability num)) : list (string * value) :=
  [("basic-events", n_ (product_events (c_products c))); ("products", VInt (Z.of_nat (List.length (c_products c))))] ++
  match pa with Some a => [("probability", D_ show (a_total a))] | None => [] end ++
  match c_products c with [] => [] | ps => [("distribution", S_ (String.concat " " (map int_string (distribution ps))))] end.
Lemma joined_plain (c : container num) (pa : option (probability num)) : good_container c -> present good_probability pa -> plain (joined c pa).
Proof.
  intros (W & _) P. destruct pa as [a|]; [|exact W]. destruct P as (P & _). cbn [joined]. destruct (String.eqb (a_warnings a) ""); [exact W|].
  apply plain_app; [exact W|]. destruct (String.eqb (c_warnings c) ""); cbn [append]; [exact P|]. apply (plain_app "; "); [apply plain_lit; vm_compute; reflexivity|exact P].
Qed.
Lemma append_nil (s : string) : (s ++ "")%string = s. Proof. induction s as [|c s IH]; [reflexivity|]. cbn. now rewrite IH. Qed.
Lemma warned_joined (c : container num) (pa : option (probability num)) : warned (joined c pa) =
  match pa with
  | Some a => match warned (c_warnings c), warned (a_warnings a) with Some v, Some w => Some (v ++ "; " ++ w)%string | Some v, None => Some v | None, w => w end
  | None => warned (c_warnings c)
  end.
Proof.
  destruct pa as [a|]; [|reflexivity]. cbn [joined]. unfold warned. destruct (String.eqb_spec (a_warnings a) "") as [_|W].
  - destruct (String.eqb (c_warnings c) ""); reflexivity.
  - destruct (String.eqb_spec (c_warnings c) "") as [-> |V]; cbn [append].
    + destruct (String.eqb_spec (a_warnings a) ""); [contradiction|reflexivity].
    + match goal with |- (if ?b then _ else _) = _ => assert (Q : b = false) end; [|now rewrite Q].
      apply String.eqb_neq. destruct (c_warnings c); [contradiction|discriminate].
Qed.
Lemma products_result i c pa : good_id i -> good_container c -> present good_probability pa -> exists n, result_ok (report_products show O i c pa) [n] [said_products i c pa].
Proof.
  intros GI G P. pose proof G as (W & GE & L & LC).
  exists (E "sum-of-products" (put_id i ++ warning (joined c pa) ++ sop_attrs c pa) (map (product_node c pa) (c_products c))). apply result_one.
  - unfold report_products. apply adds_el; [name_ok| |].
    + apply Forall_app. split; [now apply put_id_ok|]. apply Forall_app. split; [apply warning_ok; now apply joined_plain|]. unfold sop_attrs. apply Forall_app. split.
      * okl; [apply n_ok|now apply nat_int]. rewrite product_events_ok. unfold small in *. pose proof (nodup_small (indices (c_products c))). unfold indices in *. rewrite map_length in *. lia.
      * apply Forall_app. split; [destruct pa; okd|]. destruct (c_products c); okl. apply plain_ok, plain_join. apply Forall_forall. intros s I. apply in_map_iff in I. destruct I as (z & <- & _). apply plain_int.
    + apply adds_map. intros p I. now apply adds_product.
  - unfold read_result. rewrite name_E. change (String.eqb "sum-of-products" "initiating-event") with false. change (String.eqb "sum-of-products" "sum-of-products") with true. cbn iota.
    rewrite read_id_ok.
    2: { intros k K. unfold id_key in K. cbn [existsb] in K. rewrite !orb_true_iff, !String.eqb_eq in K. rewrite look_warning; [|destruct K as [-> |[-> |[-> |[-> |K]]]]; [..|discriminate]; reflexivity].
         unfold sop_attrs. destruct K as [-> |[-> |[-> |[-> |K]]]]; [..|discriminate]; destruct pa, (c_products c); reflexivity. }
    rewrite (size_E "basic-events" _ _ _ (N.of_nat (List.length (product_events (c_products c))))) by (rewrite look_id by reflexivity; rewrite look_warning by reflexivity; reflexivity).
    rewrite (int_E "products" _ _ _ (Z.of_nat (List.length (c_products c)))) by (rewrite look_id by reflexivity; rewrite look_warning by reflexivity; reflexivity).
    rewrite children_map by (intros; apply name_E). rewrite (all_map read_product _ (said_product_of c pa)) by (intros; apply read_product_ok).
    rewrite !value_E. rewrite !look_id by reflexivity. rewrite warning_warned by (unfold sop_attrs; destruct pa, (c_products c); reflexivity). rewrite warned_joined.
    rewrite !look_warning by reflexivity. rewrite nat_N_Z, product_events_ok. unfold said_products.
    assert (PR : option_map sval (look "probability" (sop_attrs c pa)) = match pa with Some a => Some (show (a_total a)) | None => None end).
    { unfold sop_attrs. destruct pa; [cbn -[sval]; now rewrite D_sval|destruct (c_products c); reflexivity]. }
    rewrite PR. clear PR. unfold sop_attrs. destruct (c_products c) as [|p ps] eqn:Q.
    + destruct pa; reflexivity.
    + rewrite <- Q.
      assert (LD : look "distribution" ([("basic-events", n_ (product_events (c_products c))); ("products", VInt (Z.of_nat (List.length (c_products c))))] ++
        match pa with Some a => [("probability", D_ show (a_total a))] | None => [] end ++ [("distribution", S_ (String.concat " " (map int_string (distribution (c_products c)))))]) =
        Some (S_ (String.concat " " (map int_string (distribution (c_products c)))))) by (destruct pa; reflexivity).
      rewrite LD. cbn [option_map]. rewrite sval_S, read_numbers_ok.
      * cbn [option_map]. now rewrite distribution_ok.
      * rewrite distribution_ok. unfold histogram_of_orders. intros B. apply map_eq_nil in B. apply (f_equal (@List.length nat)) in B. rewrite seq_length in B. cbn [List.length] in B.
        rewrite Q in B. cbn [orders map list_max fold_right] in B. lia.
Qed.
Lemma probability_result i a : good_id i -> good_probability a -> exists ns, result_ok (report_probability show O i a) ns (said_probability i a).
Proof.
  intros GI (_ & GS). assert (C : exists ns, result_ok match a_curve a with [] => [] | l => el "curve" (put_id i ++ [("description", S_ "Probability values over time"); ("X-title", S_ "Mission time"); ("Y-title", S_ "Probability"); ("X-unit", S_ "hours")]) (flat_map (report_point show) l) end
      ns match a_curve a with [] => [] | l => [SaidCurve i (map (fun p => (show (snd p), show (fst p))) l)] end).
  { destruct (a_curve a) as [|p l]; [exists []; apply result_nil|]. remember (p :: l) as c eqn:Q. clear Q.
    exists [E "curve" (put_id i ++ [("description", S_ "Probability values over time"); ("X-title", S_ "Mission time"); ("Y-title", S_ "Probability"); ("X-unit", S_ "hours")])
             (map (fun p => E "point" [("X", D_ show (snd p)); ("Y", D_ show (fst p))] []) c)]. apply result_one.
    - apply adds_el; [name_ok| |].
      + apply Forall_app. split; [now apply put_id_ok|]. okl; lits.
      + apply adds_map. intros x _. apply adds_el; [name_ok|okd|apply adds_nil].
    - unfold read_result. rewrite name_E. change (String.eqb "curve" "initiating-event") with false. change (String.eqb "curve" "sum-of-products") with false. change (String.eqb "curve" "curve") with true. cbn iota.
      rewrite read_id_ok.
      2: { intros k K. unfold id_key in K. cbn [existsb] in K. rewrite !orb_true_iff, !String.eqb_eq in K. destruct K as [-> |[-> |[-> |[-> |K]]]]; [..|discriminate]; reflexivity. }
      rewrite children_map by (intros; apply name_E). rewrite (all_map (read_pair "X" "Y") _ (fun p => (show (snd p), show (fst p)))); [reflexivity|].
      intros x _. unfold read_pair. rewrite (str_E "X" _ _ _ (show (snd x))) by reflexivity. now rewrite (str_E "Y" _ _ _ (show (fst x))) by reflexivity. }
  destruct C as (ns & C). unfold report_probability, said_probability.
  destruct (a_sil a) as [s|]; [|exists (ns ++ []); apply result_app; [exact C|apply result_nil]]. destruct GS as (L1 & L2).
  exists (ns ++ [E "safety-integrity-levels" (put_id i ++ [("PFD-avg", D_ show (pfd_avg s)); ("PFH-avg", D_ show (pfh_avg s))])
    (map (fun l => bins_node "histogram" "bin" (n_ l) (bins_to l)) [pfd_fractions s; pfh_fractions s])]). apply result_app; [exact C|]. apply result_one.
  - apply adds_el; [name_ok| |].
    + apply Forall_app. split; [now apply put_id_ok|]. okd.
    + cbn [map]. apply (adds_app _ _ [_] [_]); now apply adds_fractions.
  - unfold read_result. rewrite name_E. change (String.eqb "safety-integrity-levels" "initiating-event") with false. change (String.eqb "safety-integrity-levels" "sum-of-products") with false.
    change (String.eqb "safety-integrity-levels" "curve") with false. change (String.eqb "safety-integrity-levels" "safety-integrity-levels") with true. cbn iota.
    rewrite read_id_ok.
    2: { intros k K. unfold id_key in K. cbn [existsb] in K. rewrite !orb_true_iff, !String.eqb_eq in K. destruct K as [-> |[-> |[-> |[-> |K]]]]; [..|discriminate]; reflexivity. }
    rewrite (str_E "PFD-avg" _ _ _ (show (pfd_avg s))) by (rewrite look_id by reflexivity; reflexivity).
    rewrite (str_E "PFH-avg" _ _ _ (show (pfh_avg s))) by (rewrite look_id by reflexivity; reflexivity).
    rewrite children_map by (intros; apply name_E). rewrite (all_map read_bins _ (fun l => (Z.of_nat (List.length l), bins_to l))); [reflexivity|].
    intros l _. apply read_bins_ok. unfold bins_node. rewrite <- nat_N_Z. now apply size_E.
Qed.
Definition entry_node (x : event * num * factors num) : node :=
  event_node (fst (fst x)) [("occurrence", VInt (occurrence (snd x))); ("probability", D_ show (snd (fst x))); ("MIF", D_ show (mif (snd x))); ("CIF", D_ show (cif (snd x)));
    ("DIF", D_ show (dif (snd x))); ("RAW", D_ show (raw (snd x))); ("RRW", D_ show (rrw (snd x)))].
Lemma importance_result i a : good_id i -> good_importance a -> exists n, result_ok (report_importance show i a) [n] [said_importance i a].
Proof.
  intros GI (W & L & F). exists (E "importance" (put_id i ++ warning (n_warnings a) ++ [("basic-events", n_ (n_entries a))]) (map entry_node (n_entries a))). apply result_one.
  - unfold report_importance. apply adds_el; [name_ok| |].
    + apply Forall_app. split; [now apply put_id_ok|]. apply Forall_app. split; [now apply warning_ok|]. okl. now apply n_ok.
    + apply adds_map. intros [[e p] f] I. rewrite Forall_forall in F. destruct (F _ I) as (GE & R). apply adds_event; [exact GE|]. cbn [fst snd] in *. okd.
  - unfold read_result. rewrite name_E. change (String.eqb "importance" "initiating-event") with false. change (String.eqb "importance" "sum-of-products") with false.
    change (String.eqb "importance" "curve") with false. change (String.eqb "importance" "safety-integrity-levels") with false. change (String.eqb "importance" "importance") with true. cbn iota.
    rewrite read_id_ok.
    2: { intros k K. unfold id_key in K. cbn [existsb] in K. rewrite !orb_true_iff, !String.eqb_eq in K. rewrite look_warning; [|destruct K as [-> |[-> |[-> |[-> |K]]]]; [..|discriminate]; reflexivity].
         destruct K as [-> |[-> |[-> |[-> |K]]]]; [..|discriminate]; reflexivity. }
    rewrite (size_E "basic-events" _ _ _ (N.of_nat (List.length (n_entries a)))) by (rewrite look_id by reflexivity; rewrite look_warning by reflexivity; reflexivity).
    rewrite kids_E, (all_map read_entry entry_node (fun x => let '(e, p, f) := x in (e, occurrence f, map show [p; mif f; cif f; dif f; raw f; rrw f]))).
    + rewrite value_E, look_id by reflexivity. rewrite warning_warned by reflexivity. rewrite nat_N_Z. reflexivity.
    + intros [[e p] f] _. unfold read_entry, entry_node. cbn [fst snd]. rewrite read_event_ok. set (d := [("occurrence", VInt (occurrence f)); _; _; _; _; _; _]).
      assert (K : int_of "occurrence" (event_node e d) = Some (occurrence f)) by (unfold int_of; rewrite look_event by reflexivity; apply sval_int).
      rewrite K. cbn [Serial.all]. rewrite !look_event by reflexivity. cbn -[sval event_node]. rewrite !D_sval. reflexivity.
Qed.
Lemma uncertainty_result i a : good_id i -> good_uncertainty a -> exists n, result_ok (report_uncertainty show O i a) [n] [said_uncertainty i a].
Proof.
  intros GI (W & L & LD).
  set (q := bins_node "quantiles" "quantile" (VInt (Z.of_nat (List.length (u_quantiles a)))) (quantiles_to (u_quantiles a))).
  set (h := bins_node "histogram" "bin" (VInt (Z.of_nat (List.length (u_distribution a)) - 1)) (bins_between (u_distribution a))).
  exists (E "measure" (put_id i ++ warning (u_warnings a))
    [E "mean" [("value", D_ show (u_mean a))] []; E "standard-deviation" [("value", D_ show (u_sigma a))] [];
     E "confidence-range" [("percentage", S_ "95"); ("lower-bound", D_ show (fst (u_interval a))); ("upper-bound", D_ show (snd (u_interval a)))] [];
     E "error-factor" [("percentage", S_ "95"); ("value", D_ show (u_error_factor a))] []; q; h]). apply result_one.
  - unfold report_uncertainty. apply adds_el; [name_ok| |].
    + apply Forall_app. split; [now apply put_id_ok|now apply warning_ok].
    + repeat (apply (adds_app _ _ [_]); [apply adds_el; [name_ok|okl; first [apply D_ok|lits]|apply adds_nil]|]).
      apply (adds_app _ _ [_] [_]); apply adds_el; try name_ok.
      * okl. now apply nat_int.
      * apply (adds_quantiles _ _ 0 (zero O)). unfold small, int_range in *. lia.
      * okl. change (int_range (Z.of_nat (List.length (u_distribution a)) - 1)). unfold small, int_range in *. lia.
      * apply (adds_histogram _ 0). unfold small, int_range in *. lia.
  - unfold read_result. rewrite name_E. change (String.eqb "measure" "initiating-event") with false. change (String.eqb "measure" "sum-of-products") with false.
    change (String.eqb "measure" "curve") with false. change (String.eqb "measure" "safety-integrity-levels") with false. change (String.eqb "measure" "importance") with false. change (String.eqb "measure" "measure") with true. cbn iota.
    rewrite read_id_ok.
    2: { intros k K. unfold id_key in K. cbn [existsb] in K. rewrite !orb_true_iff, !String.eqb_eq in K. rewrite <- (app_nil_r (warning _)). rewrite look_warning; [reflexivity|].
         destruct K as [-> |[-> |[-> |[-> |K]]]]; [..|discriminate]; reflexivity. }
    assert (Nq : name_of q = "quantiles") by apply name_E. assert (Nh : name_of h = "histogram") by apply name_E.
    unfold children. rewrite kids_E. cbn [filter]. rewrite !name_E, Nq, Nh. cbn [String.eqb Ascii.eqb Bool.eqb only].
    rewrite (str_E "value" _ _ _ (show (u_mean a))) by reflexivity. rewrite (str_E "value" _ _ _ (show (u_sigma a))) by reflexivity.
    unfold read_pair. rewrite (str_E "lower-bound" _ _ _ (show (fst (u_interval a)))) by reflexivity. rewrite (str_E "upper-bound" _ _ _ (show (snd (u_interval a)))) by reflexivity.
    rewrite (str_E "value" _ _ _ (show (u_error_factor a))) by reflexivity.
    unfold q. rewrite (read_bins_ok _ _ _ _ (Z.of_nat (List.length (u_quantiles a)))) by (now apply int_E).
    unfold h. rewrite (read_bins_ok _ _ _ _ (Z.of_nat (List.length (u_distribution a)) - 1)) by (now apply int_E).
    rewrite value_E, look_id by reflexivity. rewrite <- (app_nil_r (warning _)), warning_warned by reflexivity. reflexivity.
Qed.
Lemma sequences_result r : good_sequences r -> exists n, result_ok (report_sequences show r) [n] [said_sequences r].
Proof.
  intros (P & C & L & F). exists (E "initiating-event" ([("name", S_ (e_initiating r))] ++ put_context (e_context r) ++ [("sequences", n_ (e_sequences r))])
    (map (fun s => E "sequence" [("name", S_ (fst s)); ("value", D_ show (snd s))] []) (e_sequences r))). apply result_one.
  - unfold report_sequences. apply adds_el; [name_ok| |].
    + apply Forall_app. split; [okl; now apply plain_ok|]. apply Forall_app. split; [now apply put_context_ok|]. okl. now apply n_ok.
    + apply adds_map. intros s I. rewrite Forall_forall in F. apply adds_el; [name_ok| |apply adds_nil]. okl; [apply plain_ok; auto|apply D_ok].
  - unfold read_result. rewrite name_E. change (String.eqb "initiating-event" "initiating-event") with true. cbn iota.
    rewrite (str_E "name" _ _ _ (e_initiating r)) by reflexivity. rewrite read_context_ok by reflexivity.
    rewrite (size_E "sequences" _ _ _ (N.of_nat (List.length (e_sequences r)))) by (rewrite look_app; change (look "sequences" [("name", S_ (e_initiating r))]) with (@None value); cbn iota; rewrite look_context by reflexivity; reflexivity).
    rewrite children_map by (intros; apply name_E). rewrite (all_map (read_pair "name" "value") _ (fun s => (fst s, show (snd s)))).
    + rewrite nat_N_Z. reflexivity.
    + intros s _. unfold read_pair. rewrite (str_E "name" _ _ _ (fst s)) by reflexivity. now rewrite (str_E "value" _ _ _ (show (snd s))) by reflexivity.
Qed.
Lemma finding_result r : good_finding r -> exists ns, result_ok (report_finding show O r) ns (said_finding r).
Proof.
  intros (GI & GC & GP & GM & GU). unfold report_finding, said_finding.
  assert (A : exists ns, result_ok match r_products r with Some c => report_products show O (r_id r) c (r_probability r) | None => [] end ns
                match r_products r with Some c => [said_products (r_id r) c (r_probability r)] | None => [] end).
  { destruct (r_products r) as [c|]; [|exists []; apply result_nil]. destruct (products_result (r_id r) c (r_probability r) GI GC GP) as (n & H). eauto. }
  assert (B : exists ns, result_ok match r_probability r with Some a => report_probability show O (r_id r) a | None => [] end ns match r_probability r with Some a => said_probability (r_id r) a | None => [] end).
  { destruct (r_probability r) as [a|]; [|exists []; apply result_nil]. now apply probability_result. }
  assert (C : exists ns, result_ok match r_importance r with Some a => report_importance show (r_id r) a | None => [] end ns match r_importance r with Some a => [said_importance (r_id r) a] | None => [] end).
  { destruct (r_importance r) as [a|]; [|exists []; apply result_nil]. destruct (importance_result (r_id r) a GI GM) as (n & H). eauto. }
  assert (D : exists ns, result_ok match r_uncertainty r with Some a => report_uncertainty show O (r_id r) a | None => [] end ns match r_uncertainty r with Some a => [said_uncertainty (r_id r) a] | None => [] end).
  { destruct (r_uncertainty r) as [a|]; [|exists []; apply result_nil]. destruct (uncertainty_result (r_id r) a GI GU) as (n & H). eauto. }
  destruct A as (a & A), B as (b & B), C as (c & C), D as (d & D). exists (a ++ b ++ c ++ d). repeat apply result_app; assumption.
Qed.
Lemma results_flat {A} (P : A -> Prop) (f : A -> list op) (s : A -> list said) l :
  (forall x, P x -> exists ns, result_ok (f x) ns (s x)) -> Forall P l -> exists ns, result_ok (flat_map f l) ns (flat_map s l).
Proof.
  intros H. induction 1 as [|x l Px _ IH]; [exists []; apply result_nil|]. destruct (H x Px) as (a & HA), IH as (b & HB). exists (a ++ b). cbn [flat_map]. now apply result_app.
Qed.
End Results.
