(** Property C59: the GUI shows what the analyses found. *)
From Coq Require Import List String ZArith NArith Bool Lia.
From Verif Require Serial.
From Verif Require Import Report ReportResults Shown.
Import ListNotations.
Local Open Scope list_scope.

Section C59.
Context {num : Type} (show : num -> string) (O : operations num) (id : event -> list N).

(** *** The tree *)
Definition gate_of (i : ident) : option string := match i_target i with TGate g => Some g | TSequence _ _ => None end.
(** A result of the GUI, which has no event trees: of a gate, with products; importance goes with probability. *)
Definition of_gate (r : finding num) : Prop := gate_of (r_id r) <> None /\ r_products r <> None /\ (r_importance r <> None -> r_probability r <> None).
(** What is shown of it: its name and below it the number of products, the probability, the number of records. *)
Definition said_entries (r : finding num) : list (entry num) :=
  match r_products r with Some c => [Products (List.length (c_products c))] | None => [] end ++
  match r_probability r with Some a => [Probability (a_total a)] | None => [] end ++
  match r_importance r with Some a => [Importance (List.length (n_entries a))] | None => [] end.
Definition said_tree (r : finding num) : shown_text num * list (shown_text num) :=
  (SName match gate_of (r_id r) with Some g => g | None => ""%string end, map SEntry (said_entries r)).
Lemma all_nth {A B} (f : nat -> option B) (g : A -> B) : forall (l : list A) k, (forall i x, nth_error l i = Some x -> f (k + i) = Some (g x)) ->
  Serial.all f (seq k (List.length l)) = Some (map g l).
Proof.
  induction l as [|x l IH]; intros k H; [reflexivity|]. cbn [List.length seq Serial.all map]. rewrite <- (PeanoNat.Nat.add_0_r k) at 1. rewrite (H 0 x eq_refl).
  rewrite (IH (S k)); [reflexivity|]. intros i y E. rewrite <- (H (S i) y E). f_equal. lia.
Qed.
Theorem C59_tree (results : list (finding num)) : Forall of_gate results -> view_tree results = Some (map said_tree results).
Proof.
  intros F. unfold view_tree. cbn [row_count]. apply all_nth. intros i r E. cbn [Nat.add].
  rewrite Forall_forall in F. destruct (F r (nth_error_In _ _ E)) as (G & P & I).
  unfold row_count, tree_data, tree_parent, tree_index. cbn [i_row i_pointer i_column]. rewrite E. unfold said_tree, said_entries, gate_of in *.
  destruct (i_target (r_id r)) as [g|]; [|contradiction]. destruct (r_products r) as [c|] eqn:EP; [|contradiction].
  destruct (r_importance r) as [m|] eqn:EI.
  - destruct (r_probability r) as [a|] eqn:EA; [|elim I; [discriminate|reflexivity]]. cbn. reflexivity.
  - destruct (r_probability r) as [a|] eqn:EA; reflexivity.
Qed.
(** A row knows the row above it, and no two rows have the same index. *)
Theorem C59_parents (row column : nat) (p : option index) : (match p with Some q => tree_parent q = None /\ i_column q = 0 | None => True end) ->
  tree_parent (tree_index row column p) = p /\ i_row (tree_index row column p) = row /\ i_column (tree_index row column p) = column.
Proof.
  destruct p as [[r c k]|]; intros H; [|repeat split]. destruct H as (H & C). cbn in C. subst c. unfold tree_parent in *. cbn in *. destruct k; [|discriminate]. repeat split.
Qed.

(** *** The tables *)
Definition said_row (r : finding num) (c : container num) (p : list Z) : list (cell num) :=
  [CText (product_text id (map (fun i => (Z.ltb i 0, c_events c (Z.abs_nat i))) p)); CInt (Z.of_nat (Nat.max 1 (List.length p)))] ++
  match r_probability r with
  | Some _ => [CNum (p_product O c p); CNum (if is_zero O (p_sum O c) then zero O else quot O (p_product O c p) (p_sum O c))]
  | None => []
  end.
Lemma order_max p : order p = Z.of_nat (Nat.max 1 (List.length p)).
Proof. destruct p as [|i p]; [reflexivity|]. reflexivity. Qed.
Lemma sum_rows (f : list Z -> product_row) (g : list Z -> num) l : (forall p, w_probability (f p) = g p) -> forall s,
  fold_left (fun s r => add O s (w_probability r)) (map f l) s = fold_left (add O) (map g l) s.
Proof. intros H. induction l as [|p l IH]; intros s; [reflexivity|]. cbn [map fold_left]. rewrite H. apply IH. Qed.
Theorem C59_products (r : finding num) (c : container num) : r_products r = Some c -> open_products O id r = Some (map (said_row r c) (c_products c)).
Proof.
  intros E. unfold open_products. rewrite E. unfold view_table, product_rows.
  set (w := match r_probability r with Some _ => true | None => false end).
  set (f := fun p => mkRow (product_text id (map (literal c) p)) (order p) (if w then product_p O c p else zero O) (zero O)).
  set (s := fold_left (fun s r => add O s (w_probability r)) (map f (c_products c)) (zero O)).
  assert (G : forall h : list Z -> product_row, (forall p, w_text (h p) = w_text (f p) /\ w_order (h p) = w_order (f p) /\ w_probability (h p) = w_probability (f p) /\
      (w = true -> w_contribution (h p) = if is_zero O (p_sum O c) then zero O else quot O (p_product O c p) (p_sum O c))) ->
    Serial.all (fun i => Serial.all (product_cell (map h (c_products c)) i) (seq 0 (product_columns w))) (seq 0 (List.length (map h (c_products c)))) = Some (map (said_row r c) (c_products c))).
  { intros h H. rewrite map_length. apply all_nth. intros i p N. cbn [Nat.add]. unfold product_columns, said_row. unfold product_cell. rewrite (map_nth_error h i _ N).
    destruct (H p) as (H1 & H2 & H3 & H4). unfold f in H1, H2, H3. cbn [w_text w_order w_probability] in H1, H2, H3. clearbody s. unfold w in *. destruct (r_probability r) as [a|]; cbn [seq Serial.all];
      rewrite H1, H2, ?H3, order_max; unfold literal; [rewrite (H4 eq_refl), product_p_ok|]; reflexivity. }
  assert (S0 : w = true -> s = p_sum O c).
  { intros W. unfold s, p_sum. rewrite (sum_rows f (p_product O c)); [reflexivity|]. intros p. unfold f. cbn [w_probability]. rewrite W. apply product_p_ok. }
  destruct (is_zero O s) eqn:Z0.
  - apply G. intros p. repeat split. intros W. rewrite (S0 W) in Z0. rewrite Z0. reflexivity.
  - rewrite map_map. apply G. intros p. cbn [w_text w_order w_probability w_contribution]. repeat split. intros W. rewrite (S0 W) in *. rewrite Z0. unfold f. cbn [w_probability]. rewrite W. now rewrite product_p_ok.
Qed.
Theorem C59_importance (r : finding num) (a : importance num) : r_importance r = Some a ->
  open_importance id r = Some (map (fun x => let '(e, p, f) := x in [CText (id e); CInt (occurrence f); CNum p; CNum (mif f); CNum (cif f); CNum (dif f); CNum (raw f); CNum (rrw f)]) (n_entries a)).
Proof.
  intros E. unfold open_importance. rewrite E. unfold view_table. apply all_nth. intros i [[e p] f] N. cbn [Nat.add]. unfold importance_cell. rewrite N. reflexivity.
Qed.
(** The numbers are those of the report (C56), where a contribution is left out if the sum is zero. *)
Theorem C59_as_reported (r : finding num) (c : container num) (p : list Z) (a : probability num) : r_probability r = Some a ->
  exists t o x y, said_row r c p = [t; CInt o; CNum x; CNum y] /\ o = sp_order (said_product_of show O c (r_probability r) p) /\
    sp_probability (said_product_of show O c (r_probability r) p) = Some (show x) /\
    sp_contribution (said_product_of show O c (r_probability r) p) = (if is_zero O (p_sum O c) then None else Some (show y)).
Proof.
  intros E. unfold said_row, said_product_of. rewrite E. cbn [app sp_order sp_probability sp_contribution]. do 4 eexists. split; [reflexivity|]. split; [reflexivity|]. split; [reflexivity|].
  destruct (is_zero O (p_sum O c)); reflexivity.
Qed.

(** *** The texts of products *)
(** Names are not empty and have none of the signs for complement and conjunction. *)
Definition no_signs (e : event) : Prop := id e <> [] /\ ~ In 172%N (id e) /\ ~ In 8901%N (id e).
Lemma first_sign (a b u v : list N) : ~ In 8901%N a -> ~ In 8901%N b -> a ++ 8901%N :: u = b ++ 8901%N :: v -> a = b /\ u = v.
Proof.
  revert b. induction a as [|x a IH]; intros [|y b] NA NB E; cbn in E.
  - injection E as <-. auto.
  - injection E as <- E. elim NB. now left.
  - injection E as -> E. elim NA. now left.
  - injection E as <- E. destruct (IH b) as (-> & ->); auto; intros I; [apply NA|apply NB]; now right.
Qed.
Lemma member_signs x : no_signs (snd x) -> ~ In 8901%N (member id x) /\ member id x <> [].
Proof.
  intros (N & A & B). unfold member. split.
  - intros I. apply in_app_or in I. destruct I as [I|I]; [|now apply B]. destruct (fst x); [|contradiction]. destruct I as [I|[]]. discriminate.
  - intros E. apply app_eq_nil in E. now destruct E.
Qed.
Lemma member_inj x y : no_signs (snd x) -> no_signs (snd y) -> member id x = member id y -> fst x = fst y /\ id (snd x) = id (snd y).
Proof.
  intros (_ & A & _) (_ & B & _). unfold member. destruct (fst x), (fst y); cbn [app]; intros E.
  - injection E as E. auto.
  - exfalso. apply B. rewrite <- E. now left.
  - exfalso. apply A. rewrite E. now left.
  - auto.
Qed.
(** Products with the same text have the same literals in the same order. *)
Theorem C59_texts (l l' : list (bool * event)) : Forall (fun x => no_signs (snd x)) l -> Forall (fun x => no_signs (snd x)) l' ->
  product_text id l = product_text id l' -> map (fun x => (fst x, id (snd x))) l = map (fun x => (fst x, id (snd x))) l'.
Proof.
  assert (C : forall x l, product_text id (x :: l) = member id x ++ match l with [] => [] | _ => 32%N :: 8901%N :: 32%N :: product_text id l end).
  { intros x m. destruct m; [cbn; now rewrite app_nil_r|reflexivity]. }
  revert l'. induction l as [|x l IH]; intros [|y l'] F F' E.
  - reflexivity.
  - inversion F' as [|? ? Y FY]; subst. destruct (member_signs y Y) as (_ & N). rewrite C in E. symmetry in E. apply app_eq_nil in E. now destruct E.
  - inversion F as [|? ? X FX]; subst. destruct (member_signs x X) as (_ & N). rewrite C in E. apply app_eq_nil in E. now destruct E.
  - inversion F as [|? ? X FX]; subst. inversion F' as [|? ? Y FY]; subst. destruct (member_signs x X) as (MX & _), (member_signs y Y) as (MY & _).
    rewrite !C in E. cbn [map].
    assert (NS : forall a, ~ In 8901%N a -> ~ In 8901%N (a ++ [32%N])) by (intros a NA I; apply in_app_or in I; destruct I as [I|[I|[]]]; [auto|discriminate]).
    assert (Q : member id x = member id y /\ product_text id l = product_text id l').
    { destruct l as [|x1 l], l' as [|y1 l'].
      - rewrite !app_nil_r in E. auto.
      - exfalso. apply MX. rewrite app_nil_r in E. rewrite E. apply in_or_app. right. right. now left.
      - exfalso. apply MY. rewrite app_nil_r in E. rewrite <- E. apply in_or_app. right. right. now left.
      - change (32%N :: 8901%N :: 32%N :: product_text id (x1 :: l)) with ([32%N] ++ 8901%N :: 32%N :: product_text id (x1 :: l)) in E.
        change (32%N :: 8901%N :: 32%N :: product_text id (y1 :: l')) with ([32%N] ++ 8901%N :: 32%N :: product_text id (y1 :: l')) in E.
        rewrite !app_assoc in E. apply first_sign in E; try (now apply NS). destruct E as (E1 & E2). apply app_inv_tail in E1. injection E2 as E2. auto. }
    destruct Q as (Q1 & Q2). destruct (member_inj x y X Y Q1) as (-> & ->). f_equal. now apply IH.
Qed.
End C59.

(** An example: the first result of the sample of C56. *)
From Coq Require Import Ascii.
From Verif Require Import P_Report.
Definition name_codes (e : event) : list N :=
  map N_of_ascii (list_ascii_of_string match e with Basic n => n | Ccf g ms k => "[" ++ String.concat " " ms ++ "]" end)%string.
Definition top : finding BinNums.N := hd (mkFinding (mkIdent (TGate "") None) None None None None) (k_findings sample).
Example C59_witness : of_gate top /\ Forall (fun x => no_signs name_codes (snd x)) [(false, common); (true, valve)] /\
  view_tree [top] = Some [(SName "top", [SEntry (Products 3); SEntry (Probability 11%N); SEntry (Importance 2)])] /\
  option_map (map (map (fun c => match c with CText t => Z.of_nat (List.length t) | CInt n => n | CNum x => Z.of_N x end))) (open_products n_operations name_codes top) =
    Some [[23; 2; 0; 0]; [5; 1; 6; 0]; [18; 2; 12; 0]]%Z.
Proof.
  split; [repeat split; discriminate|]. split.
  { repeat constructor; try discriminate; intros I; vm_compute in I; repeat (destruct I as [I|I]; [discriminate|]); contradiction. }
  split; [reflexivity|]. vm_compute. reflexivity.
Qed.
