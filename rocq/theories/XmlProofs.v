(** Proofs about the XML writer. *)
From Coq Require Import List Arith NArith ZArith Lia Bool Ascii String.
From Verif Require Import XmlStream.
Import ListNotations.
Local Open Scope list_scope.
Local Open Scope nat_scope.

(** ** Rendering of documents *)
Definition esc (s : str) : str := flat_map escape1 s.
Definition rattr (a : str * str) : str := lit " " ++ fst a ++ lit "=""" ++ esc (snd a) ++ lit """".
Definition rattrs (a : list (str * str)) : str := flat_map rattr a.
Definition rclose (on : bool) (ind : nat) (name : str) (c : content) : str :=
  match c with
  | CEmpty => lit "/>" ++ [newline]
  | CText _ => lit "</" ++ name ++ lit ">" ++ [newline]
  | CKids _ => indentation on ind ++ lit "</" ++ name ++ lit ">" ++ [newline]
  end.
Fixpoint rnode (on : bool) (ind : nat) (n : node) : str :=
  match n with
  | Node name a c => indentation on ind ++ lit "<" ++ name ++ rattrs a ++ ropen on ind c ++ rclose on ind name c
  end
with ropen (on : bool) (ind : nat) (c : content) : str :=
  match c with
  | CEmpty => []
  | CText s => lit ">" ++ esc s
  | CKids l => lit ">" ++ [newline] ++ rnodes on (ind + 2) l
  end
with rnodes (on : bool) (ind : nat) (l : nodes) : str :=
  match l with NNil => [] | NCons n l => rnode on ind n ++ rnodes on ind l end.
Definition rhead (on : bool) (ind : nat) (f : frame) : str :=
  indentation on ind ++ lit "<" ++ f_name f ++ rattrs (f_attrs f) ++ ropen on ind (f_content f).
Fixpoint rframes (on : bool) (l : list frame) : str :=
  match l with [] => [] | f :: l => rframes on l ++ rhead on (2 * List.length l) f end.

Lemma rnodes_snoc on ind l n : rnodes on ind (snoc l n) = rnodes on ind l ++ rnode on ind n.
Proof. induction l; simpl; [now rewrite app_nil_r|]. now rewrite IHl, app_assoc. Qed.
Lemma esc_app a b : esc (a ++ b) = esc a ++ esc b.
Proof. apply flat_map_app. Qed.
Lemma put_chars_esc s : put_chars s = esc s.
Proof.
  unfold put_chars. destruct (existsb special s) eqn:E; [reflexivity|]. induction s as [|c s IH]; [reflexivity|]. simpl in *.
  apply orb_false_iff in E. destruct E as [E1 E2]. rewrite <- IH by auto. unfold special in E1. apply orb_false_iff in E1. destruct E1 as [E1 E3].
  apply orb_false_iff in E1. destruct E1 as [E1 E4]. unfold escape1. now rewrite E1, E4, E3.
Qed.

(** ** The reader on rendered documents *)
Lemma span_app p a c r : forallb p a = true -> p c = false -> span p (a ++ c :: r) = (a, c :: r).
Proof.
  intros A C. induction a as [|x a IH]; simpl in *; [now rewrite C|]. apply andb_true_iff in A. destruct A as [A B].
  now rewrite A, (IH B).
Qed.
Lemma skip_app w r : forallb is_space w = true -> skip (w ++ r) = skip r.
Proof.
  unfold skip. intros A. induction w as [|x w IH]; simpl in *; auto. apply andb_true_iff in A. destruct A as [A B]. rewrite A.
  destruct (span is_space (w ++ r)). simpl in *. auto.
Qed.
Lemma skip_none c r : is_space c = false -> skip (c :: r) = c :: r.
Proof. intros H. unfold skip. simpl. now rewrite H. Qed.
Lemma strip_app p r : strip p (p ++ r) = Some r.
Proof. induction p; simpl; auto. now rewrite Ascii.eqb_refl. Qed.
Lemma indentation_space on n : forallb is_space (indentation on n) = true.
Proof. unfold indentation. induction (if on then Nat.min n 20 else 0); simpl; auto. Qed.

Lemma unescape_esc s : forall fuel, List.length s < fuel -> unescape fuel (esc s) = Some s.
Proof.
  induction s as [|c s IH]; intros [|fuel] L; simpl in L; try lia; [reflexivity|]. unfold esc. cbn [flat_map]. fold (esc s).
  unfold escape1. destruct (Ascii.eqb_spec c "&"); [subst; simpl; rewrite IH by lia; reflexivity|].
  destruct (Ascii.eqb_spec c "<"); [subst; simpl; rewrite IH by lia; reflexivity|].
  destruct (Ascii.eqb_spec c """"); [subst; simpl; rewrite IH by lia; reflexivity|].
  cbn [app unescape]. destruct (Ascii.eqb_spec c "&"); [congruence|]. destruct (Ascii.eqb_spec c "<"); [congruence|]. rewrite IH by lia. reflexivity.
Qed.
Lemma esc_length s : List.length s <= List.length (esc s).
Proof.
  induction s as [|c s IH]; [simpl; lia|]. unfold esc in *. cbn [flat_map]. rewrite app_length. cbn [List.length].
  assert (1 <= List.length (escape1 c)); [|lia]. unfold escape1. repeat destruct (Ascii.eqb c _); simpl; lia.
Qed.
Lemma read_text_esc s : read_text (esc s) = Some s.
Proof. unfold read_text. apply unescape_esc. pose proof (esc_length s). lia. Qed.
Lemma esc_no_lt s : forallb (fun c => negb (Ascii.eqb c "<")) (esc s) = true.
Proof.
  induction s as [|c s IH]; [reflexivity|]. unfold esc in *. cbn [flat_map]. rewrite forallb_app, IH, andb_true_r. unfold escape1.
  destruct (Ascii.eqb_spec c "&"); [reflexivity|]. destruct (Ascii.eqb_spec c "<"); [reflexivity|]. destruct (Ascii.eqb_spec c """"); [reflexivity|].
  simpl. destruct (Ascii.eqb_spec c "<"); [congruence|reflexivity].
Qed.
Lemma esc_no_quote s : forallb (fun c => negb (Ascii.eqb c """")) (esc s) = true.
Proof.
  induction s as [|c s IH]; [reflexivity|]. unfold esc in *. cbn [flat_map]. rewrite forallb_app, IH, andb_true_r. unfold escape1.
  destruct (Ascii.eqb_spec c "&"); [reflexivity|]. destruct (Ascii.eqb_spec c "<"); [reflexivity|]. destruct (Ascii.eqb_spec c """"); [reflexivity|].
  simpl. destruct (Ascii.eqb_spec c """"); [congruence|reflexivity].
Qed.

Definition good_name (n : str) : Prop := n <> [] /\ forallb name_char n = true.
Definition good_attrs (a : list (str * str)) : Prop := Forall (fun p => good_name (fst p)) a.
Lemma name_char_facts c : name_char c = true ->
  is_space c = false /\ Ascii.eqb c "/" = false /\ Ascii.eqb c ">" = false /\ Ascii.eqb c "<" = false /\ Ascii.eqb c "=" = false /\ Ascii.eqb c """" = false.
Proof. unfold name_char. intros H. apply negb_true_iff in H. do 7 (apply orb_false_iff in H; destruct H as [H ?]). repeat split; auto. Qed.
Lemma good_name_head n : good_name n -> exists c r, n = c :: r /\ name_char c = true.
Proof. intros [N F]. destruct n as [|c r]; [congruence|]. exists c, r. simpl in F. apply andb_true_iff in F. tauto. Qed.

Definition ends (s : str) : Prop := exists c r, s = c :: r /\ (c = "/"%char \/ c = ">"%char).
Lemma read_attrs_ok a : good_attrs a -> forall fuel r, ends r -> List.length a < fuel -> read_attrs fuel (rattrs a ++ r) = Some (a, r).
Proof.
  induction 1 as [|[n v] a G F IH]; intros [|fuel] r E L; simpl in L; try lia.
  - destruct E as (c & r' & -> & [->| ->]); reflexivity.
  - cbn [read_attrs]. unfold rattrs. cbn [flat_map]. fold (rattrs a). unfold rattr at 1. cbn [fst snd]. rewrite <- !app_assoc.
    change (lit " ") with [" "%char]. rewrite skip_app by reflexivity.
    cbn [fst] in G. destruct (good_name_head n G) as (c & n' & -> & C). destruct (name_char_facts c C) as (C1 & C2 & C3 & _).
    cbn [app]. rewrite skip_none by auto. rewrite C2, C3. cbn [orb].
    change (lit "=""") with ("="%char :: lit """"). cbn [app].
    change (c :: n' ++ "="%char :: lit """" ++ esc v ++ lit """" ++ rattrs a ++ r) with ((c :: n') ++ "="%char :: lit """" ++ esc v ++ lit """" ++ rattrs a ++ r).
    rewrite span_app; [|apply G|reflexivity]. cbn [app].
    change (strip ("="%char :: lit """") ("="%char :: lit """" ++ esc v ++ lit """" ++ rattrs a ++ r)) with (strip (lit """") (lit """" ++ esc v ++ lit """" ++ rattrs a ++ r)).
    rewrite strip_app. change (lit """") with [""""%char] at 1. cbn [app].
    rewrite span_app; [|apply esc_no_quote|reflexivity]. rewrite read_text_esc. rewrite IH; auto. lia.
Qed.
Lemma rattrs_length a : List.length a <= List.length (rattrs a).
Proof.
  induction a as [|p a IH]; [simpl; lia|]. unfold rattrs in *. cbn [flat_map]. rewrite app_length. cbn [List.length].
  unfold rattr at 1. rewrite app_length. change (List.length (lit " ")) with 1. lia.
Qed.

Fixpoint good_node (n : node) : Prop := match n with Node name a c => good_name name /\ good_attrs a /\ good_content c end
with good_content (c : content) : Prop := match c with CEmpty => True | CText _ => True | CKids l => l <> NNil /\ good_nodes l end
with good_nodes (l : nodes) : Prop := match l with NNil => True | NCons n l => good_node n /\ good_nodes l end.
Fixpoint need (n : node) : nat := match n with Node _ _ c => S (need_c c) end
with need_c (c : content) : nat := match c with CKids l => need_l l | _ => 0 end
with need_l (l : nodes) : nat := match l with NNil => 1 | NCons n l => S (need n + need_l l) end.
Scheme node_mut := Induction for node Sort Prop
with content_mut := Induction for content Sort Prop
with nodes_mut := Induction for nodes Sort Prop.
Combined Scheme node_ind3 from node_mut, content_mut, nodes_mut.

Lemma strip_lt s : strip (lit "<") (lit "<" ++ s) = Some s.
Proof. apply strip_app. Qed.
Lemma ropen_ends on ind name c r : ends (ropen on ind c ++ rclose on ind name c ++ r).
Proof.
  destruct c; cbn [ropen rclose].
  - exists "/"%char. eexists. split; [reflexivity|auto].
  - exists ">"%char. eexists. split; [reflexivity|auto].
  - exists ">"%char. eexists. split; [reflexivity|auto].
Qed.
(** a rendered node starts, after spaces, with '<' and a name *)
Lemma rnode_start on ind n r : good_node n -> exists c x, name_char c = true /\ skip (rnode on ind n ++ r) = "<"%char :: c :: x /\
  exists w, forallb is_space w = true /\ rnode on ind n ++ r = w ++ "<"%char :: c :: x.
Proof.
  destruct n as [name a c]. intros (G & _). destruct (good_name_head name G) as (x & n' & -> & C).
  exists x. eexists. split; auto. cbn [rnode]. rewrite <- !app_assoc. split.
  - rewrite skip_app by apply indentation_space. change (lit "<") with ["<"%char]. cbn [app]. rewrite skip_none by reflexivity. reflexivity.
  - exists (indentation on ind). split; [apply indentation_space|]. reflexivity.
Qed.
Lemma space_not_lt w : forallb is_space w = true -> forallb (fun c => negb (Ascii.eqb c "<")) w = true.
Proof.
  intros H. rewrite forallb_forall in *. intros c I. specialize (H c I). destruct (Ascii.eqb_spec c "<"); auto. subst. discriminate.
Qed.
Lemma strip_close_child name c x : name_char c = true -> strip (lit "</" ++ name) ("<"%char :: c :: x) = None /\ strip (lit "</") ("<"%char :: c :: x) = None.
Proof.
  intros C. destruct (name_char_facts c C) as (_ & C2 & _). rewrite Ascii.eqb_sym in C2. 
  change (lit "</") with ["<"%char; "/"%char]. cbn [app strip]. rewrite Ascii.eqb_refl, C2. auto.
Qed.

Lemma read_ok on :
  (forall n, good_node n -> forall ind fuel s r, need n <= fuel -> skip s = skip (rnode on ind n ++ r) ->
     read_node fuel s = Some (n, newline :: r)) /\
  (forall c : content, good_content c -> match c with CKids l => forall ind fuel s t, need_l l <= fuel -> skip s = skip (rnodes on ind l ++ t) ->
     (exists x, skip t = lit "</" ++ x) -> exists r, read_nodes fuel s = Some (l, r) /\ skip r = skip t | _ => True end) /\
  (forall l, good_nodes l -> forall ind fuel s t, need_l l <= fuel -> skip s = skip (rnodes on ind l ++ t) ->
     (exists x, skip t = lit "</" ++ x) -> exists r, read_nodes fuel s = Some (l, r) /\ skip r = skip t).
Proof.
  apply node_ind3.
  - intros name a c IHc (G & GA & GC) ind [|fuel] s r L E; cbn [need] in L; [lia|]. cbn [read_node]. rewrite E. cbn [rnode]. rewrite <- !app_assoc.
    rewrite skip_app by apply indentation_space. change (lit "<") with ["<"%char]. cbn [app]. rewrite skip_none by reflexivity.
    change (strip ["<"%char] ("<"%char :: ?x)) with (Some x).
    set (tail := ropen on ind c ++ rclose on ind name c ++ r).
    cbn [strip]. change (Ascii.eqb "<" "<") with true. cbn iota.
    assert (EN : ends (rattrs a ++ tail) \/ exists x, rattrs a ++ tail = " "%char :: x).
    { destruct a as [|p a]; [left; apply ropen_ends|right; eexists; reflexivity]. }
    assert (SP : span name_char (name ++ rattrs a ++ tail) = (name, rattrs a ++ tail)).
    { destruct EN as [(x & y & -> & [->| ->])|(x & ->)]; apply span_app; try reflexivity; apply G. }
    rewrite SP. destruct (good_name_head name G) as (n0 & n1 & EQ & NC).
    rewrite (read_attrs_ok a GA); [|apply ropen_ends|rewrite app_length; pose proof (rattrs_length a); lia].
    rewrite EQ at 1. unfold tail. clear SP EN. destruct c as [|t|l]; cbn [ropen rclose].
    + cbn [app]. rewrite <- app_assoc, strip_app. reflexivity.
    + rewrite <- !app_assoc. change (lit ">" ++ esc t ++ ?z) with (">"%char :: esc t ++ z).
      change (strip (lit "/>") (">"%char :: ?z)) with (@None str).
      change (strip (lit ">") (">"%char :: ?z)) with (Some z).
      set (z := lit "</" ++ name ++ lit ">" ++ [newline] ++ r).
      cbn [strip lit list_ascii_of_string]. change (Ascii.eqb "/" ">") with false. change (Ascii.eqb ">" ">") with true. cbn iota.
      change z with ("<"%char :: tl z). rewrite span_app; [|apply esc_no_lt|reflexivity].
      change ("<"%char :: tl z) with z. unfold z.
      replace (lit "</" ++ name ++ lit ">" ++ [newline] ++ r) with ((lit "</" ++ name ++ lit ">") ++ [newline] ++ r) by (rewrite <- !app_assoc; reflexivity).
      change (list_ascii_of_string "</") with (lit "</"). change (list_ascii_of_string ">") with (lit ">").
      match goal with |- context [strip ?p (?q ++ ?x)] => change (strip p (q ++ x)) with (strip q (q ++ x)) end.
      rewrite strip_app, read_text_esc. reflexivity.
    + destruct GC as [NE GL]. cbn [need_c] in L. destruct l as [|k l]; [congruence|].
      rewrite <- !app_assoc. set (z := rnodes on (ind + 2) (NCons k l) ++ indentation on ind ++ lit "</" ++ name ++ lit ">" ++ [newline] ++ r).
      change (lit ">" ++ [newline] ++ z) with (">"%char :: newline :: z).
      cbn [strip lit list_ascii_of_string]. change (Ascii.eqb "/" ">") with false. change (Ascii.eqb ">" ">") with true. cbn iota.
      destruct GL as [GK GL]. destruct (rnode_start on (ind + 2) k (rnodes on (ind + 2) l ++ indentation on ind ++ lit "</" ++ name ++ lit ">" ++ [newline] ++ r) GK)
        as (c & x & C & _ & w & W & EW).
      assert (EZ : newline :: z = (newline :: w) ++ "<"%char :: c :: x). { unfold z. cbn [rnodes]. rewrite <- app_assoc, EW. reflexivity. }
      rewrite EZ. assert (W' : forallb is_space (newline :: w) = true) by (simpl; exact W).
      rewrite span_app; [|apply space_not_lt, W'|reflexivity].
      change (list_ascii_of_string "</") with (lit "</"). change (list_ascii_of_string ">") with (lit ">").
      assert (SN : forall p, strip (lit "</" ++ p) ("<"%char :: c :: x) = None) by (intros p; apply strip_close_child, C).
      match goal with |- context [strip ?p ("<"%char :: c :: x)] => replace (strip p ("<"%char :: c :: x)) with (@None str) by (symmetry; apply SN) end.
      rewrite W'.
      destruct (IHc (conj NE (conj GK GL)) (ind + 2) fuel ("<"%char :: c :: x) (indentation on ind ++ lit "</" ++ name ++ lit ">" ++ [newline] ++ r)) as (r' & RN & SK).
      * lia.
      * rewrite <- (skip_app w ("<"%char :: c :: x) W). f_equal. injection EZ as EZ. rewrite <- EZ. reflexivity.
      * eexists. rewrite skip_app by apply indentation_space. change (lit "</") with ["<"%char; "/"%char]. cbn [app]. rewrite skip_none by reflexivity. reflexivity.
      * rewrite RN, SK, skip_app by apply indentation_space.
        replace (skip (lit "</" ++ name ++ lit ">" ++ [newline] ++ r)) with ((lit "</" ++ name ++ lit ">") ++ [newline] ++ r)
          by (rewrite <- !app_assoc; change (lit "</") with ["<"%char; "/"%char]; cbn [app]; rewrite skip_none by reflexivity; reflexivity).
        match goal with |- context [strip ?p (?q ++ ?x)] => change (strip p (q ++ x)) with (strip q (q ++ x)) end.
        rewrite strip_app. reflexivity.
  - auto.
  - auto.
  - intros l IH [_ GL]. exact (IH GL).
  - intros _ ind [|fuel] s t L E (x & X); cbn [need_l] in L; [lia|]. cbn [read_nodes]. cbn [rnodes app] in E. rewrite E, X, strip_app. eexists. split; [reflexivity|]. now rewrite E.
  - intros n IHn l IHl [G GL] ind [|fuel] s t L E X; cbn [need_l] in L; [lia|]. cbn [read_nodes]. cbn [rnodes] in E. rewrite <- app_assoc in E.
    destruct (rnode_start on ind n (rnodes on ind l ++ t) G) as (c & y & C & SK & _). rewrite E, SK.
    rewrite (proj2 (strip_close_child [] c y C)).
    rewrite (IHn G ind fuel s (rnodes on ind l ++ t)); [|lia|auto].
    destruct (IHl GL ind fuel (newline :: rnodes on ind l ++ t) t) as (r & RN & SK'); [lia| |auto|].
    { change (newline :: rnodes on ind l ++ t) with ([newline] ++ rnodes on ind l ++ t). now apply skip_app. }
    rewrite RN. eexists. split; [reflexivity|exact SK'].
Qed.
Lemma need_length on :
  (forall n, good_node n -> forall ind, S (need n) <= List.length (rnode on ind n)) /\
  (forall c, good_content c -> forall ind, need_c c <= S (List.length (ropen on ind c))) /\
  (forall l, good_nodes l -> forall ind, need_l l <= S (List.length (rnodes on ind l))).
Proof.
  apply node_ind3; cbn [need need_c need_l rnode ropen rnodes].
  - intros name a c IH ([N _] & _ & GC) ind. rewrite !app_length. specialize (IH GC ind). destruct name; [congruence|]. cbn [List.length].
    simpl (List.length (lit "<")). assert (2 <= List.length (rclose on ind (a0 :: name) c)); [|lia].
    destruct c; cbn [rclose]; rewrite !app_length; simpl; lia.
  - intros; lia.
  - intros; lia.
  - intros l IH [_ GL] ind. rewrite !app_length. specialize (IH GL (ind + 2)). simpl (List.length (lit ">")). simpl (List.length [newline]). lia.
  - intros; simpl; lia.
  - intros n IHn l IHl [G GL] ind. rewrite app_length. specialize (IHn G ind). specialize (IHl GL ind). lia.
Qed.
Lemma read_doc_ok on n : good_node n -> read_doc (header ++ rnode on 0 n) = Some n.
Proof.
  intros G. unfold read_doc. rewrite strip_app.
  rewrite (proj1 (read_ok on) n G 0 (S (List.length (header ++ rnode on 0 n))) (rnode on 0 n) []).
  - reflexivity.
  - rewrite app_length. pose proof (proj1 (need_length on) n G 0). lia.
  - now rewrite app_nil_r.
Qed.

(** ** Numbers *)
Lemma digit_eq n : digit n = ascii_of_N (48 + n).
Proof. unfold digit. f_equal. lia. Qed.
Lemma decimal_n_ok f : forall n, (n < 2 ^ N.of_nat f)%N -> forall g, (n < 10 ^ N.of_nat g)%N -> g <> 0 ->
  digits g n = Some (rev (decimal_n (S f) n)).
Proof.
  induction f as [|f IH]; intros n L g G G0; (destruct g as [|g]; [congruence|]).
  - assert (n = 0%N) by (simpl in L; lia). subst. reflexivity.
  - cbn [digits]. change (decimal_n (S (S f)) n) with (if N.ltb n 10 then [ascii_of_N (48 + n)] else decimal_n (S f) (N.div n 10) ++ [ascii_of_N (48 + N.modulo n 10)]).
    destruct (N.ltb_spec n 10).
    + rewrite N.div_small, N.mod_small by auto. cbn. now rewrite digit_eq.
    + assert (1 <= n / 10)%N by (apply N.div_le_lower_bound; lia). destruct (N.ltb_spec 0 (n / 10)); [|lia].
      rewrite (IH (n / 10)%N).
      * rewrite rev_app_distr. cbn. now rewrite digit_eq.
      * apply N.div_lt_upper_bound; [lia|]. rewrite Nnat.Nat2N.inj_succ, N.pow_succ_r' in L. lia.
      * apply N.div_lt_upper_bound; [lia|]. rewrite Nnat.Nat2N.inj_succ, N.pow_succ_r' in G. lia.
      * intros ->. simpl in G. lia.
Qed.
Lemma size_nat_lt n : (n < 2 ^ N.of_nat (N.size_nat n))%N.
Proof.
  destruct n as [|p]; [simpl; lia|]. cbn [N.size_nat]. induction p; cbn [Pos.size_nat]; [| |reflexivity];
    rewrite Nnat.Nat2N.inj_succ, N.pow_succ_r'; lia.
Qed.
Lemma write_size_ok n : (n < 2 ^ 64)%N -> write_size n = Some (decimal n).
Proof.
  intros L. unfold write_size, decimal. rewrite (decimal_n_ok (N.size_nat n)).
  - cbn [option_map]. now rewrite rev_involutive.
  - apply size_nat_lt.
  - eapply N.lt_trans; [exact L|]. reflexivity.
  - discriminate.
Qed.
Lemma write_int_ok z : (- 2 ^ 31 < z < 2 ^ 31)%Z -> write_int z = Some (text (VInt z)).
Proof.
  intros L. unfold write_int. cbn [text]. destruct (Z.ltb_spec z 0).
  - assert (E : to_size (int_neg z) = Z.abs_N z).
    { unfold to_size, int_neg. destruct (Z.eqb_spec z (- 2 ^ 31)); [lia|]. rewrite Z.mod_small by lia. lia. }
    rewrite E, write_size_ok by lia. reflexivity.
  - assert (E : to_size z = Z.abs_N z). { unfold to_size. rewrite Z.mod_small by lia. lia. }
    rewrite E, write_size_ok by lia. reflexivity.
Qed.
Lemma digit_value_ok n : (n < 10)%N -> digit_value (ascii_of_N (48 + n)) = Some n.
Proof.
  intros H. unfold digit_value. rewrite N_ascii_embedding by lia. destruct (N.leb_spec 48 (48 + n)); [|lia]. destruct (N.leb_spec (48 + n) 57); [|lia].
  cbn [andb]. f_equal. lia.
Qed.
Lemma read_digits_app a b acc : read_digits (a ++ b) acc = match read_digits a acc with Some v => read_digits b v | None => None end.
Proof. revert acc; induction a as [|c a IH]; intros; simpl; auto. destruct (digit_value c); auto. Qed.
Lemma read_decimal_n f : forall n, (n < 2 ^ N.of_nat f)%N -> read_digits (decimal_n (S f) n) 0 = Some n /\ decimal_n (S f) n <> [].
Proof.
  induction f as [|f IH]; intros n L.
  - assert (n = 0%N) by (simpl in L; lia). subst. split; [reflexivity|discriminate].
  - change (decimal_n (S (S f)) n) with (if N.ltb n 10 then [ascii_of_N (48 + n)] else decimal_n (S f) (N.div n 10) ++ [ascii_of_N (48 + N.modulo n 10)]).
    destruct (N.ltb_spec n 10).
    + cbn [read_digits]. rewrite digit_value_ok by auto. split; [reflexivity|discriminate].
    + destruct (IH (n / 10)%N) as [R _].
      { apply N.div_lt_upper_bound; [lia|]. rewrite Nnat.Nat2N.inj_succ, N.pow_succ_r' in L. lia. }
      rewrite read_digits_app, R. cbn [read_digits]. rewrite digit_value_ok by (apply N.mod_lt; lia). split.
      * f_equal. pose proof (N.div_mod n 10). lia.
      * intros H'. now destruct (decimal_n (S f) (n / 10)).
Qed.
Lemma read_decimal n : read_N (decimal n) = Some n.
Proof.
  unfold decimal. destruct (read_decimal_n (N.size_nat n) n (size_nat_lt n)) as [R N0]. unfold read_N. destruct (decimal_n _ n); [congruence|exact R].
Qed.
Lemma read_decimal_Z n : read_Z (decimal n) = Some (Z.of_N n).
Proof.
  pose proof (read_decimal n) as R. unfold read_Z. destruct (decimal n) as [|c l] eqn:E; [discriminate|].
  destruct (Ascii.eqb_spec c "-").
  - subst. discriminate R.
  - now rewrite R.
Qed.
(** no character of a number or truth value is special *)
Lemma esc_plain s : forallb (fun c => negb (special c)) s = true -> esc s = s.
Proof.
  intros H. rewrite <- put_chars_esc. unfold put_chars. destruct (existsb special s) eqn:E; auto. apply existsb_exists in E. destruct E as (c & I & S).
  rewrite forallb_forall in H. specialize (H c I). rewrite S in H. discriminate.
Qed.
Lemma decimal_plain n : forallb (fun c => negb (special c)) (decimal n) = true.
Proof.
  unfold decimal. generalize (S (N.size_nat n)) as f. intros f. revert n. 
  assert (D : forall n, (n < 10)%N -> negb (special (ascii_of_N (48 + n))) = true).
  { intros n H. assert (C : In n [0; 1; 2; 3; 4; 5; 6; 7; 8; 9]%N) by (simpl; lia). simpl in C.
    repeat destruct C as [<-|C]; try reflexivity; contradiction. }
  induction f as [|f IH]; intros n; [reflexivity|]. cbn [decimal_n]. destruct (N.ltb_spec n 10).
  - cbn [forallb]. now rewrite D.
  - rewrite forallb_app, IH. cbn [forallb]. rewrite D; auto. apply N.mod_lt. lia.
Qed.
Lemma c_str_ok s : ~ In nul s -> c_str s = s.
Proof.
  induction s as [|c s IH]; intros N; [reflexivity|]. simpl. destruct (Ascii.eqb_spec c nul); [exfalso; apply N; left; auto|].
  f_equal. apply IH. intros I. apply N. now right.
Qed.
Lemma put_value_ok v : ok_value v -> put_value v = Some (esc (text v)).
Proof.
  destruct v as [s|b|n|z]; cbn [ok_value put_value text]; intros H.
  - now rewrite c_str_ok, put_chars_esc.
  - destruct b; reflexivity.
  - rewrite write_size_ok by auto. now rewrite esc_plain by apply decimal_plain.
  - rewrite write_int_ok by auto. cbn [text]. destruct (Z.ltb z 0).
    + rewrite esc_plain; [reflexivity|]. cbn [forallb]. now rewrite decimal_plain.
    + now rewrite esc_plain by apply decimal_plain.
Qed.

(** ** Simulation *)
Definition flags (e : element) (c : content) : Prop :=
  match c with
  | CEmpty => accept_attributes e = true /\ accept_elements e = true /\ accept_text e = true
  | CText _ => accept_attributes e = false /\ accept_elements e = false /\ accept_text e = true
  | CKids _ => accept_attributes e = false /\ accept_elements e = true /\ accept_text e = false
  end.
Definition good_open (inner : bool) (c : content) : Prop :=
  match c with CKids l => (inner = true -> l <> NNil) /\ good_nodes l | _ => inner = true end.
Fixpoint live_ok (inner : bool) (es : list element) (fs : list frame) : Prop :=
  match es, fs with
  | [], [] => True
  | e :: es, f :: fs =>
      e_name e = f_name f /\ e_indent e = 2 * List.length fs /\ flags e (f_content f) /\ active e = inner /\
      good_name (f_name f) /\ good_attrs (f_attrs f) /\ good_open inner (f_content f) /\ live_ok false es fs
  | _, _ => False
  end.
Record sim (on : bool) (s : stream) (d : doc) : Prop := {
  sim_on : indent_on s = on;
  sim_root : has_root s = d_started d;
  sim_live : live_ok true (live s) (d_open d);
  sim_start : d_started d = false -> d_open d = [] /\ d_done d = None;
  sim_done : forall t, d_done d = Some t -> d_open d = [] /\ good_node t;
  sim_out : out s = header ++ match d_done d with Some t => rnode on 0 t | None => rframes on (d_open d) end }.

Lemma live_ok_nth b es fs : live_ok b es fs -> forall k, k < List.length fs -> exists e, nth_error es k = Some e /\ active e = (if k =? 0 then b else false).
Proof.
  revert b fs. induction es as [|e es IH]; intros b [|f fs] H k L; simpl in *; try lia; try contradiction.
  destruct H as (_ & _ & _ & A & _ & _ & _ & H). destruct k as [|k]; [exists e; auto|]. simpl. destruct (IH _ _ H k) as (e' & E & A'); [lia|].
  exists e'. split; auto. now destruct k.
Qed.
Ltac spl := repeat match goal with |- _ /\ _ => split end.
Lemma step_sim on o s d : sim on s d -> legal o d ->
  match meaning o d with
  | Some d' => exists s', step o s = Ok s' /\ sim on s' d'
  | None => step o s = Err
  end.
Proof.
  intros [ON RT LV ST DN OUT] LG. destruct o as [name|k name v|k v|k name|]; cbn [legal] in LG.
  - (* root *)
    cbn [meaning step]. rewrite RT. destruct name as [|c name]; [destruct (d_started d); reflexivity|].
    destruct (d_started d) eqn:S; [reflexivity|]. destruct (ST eq_refl) as [OP DO].
    rewrite OP in *. destruct (live s) as [|e es] eqn:E; [|contradiction]. eexists. split; [reflexivity|].
    split; cbn [indent_on has_root live out d_open d_started d_done]; auto.
    + cbn. spl; auto; [split; [discriminate|auto]|constructor].
    + discriminate.
    + rewrite DO. discriminate.
    + rewrite OUT, DO. cbn [rframes app]. unfold rhead. cbn [f_name f_attrs f_content ropen List.length]. rewrite ON. cbn [rattrs flat_map]. rewrite !app_nil_r. reflexivity.
  - (* attribute *)
    destruct LG as (L & NM & OV). destruct (live_ok_nth _ _ _ LV k L) as (e & NE & AE). cbn [step]. rewrite NE, AE.
    destruct k as [|k]; [|cbn [meaning Nat.eqb negb]; destruct (d_open d); reflexivity]. cbn [Nat.eqb negb].
    destruct (d_open d) as [|[fn fa fc] fs] eqn:OP; [simpl in L; lia|]. destruct (live s) as [|e' es] eqn:EL; [contradiction|].
    injection NE as ->. pose proof LV as LV'. destruct LV as (H1 & H2 & H3 & H4 & H5 & H6 & H7 & H8). cbn [f_name f_attrs f_content] in *.
    cbn [meaning]. rewrite OP. destruct fc as [|t|l]; cbn [flags] in H3; destruct H3 as (F1 & F2 & F3); rewrite F1; cbn [negb];
      [|now destruct name|now destruct name].
    destruct name as [|c name]; [reflexivity|]. rewrite put_value_ok by auto. eexists. split; [reflexivity|].
    assert (DO : d_done d = None). { destruct (d_done d) eqn:D; auto. edestruct DN as [X _]; [first [reflexivity | exact D] | discriminate X]. }
    split; cbn [emit indent_on has_root live out d_open d_started d_done]; auto.
    + cbn [live_ok f_name f_attrs f_content flags good_open]. spl; auto. apply Forall_app. split; auto. constructor; [|constructor]. split; [discriminate|auto].
    + intros H. destruct (ST H). discriminate.
    + rewrite DO. discriminate.
    + rewrite OUT, DO. cbn [rframes]. rewrite <- !app_assoc. do 2 f_equal. unfold rhead. cbn [f_name f_attrs f_content ropen]. rewrite !app_nil_r.
      unfold rattrs. rewrite flat_map_app. cbn [flat_map]. rewrite app_nil_r. unfold rattr at 3. cbn [fst snd]. now rewrite <- !app_assoc.
  - (* text *)
    destruct LG as (L & OV). destruct (live_ok_nth _ _ _ LV k L) as (e & NE & AE). cbn [step]. rewrite NE, AE.
    destruct k as [|k]; [|cbn [meaning Nat.eqb negb]; destruct (d_open d); reflexivity]. cbn [Nat.eqb negb].
    destruct (d_open d) as [|[fn fa fc] fs] eqn:OP; [simpl in L; lia|]. destruct (live s) as [|e' es] eqn:EL; [contradiction|].
    injection NE as ->. destruct LV as (H1 & H2 & H3 & H4 & H5 & H6 & H7 & H8). cbn [f_name f_attrs f_content] in *.
    assert (DO : d_done d = None). { destruct (d_done d) eqn:D; auto. edestruct DN as [X _]; [first [reflexivity | exact D] | discriminate X]. }
    cbn [meaning]. rewrite OP. destruct fc as [|t|l]; cbn [flags] in H3; destruct H3 as (F1 & F2 & F3); rewrite ?F1, ?F3; cbn [negb]; [| |reflexivity].
    + rewrite put_value_ok by auto. eexists. split; [reflexivity|]. split; cbn [emit indent_on has_root live out d_open d_started d_done]; auto.
      * cbn [set_nth live_ok f_name f_attrs f_content flags good_open e_name e_indent accept_attributes accept_elements accept_text active]. spl; auto.
      * intros H. destruct (ST H). discriminate.
      * rewrite DO. discriminate.
      * rewrite OUT, DO. cbn [rframes]. rewrite <- !app_assoc. do 2 f_equal. unfold rhead. cbn [f_name f_attrs f_content ropen]. rewrite !app_nil_r. now rewrite <- !app_assoc.
    + rewrite put_value_ok by auto. eexists. split; [reflexivity|]. split; cbn [emit indent_on has_root live out d_open d_started d_done]; auto.
      * cbn [set_nth live_ok f_name f_attrs f_content flags good_open e_name e_indent accept_attributes accept_elements accept_text active]. spl; auto.
      * intros H. destruct (ST H). discriminate.
      * rewrite DO. discriminate.
      * rewrite OUT, DO. cbn [rframes]. rewrite <- !app_assoc. do 2 f_equal. unfold rhead. cbn [f_name f_attrs f_content ropen app]. rewrite esc_app. now rewrite <- !app_assoc.
  - (* child *)
    destruct LG as (L & NM). destruct (live_ok_nth _ _ _ LV k L) as (e & NE & AE). cbn [step]. rewrite NE, AE.
    destruct k as [|k]; [|cbn [meaning Nat.eqb negb]; destruct (d_open d); reflexivity]. cbn [Nat.eqb negb].
    destruct (d_open d) as [|[fn fa fc] fs] eqn:OP; [simpl in L; lia|]. destruct (live s) as [|e' es] eqn:EL; [contradiction|].
    injection NE as ->. destruct LV as (H1 & H2 & H3 & H4 & H5 & H6 & H7 & H8). cbn [f_name f_attrs f_content] in *.
    assert (DO : d_done d = None). { destruct (d_done d) eqn:D; auto. edestruct DN as [X _]; [first [reflexivity | exact D] | discriminate X]. }
    cbn [meaning]. rewrite OP. destruct fc as [|t|l]; cbn [flags] in H3; destruct H3 as (F1 & F2 & F3); rewrite ?F1, ?F2; cbn [negb]; [|now destruct name|];
      (destruct name as [|c name]; [reflexivity|]); (eexists; split; [reflexivity|]); split; cbn [emit indent_on has_root live out d_open d_started d_done]; auto.
    + cbn [set_nth live_ok f_name f_attrs f_content flags good_open good_nodes new_element e_name e_indent accept_attributes accept_elements accept_text active List.length].
      spl; auto; try discriminate; try lia; try (split; [discriminate|auto]); constructor.
    + intros H. destruct (ST H). discriminate.
    + rewrite DO. discriminate.
    + rewrite OUT, DO. cbn [rframes List.length]. rewrite <- !app_assoc. do 2 f_equal. unfold rhead. cbn [f_name f_attrs f_content ropen rnodes]. rewrite !app_nil_r. rewrite <- !app_assoc.
      rewrite ON, H2. replace (2 * S (List.length fs)) with (2 * List.length fs + 2) by lia. cbn [rattrs flat_map app]. rewrite ?app_nil_r. reflexivity.
    + cbn [set_nth live_ok f_name f_attrs f_content flags good_open good_nodes new_element e_name e_indent accept_attributes accept_elements accept_text active List.length].
      destruct H7. spl; auto; try discriminate; try lia; try (split; [discriminate|auto]); constructor.
    + intros H. destruct (ST H). discriminate.
    + rewrite DO. discriminate.
    + rewrite OUT, DO. cbn [rframes List.length]. rewrite <- !app_assoc. do 2 f_equal. unfold rhead. cbn [f_name f_attrs f_content ropen app]. rewrite <- !app_assoc.
      rewrite ON, H2. replace (2 * S (List.length fs)) with (2 * List.length fs + 2) by lia. cbn [rattrs flat_map app]. now rewrite !app_nil_r.
  - (* close *)
    destruct (d_open d) as [|[fn fa fc] fs] eqn:OP; [congruence|]. destruct (live s) as [|e es] eqn:EL; [contradiction|].
    destruct LV as (H1 & H2 & H3 & H4 & H5 & H6 & H7 & H8). cbn [f_name f_attrs f_content] in *.
    assert (DO : d_done d = None). { destruct (d_done d) eqn:D; auto. edestruct DN as [X _]; [first [reflexivity | exact D] | discriminate X]. }
    assert (GN : good_node (Node fn fa fc)). { cbn [good_node]. spl; auto. destruct fc; cbn [good_open good_content] in *; auto. destruct H7; auto. }
    assert (SD : d_started d = true). { destruct (d_started d); auto. destruct (ST eq_refl). discriminate. }
    cbn [step meaning]. rewrite OP, EL, H4. cbn [negb].
    assert (FIN : forall es', exists x, (if accept_attributes e then Ok (emit s es' (lit "/>" ++ [newline]))
              else if accept_elements e then Ok (emit s es' (indentation (indent_on s) (e_indent e) ++ lit "</" ++ e_name e ++ lit ">" ++ [newline]))
              else if accept_text e then Ok (emit s es' (lit "</" ++ e_name e ++ lit ">" ++ [newline])) else Fail) = Ok (emit s es' x) /\ x = rclose on (2 * List.length fs) fn fc).
    { intros es'. destruct fc; cbn [flags] in H3; destruct H3 as (F1 & F2 & F3); rewrite F1, ?F2, ?F3; eexists; (split; [reflexivity|]); rewrite ?H1, ?H2, ?ON; reflexivity. }
    destruct fs as [|[gn ga gc] fs].
    + destruct es as [|p es]; [|contradiction]. destruct (FIN []) as (x & -> & ->). eexists. split; [reflexivity|].
      split; cbn [emit indent_on has_root live out d_open d_started d_done]; auto.
      * congruence.
      * intros t [= <-]. auto.
      * rewrite OUT, DO. cbn [rframes rnode List.length app]. unfold rhead. cbn [f_name f_attrs f_content]. now rewrite <- !app_assoc.
    + destruct es as [|p es]; [contradiction|]. destruct H8 as (K1 & K2 & K3 & K4 & K5 & K6 & K7 & K8). cbn [f_name f_attrs f_content] in *. rewrite K4.
      destruct gc as [|t|l]; cbn [good_open] in K7; try discriminate.
      match goal with |- exists s', (if _ then Ok (emit _ ?es' _) else _) = _ /\ _ => destruct (FIN es') as (x & -> & ->) end.
      eexists. split; [reflexivity|]. split; cbn [emit indent_on has_root live out d_open d_started d_done]; auto.
      * cbn [live_ok f_name f_attrs f_content flags good_open e_name e_indent accept_attributes accept_elements accept_text active]. cbn [flags] in K3.
        destruct K3 as (F1 & F2 & F3). destruct K7 as [_ GL]. split; [auto|]. split; [auto|]. split; [auto|]. split; [auto|]. split; [auto|]. split; [auto|]. split; [|auto].
        split; [now destruct l|]. clear -GL GN. induction l as [|m l IH]; cbn [snoc good_nodes] in *; [tauto|]. tauto.
      * congruence.
      * rewrite DO. discriminate.
      * rewrite OUT, DO. cbn [rframes List.length]. unfold rhead. cbn [f_name f_attrs f_content ropen]. rewrite rnodes_snoc. cbn [rnode].
        replace (2 * S (List.length fs)) with (2 * List.length fs + 2) by lia. now rewrite <- !app_assoc.
Qed.
Lemma run_sim on ops : forall s d, sim on s d -> legal_run ops d ->
  exists s', run ops s = Some (s', snd (means ops d)) /\ sim on s' (fst (means ops d)).
Proof.
  induction ops as [|o ops IH]; intros s d S L; [exists s; auto|]. destruct L as [L L']. pose proof (step_sim on o s d S L) as H. cbn [run means].
  destruct (meaning o d) as [d'|].
  - destruct H as (s1 & -> & S1). destruct (IH s1 d' S1 L') as (s2 & -> & S2). exists s2. destruct (means ops d'). auto.
  - rewrite H. destruct (IH s d S L') as (s2 & -> & S2). exists s2. destruct (means ops d). auto.
Qed.
Lemma sim_new on : sim on (new_stream on) new_doc.
Proof. split; cbn; auto; discriminate. Qed.
