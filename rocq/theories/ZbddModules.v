(** ZBDDs with modules built from a PDAG: src/zbdd.cc, the constructor from a gate with its
    sub-modules, GatherModules, JoinModule. *)
From stdpp Require Import gmap.
From Coq Require Import List ZArith Lia Bool Permutation Sorting.Sorted.
Import ListNotations.
From Verif Require Import Pdag PdagProofs PdagSem.
From Verif Require Import Zbdd ZbddProofs ZbddHistory ZbddGraph.
Open Scope Z_scope.

(** A Zbdd object: root_ and modules_. *)
Inductive zbdd := Zb (root : zt) (modules : list (Z * zbdd)).
Definition root_of (z : zbdd) : zt := match z with Zb r _ => r end.
Fixpoint find_module (i : Z) (l : list (Z * zbdd)) : option zbdd :=
  match l with [] => None | (j, z) :: l => if i =? j then Some z else find_module i l end.

Section Gather.
(** node.module(), !MayBeUnity and node.coherent() of a literal. *)
Context (is_module counts coherent : Z -> bool).
(** GatherModules, zbdd.cc:716-742. *)
Fixpoint gather (limit : Z) (t : zt) (current : Z) (m : gmap Z (bool * Z)) : option (Z * gmap Z (bool * Z)) :=
  match t with
  | ZE => Some (-1, m)
  | ZB => Some (0, m)
  | ZN i h l =>
      match gather limit h (current + cost counts i) m with
      | None => None
      | Some (min_high, m) =>
          if min_high <? 0 then None else
          match (if is_module i then
                   let order := limit - min_high - current in
                   if order <? 0 then None
                   else Some (<[i := (coherent (Z.abs i), match m !! i with Some (_, o) => Z.max o order | None => order end)]> m)
                 else Some m) with
          | None => None
          | Some m =>
              match gather limit l current m with
              | None => None
              | Some (min_low, m) =>
                  Some (if min_low =? -1 then min_high + cost counts i else Z.min (min_high + cost counts i) min_low, m)
              end
          end
      end
  end.
End Gather.

Section Build.
Context (ord : Z -> Z) (top : Z) (G : graph) (module coherent : Z -> bool) (parents : Z -> nat) (arrange : list zt -> list zt).
(** node.module() of a literal of the diagram. *)
Definition is_module (i : Z) : bool := is_gate G i && module (Z.abs i).
(** !MayBeUnity for minimal cut sets, zbdd.cc:701-714 with IsGate = module (zbdd.h:790). *)
Definition counts (i : Z) : bool := (0 <? i) && (negb (is_module i) || coherent (Z.abs i)).

(** The value of a constant module, zbdd.cc:600-607. *)
Definition constant_module (mods : list (Z * zbdd)) (i : Z) : option bool :=
  if is_module i then
    match find_module i mods with
    | Some (Zb ZE _) => Some false
    | Some (Zb ZB _) => Some true
    | _ => None
    end
  else None.
Definition has_constant (mods : list (Z * zbdd)) : bool := existsb (fun e => terminal (root_of (snd e))) mods.

(** Zbdd::Zbdd(const Gate&, const Settings&), zbdd.cc:152-194; every object has its own tables. *)
Fixpoint build (fuel : nat) (g limit : Z) : option zbdd :=
  match fuel with
  | O => None
  | S fuel =>
      x ← gs G !! g;
      if constant x || conn_eqb (g_type x) kNull then Some (Zb ZE []) else
      '(r, s) ← convert_gate ord top counts limit G module parents arrange coherent (coherent g) (S fuel) g start;
      '(_, subs) ← gather is_module counts coherent limit r 0 ∅;
      mods ← (fix go (l : list (Z * (bool * Z))) : option (list (Z * zbdd)) :=
                match l with
                | [] => Some []
                | (i, (c, o)) :: l =>
                    if (i <=? 0) || (o <? 0) then None else
                    z ← (if (o =? 0) && c then Some (Zb ZE []) else build fuel i o);
                    zs ← go l;
                    Some ((i, z) :: zs)
                end) (map_to_list subs);
      if has_constant mods then
        '(r, _) ← eliminate_constants ord top counts limit (constant_module mods) r s;
        Some (Zb r mods)
      else Some (Zb r mods)
  end.

(** The products in the order of iteration, zbdd.h:197-230 (GenerateProduct): the prefix has [n]
    literals; a vertex is not entered once the prefix has [limit] literals. Simplified: the
    suspended iterator is in ZbddIter.v. *)
Fixpoint walk (limit : Z) (z : zbdd) (n : Z) : list (list Z) :=
  match z with
  | Zb r mods =>
      let ws := map (fun e : Z * zbdd => (fst e, walk limit (snd e))) mods in
      (fix go (t : zt) (n : Z) : list (list Z) :=
         match t with
         | ZE => []
         | ZB => [[]]
         | ZN i h l =>
             if limit <=? n then [] else
             if is_module i then
               flat_map (fun Q => map (app Q) (go h (n + Z.of_nat (length Q))))
                 (match List.find (fun e => i =? fst e) ws with Some (_, w) => w n | None => [] end) ++ go l n
             else map (cons i) (go h (n + 1)) ++ go l n
         end) r n
  end.
(** The part below vertex [t] of the diagram with modules [mods]. *)
Fixpoint walk_at (limit : Z) (mods : list (Z * zbdd)) (t : zt) (n : Z) : list (list Z) :=
  match t with
  | ZE => []
  | ZB => [[]]
  | ZN i h l =>
      if limit <=? n then [] else
      if is_module i then
        flat_map (fun Q => map (app Q) (walk_at limit mods h (n + Z.of_nat (length Q))))
          (match find_module i mods with Some z => walk limit z n | None => [] end) ++ walk_at limit mods l n
      else map (cons i) (walk_at limit mods h (n + 1)) ++ walk_at limit mods l n
  end.
Lemma find_walk limit i mods n :
  match List.find (fun e => i =? fst e) (map (fun e : Z * zbdd => (fst e, walk limit (snd e))) mods) with Some (_, w) => w n | None => [] end =
  match find_module i mods with Some z => walk limit z n | None => [] end.
Proof. induction mods as [|[j z] l IH]; simpl; auto. destruct (i =? j); auto. Qed.
Lemma walk_eq limit r mods n : walk limit (Zb r mods) n = walk_at limit mods r n.
Proof.
  cbn [walk]. revert n. induction r as [| |i h IHh l IHl]; intros n; auto. cbn [walk_at].
  rewrite <- IHl. destruct (limit <=? n); auto. destruct (is_module i).
  - f_equal. rewrite find_walk. apply flat_map_ext. intros Q. f_equal. apply IHh.
  - f_equal. rewrite IHh. auto.
Qed.
(** Zbdd::CountProducts, zbdd.cc:794-811, without its memoisation. *)
Fixpoint count_products (modules : bool) (z : zbdd) : Z :=
  match z with
  | Zb r mods =>
      let cs := map (fun e : Z * zbdd => (fst e, count_products modules (snd e))) mods in
      (fix go (t : zt) : Z :=
         match t with
         | ZE => 0
         | ZB => 1
         | ZN i h l =>
             (if modules && is_module i then match List.find (fun e => i =? fst e) cs with Some (_, c) => c | None => 0 end else 1) * go h + go l
         end) r
  end.

(** Zbdd::Zbdd(const Pdag*, const Settings&), zbdd.cc:68-87. *)
Definition of_graph (fuel : nat) (root limit : Z) : option zbdd :=
  z ← build fuel root limit;
  x ← gs G !! root;
  if conn_eqb (g_type x) kNull then
    match g_args x with
    | [child] =>
        if is_gate G child then None else
        if constant x then Some (Zb (if child <? 0 then ZE else ZB) [])
        else if child <? 0 then Some (Zb ZB []) else Some (Zb (ZN child ZB ZE) [])
    | _ => None
    end
  else Some z.
(** Zbdd::Analyze, zbdd.cc:89-107, without substitutions; the result of Prune is not used there.
    Simplified: the computation tables are empty at the start. *)
Fixpoint analyze (z : zbdd) : option zbdd :=
  match z with
  | Zb r mods =>
      '(r, _) ← minimize ord top r start;
      mods ← (fix go (l : list (Z * zbdd)) : option (list (Z * zbdd)) :=
                match l with
                | [] => Some []
                | (i, z) :: l => z ← analyze z; l ← go l; Some ((i, z) :: l)
                end) mods;
      Some (Zb r mods)
  end.

(** ** Specification *)
(** Products with their modules expanded. *)
Inductive produces : zbdd -> list Z -> Prop :=
| produces_intro r mods p P : In p (fam r) -> expands mods p P -> produces (Zb r mods) P
with expands : list (Z * zbdd) -> list Z -> list Z -> Prop :=
| expands_nil mods : expands mods [] []
| expands_var mods i p P : is_module i = false -> expands mods p P -> expands mods (i :: p) (i :: P)
| expands_mod mods i p P Q z : is_module i = true -> find_module i mods = Some z -> produces z Q -> expands mods p P ->
    expands mods (i :: p) (Q ++ P).
(** Ordered and reduced at every level; the proxies in the diagram have modules other than unity
    (the precondition of the iterator, zbdd.h:138). *)
Inductive clean : zbdd -> Prop :=
| clean_intro r mods : Zbdd.wf ord top r -> antichain r -> (forall j z, In (j, z) mods -> clean z) ->
    (forall j, lits r j -> is_module j = true -> exists z, find_module j mods = Some z /\ root_of z <> ZB) ->
    clean (Zb r mods).
(** Nodes below a gate *)
Inductive under (m : Z) : Z -> Prop :=
| under_refl : under m m
| under_arg i x a : under m i -> gs G !! i = Some x -> In a (g_args x) -> under m (Z.abs a).
(** The variables of a gate *)
Definition var (m v : Z) : Prop := under m v /\ gs G !! v = None.
(** A module is entered only through its root. *)
Definition modular (m : Z) : Prop := forall i x a, gs G !! i = Some x -> In a (g_args x) -> under m (Z.abs a) -> Z.abs a = m \/ under m i.
End Build.
