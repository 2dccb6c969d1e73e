(** Factoring of distributive arguments.
    Source: /repo/src/preprocessor.cc:1563-1621 (HandleDistributiveArgs), 1623-1676
    (FilterDistributiveArgs), 1678-1707 (GroupDistributiveArgs), 1709-1776 (TransformDistributiveArgs),
    1347-1369 (GroupCommonParents), 1406-1437 (FindOptionGroup).
    Orders of containers, sorting and the choice of the base option (FindBaseOption 1439-1470 and the
    comparison of sizes in FindOptionGroup) are oracles: they only decide what is factored first.
    parents() is an oracle as in BoolOpt.v.  The candidates are chosen by the caller
    (DetectDistributivity 1525-1559). *)
From stdpp Require Import gmap.
From Verif Require Import Pdag Preproc.
Open Scope Z_scope.

Definition dual (t : conn) : conn := match t with kAnd => kOr | _ => kAnd end.
(** MergeTable::Option: the common arguments and the gates that have them. *)
Notation moption := (list Z * list Z)%type.

(** 1709-1776: the result is the graph and the gate for the next option. *)
Fixpoint share_list (rep : Z) (l : list Z) (j : Z) (G : graph) : option graph :=
  match l with [] => Some G | a :: l => G ← share_arg rep a j G; share_list rep l j G end.
Fixpoint move_members (i s : Z) (cs ms : list Z) (G : graph) : option graph :=
  match ms with
  | [] => Some G
  | m :: ms =>
      G ← erase_arg i m G;
      G ← add_arg s m G;
      G ← erase_all m cs G;
      x ← gs G !! m;
      if size (g_args x) =? 0 then None else
      G ← (if size (g_args x) =? 1 then set_type m kNull G else Some G);
      move_members i s cs ms G
  end.
Definition flip_type (u t : conn) : option conn :=
  match t with kAnd | kOr => Some u | kNand => Some kNor | kNor => Some kNand | _ => None end.
Definition transform_once (i : Z) (u : conn) (o : moption) (G : graph) : option (graph * Z) :=
  let '(cs, ms) := o in
  x ← gs G !! i;
  '(G, p) ← (if size (g_args x) =? size ms then t ← flip_type u (g_type x); G ← set_type i t G; Some (G, i)
             else let '(G, p) := new_gate u G in G ← add_arg i p G; Some (G, p));
  let '(G, s) := new_gate (dual u) G in
  G ← add_arg p s G;
  match ms with
  | [] => None
  | rep :: _ => G ← share_list rep cs p G; G ← move_members i s cs ms G; Some (G, s)
  end.
Definition minus (l cs : list Z) : list Z := List.filter (fun a => negb (has a cs)) l.
Fixpoint transform (k : nat) (i : Z) (u : conn) (group : list moption) (G : graph) : option graph :=
  match k, group with
  | _, [] => Some G
  | O, _ => None
  | S k, o :: group =>
      '(G, s) ← transform_once i u o G;
      transform k s u (map (fun p : moption => (minus p.1 o.1, p.2)) group) G
  end.

(** 1623-1676 *)
Definition args_of (G : graph) (i : Z) : list Z := match gs G !! i with Some x => g_args x | None => [] end.
Definition intersects (l l' : list Z) : bool := existsb (fun a => has a l') l.
Definition includes (l l' : list Z) : bool := forallb (fun a => has a l) l'.
Fixpoint exclusive (k : nat) (i : Z) (cands : list Z) (G : graph) : option (graph * list Z) :=
  match k, cands with
  | _, [] => Some (G, [])
  | O, _ => None
  | S k, sub :: cands =>
      let super c := includes (args_of G c) (args_of G sub) in
      G ← erase_all i (List.filter super cands) G;
      '(G, ex) ← exclusive k i (List.filter (fun c => negb (super c)) cands) G;
      Some (G, sub :: ex)
  end.
Section Handle.
(** [sorted]: the sort by size (read from the back); [best]: the place where the best group of options starts. *)
Context (parents : graph -> Z -> list Z) (sorted : graph -> list Z -> list Z) (arranged : list moption -> list moption) (best : list moption -> nat).
Definition filter_distributive (i : Z) (cands : list Z) (G : graph) : option (graph * list Z) :=
  let gone c := intersects (args_of G c) (args_of G i) in
  let rest := List.filter (fun c => negb (gone c)) cands in
  G ← erase_all i (List.filter gone cands) G;
  '(G, ex) ← exclusive (length rest) i (sorted G rest) G;
  G ← fix_single i G;
  Some (G, ex).

(** 1347-1369 *)
Definition add_gate (g : Z) (q : list Z) : list Z := if has g q then q else q ++ [g].
Fixpoint insert_option (key : list Z) (g h : Z) (t : list moption) : list moption :=
  match t with
  | [] => [(key, add_gate h (add_gate g []))]
  | (k, q) :: t => if decide (k = key) then (k, add_gate h (add_gate g q)) :: t else (k, q) :: insert_option key g h t
  end.
Fixpoint pair_with (k : Z) (g : Z) (l : list Z) (others : list (Z * list Z)) (t : list moption) : list moption :=
  match others with
  | [] => t
  | (h, l') :: others =>
      let common := List.filter (fun a => has a l') l in
      pair_with k g l others (if size common <? k then t else insert_option common g h t)
  end.
Fixpoint group_common_parents (k : Z) (group : list (Z * list Z)) (t : list moption) : list moption :=
  match group with [] => t | (g, l) :: group => group_common_parents k group (pair_with k g l group t) end.

(** 1406-1437 with the start [best] *)
Fixpoint chain (back : moption) (l : list moption) : list moption :=
  match l with
  | [] => []
  | o :: l => if includes o.1 back.1 && includes back.2 o.2 then o :: chain o l else chain back l
  end.
(** 1678-1707: the options of the best group lose their gates as well, because these are gates of the first option. *)
Fixpoint group_distributive (k : nat) (opts : list moption) : option (list (list moption)) :=
  match k, opts with
  | _, [] => Some []
  | O, _ => None
  | S k, _ =>
      match drop (best opts) opts with
      | [] => None
      | o :: rest =>
          let left := List.filter (fun p : moption => 2 <=? size p.2) (map (fun p : moption => (p.1, minus p.2 o.2)) opts) in
          groups ← group_distributive k left;
          Some ((o :: chain o rest) :: groups)
      end
  end.

(** 1592-1613 *)
Fixpoint clone_members (ms : list Z) (G : graph) : option (graph * list (Z * Z)) :=
  match ms with
  | [] => Some (G, [])
  | m :: ms =>
      '(G, sw) ← (if 1 <? size (parents G m) then '(G, c) ← clone m G; Some (G, [(m, c)]) else Some (G, []));
      '(G, sws) ← clone_members ms G;
      Some (G, sw ++ sws)
  end.
Fixpoint swap_members (i : Z) (sws : list (Z * Z)) (G : graph) : option graph :=
  match sws with
  | [] => Some G
  | (m, c) :: sws => G ← erase_arg i m G; G ← add_arg i c G; swap_members i sws G
  end.
Definition renamed (sws : list (Z * Z)) (m : Z) : Z :=
  match List.find (fun p : Z * Z => p.1 =? m) sws with Some p => p.2 | None => m end.
Definition sanitize (i : Z) (group : list moption) (G : graph) : option (graph * list moption) :=
  match group with
  | [] => None
  | o :: _ =>
      '(G, sws) ← clone_members o.2 G;
      G ← swap_members i sws G;
      Some (G, map (fun p : moption => (p.1, map (renamed sws) p.2)) group)
  end.
Fixpoint sanitize_all (i : Z) (groups : list (list moption)) (G : graph) : option (graph * list (list moption)) :=
  match groups with
  | [] => Some (G, [])
  | g :: groups => '(G, g) ← sanitize i g G; '(G, groups) ← sanitize_all i groups G; Some (G, g :: groups)
  end.
Fixpoint transform_all (i : Z) (u : conn) (groups : list (list moption)) (G : graph) : option graph :=
  match groups with
  | [] => Some G
  | g :: groups => G ← transform (length g) i u g G; transform_all i u groups G
  end.
(** 1563-1621 *)
Definition handle_distributive (i : Z) (u : conn) (cands : list Z) (G : graph) : option graph :=
  match cands with
  | [] => Some G
  | _ =>
      '(G, cands) ← filter_distributive i cands G;
      if size cands <? 2 then Some G else
      match group_common_parents 1 (map (fun c => (c, args_of G c)) cands) [] with
      | [] => Some G
      | options =>
          let opts := arranged options in
          groups ← group_distributive (length opts) opts;
          '(G, groups) ← sanitize_all i groups G;
          transform_all i u groups G
      end
  end.
End Handle.
