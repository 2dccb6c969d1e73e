(** Model of the rewriting steps of the preprocessor.
    Source: /repo/src/preprocessor.cc and the helpers in /repo/src/pdag.cc.
    Container iteration orders that the code does not fix (hash tables, linear maps of
    arguments) are parameters (a list that is a permutation of the container).
    Marks, visit times and module flags are modelled elsewhere. *)
From stdpp Require Import gmap.
From Verif Require Import Pdag.
Open Scope Z_scope.

(** pdag.cc:230-247 [Gate::CoalesceGate]: [l] is the order in which the arguments of
    the child gate are visited. *)
Fixpoint add_until_constant (i : Z) (l : list Z) (G : graph) : option graph :=
  match l with
  | [] => Some G
  | a :: l => G1 ← add_arg i a G;
              x ← gs G1 !! i;
              if constant x then Some G1 else add_until_constant i l G1
  end.
Definition coalesce_gate (i c : Z) (l : list Z) (G : graph) : option graph :=
  x ← gs G !! i;
  y ← gs G !! c;
  if constant x || negb (has c (g_args x)) || constant y || (size (g_args y) =? 0) then None else
  G1 ← add_until_constant i l G;
  x1 ← gs G1 !! i;
  if constant x1 then Some G1 else erase_arg i c G1.

(** preprocessor.cc:681-695: which child type a gate can absorb. *)
Definition coalesce_type (t : conn) : option conn :=
  match t with
  | kNand | kAnd => Some kAnd
  | kNor | kOr => Some kOr
  | _ => None
  end.

(** preprocessor.cc:2296-2304 [ReplaceGate], the treatment of one parent [p]. *)
Definition arg_of (x : gate) (n : Z) : Z := if has n (g_args x) then n else - n.
Definition replace_in_parent (p g g' : Z) (G : graph) : option graph :=
  x ← gs G !! p;
  let a := arg_of x g in
  G1 ← erase_arg p a G;
  add_arg p (if a <? 0 then - g' else g') G1.

(** preprocessor.cc:554-573 [NormalizeXorGate]. *)
Definition normalize_xor (i : Z) (G : graph) : option graph :=
  x ← gs G !! i;
  match g_args x with
  | [a; b] =>
      let '(G, one) := new_gate kAnd G in
      let '(G, two) := new_gate kAnd G in
      G ← set_type i kOr G;
      G ← share_arg i a one G;
      G ← share_arg i a two G;
      G ← negate_arg two a G;
      G ← share_arg i b one G;
      G ← negate_arg one b G;
      G ← share_arg i b two G;
      G ← erase_args i G;
      G ← add_arg i one G;
      add_arg i two G
  | _ => None
  end.

(** preprocessor.cc:575-621 [NormalizeAtleastGate].  [pick] is the choice of the argument
    with the maximal order; the recursion is bounded by [fuel]. *)
Fixpoint share_all (i : Z) (l : list Z) (grand second : Z) (G : graph) : option graph :=
  match l with
  | [] => Some G
  | a :: l => G ← share_arg i a grand G; G ← share_arg i a second G; share_all i l grand second G
  end.
(* lines 587-615: one unfolding; returns the two K/N gates still to be normalised. *)
Definition atleast_once (i k a : Z) (G : graph) : option (graph * Z * Z) :=
  let '(G, first) := new_gate kAnd G in
  G ← transfer_arg i a first G;
  let '(G, grand) := new_gate kAtleast G in
  G ← add_arg first grand G;
  G ← set_min grand (k - 1) G;
  let '(G, second) := new_gate kAtleast G in
  G ← set_min second k G;
  x1 ← gs G !! i;
  G ← share_all i (g_args x1) grand second G;
  G ← set_type i kOr G;
  G ← erase_args i G;
  G ← add_arg i first G;
  G ← add_arg i second G;
  Some (G, grand, second).
Fixpoint normalize_atleast (fuel : nat) (pick : graph -> Z -> Z) (i : Z) (G : graph) : option graph :=
  match fuel with
  | O => None
  | S fuel =>
      x ← gs G !! i;
      let k := g_min x in
      if negb (conn_eqb (g_type x) kAtleast) || (k <=? 0) || (size (g_args x) <=? 1) then None else
      if size (g_args x) =? k then set_type i kAnd G
      else if k =? 1 then set_type i kOr G
      else
        '(G, grand, second) ← atleast_once i k (pick G i) G;
        G ← normalize_atleast fuel pick grand G;
        normalize_atleast fuel pick second G
  end.

(** preprocessor.cc:894-933 [CreateNewModule]; [l] are the arguments to be moved. *)
Fixpoint transfer_all (i : Z) (l : list Z) (m : Z) (G : graph) : option graph :=
  match l with
  | [] => Some G
  | a :: l => G ← transfer_arg i a m G; transfer_all i l m G
  end.
Definition create_module (i : Z) (l : list Z) (G : graph) : option graph :=
  x ← gs G !! i;
  if (size l <=? 1) || (size (g_args x) <=? size l) then Some G else
  match coalesce_type (g_type x) with
  | None => Some G
  | Some t =>
      let '(G, m) := new_gate t G in
      G ← transfer_all i l m G;
      add_arg i m G
  end.

(** preprocessor.cc:1480-1521 [TransformCommonArgs], one option: the arguments [cs] that
    the gates [ps] share are moved into a new gate. *)
Fixpoint erase_in_all (ps : list Z) (a : Z) (G : graph) : option graph :=
  match ps with [] => Some G | p :: ps => G ← erase_arg p a G; erase_in_all ps a G end.
Fixpoint move_common (p0 : Z) (cs ps : list Z) (m : Z) (G : graph) : option graph :=
  match cs with
  | [] => Some G
  | a :: cs => G ← share_arg p0 a m G; G ← erase_in_all ps a G; move_common p0 cs ps m G
  end.
Fixpoint add_to_all (ps : list Z) (m : Z) (G : graph) : option graph :=
  match ps with
  | [] => Some G
  | p :: ps =>
      G ← add_arg p m G;
      x ← gs G !! p;
      G ← (if size (g_args x) =? 1 then set_type p kNull G else Some G);
      add_to_all ps m G
  end.
Definition merge_common (cs ps : list Z) (G : graph) : option graph :=
  match ps with
  | p0 :: _ =>
      x ← gs G !! p0;
      let '(G, m) := new_gate (g_type x) G in
      G ← move_common p0 cs ps m G;
      add_to_all ps m G
  | [] => None
  end.

(** preprocessor.cc:1232-1244 [FilterMergeCandidates]: the arguments of [g] inside
    another gate [c] of the same type are replaced with [g]. *)
Fixpoint erase_all (i : Z) (l : list Z) (G : graph) : option graph :=
  match l with [] => Some G | a :: l => G ← erase_arg i a G; erase_all i l G end.
Definition merge_candidate (c g : Z) (G : graph) : option graph :=
  y ← gs G !! g;
  G ← erase_all c (g_args y) G;
  G ← add_arg c g G;
  x ← gs G !! c;
  if constant x then Some G
  else if size (g_args x) =? 1 then set_type c kNull G else Some G.

(** preprocessor.cc:1623-1676 [FilterDistributiveArgs]: one erased candidate [c], and the
    closing correction of the type. *)
Definition drop_distributive (i c : Z) (G : graph) : option graph := erase_arg i c G.
Definition fix_single (i : Z) (G : graph) : option graph :=
  x ← gs G !! i;
  if size (g_args x) =? 1 then
    match g_type x with
    | kAnd | kOr => set_type i kNull G
    | kNand | kNor => set_type i kNot G
    | _ => None
    end
  else Some G.

(** preprocessor.cc:476-504 [NormalizeGates], preprocessor.cc:506-515
    [NotifyParentsOfNegativeGates], preprocessor.cc:527-551 (cases kNor, kNand, kNot), and
    pdag.h:610-624 [NegateNonCoherentGateArgs]: every argument that is a negative gate
    changes its sign, every negative gate becomes positive, the complement flag of the
    graph changes with the root.  Simplification: gates that are not reachable from the
    root (the code has freed them) are treated as well. *)
Definition negative_type (t : conn) : bool :=
  match t with kNot | kNand | kNor => true | _ => false end.
Definition positive_type (t : conn) : conn :=
  match t with kNor => kOr | kNand => kAnd | kNot => kNull | t => t end.
Definition negative_gate (G : graph) (j : Z) : bool :=
  match gs G !! j with Some x => negative_type (g_type x) | None => false end.
Definition notify_arg (G : graph) (a : Z) : Z := if negative_gate G (Z.abs a) then - a else a.
Definition positive_gate (G : graph) (x : gate) : gate :=
  Gate (positive_type (g_type x)) (g_min x) (fold_right set_insert [] (map (notify_arg G) (g_args x))).
Definition normalize_negative (root : Z) (complement : bool) (G : graph) : graph * bool :=
  (Graph (positive_gate G <$> gs G) (nxt G) (nulls G) (reg G), xorb complement (negative_gate G root)).
