(** Gate normalization, the whole function.
    Source: /repo/src/preprocessor.cc:479-552 (NormalizeGates, NotifyParentsOfNegativeGates, NormalizeGate),
    /repo/src/pdag.h:610-624 (NegateNonCoherentGateArgs).  NormalizeXorGate and NormalizeAtleastGate are in Preproc.v,
    RemoveNullGates is in NullGates.v.  args<Gate>() ([order]) and the argument of the highest order of a K/N gate
    ([pick]) are oracles.  A failed assertion and exhausted fuel are None. *)
From stdpp Require Import gmap.
From Coq Require Import List.
From Verif Require Import Pdag Preproc NullGates.
Import ListNotations.
Open Scope Z_scope.

Section Normalize.
Context (parents : graph -> Z -> list Z) (expired : graph -> Z -> bool).
Context (order : graph -> Z -> list Z) (pick : graph -> Z -> Z).
(** pdag.h:610-624 *)
Definition negate_noncoherent (i : Z) (G : graph) : option graph :=
  x ← gs G !! i; Some (put i (with_args x (fold_right set_insert [] (map (notify_arg G) (g_args x)))) G).
(** The loops over the arguments that are gates: 512-514, 524-526. *)
Fixpoint each (go : Z -> graph -> gset Z -> option (graph * gset Z)) (l : list Z) (G : graph) (C : gset Z) : option (graph * gset Z) :=
  match l with
  | [] => Some (G, C)
  | a :: l => '(G, C) ← go (Z.abs a) G C; each go l G C
  end.
(** 506-515: the graph, the marked gates *)
Fixpoint notify_parents (fuel : nat) (i : Z) (G : graph) (C : gset Z) : option (graph * gset Z) :=
  match fuel with
  | O => None
  | S fuel =>
      if bool_decide (i ∈ C) then Some (G, C) else
      G ← negate_noncoherent i G;
      each (notify_parents fuel) (order G i) G ({[i]} ∪ C)
  end.
(** 528-551 *)
Definition normalize_type (full : bool) (i : Z) (G : graph) : option graph :=
  x ← gs G !! i;
  match g_type x with
  | kNor => if size (g_args x) <=? 1 then None else set_type i kOr G
  | kNand => if size (g_args x) <=? 1 then None else set_type i kAnd G
  | kXor => if negb (size (g_args x) =? 2) then None else if full then normalize_xor i G else Some G
  | kAtleast => if (size (g_args x) <=? 2) || (g_min x <=? 1) then None
                else if full then normalize_atleast (length (g_args x)) pick i G else Some G
  | kNot => if negb (size (g_args x) =? 1) then None else set_type i kNull G
  | kAnd | kOr => if size (g_args x) <=? 1 then None else Some G
  | kNull => None
  end.
(** 517-552 *)
Fixpoint normalize_gate (fuel : nat) (full : bool) (i : Z) (G : graph) (C : gset Z) : option (graph * gset Z) :=
  match fuel with
  | O => None
  | S fuel =>
      if bool_decide (i ∈ C) then Some (G, C) else
      x ← gs G !! i;
      if constant x || (size (g_args x) =? 0) then None else
      '(G, C) ← each (normalize_gate fuel full) (order G i) G ({[i]} ∪ C);
      G ← normalize_type full i G;
      Some (G, C)
  end.
(** 479-500: up to RemoveNullGates *)
Definition normalize_all (fuel : nat) (full : bool) (root : Z) (comp : bool) (G : graph) : option (graph * bool) :=
  match nulls G with
  | _ :: _ => None
  | [] =>
      x ← gs G !! root;
      let comp := xorb comp (negative_type (g_type x)) in
      '(G, _) ← notify_parents fuel root G ∅;
      '(G, _) ← normalize_gate fuel full root G ∅;
      Some (G, comp)
  end.
(** 479-504 *)
Definition normalize_gates (fuel : nat) (full : bool) (root : Z) (comp : bool) (G : graph) : option (graph * bool) :=
  '(G, comp) ← normalize_all fuel full root comp G;
  G ← remove_null_gates parents expired fuel G;
  Some (G, comp).
End Normalize.
