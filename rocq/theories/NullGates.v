(** Removal of NULL gates and the trivial root.
    Source: /repo/src/pdag.cc:759-793 (Pdag::IsTrivial), 795-809 (RemoveNullGates), 811-821
    (PropagateNullGate); JoinNullGate is in Pdag.v.
    parents() and expired() are oracles: gates nobody refers to stay in the map of the model while the
    code frees them.  The order number of the variable (IsTrivial, 788-789) is left out. *)
From stdpp Require Import gmap.
From Verif Require Import Pdag Preproc.
Open Scope Z_scope.

Section NullGates.
Context (parents : graph -> Z -> list Z) (expired : graph -> Z -> bool).
(** 811-821 *)
Fixpoint propagate_null (fuel : nat) (g : Z) (G : graph) : option graph :=
  match fuel with
  | O => None
  | S fuel =>
      y ← gs G !! g;
      if negb (conn_eqb (g_type y) kNull) then None else
      match parents G g with
      | [] => Some G
      | p :: _ =>
          x ← gs G !! p;
          G ← join_null_gate p (arg_of x g) G;
          x ← gs G !! p;
          G ← (if conn_eqb (g_type x) kNull then propagate_null fuel p G else Some G);
          propagate_null fuel g G
      end
  end.
(** 795-809 *)
Fixpoint propagate_each (fuel : nat) (l : list Z) (G : graph) : option graph :=
  match l with
  | [] => Some G
  | g :: l => G ← (if expired G g then Some G else propagate_null fuel g G); propagate_each fuel l G
  end.
Definition unregistered (G : graph) : graph := Graph (gs G) (nxt G) (nulls G) false.
Definition remove_null_gates (fuel : nat) (G : graph) : option graph :=
  G ← propagate_each fuel (nulls G) (unregistered G);
  Some (Graph (gs G) (nxt G) [] true).
(** 759-793: is the graph trivial, the root, the complement flag and the graph. *)
Definition is_trivial (fuel : nat) (root : Z) (comp : bool) (G : graph) : option (bool * Z * bool * graph) :=
  x ← gs G !! root;
  if negb (conn_eqb (g_type x) kNull) then Some (false, root, comp, G) else
  G ← remove_null_gates fuel G;
  x ← gs G !! root;
  match g_args x with
  | [a] =>
      match gs G !! Z.abs a with
      | Some y =>
          if constant y || conn_eqb (g_type y) kNull || negb (forallb (Z.eqb root) (parents G (Z.abs a))) then None
          else Some (false, Z.abs a, xorb comp (a <? 0), G)
      | None => if comp then G ← negate_args root G; Some (true, root, false, G) else Some (true, root, comp, G)
      end
  | _ => None
  end.
End NullGates.
