(** Decomposition of common nodes.
    Source: /repo/src/preprocessor.cc:2206-2329 (DecompositionProcessor: ProcessDestinations,
    ProcessAncestors, IsAncestryWithinGraph, ClearAncestorMarks), 2342-2344 (RegisterToClear).
    The destinations and the marks of the ancestors of the node (2131-2204) are parameters: the theorems
    hold for any.  parents() and the visit times are oracles; gates nobody refers to stay in the map of
    the model while the code frees them.  The closing RemoveNullGates is in NullGates.v. *)
From stdpp Require Import gmap.
From Verif Require Import Pdag.
Open Scope Z_scope.

(** The graph, the gate marks, the gates whose descendant() is the index of the node, and ancestor()
    where it is plus (true) or minus (false) the index of the destination. *)
Record dstate := DSt { d_graph : graph; d_marks : gset Z; d_desc : gset Z; d_anc : gmap Z bool }.
Definition with_graph (G : graph) (s : dstate) : dstate := DSt G (d_marks s) (d_desc s) (d_anc s).
Definition with_anc (A : gmap Z bool) (s : dstate) : dstate := DSt (d_graph s) (d_marks s) (d_desc s) A.

(** node_->parents().count(gate->index()) *)
Definition has_node (n : Z) (x : gate) : bool := has n (g_args x) || has (- n) (g_args x).
(** 2342-2344 *)
Definition registered (x : gate) : bool := constant x || conn_eqb (g_type x) kNull.

Section Decompose.
(** [parents]: the parents of a gate; [timed P g]: are the visit times of [g] within those of [P]
    (2307: IsNodeWithinGraph); [order]: the gate arguments of a gate in the order of the container. *)
Context (parents : graph -> Z -> list Z) (timed : Z -> Z -> bool) (order : graph -> Z -> list Z).

Section Destination.
(** The destination, the node and the state it is fixed to. *)
Context (P n : Z) (state : bool).

(** 2298-2317 *)
Fixpoint all_within (rec : Z -> gmap Z bool -> option (bool * gmap Z bool)) (l : list Z) (A : gmap Z bool) : option (bool * gmap Z bool) :=
  match l with
  | [] => Some (true, A)
  | p :: l => '(b, A) ← rec p A; if (b : bool) then all_within rec l A else Some (false, A)
  end.
Fixpoint within (fuel : nat) (G : graph) (g : Z) (A : gmap Z bool) : option (bool * gmap Z bool) :=
  if g =? P then Some (true, A) else
  match A !! g with
  | Some b => Some (b, A)
  | None =>
      match fuel with
      | O => None
      | S fuel =>
          if timed P g then
            '(b, A) ← all_within (within fuel G) (parents G g) A;
            Some (b, <[g := b]> A)
          else Some (false, <[g := false]> A)
      end
  end.
(** 2319-2329 *)
Fixpoint clear_all (rec : Z -> gmap Z bool -> option (gmap Z bool)) (l : list Z) (A : gmap Z bool) : option (gmap Z bool) :=
  match l with [] => Some A | p :: l => A ← rec p A; clear_all rec l A end.
Fixpoint clear_marks (fuel : nat) (G : graph) (g : Z) (A : gmap Z bool) : option (gmap Z bool) :=
  match A !! g with
  | None => Some A
  | Some _ =>
      match fuel with
      | O => None
      | S fuel => clear_all (clear_marks fuel G) (parents G g) (delete g A)
      end
  end.

(** 2253-2281: the loop over the gate arguments; it returns to_swap. *)
Fixpoint args_loop (fuel : nat) (rec : Z -> dstate -> option dstate) (l : list Z) (s : dstate) : option (dstate * list (Z * Z)) :=
  match l with
  | [] => Some (s, [])
  | a :: l =>
      let g := Z.abs a in
      x ← gs (d_graph s) !! g;
      '(s, g, sw) ←
        (if has_node n x then
           '(b, A) ← within fuel (d_graph s) g (d_anc s);
           if (b : bool) then
             G ← process_constant_arg g n state (d_graph s);
             Some (with_graph G (with_anc A s), g, [])
           else
             '(G, c) ← clone g (d_graph s);
             y ← gs G !! c;
             if registered y then
               G ← process_constant_arg c n state G;
               Some (DSt G (d_marks s) (if decide (g ∈ d_desc s) then {[c]} ∪ d_desc s else d_desc s) (<[c := true]> A), c, [(a, c)])
             else Some (with_graph G (with_anc A s), g, [])
         else Some (s, g, []));
      s ← (if decide (g ∈ d_desc s) then
             '(b, A) ← within fuel (d_graph s) g (d_anc s);
             if (b : bool) then rec g (with_anc A s) else Some (with_anc A s)
           else Some s);
      '(s, sw') ← args_loop fuel rec l s;
      Some (s, sw ++ sw')
  end.
(** 2285-2288 *)
Fixpoint swap_loop (i : Z) (sw : list (Z * Z)) (G : graph) : option graph :=
  match sw with
  | [] => Some G
  | (a, c) :: sw => G ← erase_arg i a G; G ← add_arg i (if a <? 0 then - c else c) G; swap_loop i sw G
  end.
(** 2246-2296 *)
Fixpoint process_ancestors (fuel : nat) (i : Z) (s : dstate) : option dstate :=
  match fuel with
  | O => None
  | S fuel =>
      if decide (i ∈ d_marks s) then Some s else
      '(s, sw) ← args_loop fuel (process_ancestors fuel) (order (d_graph s) i) (DSt (d_graph s) ({[i]} ∪ d_marks s) (d_desc s) (d_anc s));
      A ← clear_all (clear_marks fuel (d_graph s)) (map Z.abs (order (d_graph s) i)) (d_anc s);
      G ← swap_loop i sw (d_graph s);
      x ← gs G !! i;
      Some (DSt G (d_marks s)
        (if negb (has_node n x) && forallb (fun a => bool_decide (Z.abs a ∉ d_desc s)) (order G i) then d_desc s ∖ {[i]} else d_desc s) A)
  end.
End Destination.

(** 2206-2244.  The marks below the destination are cleared after each of them. *)
Definition fixed_state (n : Z) (x : gate) : option bool :=
  state ← (match g_type x with kAnd | kNand => Some true | kOr | kNor => Some false | _ => None end);
  Some (if has n (g_args x) then state else negb state).
Fixpoint process_destinations (fuel : nat) (n : Z) (dest : list Z) (desc : gset Z) (G : graph) : option graph :=
  match dest with
  | [] => Some G
  | P :: dest =>
      x ← gs G !! P;
      if has_node n x then
        state ← fixed_state n x;
        s ← process_ancestors P n state fuel P (DSt G ∅ desc ∅);
        process_destinations fuel n dest (d_desc s) (d_graph s)
      else process_destinations fuel n dest desc G
  end.
End Decompose.
