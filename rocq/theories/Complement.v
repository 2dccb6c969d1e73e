(** Propagation of complements down to the variables.
    Source: /repo/src/preprocessor.cc:376-397 (RunPhaseFour up to the end of the propagation),
    631-681 (PropagateComplements, with keep_modules = false: the only call).
    Gates nobody refers to any more stay in the map of the model while the code frees them, so the
    test parents().size() == 1 is an oracle that answers for the gates in memory.
    The module flag that is reset at line 667 is left out. *)
From stdpp Require Import gmap.
From Verif Require Import Pdag.
Open Scope Z_scope.

(** The graph, the marks of the gates, the map of complements. *)
Record pstate := PSt { p_graph : graph; p_marks : gset Z; p_comps : gmap Z Z }.
Definition with_graph (s : pstate) (G : graph) : pstate := PSt G (p_marks s) (p_comps s).
(** The other of kAnd and kOr (655-657). *)
Definition dual (t : conn) : option conn := match t with kAnd => Some kOr | kOr => Some kAnd | _ => None end.
(** Lines 660-661, 668-669. *)
Definition negate_gate (g : Z) (G : graph) : option graph :=
  x ← gs G !! g; t ← dual (g_type x); G ← set_type g t G; negate_args g G.

Section Propagate.
(** [single]: does the argument gate have one parent?  [order]: the gate arguments of a gate in the
    order of its container. *)
Context (single : graph -> gmap Z Z -> Z -> bool) (order : graph -> Z -> list Z).

(** The loop over the arguments (643-673); it returns to_swap. *)
Fixpoint args_loop (rec : Z -> pstate -> option pstate) (l : list Z) (s : pstate) : option (pstate * list (Z * Z)) :=
  match l with
  | [] => Some (s, [])
  | a :: l =>
      if 0 <? a then s ← rec a s; args_loop rec l s
      else
        let g := - a in
        match p_comps s !! g with
        | Some c => if decide (c ∈ p_marks s) then '(s, sw) ← args_loop rec l s; Some (s, (a, c) :: sw) else None
        | None =>
            if single (p_graph s) (p_comps s) g then
              G ← negate_gate g (p_graph s);
              s ← rec g (with_graph s G);
              '(s, sw) ← args_loop rec l s; Some (s, (a, g) :: sw)
            else
              '(G, c) ← clone g (p_graph s);
              G ← negate_gate c G;
              s ← rec c (PSt G (p_marks s) (<[g := c]> (p_comps s)));
              '(s, sw) ← args_loop rec l s; Some (s, (a, c) :: sw)
        end
  end.
(** The loop over to_swap (675-680). *)
Fixpoint swap_loop (i : Z) (sw : list (Z * Z)) (G : graph) : option graph :=
  match sw with
  | [] => Some G
  | (a, c) :: sw =>
      if 0 <=? a then None else
      G ← erase_arg i a G;
      G ← add_arg i c G;
      x ← gs G !! i;
      if constant x then None else swap_loop i sw G
  end.
Fixpoint propagate (fuel : nat) (i : Z) (s : pstate) : option pstate :=
  match fuel with
  | O => None
  | S fuel =>
      if decide (i ∈ p_marks s) then Some s else
      '(s, sw) ← args_loop (propagate fuel) (order (p_graph s) i) (PSt (p_graph s) ({[i]} ∪ p_marks s) (p_comps s));
      G ← swap_loop i sw (p_graph s);
      Some (with_graph s G)
  end.

(** RunPhaseFour (376-397): [comp] is the complement flag of the graph. *)
Definition complement_root (root : Z) (G : graph) : option graph :=
  x ← gs G !! root;
  G ← (match g_type x with
       | kOr => set_type root kAnd G
       | kAnd => set_type root kOr G
       | kNull => Some G
       | _ => None
       end);
  negate_args root G.
Definition phase_four (fuel : nat) (root : Z) (comp : bool) (G : graph) : option graph :=
  G ← (if comp then complement_root root G else Some G);
  s ← propagate fuel root (PSt G ∅ ∅);
  Some (p_graph s).
End Propagate.

(** What is in memory: the gates below the root and below the gates of the map of complements. *)
Inductive in_memory (root : Z) (G : graph) (C : gmap Z Z) : Z -> Prop :=
| mem_root : is_Some (gs G !! root) -> in_memory root G C root
| mem_comp g c : C !! g = Some c -> is_Some (gs G !! c) -> in_memory root G C c
| mem_arg i x a : in_memory root G C i -> gs G !! i = Some x -> In a (g_args x) -> is_Some (gs G !! Z.abs a) -> in_memory root G C (Z.abs a).
Definition parent (G : graph) (p g : Z) : Prop := exists x, gs G !! p = Some x /\ (In g (g_args x) \/ In (- g) (g_args x)).
