(** Gate coalescing, the whole traversal and its repetition.
    Source: /repo/src/preprocessor.cc:683-693 (CoalesceGates), 695-745 (the recursion), 344-347, 361-364 and
    403-404, 417-418 (the loops around it).  Gate::CoalesceGate is in Preproc.v, RemoveNullGates in NullGates.v.
    args<Gate>(), the order of arguments, module() and parents().size() are oracles.  A failed assertion is None. *)
From stdpp Require Import gmap.
From Coq Require Import List.
From Verif Require Import Pdag Preproc NullGates.
Import ListNotations.
Open Scope Z_scope.

Section Coalesce.
Context (parents : graph -> Z -> list Z) (expired : graph -> Z -> bool).
Context (order : graph -> Z -> list Z) (arranged : graph -> Z -> list Z) (module : Z -> bool) (single : graph -> Z -> bool) (common : bool).
(** 718-733: is the argument gate to be joined? *)
Definition joinable (t : conn) (G : graph) (a : Z) (y : gate) : bool :=
  match coalesce_type t with
  | None => false
  | Some u => negb (constant y) && (0 <? a) && negb (module (Z.abs a)) && (common || single G (Z.abs a)) && conn_eqb (g_type y) u
  end.
(** 736-741 *)
Fixpoint join_each (i : Z) (js : list Z) (G : graph) : option graph :=
  match js with
  | [] => Some G
  | c :: js =>
      G ← coalesce_gate i c (arranged G c) G;
      x ← gs G !! i;
      if constant x then Some G else if size (g_args x) <=? 1 then None else join_each i js G
  end.
(** 714-733, with the visit of an argument as [go] *)
Fixpoint collect (go : Z -> graph -> gset Z -> option (bool * graph * gset Z)) (t : conn) (l : list Z) (G : graph) (C : gset Z) : option (bool * list Z * graph * gset Z) :=
  match l with
  | [] => Some (false, [], G, C)
  | a :: l =>
      '(ch1, G, C) ← go (Z.abs a) G C;
      y ← gs G !! Z.abs a;
      let j := joinable t G a y in
      '(ch2, js, G, C) ← collect go t l G C;
      Some (ch1 || ch2, if j then Z.abs a :: js else js, G, C)
  end.
(** 695-745: has the graph changed, the graph, the marked gates *)
Fixpoint coalesce_visit (fuel : nat) (i : Z) (G : graph) (C : gset Z) : option (bool * graph * gset Z) :=
  match fuel with
  | O => None
  | S fuel =>
      if bool_decide (i ∈ C) then Some (false, G, C) else
      x ← gs G !! i;
      if match coalesce_type (g_type x) with Some _ => size (g_args x) <=? 1 | None => size (g_args x) =? 0 end then None else
      '(ch, js, G, C) ← collect (coalesce_visit fuel) (g_type x) (order G i) G ({[i]} ∪ C);
      G ← join_each i js G;
      Some (ch || negb (bool_decide (js = [])), G, C)
  end.
(** 683-693 *)
Definition coalesce_gates (fuel : nat) (root : Z) (G : graph) : option (bool * graph) :=
  match nulls G with
  | _ :: _ => None
  | [] =>
      x ← gs G !! root;
      if constant x then Some (false, G) else
      '(ch, G, _) ← coalesce_visit fuel root G ∅;
      G ← remove_null_gates parents expired fuel G;
      Some (ch, G)
  end.
(** 344-347, 403-404: while (CoalesceGates(common)) continue; *)
Fixpoint coalesce_loop (rounds fuel : nat) (root : Z) (G : graph) : option graph :=
  match rounds with
  | O => None
  | S rounds =>
      '(ch, G) ← coalesce_gates fuel root G;
      if ch : bool then coalesce_loop rounds fuel root G else Some G
  end.
End Coalesce.
