(** Gates with the same definition.
    Source: /repo/src/preprocessor.cc:180-240 (GateSet), 747-778 (ProcessMultipleDefinitions), 780-800
    (DetectMultipleDefinitions), 2331-2340 (ReplaceGate), 338-341 (the loop around it).
    parents(), expired(), module(), args<Gate>() and the iteration order of the hash map are oracles.
    A failed assertion is None.  The hash sets are lists; hashing is left out. *)
From stdpp Require Import gmap.
From Coq Require Import List.
From Verif Require Import Pdag Preproc NullGates.
Import ListNotations.
Open Scope Z_scope.

(** 180-240: equality of the elements of GateSet *)
Definition same_gate (x y : gate) : bool :=
  conn_eqb (g_type x) (g_type y) && bool_decide (g_args x = g_args y) && (negb (conn_eqb (g_type x) kAtleast) || (g_min x =? g_min y)).
Section MultiDef.
Context (parents : graph -> Z -> list Z) (expired : graph -> Z -> bool).
Context (order : graph -> Z -> list Z) (module : Z -> bool) (arranged : list (Z * Z) -> list (Z * Z)).
(** The marks, the unique gates and the pairs of a unique gate and its multiple definition. *)
Record found := Found { f_marks : gset Z; f_unique : list Z; f_pairs : list (Z * Z) }.
Definition lookup_gate (G : graph) (x : gate) (l : list Z) : option Z :=
  List.find (fun u => match gs G !! u with Some y => same_gate x y | None => false end) l.
Fixpoint each (go : Z -> found -> option found) (l : list Z) (F : found) : option found :=
  match l with [] => Some F | a :: l => F ← go (Z.abs a) F; each go l F end.
(** 780-800 *)
Fixpoint detect (fuel : nat) (G : graph) (i : Z) (F : found) : option found :=
  match fuel with
  | O => None
  | S fuel =>
      if bool_decide (i ∈ f_marks F) then Some F else
      x ← gs G !! i;
      if constant x then None else
      let C := {[i]} ∪ f_marks F in
      if module i then each (detect fuel G) (order G i) (Found C (f_unique F) (f_pairs F)) else
      match lookup_gate G x (f_unique F) with
      | Some u => Some (Found C (f_unique F) (f_pairs F ++ [(u, i)]))
      | None => each (detect fuel G) (order G i) (Found C (f_unique F ++ [i]) (f_pairs F))
      end
  end.
(** 2331-2340 *)
Fixpoint replace_parents (fuel : nat) (g g' : Z) (G : graph) : option graph :=
  match fuel with
  | O => None
  | S fuel => match parents G g with [] => Some G | p :: _ => G ← replace_in_parent p g g' G; replace_parents fuel g g' G end
  end.
Definition replace_gate (fuel : nat) (g g' : Z) (G : graph) : option graph :=
  match parents G g with [] => None | _ => replace_parents fuel g g' G end.
(** 766-775 *)
Fixpoint replace_each (fuel : nat) (l : list (Z * Z)) (G : graph) : option graph :=
  match l with
  | [] => Some G
  | (u, d) :: l => G ← (if expired G d then Some G else replace_gate fuel d u G); replace_each fuel l G
  end.
(** 747-778 *)
Definition process_multiple_definitions (fuel : nat) (root : Z) (G : graph) : option (bool * graph) :=
  match nulls G with
  | _ :: _ => None
  | [] =>
      x ← gs G !! root;
      if constant x then Some (false, G) else
      F ← detect fuel G root (Found ∅ [] []);
      match f_pairs F with
      | [] => Some (false, G)
      | _ => G ← replace_each fuel (arranged (f_pairs F)) G; G ← remove_null_gates parents expired fuel G; Some (true, G)
      end
  end.
(** 338-341: while (ProcessMultipleDefinitions()) continue; *)
Fixpoint definitions_loop (rounds fuel : nat) (root : Z) (G : graph) : option graph :=
  match rounds with
  | O => None
  | S rounds =>
      '(ch, G) ← process_multiple_definitions fuel root G;
      if ch : bool then definitions_loop rounds fuel root G else Some G
  end.
End MultiDef.
