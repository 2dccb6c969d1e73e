(** Module detection: src/preprocessor.cc:434-476 (helpers), 801-1066 (Preprocessor::DetectModules
    and the functions it calls); the visits of a node are src/pdag.h:145-195.
    The asserts on visit times and on the sizes of the groups of arguments are not modelled (they
    are compiled out of a release build): where they fail the code goes on as the model does. *)
From stdpp Require Import gmap.
From Coq Require Import List ZArith Lia Bool Permutation Sorted.
Import ListNotations.
From Verif Require Import Pdag Preproc Order.
Open Scope Z_scope.

(** Node::visits_, pdag.h:217: first, second and last visit, 0 when absent. *)
Record visits := Visits { first : Z; second : Z; third : Z }.
Definition times := Z -> visits.
Definition unvisited : times := fun _ => Visits 0 0 0.
Definition set_visits (j : Z) (v : visits) (V : times) : times := fun k => if k =? j then v else V k.
(** Node::Visit, pdag.h:153-164. *)
Definition visit (j t : Z) (V : times) : times * bool :=
  let v := V j in
  if first v =? 0 then (set_visits j (Visits t (second v) (third v)) V, false)
  else if second v =? 0 then (set_visits j (Visits (first v) t (third v)) V, false)
  else (set_visits j (Visits (first v) (second v) t) V, true).
(** EnterTime, ExitTime, Revisited, LastVisit, pdag.h:168-188. *)
Definition enter_time (V : times) (j : Z) : Z := first (V j).
Definition exit_time (V : times) (j : Z) : Z := second (V j).
Definition revisited (V : times) (j : Z) : bool := negb (third (V j) =? 0).
Definition last_visit (V : times) (j : Z) : Z := if third (V j) =? 0 then second (V j) else third (V j).

Section Timing.
Context (G : graph).
(** preprocessor.cc:828-831: a variable is entered and left at the same time. *)
Definition visit_variable (s : Z * times) (v : Z) : Z * times :=
  let t := s.1 + 1 in (t, fst (visit v t (fst (visit v t s.2)))).
(** AssignTiming, preprocessor.cc:820-835; [None] is out of fuel, a missing gate, a constant
    (assert of 823) or a cycle (833). *)
Fixpoint assign_timing (fuel : nat) (g : Z) (s : Z * times) : option (Z * times) :=
  match fuel with
  | O => None
  | S fuel =>
      let t := s.1 + 1 in
      let '(V, again) := visit g t s.2 in
      if again then Some (t, V) else
      x ← gs G !! g;
      if constant x then None else
      s ← (fix go (l : list Z) (s : Z * times) : option (Z * times) :=
             match l with [] => Some s | c :: l => s ← assign_timing fuel c s; go l s end) (gate_args G x) (t, V);
      let s := fold_left visit_variable (variable_args G x) s in
      let t := s.1 + 1 in
      let '(V, again) := visit g t s.2 in
      if again then None else Some (t, V)
  end.
End Timing.

(** The state of FindModules: the graph, the marks, the module flags, and the min_time and max_time of gates. *)
Record detection := Detection { d_graph : graph; d_mark : gmap Z (); d_module : Z -> bool; d_range : gmap Z (Z * Z) }.
Definition with_graph (s : detection) (G : graph) : detection := Detection G (d_mark s) (d_module s) (d_range s).
Definition with_mark (s : detection) (g : Z) : detection := Detection (d_graph s) (<[g := ()]> (d_mark s)) (d_module s) (d_range s).
Definition with_module (s : detection) (g : Z) : detection := Detection (d_graph s) (d_mark s) (fun j => if j =? g then true else d_module s j) (d_range s).
Definition with_range (s : detection) (g : Z) (r : Z * Z) : detection := Detection (d_graph s) (d_mark s) (d_module s) (<[g := r]> (d_range s)).

(** The comparator of GroupModularArgs, preprocessor.cc:1005-1018. *)
Definition comes_before (a b : Z * Z) : bool :=
  if a.2 <? b.1 then true else if b.2 <? a.1 then false
  else if a.2 <? b.2 then true else if b.2 <? a.2 then false
  else b.1 <? a.1.
(** What std::sort promises (read from the last element to the first, as the loop after it does)
    when the comparator is a strict weak order, which it is on ranges that are not empty. *)
Definition sorts (sort : (Z -> Z * Z) -> list Z -> list Z) : Prop := forall rg l, (forall a, In a l -> (rg (Z.abs a)).1 <= (rg (Z.abs a)).2) ->
  Permutation (sort rg l) l /\ StronglySorted (fun a b => comes_before (rg (Z.abs a)) (rg (Z.abs b)) = false) (sort rg l).

Section Find.
Context (V : times) (parents : Z -> nat).
(** The order of std::sort in GroupModularArgs, read backwards. *)
Context (sort : (Z -> Z * Z) -> list Z -> list Z).

(** Node::min_time and max_time: of a gate those recorded by FindModules (pdag.h:433-453), of a
    variable its first and last visits (180-184). *)
Definition range (s : detection) (j : Z) : Z * Z :=
  match gs (d_graph s) !! j with
  | Some _ => default (0, 0) (d_range s !! j)
  | None => (enter_time V j, last_visit V j)
  end.
(** IsSubgraphWithinGraph and IsNodeWithinGraph, preprocessor.cc:451-476. *)
Definition within (r : Z * Z) (enter exit : Z) : bool := (enter <? r.1) && (r.2 <? exit).
(** DetectOverlap, preprocessor.cc:438-442. *)
Definition overlap (a b : Z * Z) : bool := (a.1 <=? b.2) && (b.1 <=? a.2).

(** FilterModularArgs, preprocessor.cc:966-995: rounds of partition of the remaining modular
    arguments by overlap with those moved out in the round before. *)
Fixpoint filter_modular (fuel : nat) (rg : Z -> Z * Z) (modular check : list Z) : list Z :=
  match fuel with
  | O => modular
  | S fuel =>
      match check with
      | [] => modular
      | _ =>
          let ok a := negb (existsb (fun b => overlap (rg (Z.abs a)) (rg (Z.abs b))) check) in
          filter_modular fuel rg (List.filter ok modular) (List.filter (fun a => negb (ok a)) modular)
      end
  end.
(** The grouping loop of GroupModularArgs, preprocessor.cc:1019-1035, on the sorted arguments from
    the last to the first. *)
Fixpoint gather_groups (rg : Z -> Z * Z) (current : list Z) (min_time : Z) (l : list Z) : list (list Z) :=
  match l with
  | [] => [current]
  | a :: l =>
      if min_time <=? (rg (Z.abs a)).2 then gather_groups rg (current ++ [a]) (Z.min min_time (rg (Z.abs a)).1) l
      else current :: gather_groups rg [a] (rg (Z.abs a)).1 l
  end.
(** GroupModularArgs, preprocessor.cc:997-1039. *)
Definition group_modular (rg : Z -> Z * Z) (modular : list Z) : list (list Z) :=
  match sort rg modular with [] => [] | a :: l => gather_groups rg [a] (rg (Z.abs a)).1 l end.

(** CreateNewModule, preprocessor.cc:930-964 with the flag of the new gate. *)
Definition new_module (g : Z) (l : list Z) (s : detection) : option (detection * option Z) :=
  let n := nxt (d_graph s) in
  H ← create_module g l (d_graph s);
  if nxt H =? n then Some (with_graph s H, None)
  else Some (with_mark (with_module (with_graph s H) n) n, Some n).
Fixpoint new_groups (main : option Z) (groups : list (list Z)) (s : detection) : option detection :=
  match groups with
  | [] => Some s
  | l :: groups =>
      match main with
      | Some m => '(s, _) ← new_module m l s; new_groups main groups s
      | None => if size l <=? 1 then new_groups main groups s else None
      end
  end.
(** CreateNewModules, preprocessor.cc:1041-1066. *)
Definition new_modules (g : Z) (modular : list Z) (groups : list (list Z)) (s : detection) : option detection :=
  match modular with
  | [] => Some s
  | _ =>
      x ← gs (d_graph s) !! g;
      if (size modular =? size (g_args x)) && Nat.eqb (length groups) 1 then Some s
      else if size modular =? size (g_args x) then new_groups (Some g) groups s
      else '(s, m) ← new_module g modular s; new_groups m groups s
  end.
(** ProcessModularArgs, preprocessor.cc:902-928. *)
Definition process_modular (g : Z) (non_shared modular non_modular : list Z) (s : detection) : option detection :=
  x ← gs (d_graph s) !! g;
  match coalesce_type (g_type x) with
  | None => Some s
  | Some _ =>
      let rg := range s in
      '(s, _) ← new_module g non_shared s;
      let modular := filter_modular (S (length modular)) rg modular non_modular in
      new_modules g modular (group_modular rg modular) s
  end.

(** What the two loops over the arguments of a gate gather, preprocessor.cc:845-884. *)
Record args_of := Args { in_own : list Z; in_modular : list Z; in_other : list Z; lo : Z; hi : Z }.
Definition classify (s : detection) (shared : bool) (enter exit a : Z) (c : args_of) : args_of :=
  if negb shared then Args (in_own c ++ [a]) (in_modular c) (in_other c) (lo c) (hi c)
  else if within (range s (Z.abs a)) enter exit then Args (in_own c) (in_modular c ++ [a]) (in_other c) (lo c) (hi c)
  else Args (in_own c) (in_modular c) (in_other c ++ [a]) (Z.min (lo c) (range s (Z.abs a)).1) (Z.max (hi c) (range s (Z.abs a)).2).
(** FindModules, preprocessor.cc:837-900. *)
Fixpoint find_modules (fuel : nat) (g : Z) (s : detection) : option detection :=
  match fuel with
  | O => None
  | S fuel =>
      match d_mark s !! g with
      | Some _ => Some s
      | None =>
          let s := with_mark s g in
          x ← gs (d_graph s) !! g;
          let enter := enter_time V g in
          let exit := exit_time V g in
          let gate a := gate_at (d_graph s) (Z.abs a) in
          '(s, c) ← (fix go (l : list Z) (s : detection) (c : args_of) : option (detection * args_of) :=
                       match l with
                       | [] => Some (s, c)
                       | a :: l =>
                           s ← find_modules fuel (Z.abs a) s;
                           go l s (classify s (negb (d_module s (Z.abs a) && negb (revisited V (Z.abs a)))) enter exit a c)
                       end) (List.filter gate (g_args x)) s (Args [] [] [] enter exit);
          let c := fold_left (fun c a => classify s (negb (Nat.eqb (parents (Z.abs a)) 1)) enter exit a c)
                     (List.filter (fun a => negb (gate a)) (g_args x)) c in
          let s := if negb (d_module s g) && (lo c =? enter) && (hi c =? exit) then with_module s g else s in
          let s := with_range s g (lo c, Z.max (hi c) (last_visit V g)) in
          process_modular g (in_own c) (in_modular c) (in_other c) s
      end
  end.
End Find.

(** Node::parents().size(), pdag.h:96-130, of a node of the graph: the gates with it as an argument. *)
Definition parent_count (G : graph) (v : Z) : nat :=
  length (List.filter (fun '(_, x) => existsb (fun a => Z.abs a =? v) (g_args x)) (map_to_list (gs G))).
(** DetectModules, preprocessor.cc:801-818; [module] are the flags of earlier runs. *)
Definition detect_modules (sort : (Z -> Z * Z) -> list Z -> list Z) (fuel : nat) (root : Z) (module : Z -> bool) (G : graph) :
    option (graph * (Z -> bool)) :=
  '(_, V) ← assign_timing G fuel root (0, unvisited);
  s ← find_modules V (parent_count G) sort fuel root (Detection G ∅ module ∅);
  Some (d_graph s, d_module s).
