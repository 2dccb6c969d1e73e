(** MOCUS: src/mocus.cc, zbdd::CutSetContainer (src/zbdd.cc:887-945, src/zbdd.h:877-1005) and
    the node orders it works with (src/preprocessor.cc:2346-2409). *)
From stdpp Require Import gmap.
From Coq Require Import List ZArith Lia Bool Permutation Sorting.Sorted.
Import ListNotations.
From Verif Require Import Pdag PdagProofs PdagSem.
From Verif Require Import Zbdd ZbddProofs ZbddHistory ZbddGraph ZbddModules ZbddIter.
Open Scope Z_scope.

Section Model.
Context (ord : Z -> Z) (top : Z) (G : graph) (module coherent : Z -> bool).
(** kSettings_.limit_order(), gate_index_bound_, and the outcome of the sort of zbdd.cc:907-909
    (the orders of the arguments of a gate differ; here any permutation). *)
Context (limit bound : Z) (arrange : list zt -> list zt).

(** CutSetContainer::IsGate, zbdd.h:999-1001. *)
Definition c_gate (i : Z) : bool := bound <? i.
(** !MayBeUnity for minimal cut sets, zbdd.cc:701-714 (no index is 0). *)
Definition c_counts (i : Z) : bool :=
  if i <=? 0 then false else if c_gate i then negb (negb (module i) || negb (coherent i)) else true.

(** CutSetContainer::ConvertGate, zbdd.cc:893-917. *)
Definition convert_one (x : gate) : M zt :=
  check (conn_eqb (g_type x) kAnd || conn_eqb (g_type x) kOr) ;;;
  check (negb (constant x)) ;;;
  check (1 <? length (g_args x))%nat ;;;
  check (forallb (fun a => 0 <? a) (List.filter (is_gate G) (g_args x))) ;;;
  match arrange (map single (List.filter (fun a => negb (is_gate G a)) (g_args x)) ++ map single (List.filter (is_gate G) (g_args x))) with
  | [] => fail
  | r :: l => r <- apply_all ord top c_counts limit (g_type x) r l ;; modify clear ;;; ret r
  end.
(** CutSetContainer::ExpandGate, zbdd.cc:932-938. *)
Definition expand_gate (gate_zbdd cut_sets : zt) : M zt :=
  check (within_limit c_counts gate_zbdd limit) ;;;
  check (within_limit c_counts cut_sets limit) ;;;
  apply_and ord top c_counts gate_zbdd cut_sets limit.
(** CutSetContainer::Merge, zbdd.cc:940-945. *)
Definition merge (root vertex : zt) : M zt :=
  check (within_limit c_counts vertex limit) ;;;
  r <- apply_or ord top c_counts root vertex limit ;; modify clear ;;; ret r.
(** add_gates, mocus.cc:59-62: the arguments of a gate that are gates. *)
Definition add_gates (x : gate) (gates : list Z) : list Z := List.filter (is_gate G) (g_args x) ++ gates.
(** The loop of AnalyzeModule, mocus.cc:69-77, with GetNextGate (zbdd.h:911-916) and
    ExtractIntermediateCutSets (zbdd.cc:919-930).  The arguments of ExpandGate may be evaluated in
    either order: the extraction touches no table. *)
Fixpoint expand_all (fuel : nat) (gates : list Z) (root : zt) : M (zt * list Z) :=
  match root with
  | ZN i h l =>
      if c_gate i && negb (module i) then
        match fuel with
        | O => fail
        | S fuel =>
            match (if mem gates i then gs G !! i else None) with
            | None => fail
            | Some x =>
                check (max_set_order c_counts root <=? limit) ;;;
                g <- convert_one x ;;
                e <- expand_gate g h ;;
                r <- merge l e ;;
                expand_all fuel (add_gates x gates) r
            end
        end
      else ret (root, gates)
  | _ => ret (root, gates)
  end.
(** mocus.cc:63-77. *)
Definition expand_module (x : gate) : M (zt * list Z) :=
  g <- convert_one x ;;
  r <- merge ZE g ;;
  expand_all (level ord top r) (add_gates x []) r.
(** mocus.cc:78-85. *)
Definition finish (g : Z) (t : zt) : M zt :=
  t <- minimize ord top t ;;
  if coherent g then ret t
  else t <- eliminate_complements ord top c_counts (wide G module coherent) limit t ;; minimize ord top t.

(** Mocus::AnalyzeModule, mocus.cc:52-109.  The container of a module is always built with the
    limit of the whole analysis: the settings adjusted at 102-105 only reach the log. *)
Fixpoint analyze_module (fuel : nat) (g : Z) : option zbdd :=
  match fuel with
  | O => None
  | S fuel =>
      x ← gs G !! g;
      if negb (module g) then None else
      '((r, gates), s) ← expand_module x start;
      '(r, s) ← finish g r s;
      '(_, subs) ← gather (ZbddModules.is_module G module) c_counts coherent limit r 0 ∅;
      mods ← (fix go (l : list (Z * (bool * Z))) : option (list (Z * zbdd)) :=
                match l with
                | [] => Some []
                | (i, (c, o)) :: l =>
                    if (i <=? 0) || (o <? 0) then None else
                    z ← (if (o =? 0) && c then Some (Zb ZE []) else if mem gates i then analyze_module fuel i else None);
                    zs ← go l;
                    Some ((i, z) :: zs)
                end) (map_to_list subs);
      '(r, s) ← (if has_constant mods then eliminate_constants ord top c_counts limit (constant_module G module mods) r s else Some (r, s));
      '(r, _) ← minimize ord top r s;
      Some (Zb r mods)
  end.

(** Mocus::Analyze, mocus.cc:38-50, and the iteration over its result. *)
Definition mocus (parents : Z -> nat) (fuel : nat) (root : Z) : option zbdd :=
  x ← gs G !! root;
  if conn_eqb (g_type x) kNull then of_graph ord top G module coherent parents arrange fuel root limit
  else z ← analyze_module fuel root; analyze ord top z.
Definition mocus_products (parents : Z -> nat) (fuel steps : nat) (root : Z) : option (list (list Z)) :=
  z ← mocus parents fuel root; iterate G module limit steps z.
End Model.
