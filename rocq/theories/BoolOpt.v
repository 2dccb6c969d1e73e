(** Boolean optimization of one common node.
    Source: /repo/src/preprocessor.cc:1824-2083 (ProcessCommonNode, MarkAncestors, PropagateState,
    DetermineGateState, CollectStateDestinations, CollectRedundantParents, ProcessRedundantParents,
    ProcessStateDestinations), 2331-2340 (ReplaceGate).
    Container orders and parents() are oracles.  The comparison of num_dest with mult_tot (1858), which
    only decides whether it is worth the effort, is the parameter [worthwhile].  ClearStateMarks is implicit:
    every call starts without marks.  The closing RemoveNullGates is in NullGates.v.  Gates nobody refers to
    stay in the map: they are edited as well, where the code skips expired pointers. *)
From stdpp Require Import gmap.
From Verif Require Import Pdag Preproc Decompose.
Open Scope Z_scope.

(** opti_value(): 0 if there is no entry. *)
Notation optis := (gmap Z Z).
Definition opt (V : optis) (g : Z) : Z := default 0 (V !! g).

(** 1935-1985 *)
Definition determine (x : gate) (nf ns : Z) : option Z :=
  if nf + ns =? 0 then Some 0 else
  let state rf rs := if rf <=? nf then 1 else if rs <=? ns then -1 else 0 in
  let n := size (g_args x) in
  match g_type x with
  | kNull => if nf + ns =? 1 then Some (state 1 1) else None
  | kOr => Some (state 1 n)
  | kAnd => Some (state n 1)
  | kAtleast => if g_min x <? n then Some (state (g_min x) (n - g_min x + 1)) else None
  | kXor => Some (if (nf =? 1) && (ns =? 1) then 1 else if (ns =? 2) || (nf =? 2) then -1 else 0)
  | kNot => if nf + ns =? 1 then Some (- state 1 1) else None
  | kNand => Some (- state n 1)
  | kNor => Some (- state 1 n)
  end.

Section Optimize.
(** [parents]: parents(); [order]: args<Gate>() in the order of the container; [users]: all parents in the
    order of ReplaceGate; [arrange]: the order of the container of destinations; [mods]: the gates with module(). *)
Context (parents : graph -> Z -> list Z) (order : graph -> Z -> list Z) (users : graph -> Z -> list Z) (arrange : gset Z -> list Z) (mods : gset Z).

(** 1875-1890 *)
Fixpoint mark_all (rec : Z -> gset Z * option Z -> option (gset Z * option Z)) (l : list Z) (st : gset Z * option Z) : option (gset Z * option Z) :=
  match l with
  | [] => Some st
  | p :: l =>
      st ← (if decide (p ∈ st.1) then Some st else
            if decide (p ∈ mods) then match st.2 with None => Some ({[p]} ∪ st.1, Some p) | Some _ => None end
            else rec p ({[p]} ∪ st.1, st.2));
      mark_all rec l st
  end.
Fixpoint mark_ancestors (fuel : nat) (G : graph) (g : Z) (st : gset Z * option Z) : option (gset Z * option Z) :=
  match fuel with O => None | S fuel => mark_all (mark_ancestors fuel G) (parents G g) st end.

(** 1892-1933 *)
Record pstate := PSt { p_marks : gset Z; p_desc : gset Z; p_opti : optis }.
Fixpoint propagate_args (rec : Z -> pstate -> option pstate) (l : list Z) (s : pstate) (nf ns : Z) : option (pstate * Z * Z) :=
  match l with
  | [] => Some (s, nf, ns)
  | a :: l =>
      s ← rec (Z.abs a) s;
      let v := opt (p_opti s) (Z.abs a) * Z.sgn a in
      propagate_args rec l s (if v =? 1 then nf + 1 else nf) (if v =? -1 then ns + 1 else ns)
  end.
Fixpoint propagate (fuel : nat) (G : graph) (n g : Z) (s : pstate) : option pstate :=
  match fuel with
  | O => None
  | S fuel =>
      if decide (g ∈ p_marks s) then
        if bool_decide (g ∈ p_desc s) || negb (opt (p_opti s) g =? 0) then None else
        x ← gs G !! g;
        '(s, nf, ns) ← propagate_args (propagate fuel G n) (order G g) (PSt (p_marks s ∖ {[g]}) ({[g]} ∪ p_desc s) (p_opti s)) 0 0;
        let v := match gs G !! n with
                 | None => (if has n (g_args x) then 1 else if has (- n) (g_args x) then -1 else 0) * opt (p_opti s) n
                 | Some _ => 0
                 end in
        if negb (opt (p_opti s) g =? 0) then None else
        st ← determine x (if v =? 1 then nf + 1 else nf) (if v =? -1 then ns + 1 else ns);
        Some (PSt (p_marks s) (p_desc s) (<[g := st]> (p_opti s)))
      else Some s
  end.

(** 1987-2011 *)
Fixpoint collect_args (rec : Z -> optis * gset Z -> option (optis * gset Z)) (n : Z) (l : list Z) (st : optis * gset Z) : option (optis * gset Z) :=
  match l with
  | [] => Some st
  | a :: l =>
      st ← rec (Z.abs a) st;
      let v := opt st.1 (Z.abs a) in
      collect_args rec n l (if (Z.abs a =? n) || (v =? 0) || (1 <? v) then st else (st.1, {[Z.abs a]} ∪ st.2))
  end.
Fixpoint collect (fuel : nat) (G : graph) (desc : gset Z) (n g : Z) (st : optis * gset Z) : option (optis * gset Z) :=
  match fuel with
  | O => None
  | S fuel =>
      if decide (g ∈ desc) then
        if negb (opt st.1 g =? 0) then Some st else
        collect_args (collect fuel G desc n) n (order G g) (<[g := 2]> st.1, st.2)
      else Some st
  end.

(** 2013-2036 *)
Definition target_type (v : Z) : conn := if v =? 1 then kOr else kAnd.
Definition arg_sign (x : gate) (n : Z) : Z := if has n (g_args x) then 1 else -1.
Fixpoint redundants (G : graph) (V : optis) (n : Z) (l : list Z) (D : gset Z) (R : list Z) : option (gset Z * list Z) :=
  match l with
  | [] => Some (D, R)
  | p :: l =>
      if opt V p =? 2 then redundants G V n l D R else
      x ← gs G !! p;
      if negb (opt V p =? 0) && bool_decide (p ∈ D) && conn_eqb (g_type x) (target_type (opt V p)) && (opt V p =? arg_sign x n)
      then redundants G V n l (D ∖ {[p]}) R
      else redundants G V n l D (R ++ [p])
  end.
(** 2038-2049 *)
Fixpoint fix_redundants (n : Z) (R : list Z) (G : graph) : option graph :=
  match R with [] => Some G | p :: R => G ← process_constant_arg p n false G; fix_redundants n R G end.
(** 2331-2340 *)
Fixpoint replace_all (l : list Z) (g g' : Z) (G : graph) : option graph :=
  match l with [] => Some G | p :: l => G ← replace_in_parent p g g' G; replace_all l g g' G end.
(** 2051-2083: also the root of the graph. *)
Definition signed_node (n v : Z) : Z := if v <? 0 then - n else n.
Fixpoint fix_targets (V : optis) (n : Z) (l : list Z) (st : Z * graph) : option (Z * graph) :=
  match l with
  | [] => Some st
  | d :: l =>
      let '(root, G) := st in
      let v := opt V d in
      x ← gs G !! d;
      st ← (if conn_eqb (g_type x) (target_type v) then
              if constant x then Some (root, G) else
              G ← add_arg d (signed_node n v) G; Some (root, G)
            else
              let '(G, m) := new_gate (target_type v) G in
              G ← add_arg m (signed_node n v) G;
              '(root, G) ← (if d =? root then Some (m, G) else G ← replace_all (users G d) d m G; Some (root, G));
              G ← add_arg m d G;
              Some (root, G));
      fix_targets V n l st
  end.
(** 1824-1873 *)
Definition process_common_node (fuel : nat) (n : Z) (worthwhile : bool) (root : Z) (G : graph) : option (Z * graph) :=
  '(marks, module) ← mark_ancestors fuel G n (∅, None);
  M ← module;
  s ← propagate fuel G n M (PSt marks ∅ {[n := 1]});
  '(V, D) ← (if negb (opt (p_opti s) M =? 0) then Some (p_opti s, {[M]})
             else collect fuel G (p_desc s) n M (p_opti s, ∅));
  if worthwhile then
    '(D, R) ← redundants G V n (parents G n) D [];
    match R with
    | [] => Some (root, G)
    | _ => G ← fix_redundants n R G; fix_targets V n (arrange D) (root, G)
    end
  else Some (root, G).
End Optimize.
