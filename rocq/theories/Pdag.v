(** Model of the propositional directed acyclic graph (PDAG) and of its gates.
    Source: /repo/src/pdag.h, /repo/src/pdag.cc.
    Nodes are their positive indices; index 1 is the constant TRUE (pdag.h:188-201), an
    index with an entry in [gs] is a gate, any other index is a variable.  A negative index
    is a complemented argument.  Pointers become indices.  [None] is the outcome of a
    violated [assert] (undefined behaviour in a release build).
    Simplifications: flags that do not influence the logic (mark, module, coherent,
    visits, ...) are kept elsewhere; a gate nobody refers to any more stays in the map
    (the code frees it); the argument containers gate_args_/variable_args_ are the
    restrictions of args_ to gates/variables, iterated in index order. *)
From stdpp Require Import gmap.
Open Scope Z_scope.

(** pdag.h:259-268 [Connective]. *)
Inductive conn := kAnd | kOr | kAtleast | kXor | kNot | kNand | kNor | kNull.
Definition conn_eqb (a b : conn) : bool :=
  match a, b with
  | kAnd, kAnd | kOr, kOr | kAtleast, kAtleast | kXor, kXor
  | kNot, kNot | kNand, kNand | kNor, kNor | kNull, kNull => true
  | _, _ => false
  end.

(** pdag.h:280- [Gate]: connective, min number, sorted set of argument indices. *)
Record gate := Gate { g_type : conn; g_min : Z; g_args : list Z }.

Record graph := Graph {
  gs : gmap Z gate;      (* gates *)
  nxt : Z;               (* node_index_ + 1: next index to hand out *)
  nulls : list Z;        (* null_gates_ *)
  reg : bool }.          (* register_null_gates_ *)

(** boost::container::flat_set<int>. *)
Definition has (x : Z) (l : list Z) : bool := existsb (Z.eqb x) l.
Fixpoint set_insert (x : Z) (l : list Z) : list Z :=
  match l with
  | [] => [x]
  | y :: t => if x <? y then x :: l else if x =? y then l else y :: set_insert x t
  end.
Definition set_erase (x : Z) (l : list Z) : list Z := List.filter (fun y => negb (x =? y)) l.
Definition size (l : list Z) : Z := Z.of_nat (length l).

Definition put (i : Z) (x : gate) (G : graph) : graph :=
  Graph (<[i := x]> (gs G)) (nxt G) (nulls G) (reg G).
Definition with_args (x : gate) (l : list Z) : gate := Gate (g_type x) (g_min x) l.
Definition with_min (x : gate) (k : Z) : gate := Gate (g_type x) k (g_args x).

(** pdag.h:430 [constant()]: the constant node is an argument. *)
Definition constant (x : gate) : bool := has 1 (g_args x) || has (-1) (g_args x).

(** pdag.cc:65-71 [Gate::type(Connective)] with [NullGateRegistrar] (pdag.h:1000-1010). *)
Definition set_type (i : Z) (t : conn) (G : graph) : option graph :=
  match gs G !! i with
  | None => None
  | Some x =>
      Some (Graph (<[i := Gate t (g_min x) (g_args x)]> (gs G)) (nxt G)
                  (if conn_eqb t kNull && reg G then nulls G ++ [i] else nulls G) (reg G))
  end.

(** [std::make_shared<Gate>(type, graph)]. *)
Definition new_gate (t : conn) (G : graph) : graph * Z :=
  (Graph (<[nxt G := Gate t 0 []]> (gs G)) (nxt G + 1) (nulls G) (reg G), nxt G).

(** pdag.cc:73-92 [Gate::Clone]. *)
Definition clone (i : Z) (G : graph) : option (graph * Z) :=
  match gs G !! i with
  | None => None
  | Some x =>
      if constant x || conn_eqb (g_type x) kNull then None
      else Some (Graph (<[nxt G := x]> (gs G)) (nxt G + 1) (nulls G) (reg G), nxt G)
  end.

(** pdag.h:595 [min_number(int)]. *)
Definition set_min (i k : Z) (G : graph) : option graph :=
  x ← gs G !! i; Some (put i (with_min x k) G).

(** pdag.cc:306-330 [EraseArg], [EraseArgs]. *)
Definition erase_arg (i a : Z) (G : graph) : option graph :=
  x ← gs G !! i;
  if has a (g_args x) then Some (put i (with_args x (set_erase a (g_args x))) G) else None.
Definition erase_args (i : Z) (G : graph) : option graph :=
  x ← gs G !! i; Some (put i (with_args x []) G).

(** pdag.cc:332-341 [MakeConstant]. *)
Definition make_constant (i : Z) (state : bool) (G : graph) : option graph :=
  x ← gs G !! i;
  if constant x then None else
  G1 ← erase_args i G;
  G2 ← set_type i kNull G1;
  x2 ← gs G2 !! i;
  Some (put i (with_args x2 [if state then 1 else -1]) G2).

(** pdag.h:722-726 [ReduceLogic]. *)
Definition reduce_logic (i : Z) (t : conn) (num : Z) (G : graph) : option graph :=
  x ← gs G !! i;
  match g_args x with
  | [] => None
  | _ => if size (g_args x) =? num then set_type i t G else Some G
  end.

(** pdag.cc:94-156 [AddConstantArg<State>]. *)
Definition add_constant_arg (i : Z) (state : bool) (G : graph) : option graph :=
  x ← gs G !! i;
  if state then
    match g_type x with
    | kNull | kOr => make_constant i true G
    | kNand => reduce_logic i kNot 1 G
    | kAnd => reduce_logic i kNull 1 G
    | kNor | kNot => make_constant i false G
    | kXor => if size (g_args x) =? 1 then set_type i kNot G else None
    | kAtleast =>
        if (size (g_args x) <? 2) || (g_min x <=? 0) then None else
        G1 ← set_min i (g_min x - 1) G;
        if g_min x - 1 =? 1 then set_type i kOr G1 else Some G1
    end
  else
    match g_type x with
    | kNull | kAnd => make_constant i false G
    | kNand | kNot => make_constant i true G
    | kNor => reduce_logic i kNot 1 G
    | kOr => reduce_logic i kNull 1 G
    | kXor => if size (g_args x) =? 1 then set_type i kNull G else None
    | kAtleast =>
        if size (g_args x) <? 2 then None else reduce_logic i kAnd (g_min x) G
    end.

(** pdag.h:548-566: insertion of an argument that is neither there nor complemented
    there, with the asserts of [AddArg]. *)
Definition add_asserts (x : gate) : bool :=
  negb (constant x) &&
  negb ((conn_eqb (g_type x) kNot || conn_eqb (g_type x) kNull) && negb (size (g_args x) =? 0)) &&
  negb (conn_eqb (g_type x) kXor && (1 <? size (g_args x))) &&
  (0 <=? g_min x).
Definition add_new (i a : Z) (G : graph) : option graph :=
  x ← gs G !! i;
  if add_asserts x && negb (has a (g_args x)) && negb (has (-a) (g_args x))
  then Some (put i (with_args x (set_insert a (g_args x))) G) else None.

(** pdag.cc:158-174 [TransferArg] for an argument new to the recipient. *)
Definition transfer_new (i a j : Z) (G : graph) : option graph :=
  x ← gs G !! i;
  if constant x then None else
  G1 ← erase_arg i a G; add_new j a G1.

(** pdag.cc:369-421 [ProcessAtleastGateDuplicateArg]. *)
Definition atleast_duplicate (i a : Z) (G : graph) : option graph :=
  x ← gs G !! i;
  let k := g_min x in
  let n := size (g_args x) in
  if (k <=? 1) || (n <? k) then None else
  if n =? 2 then
    if k =? 2 then G1 ← erase_arg i a G; set_type i kNull G1 else None
  else if k =? n then
    if k <=? 2 then None else
    '(G1, c) ← clone i G;
    G2 ← set_min c (k - 2) G1;
    G3 ← erase_args i G2;
    G4 ← set_type i kAnd G3;
    G5 ← transfer_new c a i G4;
    G6 ← (if k - 2 =? 1 then set_type c kOr G5 else Some G5);
    add_new i c G6
  else if n <=? 2 then None else
    '(G1, c1) ← clone i G;
    G2 ← erase_args i G1;
    G3 ← set_type i kOr G2;
    G4 ← add_new i c1 G3;
    G8 ← (if k =? 2 then transfer_new c1 a i G4
          else
            let '(G5, ag) := new_gate kAnd G4 in
            G5 ← add_new i ag G5;
            G6 ← transfer_new c1 a ag G5;
            '(G7, c2) ← clone c1 G6;
            G7 ← set_min c2 (k - 2) G7;
            G7 ← (if k - 2 =? 1 then set_type c2 kOr G7 else Some G7);
            add_new ag c2 G7);
    x1 ← gs G8 !! c1;
    if size (g_args x1) <? g_min x1 then None
    else if size (g_args x1) =? g_min x1 then set_type c1 kAnd G8 else Some G8.

(** pdag.cc:343-367 [ProcessDuplicateArg]. *)
Definition process_duplicate (i a : Z) (G : graph) : option graph :=
  x ← gs G !! i;
  match g_type x with
  | kNot | kNull => None
  | kAtleast => atleast_duplicate i a G
  | t => if size (g_args x) =? 1 then
           match t with
           | kAnd | kOr => set_type i kNull G
           | kNand | kNor => set_type i kNot G
           | _ => make_constant i false G
           end
         else Some G
  end.

(** pdag.cc:423-457 [ProcessComplementArg]. *)
Definition process_complement (i a : Z) (G : graph) : option graph :=
  x ← gs G !! i;
  match g_type x with
  | kNor | kAnd => make_constant i false G
  | kNand | kXor | kOr => make_constant i true G
  | kAtleast =>
      if (g_min x <=? 1) || (size (g_args x) + 1 <=? g_min x) then None else
      G1 ← erase_arg i (-a) G;
      G2 ← set_min i (g_min x - 1) G1;
      x2 ← gs G2 !! i;
      if size (g_args x2) =? 1 then set_type i kNull G2
      else if g_min x2 =? 1 then set_type i kOr G2
      else if g_min x2 =? size (g_args x2) then set_type i kAnd G2
      else Some G2
  | _ => None
  end.

(** pdag.h:548-566 [AddArg] for variables and gates. *)
Definition add_arg (i a : Z) (G : graph) : option graph :=
  x ← gs G !! i;
  if negb (add_asserts x) || (a =? 0) then None
  else if has a (g_args x) then process_duplicate i a G
  else if has (-a) (g_args x) then process_complement i a G
  else add_new i a G.

(** [AddArg] for any node, with the specialization for the constant (pdag.cc:158-164). *)
Definition add_any (i a : Z) (G : graph) : option graph :=
  x ← gs G !! i;
  if (a =? 1) || (a =? -1) then
    if constant x then None else add_constant_arg i (0 <? a) G
  else add_arg i a G.

(** pdag.cc:166-197 [TransferArg], [ShareArg]. *)
Definition transfer_arg (i a j : Z) (G : graph) : option graph :=
  x ← gs G !! i;
  if constant x then None else G1 ← erase_arg i a G; add_arg j a G1.
Definition share_arg (i a j : Z) (G : graph) : option graph :=
  x ← gs G !! i;
  if constant x || negb (has a (g_args x)) then None else add_arg j a G.

(** pdag.cc:199-225 [NegateArgs], [NegateArg]. *)
Definition negate_args (i : Z) (G : graph) : option graph :=
  x ← gs G !! i; Some (put i (with_args x (rev (map Z.opp (g_args x)))) G).
Definition negate_arg (i a : Z) (G : graph) : option graph :=
  x ← gs G !! i;
  if constant x || negb (has a (g_args x)) || has (-a) (g_args x) then None
  else Some (put i (with_args x (set_insert (-a) (set_erase a (g_args x)))) G).

(** pdag.cc:249-274 [JoinNullGate]. *)
Definition join_null_gate (i a : Z) (G : graph) : option graph :=
  y ← gs G !! (Z.abs a);
  match g_type y, g_args y with
  | kNull, [b] => G1 ← erase_arg i a G; add_any i (b * Z.sgn a) G1
  | _, _ => None
  end.

(** pdag.cc:276-283 [ProcessConstantArg]; [n] is a positive node index. *)
Definition process_constant_arg (i n : Z) (state : bool) (G : graph) : option graph :=
  x ← gs G !! i;
  let a := if has n (g_args x) then n else - n in
  let state := if a <? 0 then negb state else state in
  G1 ← erase_arg i a G; add_constant_arg i state G1.

(** ---- Specification: truth values ---- *)
Definition count (vs : list bool) : Z := Z.of_nat (length (List.filter (fun b => b) vs)).
(** Value of a connective applied to a list of truth values. *)
Definition conn_value (t : conn) (k : Z) (vs : list bool) : bool :=
  match t with
  | kAnd => forallb (fun b => b) vs
  | kOr => existsb (fun b => b) vs
  | kAtleast => k <=? count vs
  | kXor => Z.odd (count vs)
  | kNot => match vs with [v] => negb v | _ => false end
  | kNand => negb (forallb (fun b => b) vs)
  | kNor => negb (existsb (fun b => b) vs)
  | kNull => match vs with [v] => v | _ => false end
  end.
(** A labelling of nodes with truth values; complemented arguments read negated. *)
Definition lit (ν : Z -> bool) (a : Z) : bool := if a <? 0 then negb (ν (- a)) else ν a.
Definition gate_value (ν : Z -> bool) (x : gate) : bool :=
  conn_value (g_type x) (g_min x) (map (lit ν) (g_args x)).
(** A labelling is consistent with a graph if the constant is true and every gate
    has the value of its connective applied to its arguments. *)
Definition consistent (G : graph) (ν : Z -> bool) : Prop :=
  ν 1 = true /\ forall i x, gs G !! i = Some x -> ν i = gate_value ν x.
(** The value of node [i] in [G] when the variables are labelled by [σ]. *)
Definition node_value (G : graph) (σ : Z -> bool) (i : Z) (b : bool) : Prop :=
  exists ν, consistent G ν /\ (forall j, 1 < j < nxt G -> gs G !! j = None -> ν j = σ j) /\ ν i = b.
(** Acyclic graphs. *)
Definition ranked (G : graph) (r : Z -> nat) : Prop :=
  forall i x a, gs G !! i = Some x -> In a (g_args x) -> is_Some (gs G !! Z.abs a) -> (r (Z.abs a) < r i)%nat.
Definition acyclic (G : graph) : Prop := exists r, ranked G r.
