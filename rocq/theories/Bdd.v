(** Model of the BDD manager.
    Source: /repo/src/bdd.cc, /repo/src/bdd.h.
    A vertex is identified by its id: 1 is the terminal One, ids of if-then-else
    vertices start at 2 and are handed out in increasing order (bdd.cc:45 [function_id_(2)],
    bdd.cc:108 [function_id_++]).  Pointers become ids into the store [nodes].
    Attributes [module], [coherent], [mark], [p], [factor] of a vertex are not here:
    they do not influence the construction (see Prob.v, Module*.v for their readers). *)
From stdpp Require Import gmap.
From Verif Require Import CacheTable.
Open Scope Z_scope.

(** bdd.h:243-360 [NonTerminal], [Ite]. *)
Record node := Node {
  n_index : Z; n_order : Z; n_high : Z; n_low : Z; n_ce : bool }.

(** bdd.h:680-697 [Bdd::Function]: complement flag and root vertex. *)
Definition fn : Type := bool * Z.
Definition kOne : Z := 1.
(** bdd.h:191 [Vertex::terminal]. *)
Definition terminal (v : Z) : bool := v <? 2.

Definition ckey : Type := Z * Z.
Definition ckey_eq (a b : ckey) : {a = b} + {a <> b} := decide (a = b).

(** The unique table is represented by its abstract contents, a partial map from
    (index, high id, signed low id) to the live vertex (C11 justifies this: UniqueTable.v). *)
Record bdd := mk_bdd {
  nodes : gmap Z node;
  utable : gmap (Z * Z * Z) Z;
  and_t : cache ckey fn;
  or_t : cache ckey fn;
  next_id : Z }.

(** bdd.h:330-332 [get_low_id]: the sign carries the complement edge. *)
Definition ukey (index high low : Z) (ce : bool) : Z * Z * Z :=
  (index, high, if ce then - low else low).
Definition node_key (n : node) : Z * Z * Z := ukey (n_index n) (n_high n) (n_low n) (n_ce n).

(** bdd.cc:92-107 [FindOrAddVertex] (the two overloads at 109-141 only copy attributes). *)
Definition find_or_add (index high low : Z) (ce : bool) (order : Z) (b : bdd) : bdd * Z :=
  let key := ukey index high low ce in
  match utable b !! key with
  | Some id => (b, id)
  | None =>
      let id := next_id b in
      (mk_bdd (<[id := Node index order high low ce]> (nodes b))
              (<[key := id]> (utable b)) (and_t b) (or_t b) (id + 1), id)
  end.

(** bdd.cc:197-209 [GetMinMaxId]. *)
Definition signed (c : bool) (v : Z) : Z := if c then - v else v.
Definition min_max_id (v1 v2 : Z) (c1 c2 : bool) : ckey :=
  if v2 <? v1 then (signed c2 v2, signed c1 v1) else (signed c1 v1, signed c2 v2).

(** The connective parameter of [Apply]: AND or OR only (bdd.cc:299-308). *)
Inductive conn := CAnd | COr.

Definition get_cache (t : conn) (b : bdd) : cache ckey fn :=
  match t with CAnd => and_t b | COr => or_t b end.
Definition set_cache (t : conn) (c : cache ckey fn) (b : bdd) : bdd :=
  match t with
  | CAnd => mk_bdd (nodes b) (utable b) c (or_t b) (next_id b)
  | COr => mk_bdd (nodes b) (utable b) (and_t b) c (next_id b)
  end.

(** The shortcuts of bdd.cc:216-231 (AND) and 245-260 (OR): terminals and equal ids.
    For AND a complemented One is absorbing, for OR a plain One is. *)
Definition absorbs (t : conn) (c : bool) : bool := match t with CAnd => c | COr => negb c end.
Definition absorbing (t : conn) : fn := match t with CAnd => (true, kOne) | COr => (false, kOne) end.
Definition shortcut (t : conn) (v1 v2 : Z) (c1 c2 : bool) : option fn :=
  if terminal v1 then Some (if absorbs t c1 then absorbing t else (c2, v2))
  else if terminal v2 then Some (if absorbs t c2 then absorbing t else (c1, v1))
  else if v1 =? v2 then Some (if xorb c1 c2 then absorbing t else (c1, v1))
  else None.

Section Apply.
  Variable hash : ckey -> nat.
  Variable prime : nat -> nat.

  (** bdd.cc:212-297: the two mutually recursive [Apply] functions; [None] = out of fuel
      or a dangling vertex (excluded by the theorems). *)
  Fixpoint apply (fuel : nat) (t : conn) (v1 v2 : Z) (c1 c2 : bool) (b : bdd)
    : option (bdd * fn) :=
    match fuel with
    | O => None
    | S fuel' =>
        match shortcut t v1 v2 c1 c2 with
        | Some r => Some (b, r)
        | None =>
            let key := min_max_id v1 v2 c1 c2 in
            match find ckey fn ckey_eq hash (get_cache t b) key with
            | Some r => Some (b, r)
            | None =>
                match nodes b !! v1, nodes b !! v2 with
                | Some n1, Some n2 =>
                    (* bdd.cc:272-275: order the two arguments *)
                    let '(v1, n1, c1, v2, n2, c2) :=
                      if n_order n2 <? n_order n1 then (v2, n2, c2, v1, n1, c1)
                      else (v1, n1, c1, v2, n2, c2) in
                    let same := n_order n1 =? n_order n2 in
                    (* bdd.cc:279-293 *)
                    match apply fuel' t (n_high n1) (if same then n_high n2 else v2) c1 c2 b with
                    | None => None
                    | Some (b, (hc, hv)) =>
                        match apply fuel' t (n_low n1) (if same then n_low n2 else v2)
                                (xorb c1 (n_ce n1))
                                (if same then xorb c2 (n_ce n2) else c2) b with
                        | None => None
                        | Some (b, (lc, lv)) =>
                            (* bdd.cc:291-297 *)
                            let ce := xorb hc lc in
                            let '(b, v) :=
                              if ce || negb (hv =? lv)
                              then find_or_add (n_index n1) hv lv ce (n_order n1) b
                              else (b, hv) in
                            let r := (hc, v) in
                            Some (set_cache t (emplace ckey fn hash prime (get_cache t b) key r) b, r)
                        end
                    end
                | _, _ => None
                end
            end
        end
    end.

  (** Enough fuel: ids of children are smaller, so the sum of ids decreases. *)
  Definition apply_fn (t : conn) (f g : fn) (b : bdd) : option (bdd * fn) :=
    apply (S (Z.to_nat (f.2 + g.2))) t f.2 g.2 f.1 g.1 b.

  (** bdd.h [ClearTables]. *)
  Definition clear_tables (b : bdd) : bdd :=
    mk_bdd (nodes b) (utable b) (clear ckey fn (and_t b)) (clear ckey fn (or_t b)) (next_id b).

  (** bdd.cc:310-314 [CalculateConsensus]. *)
  Definition consensus (n : node) (complement : bool) (b : bdd) : option (bdd * fn) :=
    apply_fn CAnd (complement, n_high n) (xorb (n_ce n) complement, n_low n) (clear_tables b).

  (** bdd.cc:41-45: the empty manager. *)
  Definition empty_bdd : bdd :=
    mk_bdd ∅ ∅ (new_cache ckey fn prime 1000) (new_cache ckey fn prime 1000) 2.

  (** bdd.cc:163-166: the function of a variable, low edge complemented. *)
  Definition variable (ord : Z -> Z) (index : Z) (b : bdd) : bdd * fn :=
    let '(b, v) := find_or_add index kOne kOne true (ord index) b in (b, (false, v)).

  (** Reference counting (bdd.h:165-180): a vertex dies when nobody refers to it.
      [collect dead] deletes a set of vertices provided that no held function, no
      surviving vertex and no cached result refers to them (those own references);
      the weak pointers of the unique table and the ids in cache keys do not count. *)
  Definition cache_values (c : cache ckey fn) : list fn :=
    flat_map (fun e => match e with Some (_, v) => [v] | None => [] end) (slots c).
  Definition refs_ok (dead : gset Z) (held : list fn) (b : bdd) : bool :=
    forallb (fun f : fn => negb (bool_decide (f.2 ∈ dead)))
      (held ++ cache_values (and_t b) ++ cache_values (or_t b)) &&
    forallb (fun kv : Z * node =>
               bool_decide (kv.1 ∈ dead) ||
               (negb (bool_decide (n_high kv.2 ∈ dead)) && negb (bool_decide (n_low kv.2 ∈ dead))))
      (map_to_list (nodes b)).
  Definition collect (dead : gset Z) (held : list fn) (b : bdd) : bdd :=
    if refs_ok dead held b
    then mk_bdd (filter (fun kv : Z * node => kv.1 ∉ dead) (nodes b))
                (filter (fun kv : (Z * Z * Z) * Z => kv.2 ∉ dead) (utable b)) (and_t b) (or_t b) (next_id b)
    else b.

  (** A client of the manager: a stack of functions it holds on to. *)
  Inductive bop :=
  | BVar (index : Z)                          (* push the function of a variable *)
  | BOne                                      (* push the constant true *)
  | BNot (i : nat)                            (* push the complement of the i-th held function *)
  | BApply (t : conn) (i j : nat)             (* push a conjunction / disjunction *)
  | BForget (i : nat)                         (* drop a held function *)
  | BClear                                    (* ClearTables *)
  | BCollect (dead : gset Z).                 (* some unreferenced vertices die *)

  Definition bstate : Type := bdd * list fn.
  Definition run_bop (ord : Z -> Z) (s : bstate) (o : bop) : option bstate :=
    let '(b, held) := s in
    match o with
    | BVar i => let '(b', f) := variable ord i b in Some (b', f :: held)
    | BOne => Some (b, (false, kOne) :: held)
    | BNot i => match nth_error held i with
                | Some f => Some (b, (negb f.1, f.2) :: held) | None => Some s end
    | BApply t i j =>
        match nth_error held i, nth_error held j with
        | Some f, Some g =>
            match apply_fn t f g b with
            | Some (b', r) => Some (b', r :: held) | None => None end
        | _, _ => Some s
        end
    | BForget i => Some (b, firstn i held ++ skipn (S i) held)
    | BClear => Some (clear_tables b, held)
    | BCollect dead => Some (collect dead held b, held)
    end.
  Fixpoint run_bops (ord : Z -> Z) (s : bstate) (os : list bop) : option bstate :=
    match os with
    | [] => Some s
    | o :: os' => match run_bop ord s o with Some s' => run_bops ord s' os' | None => None end
    end.
End Apply.

(** ---- Specification ---- *)
(** Reading a diagram: follow the high edge if the variable is true, else the low edge,
    flipping the result on complemented edges; the terminal is true. *)
Inductive reads (ns : gmap Z node) (σ : Z -> bool) : Z -> bool -> Prop :=
| reads_one : reads ns σ kOne true
| reads_high v n r : ns !! v = Some n -> σ (n_index n) = true ->
    reads ns σ (n_high n) r -> reads ns σ v r
| reads_low v n r : ns !! v = Some n -> σ (n_index n) = false ->
    reads ns σ (n_low n) r -> reads ns σ v (xorb (n_ce n) r).
Definition fn_reads (ns : gmap Z node) (σ : Z -> bool) (f : fn) (r : bool) : Prop :=
  exists r', reads ns σ f.2 r' /\ r = xorb f.1 r'.

(** The Boolean functions a history is supposed to put on the stack. *)
Definition bfun := (Z -> bool) -> bool.
Definition spec_bop (held : list bfun) (o : bop) : list bfun :=
  match o with
  | BVar i => (fun σ => σ i) :: held
  | BOne => (fun _ => true) :: held
  | BNot i => match nth_error held i with Some f => (fun σ => negb (f σ)) :: held | None => held end
  | BApply t i j =>
      match nth_error held i, nth_error held j with
      | Some f, Some g =>
          (fun σ => match t with CAnd => f σ && g σ | COr => f σ || g σ end) :: held
      | _, _ => held
      end
  | BForget i => firstn i held ++ skipn (S i) held
  | BClear | BCollect _ => held
  end.
Definition spec_bops (os : list bop) (held : list bfun) : list bfun := fold_left spec_bop os held.
