(** Set operations on ZBDDs: src/zbdd.cc, src/zbdd.h.
    A vertex is the tree it spells; two vertices have equal ids iff the trees are equal (the
    unique table hands out one live vertex per index, high and low; C11 is about that table).
    [order], [module] and [coherent] of a node are functions of its index (they are copied from
    the variable or the gate); [counted] is the negation of MayBeUnity, zbdd.cc:701-714.
    The mutable [minimal] flags and the computation tables are the state.
    None: an assertion fails, or the recursion is deeper than the bound computed from the orders
    of the arguments (the theorems show that neither happens). *)
From Coq Require Import List ZArith Lia Bool.
Import ListNotations.
Open Scope Z_scope.

Inductive zt := ZE | ZB | ZN (i : Z) (h l : zt).
Fixpoint zeqb (a b : zt) : bool :=
  match a, b with
  | ZE, ZE | ZB, ZB => true
  | ZN i h l, ZN j h' l' => (i =? j) && zeqb h h' && zeqb l l'
  | _, _ => false
  end.
Definition terminal (t : zt) : bool := match t with ZN _ _ _ => false | _ => true end.
Definition is_empty (t : zt) : bool := match t with ZE => true | _ => false end.
Definition is_base (t : zt) : bool := match t with ZB => true | _ => false end.

Record state := mkS {
  flags : list zt;                       (* SetNode::minimal_ *)
  t_and : list (zt * zt * Z * zt); t_or : list (zt * zt * Z * zt);   (* and_table_, or_table_ *)
  t_min : list (zt * zt);                (* minimal_results_ *)
  t_sub : list (zt * zt * zt);           (* subsume_table_ *)
  t_pru : list (zt * Z * zt) }.          (* prune_results_ *)
Definition start : state := mkS [] [] [] [] [] [].
(** ClearTables, zbdd.h:527-533: the flags stay. *)
Definition clear (s : state) : state := mkS (flags s) [] [] [] [] [].
Definition minimal (t : zt) (s : state) : bool := existsb (zeqb t) (flags s).
Definition set_minimal (t : zt) (b : bool) (s : state) : state :=
  let l := filter (fun x => negb (zeqb t x)) (flags s) in
  mkS (if b then t :: l else l) (t_and s) (t_or s) (t_min s) (t_sub s) (t_pru s).
Definition put_and f g k r s := mkS (flags s) ((f, g, k, r) :: t_and s) (t_or s) (t_min s) (t_sub s) (t_pru s).
Definition put_or f g k r s := mkS (flags s) (t_and s) ((f, g, k, r) :: t_or s) (t_min s) (t_sub s) (t_pru s).
Definition put_min t r s := mkS (flags s) (t_and s) (t_or s) ((t, r) :: t_min s) (t_sub s) (t_pru s).
Definition put_sub h l r s := mkS (flags s) (t_and s) (t_or s) (t_min s) ((h, l, r) :: t_sub s) (t_pru s).
Definition put_pru t k r s := mkS (flags s) (t_and s) (t_or s) (t_min s) (t_sub s) ((t, k, r) :: t_pru s).
(** GetResultKey, zbdd.cc:372-382: the key does not depend on the order of the arguments. *)
Definition same_key (f g : zt) (k : Z) (e : zt * zt * Z * zt) : bool :=
  let '(f', g', k', _) := e in (k =? k') && (zeqb f f' && zeqb g g' || zeqb f g' && zeqb g f').
Definition find_apply (f g : zt) (k : Z) (l : list (zt * zt * Z * zt)) : option zt := option_map snd (find (same_key f g k) l).
Definition find_min (t : zt) (l : list (zt * zt)) : option zt := option_map snd (find (fun e => zeqb t (fst e)) l).
Definition find_sub (h l : zt) (x : list (zt * zt * zt)) : option zt :=
  option_map snd (find (fun e => zeqb h (fst (fst e)) && zeqb l (snd (fst e))) x).
Definition find_pru (t : zt) (k : Z) (x : list (zt * Z * zt)) : option zt :=
  option_map snd (find (fun e => zeqb t (fst (fst e)) && (k =? snd (fst e))) x).

Definition M (A : Type) := state -> option (A * state).
Definition ret {A} (a : A) : M A := fun s => Some (a, s).
Definition bind {A B} (m : M A) (f : A -> M B) : M B := fun s => match m s with Some (a, s) => f a s | None => None end.
Definition get : M state := fun s => Some (s, s).
Definition modify (f : state -> state) : M unit := fun s => Some (tt, f s).
Definition check (b : bool) : M unit := fun s => if b then Some (tt, s) else None.
Notation "x <- m ;; k" := (bind m (fun x => k)) (at level 63, m at next level, right associativity).
Notation "m ;;; k" := (bind m (fun _ => k)) (at level 63, right associativity).

Section Ops.
Context (ord : Z -> Z) (top : Z) (counted : Z -> bool).

Definition cost (i : Z) : Z := if counted i then 1 else 0.
(** SetNode::max_set_order_, computed in FindOrAddVertex, zbdd.cc:210-214. *)
Fixpoint max_set_order (t : zt) : Z :=
  match t with ZN i h l => Z.max (max_set_order h + cost i) (max_set_order l) | _ => 0 end.
(** FindOrAddVertex(node, high, low), zbdd.cc:198-226. *)
Definition node (i : Z) (h l : zt) : M zt := check (negb (zeqb h l)) ;;; ret (ZN i h l).
(** GetReducedVertex, zbdd.cc:234-260. *)
Definition reduced (i : Z) (h l : zt) : zt :=
  if zeqb h l then l else if is_empty h then l else if is_base l then l else ZN i h l.
(** A literal after another one: larger order, or the complement of the same variable. *)
Definition beforeb (i j : Z) : bool := (ord i <? ord j) || (ord i =? ord j) && (j <? i).
(** Bound on the recursion depth. *)
Definition rk (i : Z) : nat := Z.to_nat (2 * (top - ord i) + (if 0 <? i then 2 else 1)).
Definition level (t : zt) : nat := match t with ZN i _ _ => rk i | _ => 0%nat end.

(** Subsume, zbdd.cc:635-677. *)
Fixpoint subsume_f (fuel : nat) (h l : zt) : M zt :=
  match fuel with
  | O => fun _ => None
  | S fuel =>
      match l, h with
      | ZB, _ => ret ZE
      | ZE, _ => ret h
      | _, ZE | _, ZB => ret h
      | ZN li lh ll, ZN hi hh hl =>
          s <- get ;;
          match find_sub h l (t_sub s) with
          | Some r => ret r
          | None =>
              if beforeb li hi then r <- subsume_f fuel h ll ;; modify (put_sub h l r) ;;; ret r
              else
                sh <- (if hi =? li then x <- subsume_f fuel hh lh ;; subsume_f fuel x ll else subsume_f fuel hh l) ;;
                sl <- (if hi =? li then subsume_f fuel hl ll else subsume_f fuel hl l) ;;
                if is_empty sh then modify (put_sub h l sl) ;;; ret sl
                else
                  r <- node hi sh sl ;;
                  s <- get ;;
                  modify (set_minimal r (minimal h s)) ;;; modify (put_sub h l r) ;;; ret r
          end
      end
  end.
Definition subsume (h l : zt) : M zt := subsume_f (S (level h + level l)) h l.

(** Minimize, zbdd.cc:613-633. *)
Fixpoint minimize_f (fuel : nat) (t : zt) : M zt :=
  match fuel with
  | O => fun _ => None
  | S fuel =>
      match t with
      | ZN i h l =>
          s <- get ;;
          if minimal t s then ret t
          else match find_min t (t_min s) with
          | Some r => ret r
          | None =>
              h' <- minimize_f fuel h ;;
              l' <- minimize_f fuel l ;;
              sh <- subsume h' l' ;;
              check (negb (zeqb sh l')) ;;;
              if is_empty sh then modify (put_min t l') ;;; ret l'
              else r <- node i sh l' ;; modify (set_minimal r true) ;;; modify (put_min t r) ;;; ret r
          end
      | _ => ret t
      end
  end.
Definition minimize (t : zt) : M zt := minimize_f (S (level t)) t.

(** Prune, zbdd.cc:679-699. *)
Fixpoint prune_f (fuel : nat) (t : zt) (k : Z) : M zt :=
  match fuel with
  | O => fun _ => None
  | S fuel =>
      if k <? 0 then ret ZE
      else match t with
      | ZN i h l =>
          if max_set_order t <=? k then ret t
          else
            s <- get ;;
            match find_pru t k (t_pru s) with
            | Some r => ret r
            | None =>
                h' <- prune_f fuel h (k - cost i) ;;
                l' <- prune_f fuel l k ;;
                let r := reduced i h' l' in
                s <- get ;;
                (if terminal r then ret tt else modify (set_minimal r (minimal t s))) ;;;
                modify (put_pru t k r) ;;; ret r
            end
      | _ => ret t
      end
  end.
Definition prune (t : zt) (k : Z) : M zt := prune_f (S (level t)) t k.

(** zbdd.cc:424-427, 492-495: a complement of the branching variable is dropped. *)
Definition strip (i : Z) (h : zt) : M zt :=
  match h with
  | ZN j _ hl => if ord j =? ord i then check (j <? i) ;;; ret hl else ret h
  | _ => ret h
  end.
Definition within_limit (r : zt) (k : Z) : bool := terminal r || (max_set_order r <=? k).

(** Apply<kOr>, zbdd.cc:471-535. *)
Fixpoint or_f (fuel : nat) (f g : zt) (k : Z) : M zt :=
  match fuel with
  | O => fun _ => None
  | S fuel =>
      if k <? 0 then ret ZE
      else match f, g with
      | ZB, _ => ret ZB
      | ZE, _ => prune g k
      | _, ZB => ret ZB
      | _, ZE => prune f k
      | ZN i0 _ _, ZN j0 _ _ =>
          if zeqb f g then prune f k
          else
            s <- get ;;
            match find_apply f g k (t_or s) with
            | Some r => ret r
            | None =>
                let '(one, two) := if beforeb j0 i0 then (g, f) else (f, g) in
                match one, two with
                | ZN i fh fl, ZN j gh gl =>
                    let kh := k - cost i in
                    r <- (if (ord i =? ord j) && negb (i =? j) && terminal fh && terminal gh then ret ZB
                          else
                            h <- (if i =? j then or_f fuel fh gh kh else prune fh kh) ;;
                            l <- (if i =? j then or_f fuel fl gl k else or_f fuel fl two k) ;;
                            h <- strip i h ;;
                            minimize (reduced i h l)) ;;
                    check (within_limit r k) ;;; modify (put_or f g k r) ;;; ret r
                | _, _ => fun _ => None
                end
            end
      end
  end.
Definition apply_or (f g : zt) (k : Z) : M zt := or_f (S (Nat.max (level f) (level g))) f g k.

(** Apply<kAnd>, zbdd.cc:397-467. *)
Fixpoint and_f (fuel : nat) (f g : zt) (k : Z) : M zt :=
  match fuel with
  | O => fun _ => None
  | S fuel =>
      if k <? 0 then ret ZE
      else match f, g with
      | ZB, _ => prune g k
      | ZE, _ => ret ZE
      | _, ZB => prune f k
      | _, ZE => ret ZE
      | ZN i0 _ _, ZN j0 _ _ =>
          if zeqb f g then prune f k
          else
            s <- get ;;
            match find_apply f g k (t_and s) with
            | Some r => ret r
            | None =>
                let '(one, two) := if beforeb j0 i0 then (g, f) else (f, g) in
                match one, two with
                | ZN i fh fl, ZN j gh gl =>
                    let kh := k - cost i in
                    h <- (if i =? j then
                            x <- apply_or gh gl kh ;;
                            y <- and_f fuel fh x kh ;;
                            z <- and_f fuel fl gh kh ;;
                            apply_or y z kh
                          else if ord i =? ord j then and_f fuel fh gl kh
                          else and_f fuel fh two kh) ;;
                    l <- (if i =? j then and_f fuel fl gl k else and_f fuel fl two k) ;;
                    h <- strip i h ;;
                    r <- minimize (reduced i h l) ;;
                    check (within_limit r k) ;;; modify (put_and f g k r) ;;; ret r
                | _, _ => fun _ => None
                end
            end
      end
  end.
Definition apply_and (f g : zt) (k : Z) : M zt := and_f (S (Nat.max (level f) (level g))) f g k.

(** EliminateComplements, EliminateComplement, zbdd.cc:546-572.  [wide] tells which negative
    literals are kept (a complemented non-coherent module); the memo table of the traversal only
    shares the results of equal subtrees. *)
Context (wide : Z -> bool) (limit : Z).
Fixpoint eliminate_complements (t : zt) : M zt :=
  match t with
  | ZN i h l =>
      h' <- eliminate_complements h ;;
      l' <- eliminate_complements l ;;
      if (i <? 0) && negb (wide i) then apply_or h' l' limit
      else minimize (reduced i h' l')
  | _ => ret t
  end.
(** EliminateConstantModules, zbdd.cc:574-611: [const i] is the value of the module if its
    family is terminal. *)
Context (const : Z -> option bool).
Fixpoint eliminate_constants (t : zt) : M zt :=
  match t with
  | ZN i h l =>
      h' <- eliminate_constants h ;;
      l' <- eliminate_constants l ;;
      match const i with
      | Some false => ret l'
      | Some true => apply_or h' l' limit
      | None => minimize (reduced i h' l')
      end
  | _ => ret t
  end.
End Ops.

(** ** Specification *)
(** The family of products (literals are listed in the order of the diagram). *)
Fixpoint fam (t : zt) : list (list Z) :=
  match t with ZE => [] | ZB => [[]] | ZN i h l => map (cons i) (fam h) ++ fam l end.
(** No product contains another one. *)
Definition antichain (t : zt) : Prop := forall p q, In p (fam t) -> In q (fam t) -> incl p q -> p = q.
(** Does a set of literals contain a product? *)
Fixpoint ev (v : Z -> bool) (t : zt) : bool :=
  match t with ZE => false | ZB => true | ZN i h l => v i && ev v h || ev v l end.
(** Truth assignments to literals *)
Definition assignment (v : Z -> bool) : Prop := forall i, i <> 0 -> v (- i) = negb (v i).
Definition consistent (s : list Z) : Prop := forall i, In i s -> ~ In (- i) s.
Definition mem (s : list Z) (i : Z) : bool := existsb (Z.eqb i) s.
(** The order of a product: the literals that count. *)
Definition size (counted : Z -> bool) (s : list Z) : Z := Z.of_nat (length (filter counted s)).
(** Diagrams: ordered and reduced. *)
Definition before (ord : Z -> Z) (i j : Z) : Prop := ord i < ord j \/ ord i = ord j /\ j < i.
Fixpoint wf (ord : Z -> Z) (top : Z) (t : zt) : Prop :=
  match t with
  | ZN i h l =>
      i <> 0 /\ ord i <= top /\ h <> ZE /\ l <> ZB /\ h <> l /\
      (match h with ZN j _ _ => ord i < ord j | _ => True end) /\
      (match l with ZN j _ _ => before ord i j | _ => True end) /\ wf ord top h /\ wf ord top l
  | _ => True
  end.
(** Orders belong to variables, one each. *)
Definition ordering (ord : Z -> Z) : Prop :=
  forall i j, i <> 0 -> j <> 0 -> (ord i = ord j <-> i = j \/ i = - j).
