(** Model of the incremental dataflow operators in
    /repo/core/src/runtime/dynamic/dataflow/ and of
    [build_dynamic_dataflow] (dynamic/iteration.rs 323-462). *)
From Coq Require Import List Arith Bool.
From Verif Require Import Order Value Prov ListAux SortedCol Schedulers Relation.
Import ListNotations.
Set Implicit Arguments.

(** /repo/core/src/compiler/ram/ast.rs 227-262 [enum Dataflow], with the
    following representation choices.
    - Relation names are numbers.
    - An [Expr] is represented by its evaluation function ([runtime.eval]);
      expressions themselves are modelled in Expr.v.
    - The tuple type of [Unit] is represented by its unit tuple.
    - Foreign predicates are pure functions returning already tagged results
      ([tagging_optional_fn] may allocate fresh ids in Rust; not modelled).
    - [DJoinIV] carries the lookup function of the indexed vector.
    - [DReduce] carries the elements computed by the aggregator from the
      (completed) input collections; aggregators are modelled in Aggregate.v.
    - [Exclusion] is not modelled. *)
Inductive dflow (P : Prov) : Type :=
| DUnit (u : tuple)
| DVec (ts : list tuple)
| DRel (r : nat)
| DOverwrite (d : dflow P)
| DFilter (d : dflow P) (p : tuple -> bool)
| DProject (d : dflow P) (f : tuple -> option tuple)
| DFind (d : dflow P) (k : tuple)
| DSorted (d : dflow P)
| DInter (d1 d2 : dflow P)
| DJoin (d1 d2 : dflow P)
| DProd (d1 d2 : dflow P)
| DUnion (d1 d2 : dflow P)
| DDiff (d1 d2 : dflow P)
| DAnti (d1 d2 : dflow P)
| DJoinIV (d : dflow P) (get : tuple -> option (tuple * ptag P))
| DGround (es : list (elem P))
| DConstraint (d : dflow P) (fp : tuple -> option (ptag P))
| DFpJoin (d : dflow P) (fp : tuple -> list (elem P))
| DReduce (es : list (elem P)).
Arguments DUnit {P}. Arguments DVec {P}. Arguments DRel {P}.

(** What a dataflow is evaluated against: the input collections (in the order
    their iterators yield), the relation states, and whether this is the first
    iteration. *)
Record denv (P : Prov) := mkEnv {
  e_first : bool;
  e_col : nat -> option (list (elem P));
  e_rel : nat -> relation P
}.
Arguments mkEnv {P}.

Section Ops.
  Variable P : Prov.
  Notation elem := (elem P).

  (** A batch: whether its [search_until] gallops (only batches of dynamic
      relations do, dynamic_relation.rs 90-97 and 138-144; everything else uses
      the default of batching/batch.rs 19-21) and its elements. *)
  Definition batch := (bool * list elem)%type.

  (** Advance past the current element (the head of [l]) by [search_until] for
      the predicate [lt] ("strictly before the target"). Positions are relative to
      the current element, so [elem_id] is 1. *)
  Definition advance (gal : bool) (lt : elem -> bool) (l : list elem) : list elem :=
    if gal then match search_ahead l 1 lt with Some n => skipn n l | None => [] end
    else tl l.

  (** find.rs 52-71.  An element without first component ([tuple[0]] panics) is
      skipped. *)
  Fixpoint find_batch (k : tuple) (l : list elem) : list elem :=
    match l with
    | [] => []
    | e :: r =>
        match tnth (fst e) 0 with
        | None => find_batch k r
        | Some k' => match tcmp k' k with
                     | Lt => find_batch k r
                     | Eq => e :: find_batch k r
                     | Gt => []
                     end
        end
    end.

  (** [take_while(|x| x.tuple[0] == key)] and the rest. *)
  Definition has_key (k : tuple) (e : elem) : bool :=
    match tnth (fst e) 0 with Some k' => teqb k' k | None => false end.
  Fixpoint take_key (k : tuple) (l : list elem) : list elem :=
    match l with
    | e :: r => if has_key k e then e :: take_key k r else []
    | [] => []
    end.
  Fixpoint drop_key (k : tuple) (l : list elem) : list elem :=
    match l with
    | e :: r => if has_key k e then drop_key k r else l
    | [] => []
    end.

  (** join.rs 89-93: the result for one pair; [None] if a component is missing
      (a panic in Rust). *)
  Definition join_pair (e1 e2 : elem) : list elem :=
    match tnth (fst e1) 0, tnth (fst e1) 1, tnth (fst e2) 1 with
    | Some k, Some x, Some y => [(TTup [k; x; y], pmult P (snd e1) (snd e2))]
    | _, _, _ => []
    end.
  (** utils/join_product.rs 18-39: [v1] outer, [v2] inner. *)
  Definition join_prod (v1 v2 : list elem) : list elem :=
    flat_map (fun e1 => flat_map (join_pair e1) v2) v1.

  (** join.rs 85-122: merge join; [search_elem_0_until] is [next_elem] because
      [DynamicBatch] does not forward it (batching/batch.rs 39-51).  Elements
      without a first component are skipped (panic in Rust). *)
  Fixpoint join_loop (fuel : nat) (l1 l2 : list elem) : list elem :=
    match fuel with
    | 0 => []
    | S f =>
        match l1, l2 with
        | e1 :: r1, e2 :: r2 =>
            match tnth (fst e1) 0, tnth (fst e2) 0 with
            | None, _ => join_loop f r1 l2
            | _, None => join_loop f l1 r2
            | Some k1, Some k2 =>
                match tcmp k1 k2 with
                | Lt => join_loop f r1 l2
                | Gt => join_loop f l1 r2
                | Eq => join_prod (take_key k1 l1) (take_key k1 l2)
                        ++ join_loop f (drop_key k1 l1) (drop_key k1 l2)
                end
            end
        | _, _ => []
        end
    end.
  Definition join_batch (b1 b2 : batch) : batch :=
    (false, join_loop (length (snd b1) + length (snd b2)) (snd b1) (snd b2)).

  (** intersect.rs 80-102. *)
  Fixpoint inter_loop (fuel : nat) (g1 g2 : bool) (l1 l2 : list elem) : list elem :=
    match fuel with
    | 0 => []
    | S f =>
        match l1, l2 with
        | e1 :: r1, e2 :: r2 =>
            match tcmp (fst e1) (fst e2) with
            | Lt => inter_loop f g1 g2 (advance g1 (fun x => tltb (fst x) (fst e2)) l1) l2
            | Eq => (fst e1, pmult P (snd e1) (snd e2)) :: inter_loop f g1 g2 r1 r2
            | Gt => inter_loop f g1 g2 l1 (advance g2 (fun x => tltb (fst x) (fst e1)) l2)
            end
        | _, _ => []
        end
    end.
  Definition inter_batch (b1 b2 : batch) : batch :=
    (false, inter_loop (length (snd b1) + length (snd b2)) (fst b1) (fst b2) (snd b1) (snd b2)).

  (** product.rs 80-96. *)
  Definition prod_batch (b1 b2 : batch) : batch :=
    (false, flat_map (fun e1 => map (fun e2 : elem => (TTup [fst e1; fst e2], pmult P (snd e1) (snd e2))) (snd b2))
                     (snd b1)).

  (** difference.rs 75-109. *)
  Fixpoint diff_loop (fuel : nat) (g2 : bool) (l1 l2 : list elem) : list elem :=
    match fuel with
    | 0 => []
    | S f =>
        match l1, l2 with
        | e1 :: r1, e2 :: r2 =>
            match tcmp (fst e1) (fst e2) with
            | Lt => e1 :: diff_loop f g2 r1 l2
            | Eq => match pminus P (snd e1) (snd e2) with
                    | Some g => (fst e1, g) :: diff_loop f g2 r1 r2
                    | None => diff_loop f g2 r1 r2
                    end
            | Gt => diff_loop f g2 l1 (advance g2 (fun x => tltb (fst x) (fst e1)) l2)
            end
        | e1 :: r1, [] => e1 :: diff_loop f g2 r1 []
        | [], _ => []
        end
    end.
  Definition diff_batch (b1 b2 : batch) : batch :=
    (false, diff_loop (length (snd b1) + length (snd b2)) (fst b2) (snd b1) (snd b2)).

  (** antijoin.rs 84-91: the group [v1] against the single element [e2]. *)
  Definition anti_prod (v1 : list elem) (e2 : elem) : list elem :=
    flat_map (fun e1 : elem => match pminus P (snd e1) (snd e2) with
                        | Some g => [(fst e1, g)]
                        | None => []
                        end) v1.
  (** antijoin.rs 80-127. An element without first component is passed through (in
      Rust this is a panic unless the right side is exhausted). *)
  Fixpoint anti_loop (fuel : nat) (g2 : bool) (l1 l2 : list elem) : list elem :=
    match fuel with
    | 0 => []
    | S f =>
        match l1, l2 with
        | e1 :: r1, e2 :: r2 =>
            match tnth (fst e1) 0 with
            | None => e1 :: anti_loop f g2 r1 l2
            | Some k1 =>
                match tcmp k1 (fst e2) with
                | Lt => e1 :: anti_loop f g2 r1 l2
                | Eq => anti_prod (take_key k1 l1) e2 ++ anti_loop f g2 (drop_key k1 l1) r2
                | Gt => anti_loop f g2 l1 (advance g2 (fun x => tltb (fst x) k1) l2)
                end
            end
        | e1 :: r1, [] => e1 :: anti_loop f g2 r1 []
        | [], _ => []
        end
    end.
  Definition anti_batch (b1 b2 : batch) : batch :=
    (false, anti_loop (length (snd b1) + length (snd b2)) (fst b2) (snd b1) (snd b2)).

  (** join_indexed_vec.rs 80-92; [get] is given the key. *)
  Definition joiv_elem (get : tuple -> option (tuple * ptag P)) (e : elem) : list elem :=
    match tnth (fst e) 0, tnth (fst e) 1 with
    | Some k, Some x => match get k with
                        | Some (tl, g) => [(TTup [k; x; tl], pmult P (snd e) g)]
                        | None => []
                        end
    | _, _ => []
    end.

  (** filter.rs, project.rs, overwrite_one.rs, foreign_predicate/constraint.rs
      89-124, foreign_predicate/join.rs: element-wise operators. *)
  Definition proj_elem (f : tuple -> option tuple) (e : elem) : list elem :=
    match f (fst e) with Some t => [(t, snd e)] | None => [] end.
  Definition constr_elem (fp : tuple -> option (ptag P)) (e : elem) : list elem :=
    match fp (fst e) with Some g => [(fst e, pmult P (snd e) g)] | None => [] end.
  Definition fpjoin_elem (fp : tuple -> list elem) (e : elem) : list elem :=
    map (fun r : elem => (TTup [fst e; fst r], pmult P (snd e) (snd r))) (fp (fst e)).

  (** batching/batches.rs [DynamicBatchesUnary]. *)
  Definition unary (op : list elem -> list elem) (bs : list batch) : list batch :=
    map (fun b : batch => (false, op (snd b))) bs.
  (** batching/batches.rs [DynamicBatchesBinary]: [b1] outer. *)
  Definition binary (op : batch -> batch -> batch) (bs1 bs2 : list batch) : list batch :=
    flat_map (fun b1 => map (op b1) bs2) bs1.
  Definition binary_recent (op : batch -> batch -> batch) (s1 r1 s2 r2 : list batch) : list batch :=
    binary op s1 r2 ++ binary op r1 s2 ++ binary op r1 r2.

  (** iteration.rs 323-462 with the [iter_stable]/[iter_recent] of each operator.
      Result: (stable batches, recent batches). *)
  Fixpoint iters (v : denv P) (d : dflow P) : list batch * list batch :=
    match d with
    | DUnit u => if e_first v then ([], [(false, [(u, pone P)])]) else ([(false, [(u, pone P)])], [])
    | DVec ts => ([], [(false, map (fun t => (t, pone P)) ts)])
    | DRel r =>
        match e_col v r with
        | Some c => if e_first v then ([], [(false, c)]) else ([(false, c)], [])
        | None => (map (fun b => (true, b)) (stable (e_rel v r)), [(true, recent (e_rel v r))])
        end
    | DOverwrite d =>
        let '(s, r) := iters v d in
        let op := map (fun e : elem => (fst e, pone P)) in (unary op s, unary op r)
    | DFilter d p =>
        let '(s, r) := iters v d in
        let op := filter (fun e : elem => p (fst e)) in (unary op s, unary op r)
    | DProject d f =>
        let '(s, r) := iters v d in
        let op := flat_map (proj_elem f) in (unary op s, unary op r)
    | DFind d k =>
        let '(s, r) := iters v d in (unary (find_batch k) s, unary (find_batch k) r)
    | DSorted d =>
        let '(s, r) := iters v d in (unary (@ssort P) s, unary (@ssort P) r)
    | DInter d1 d2 =>
        let '(s1, r1) := iters v d1 in let '(s2, r2) := iters v d2 in
        (binary inter_batch s1 s2, binary_recent inter_batch s1 r1 s2 r2)
    | DJoin d1 d2 =>
        let '(s1, r1) := iters v d1 in let '(s2, r2) := iters v d2 in
        (binary join_batch s1 s2, binary_recent join_batch s1 r1 s2 r2)
    | DProd d1 d2 =>
        let '(s1, r1) := iters v d1 in let '(s2, r2) := iters v d2 in
        (binary prod_batch s1 s2, binary_recent prod_batch s1 r1 s2 r2)
    | DUnion d1 d2 =>
        let '(s1, r1) := iters v d1 in let '(s2, r2) := iters v d2 in (s1 ++ s2, r1 ++ r2)
    | DDiff d1 d2 =>
        let '(s1, r1) := iters v d1 in let '(s2, r2) := iters v d2 in
        ([], binary_recent diff_batch s1 r1 s2 r2)
    | DAnti d1 d2 =>
        let '(s1, r1) := iters v d1 in let '(s2, r2) := iters v d2 in
        ([], binary_recent anti_batch s1 r1 s2 r2)
    | DJoinIV d get =>
        let '(s, r) := iters v d in
        (unary (flat_map (joiv_elem get)) s, unary (flat_map (joiv_elem get)) r)
    | DGround es => if e_first v then ([], [(false, es)]) else ([(false, es)], [])
    | DConstraint d fp =>
        let '(s, r) := iters v d in
        (unary (flat_map (constr_elem fp)) s, unary (flat_map (constr_elem fp)) r)
    | DFpJoin d fp =>
        let '(s, r) := iters v d in
        (unary (flat_map (fpjoin_elem fp)) s, unary (flat_map (fpjoin_elem fp)) r)
    | DReduce es => if e_first v then ([], [(false, es)]) else ([], [])
    end.
  Definition iter_stable (v : denv P) (d : dflow P) : list batch := fst (iters v d).
  Definition iter_recent (v : denv P) (d : dflow P) : list batch := snd (iters v d).
End Ops.
