(** Model of the boundness analysis of the front end:
    /repo/core/src/compiler/front/analyzers/boundness/{local,dependency,context,
    boundness_analysis}.rs, without aggregations. *)
From Coq Require Import List Bool Arith.
From Verif Require Import Value Back Eval Scc Front.
Import ListNotations.

(** Locations of expressions: the nodes of a walk are numbered, parents first, as
    annotation.rs gives every node its own id. *)
Definition loc := nat.
(** dependency.rs 3-38 [BoundnessDependency]. *)
Inductive dep :=
| DArg (l : loc)
| DForeign (bounded free : list loc)
| DConst (l : loc)
| DBin (a b e : loc)
| DEq (a b : loc)
| DAddSub (a b e : loc)
| DUn (a e : loc)
| DIte (c a b e : loc)
| DCall (l : list loc) (e : loc).

(** What a walk collects (local.rs 8-16): dependencies, the locations of the
    variables, the locations of the constraints. *)
Record lctx := mkLctx { lc_deps : list dep; lc_vars : list (var * loc); lc_cons : list loc }.
Definition lc_empty : lctx := mkLctx [] [] [].
Definition lc_app (a b : lctx) : lctx := mkLctx (lc_deps a ++ lc_deps b) (lc_vars a ++ lc_vars b) (lc_cons a ++ lc_cons b).

Definition is_add_sub (op : binop) : bool := match op with OAdd | OSub => true | _ => false end.
(** local.rs 58-138: the visits of expressions; there is none for new entities
    and wildcards.  The node has location [n]; the result has the next number. *)
Fixpoint walk_expr (e : expr) (n : loc) : lctx * loc :=
  match e with
  | EVar v => (mkLctx [] [(v, n)] [], S n)
  | EWild => (lc_empty, S n)
  | EConst _ => (mkLctx [DConst n] [] [], S n)
  | EBin op a b =>
      let '(ca, n1) := walk_expr a (S n) in
      let '(cb, n2) := walk_expr b n1 in
      (lc_app (mkLctx [if is_add_sub op then DAddSub (S n) n1 n else DBin (S n) n1 n] [] []) (lc_app ca cb), n2)
  | EUn _ a => let '(ca, n1) := walk_expr a (S n) in (lc_app (mkLctx [DUn (S n) n] [] []) ca, n1)
  | EIte c a b =>
      let '(cc, n1) := walk_expr c (S n) in
      let '(ca, n2) := walk_expr a n1 in
      let '(cb, n3) := walk_expr b n2 in
      (lc_app (mkLctx [DIte (S n) n1 n2 n] [] []) (lc_app cc (lc_app ca cb)), n3)
  | ECall _ l =>
      let '(c, ls, n1) :=
        (fix args (l : list expr) (n : loc) : lctx * list loc * loc :=
           match l with
           | [] => (lc_empty, [], n)
           | e :: l => let '(c, n1) := walk_expr e n in let '(cs, ls, n2) := args l n1 in (lc_app c cs, n :: ls, n2)
           end) l (S n) in
      (lc_app (mkLctx [DCall ls n] [] []) c, n1)
  | ENew _ l =>
      let '(c, _, n1) :=
        (fix args (l : list expr) (n : loc) : lctx * list loc * loc :=
           match l with
           | [] => (lc_empty, [], n)
           | e :: l => let '(c, n1) := walk_expr e n in let '(cs, ls, n2) := args l n1 in (lc_app c cs, n :: ls, n2)
           end) l (S n) in
      (c, n1)
  end.
(** The arguments with their locations. *)
Fixpoint walk_args (l : list expr) (n : loc) : lctx * list loc * loc :=
  match l with
  | [] => (lc_empty, [], n)
  | e :: l => let '(c, n1) := walk_expr e n in let '(cs, ls, n2) := walk_args l n1 in (lc_app c cs, n :: ls, n2)
  end.

Section Analysis.
  (** foreign.rs: the binding patterns; the first [pe_bounded] of [arity] arguments
      are bound (common/foreign_predicate.rs 69-122, 185-187). *)
  Variables (foreign : pred -> bool) (nbound arity : pred -> nat).

  (** local.rs 18-56: atoms. *)
  Definition atom_deps (p : pred) (ls : list loc) : list dep :=
    if foreign p then (if Nat.eqb (length ls) (arity p) then [DForeign (firstn (nbound p) ls) (skipn (nbound p) ls)] else [])
    else map DArg ls.
  (** local.rs 79-97: constraints; their expression is visited next. *)
  Definition walk_formula (f : formula) (n : loc) : lctx * loc :=
    match f with
    | FAtom p l => let '(c, ls, n1) := walk_args l n in (lc_app (mkLctx (atom_deps p ls) [] []) c, n1)
    | FCons e =>
        let '(c, n1) := walk_expr e n in
        let eqs := match e with EBin OEq a _ => [DEq (S n) (snd (walk_expr a (S n)))] | _ => [] end in
        (lc_app (mkLctx eqs [] [n]) c, n1)
    | _ => (lc_empty, n)
    end.
  Fixpoint walk_formulas (l : list formula) (n : loc) : lctx * loc :=
    match l with
    | [] => (lc_empty, n)
    | f :: l => let '(c, n1) := walk_formula f n in let '(cs, n2) := walk_formulas l n1 in (lc_app c cs, n2)
    end.

  (** local.rs 154-231: the set of locations that are bound; it only grows, so it is
      compared by size (the map also gets false entries, which may cost one more
      round that changes nothing). *)
  Definition has (s : list loc) (l : loc) : bool := memb l s.
  Definition add (s : list loc) (l : loc) : list loc := if memb l s then s else l :: s.
  Definition addif (b : bool) (l : loc) (s : list loc) : list loc := if b then add s l else s.
  Definition dep_step (s : list loc) (d : dep) : list loc :=
    match d with
    | DArg l | DConst l => add s l
    | DForeign b f => if forallb (has s) b then fold_left add f s else s
    | DBin a b e => addif (has s a && has s b) e s
    | DEq a b => if has s a && negb (has s b) then add s b else if negb (has s a) && has s b then add s a else s
    | DAddSub a b e =>
        if has s a && has s b && negb (has s e) then add s e
        else if has s a && negb (has s b) && has s e then add s b
        else if negb (has s a) && has s b && has s e then add s a
        else s
    | DUn a e => addif (has s a) e s
    | DIte c a b e => addif (has s c && has s a && has s b) e s
    | DCall l e => addif (forallb (has s) l) e s
    end.
  (** 223-230: every variable that is bound somewhere is bound everywhere. *)
  Definition locs_of (vl : list (var * loc)) (v : var) : list loc :=
    map snd (filter (fun x => Nat.eqb (fst x) v) vl).
  Definition var_step (vl : list (var * loc)) (s : list loc) (v : var) : list loc :=
    if existsb (has s) (locs_of vl v) then fold_left add (locs_of vl v) s else s.
  Definition variables (c : lctx) : list var := nodup Nat.eq_dec (map fst (lc_vars c)).
  Definition round (c : lctx) (s : list loc) : list loc :=
    fold_left (var_step (lc_vars c)) (variables c) (fold_left dep_step (lc_deps c) s).
  Fixpoint bound_fix (fuel : nat) (c : lctx) (s : list loc) : option (list loc) :=
    match fuel with
    | 0 => None
    | S k => let s' := round c s in if Nat.eqb (length s') (length s) then Some s' else bound_fix k c s'
    end.

  (** local.rs 233-254 with context.rs 163-198: the bound variables, or an error;
      the outer [None] is out of fuel.  The demanded expressions [bexprs] are walked
      after the body and their locations are bound from the start
      (boundness_analysis.rs 47-68). *)
  Inductive answer := Bounded (vs : list var) | Unbound.
  Definition conj_context (c : cctx) (bexprs : list expr) : lctx * list loc * loc :=
    let '(c1, n1) := walk_formulas (c_pos c) 0 in
    let '(c2, ls, n2) := walk_args bexprs n1 in (lc_app c1 c2, ls, n2).
  Definition conj_bound (c : cctx) (bexprs : list expr) : option answer :=
    let '(x, ls, n) := conj_context c bexprs in
    match bound_fix (S (S n)) x (fold_left add ls []) with
    | None => None
    | Some s => Some (if forallb (fun v => forallb (has s) (locs_of (lc_vars x) v)) (variables x) && forallb (has s) (lc_cons x)
                      then Bounded (variables x) else Unbound)
    end.
  (** context.rs 90-111: the intersection; errors come first. *)
  Fixpoint conjs_bound (cs : list cctx) (bexprs : list expr) : option (list answer) :=
    match cs with
    | [] => Some []
    | c :: cs => obnd (conj_bound c bexprs) (fun a => obnd (conjs_bound cs bexprs) (fun r => Some (a :: r)))
    end.
  Definition meet (a b : answer) : answer :=
    match a, b with Bounded x, Bounded y => Bounded (filter (fun v => memb v y) x) | _, _ => Unbound end.
  Definition disj_bound (cs : list cctx) (bexprs : list expr) : option answer :=
    obnd (conjs_bound cs bexprs) (fun l => Some (match l with [] => Bounded [] | a :: r => fold_left meet r a end)).
  (** context.rs 34-47: the variables of the head are bound. *)
  Definition ehead_vars (h : fhead) : list var :=
    let fix vs e := match e with
                    | EVar v => [v]
                    | EWild | EConst _ => []
                    | EBin _ a b => vs a ++ vs b
                    | EUn _ a => vs a
                    | EIte c a b => vs c ++ vs a ++ vs b
                    | ECall _ l | ENew _ l => flat_map vs l
                    end in
    flat_map (fun a => flat_map vs (snd a)) (match h with FHAtom a => [a] | FHConj l => l | FHDisj a l => a :: l end).
  (** boundness_analysis.rs 35-68: the head expressions that the demand pattern of
      the head predicate makes bound. *)
  Definition demanded (pattern : pred -> option (list bool)) (h : fhead) : list expr :=
    match h with
    | FHAtom (p, es) => match pattern p with
                        | Some l => map fst (filter snd (combine es l))
                        | None => [] end
    | _ => []
    end.
  Definition rule_bound (pattern : pred -> option (list bool)) (r : frule) : option bool :=
    obnd (from_formula (fr_body r)) (fun cs =>
      obnd (disj_bound cs (demanded pattern (fr_head r))) (fun a =>
        Some (match a with Bounded vs => forallb (fun v => memb v vs) (ehead_vars (fr_head r)) | Unbound => false end))).
End Analysis.
