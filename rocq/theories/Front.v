(** Model of the front end of the compiler, from formulas to back-IR rules:
    /repo/core/src/compiler/front/ast/{expr,formula,rule}.rs, transformations/
    {implies_to_disjunction,conjunctive_head,non_constant_fact_to_rule,atomic_query,
    desugar_range}.rs, analyzers/boundness/context.rs and f2b/{f2b,flatten_expr}.rs. *)
From Coq Require Import List ZArith Bool Arith.
From Verif Require Import Value Back Eval.
Import ListNotations.

(** ast/expr.rs 6-16 [Expr].  A variable is its name with the type inferred for it
    in the rule; constants are values of the inferred type (flatten_expr.rs 510-517);
    destructors, which desugar_destruct.rs removes, are left out. *)
Inductive expr :=
| EVar (v : var)
| EWild
| EConst (c : value)
| EBin (op : binop) (a b : expr)
| EUn (op : unop) (a : expr)
| EIte (c a b : expr)
| ECall (f : nat) (l : list expr)
| ENew (f : pred) (l : list expr).

(** ast/formula.rs 5-16 [Formula], without [Case], aggregations and ranges.  The
    predicate of an atom is its formatted name (61-72), with type arguments. *)
Inductive formula :=
| FAtom (p : pred) (l : list expr)
| FNeg (p : pred) (l : list expr)
| FCons (e : expr)
| FConj (l : list formula)
| FDisj (l : list formula)
| FImp (a b : formula).

(** ast/rule.rs [RuleHead], [Rule]; a disjunction is not empty. *)
Definition fatom := (pred * list expr)%type.
Inductive fhead := FHAtom (a : fatom) | FHConj (l : list fatom) | FHDisj (a : fatom) (l : list fatom).
Record frule := mkFrule { fr_head : fhead; fr_body : formula }.

(** All results, or the first panic. *)
Fixpoint oall {A} (l : list (option A)) : option (list A) :=
  match l with
  | [] => Some []
  | x :: l => obnd x (fun x => obnd (oall l) (fun l => Some (x :: l)))
  end.

(** ** Negation and implication *)
(** ast/formula.rs 19-43 [negate]; [None] is the panic: negating a constraint is
    not implemented (131-133). *)
Fixpoint negate (f : formula) : option formula :=
  match f with
  | FAtom p l => Some (FNeg p l)
  | FNeg p l => Some (FAtom p l)
  | FCons _ => None
  | FDisj l => obnd (oall (map negate l)) (fun l => Some (FConj l))
  | FConj l => obnd (oall (map negate l)) (fun l => Some (FDisj l))
  | FImp a b => obnd (negate b) (fun b => Some (FConj [a; b]))
  end.

Fixpoint fsize (f : formula) : nat :=
  match f with
  | FConj l | FDisj l => S (list_sum (map fsize l))
  | FImp a b => S (S (fsize a + fsize b))
  | _ => 1
  end.

(** transformations/implies_to_disjunction.rs 9-22: the walk rewrites a node
    before it goes on to the children of the result.  [None]: a panic, or out of
    fuel; [fsize] is enough. *)
Fixpoint implies_walk (fuel : nat) (f : formula) : option formula :=
  match fuel with
  | 0 => None
  | S fuel =>
      match f with
      | FImp a b => obnd (negate a) (fun a => obnd (implies_walk fuel a) (fun a => obnd (implies_walk fuel b) (fun b => Some (FDisj [a; b]))))
      | FConj l => obnd (oall (map (implies_walk fuel) l)) (fun l => Some (FConj l))
      | FDisj l => obnd (oall (map (implies_walk fuel) l)) (fun l => Some (FDisj l))
      | _ => Some f
      end
  end.
Definition transform_implies (f : formula) : option formula := implies_walk (fsize f) f.

(** transformations/conjunctive_head.rs 37-58, with transform.rs 63-97: the rule is
    replaced by one rule per atom with a copy of the body.  The copies are made
    before the walk reaches the body, and the walk does not visit them. *)
Definition split_heads (r : frule) : list frule :=
  match fr_head r with
  | FHConj l => map (fun a => mkFrule (FHAtom a) (fr_body r)) l
  | _ => [r]
  end.
(** The rules that the passes make from one rule; [None] is a panic. *)
Definition apply_transformations (r : frule) : option (list frule) :=
  match fr_head r with
  | FHConj l => Some (split_heads r)
  | _ => obnd (transform_implies (fr_body r)) (fun b => Some [mkFrule (fr_head r) b])
  end.

(** ** Disjunctive normal form *)
(** analyzers/boundness/context.rs 115-120 [ConjunctionContext], without
    aggregations. *)
Record cctx := mkConj { c_pos : list formula; c_neg : list formula }.
(** context.rs 123-129 [join]. *)
Definition conj_join (l : list cctx) : cctx :=
  fold_left (fun a c => mkConj (c_pos a ++ c_pos c) (c_neg a ++ c_neg c)) l (mkConj [] []).
(** itertools [multi_cartesian_product]: the last factor changes fastest; no factor
    gives nothing. *)
Fixpoint product {A} (l : list (list A)) : list (list A) :=
  match l with
  | [] => [[]]
  | c :: l => flat_map (fun x => map (cons x) (product l)) c
  end.
Definition multi_product {A} (l : list (list A)) : list (list A) :=
  match l with [] => [] | _ :: _ => product l end.
(** context.rs 56-88 [DisjunctionContext::from_formula]; [None] is the panic on
    implications. *)
Fixpoint from_formula (f : formula) : option (list cctx) :=
  match f with
  | FDisj l => obnd (oall (map from_formula l)) (fun cs => Some (concat cs))
  | FConj l => obnd (oall (map from_formula l)) (fun cs => Some (map conj_join (multi_product cs)))
  | FAtom _ _ | FCons _ => Some [mkConj [f] []]
  | FNeg _ _ => Some [mkConj [] [f]]
  | FImp _ _ => None
  end.

(** ** Flattening *)
(** common/binary_op.rs 87-93 [add_sub_inv_op]. *)
Definition add_sub_inv (op : binop) : option binop :=
  match op with OAdd => Some OSub | OSub => Some OAdd | _ => None end.
(** back/ast.rs 651-663. *)
Definition cop_of (op : binop) : option cop :=
  match op with
  | OEq => Some CEq | ONeq => Some CNeq | OGt => Some CGt | OGeq => Some CGeq | OLt => Some CLt | OLeq => Some CLeq
  | _ => None
  end.

Section Flatten.
  (** flatten_expr.rs 77-83: the variable [flat#n] or [wc#n], with the type of the
      expression; both are numbered by one allocator. *)
  Variable fr : nat -> var.

  (** flatten_expr.rs 141-158: for [left = op1 + op2] also [op1 = left - op2] and
      [op2 = left - op1]; the same with the signs exchanged for [-]. *)
  Definition inverses (left : var) (op : binop) (t1 t2 : term) : list lit :=
    match add_sub_inv op with
    | None => []
    | Some inv =>
        (match t1 with TVar v => [LAssign v (ABin inv (TVar left) t2)] | TConst _ => [] end) ++
        (match t2 with TVar v => [LAssign v (ABin inv (TVar left) t1)] | TConst _ => [] end)
    end.

  (** flatten_expr.rs 386-517 (the visits, parents first, that number the nodes) with
      85-96 [get_loc_term] and 103-255 [collect_flattened_literals]: the term, the
      literals, and the next number.  The maps from locations are replaced by the
      recursion: within a walk locations are different. *)
  Fixpoint flat (e : expr) (n : nat) : term * list lit * nat :=
    match e with
    | EVar v => (TVar v, [], n)
    | EWild => (TVar (fr n), [], S n)
    | EConst c => (TConst c, [], n)
    | EBin op a b =>
        let '(ta, la, n1) := flat a (S n) in
        let '(tb, lb, n2) := flat b n1 in
        (TVar (fr n), LAssign (fr n) (ABin op ta tb) :: inverses (fr n) op ta tb ++ la ++ lb, n2)
    | EUn op a =>
        let '(ta, la, n1) := flat a (S n) in
        (TVar (fr n), LAssign (fr n) (AUn op ta) :: la, n1)
    | EIte c a b =>
        let '(tc, lc, n1) := flat c (S n) in
        let '(ta, la, n2) := flat a n1 in
        let '(tb, lb, n3) := flat b n2 in
        (TVar (fr n), LAssign (fr n) (AIte tc ta tb) :: lc ++ la ++ lb, n3)
    | ECall f l =>
        let '(ts, ls, n1) :=
          (fix args (l : list expr) (n : nat) : list term * list lit * nat :=
             match l with
             | [] => ([], [], n)
             | e :: l => let '(t, l1, n1) := flat e n in let '(ts, l2, n2) := args l n1 in (t :: ts, l1 ++ l2, n2)
             end) l (S n) in
        (TVar (fr n), LAssign (fr n) (ACall f ts) :: ls, n1)
    | ENew f l =>
        let '(ts, ls, n1) :=
          (fix args (l : list expr) (n : nat) : list term * list lit * nat :=
             match l with
             | [] => ([], [], n)
             | e :: l => let '(t, l1, n1) := flat e n in let '(ts, l2, n2) := args l n1 in (t :: ts, l1 ++ l2, n2)
             end) l (S n) in
        (TVar (fr n), LAssign (fr n) (ANew f ts) :: ls, n1)
    end.
  Fixpoint flat_args (l : list expr) (n : nat) : list term * list lit * nat :=
    match l with
    | [] => ([], [], n)
    | e :: l => let '(t, l1, n1) := flat e n in let '(ts, l2, n2) := flat_args l n1 in (t :: ts, l1 ++ l2, n2)
    end.

  (** flatten_expr.rs 354-369 [front_literal_to_back_literal] with 257-301 (atoms)
      and 303-352 (constraints; their top node gets no number, 380-384). *)
  Definition flat_lit (f : formula) (n : nat) : option (list lit * nat) :=
    match f with
    | FAtom p l => let '(ts, ls, n1) := flat_args l n in Some (LAtom (mkAtom p ts) :: ls, n1)
    | FNeg p l => let '(ts, ls, n1) := flat_args l n in Some (LNeg (mkAtom p ts) :: ls, n1)
    | FCons (EBin op a b) =>
        obnd (cop_of op) (fun c =>
          let '(ta, la, n1) := flat a n in
          let '(tb, lb, n2) := flat b n1 in
          Some (LBin c ta tb :: la ++ lb, n2))
    | FCons (EUn UNot a) => let '(ta, la, n1) := flat a n in Some (LNot ta :: la, n1)
    | _ => None
    end.
  (** flatten_expr.rs 371-377 [to_back_literals]. *)
  Fixpoint flat_lits (l : list formula) (n : nat) : option (list lit * nat) :=
    match l with
    | [] => Some ([], n)
    | f :: l => obnd (flat_lit f n) (fun x => obnd (flat_lits l (snd x)) (fun y => Some (fst x ++ fst y, snd y)))
    end.

  (** f2b.rs 221-262, 264-313: the head, its literals, the next number; conjunctive
      heads panic (204-206). *)
  Fixpoint flat_heads (l : list fatom) (n : nat) : list atom * list lit * nat :=
    match l with
    | [] => ([], [], n)
    | (p, es) :: l =>
        let '(ts, l1, n1) := flat_args es n in
        let '(hs, l2, n2) := flat_heads l n1 in (mkAtom p ts :: hs, l1 ++ l2, n2)
    end.
  Definition flat_head (h : fhead) : option (head * list lit * nat) :=
    match h with
    | FHAtom (p, es) => let '(ts, ls, n) := flat_args es 0 in Some (HAtom (mkAtom p ts), ls, n)
    | FHConj _ => None
    | FHDisj a l => match flat_heads (a :: l) 0 with
                    | (h :: hs, ls, n) => Some (HDisj h hs, ls, n)
                    | _ => None
                    end
    end.
  (** f2b.rs 315-378 [formula_to_back_rules]. *)
  Fixpoint conj_rules (h : head) (extra : list lit) (cs : list cctx) (n : nat) : option (list rule) :=
    match cs with
    | [] => Some []
    | c :: cs =>
        obnd (flat_lits (c_pos c) n) (fun x => obnd (flat_lits (c_neg c) (snd x)) (fun y =>
          obnd (conj_rules h extra cs (snd y)) (fun rs => Some (mkRule h (fst x ++ fst y ++ extra) :: rs))))
    end.
  (** f2b.rs 197-211 [rule_decl_to_back_rules]; the context is that of the boundness
      analysis (context.rs 14-18). *)
  Definition rule_to_back (r : frule) : option (list rule) :=
    obnd (from_formula (fr_body r)) (fun cs =>
      obnd (flat_head (fr_head r)) (fun x => let '(h, extra, n) := x in conj_rules h extra cs n)).
  (** The whole front end on one rule. *)
  Definition compile_rule (r : frule) : option (list rule) :=
    obnd (apply_transformations r) (fun rs => obnd (oall (map rule_to_back rs)) (fun l => Some (concat l))).
End Flatten.

(** ** Other passes *)
(** transformations/non_constant_fact_to_rule.rs 25-107: the arguments of a fact
    that are not constants become variables [fnc#i] with an equality each; [None]:
    all are constants, the fact is kept. *)
Definition is_econst (e : expr) : bool := match e with EConst _ => true | _ => false end.
Fixpoint fact_args (fnc : nat -> var) (i : nat) (l : list expr) : list expr * list formula :=
  match l with
  | [] => ([], [])
  | e :: l => let '(es, fs) := fact_args fnc (S i) l in
              if is_econst e then (e :: es, fs)
              else (EVar (fnc i) :: es, FCons (EBin OEq (EVar (fnc i)) e) :: fs)
  end.
Definition fact_to_rule (fnc : nat -> var) (a : fatom) : option frule :=
  let '(es, fs) := fact_args fnc 0 (snd a) in
  match fs with [] => None | _ :: _ => Some (mkFrule (FHAtom (fst a, es)) (FConj fs)) end.

(** transformations/atomic_query.rs 34-76: the rule for a query that is an atom;
    [q] is the printed query, [bare] forgets the type arguments of a predicate (50-52). *)
Fixpoint query_args (qa : nat -> var) (i : nat) (l : list expr) : list expr * list formula :=
  match l with
  | [] => ([], [])
  | e :: l => let '(es, fs) := query_args qa (S i) l in
              match e with
              | EVar _ | EConst _ => (e :: es, fs)
              | EWild => (EVar (qa i) :: es, fs)
              | _ => (EVar (qa i) :: es, FCons (EBin OEq (EVar (qa i)) e) :: fs)
              end
  end.
Definition query_rule (qa : nat -> var) (bare : pred -> pred) (q : pred) (a : fatom) : frule :=
  let '(es, fs) := query_args qa 0 (snd a) in
  mkFrule (FHAtom (q, es)) (FConj (FAtom (bare (fst a)) es :: fs)).

(** transformations/desugar_range.rs 23-55: [v in lo..hi] and [v in lo..=hi]; [rng]
    is the predicate [range<i32>]. *)
Definition desugar_range (rng : pred) (v : var) (lo hi : expr) (inclusive : bool) : formula :=
  FAtom rng [lo; if inclusive then EBin OAdd hi (EConst (I32 1)) else hi; EVar v].
