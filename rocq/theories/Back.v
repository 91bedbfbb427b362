(** Model of the back-end IR: /repo/core/src/compiler/back/ast.rs. *)
From Coq Require Import List ZArith Bool.
From Verif Require Import Value.
Import ListNotations.

(** ast.rs 298-301 [Variable] (a name and a type): one number per
    (name, type) pair; equality of variables is equality of both. *)
Definition var := nat.
(** Predicate names, function names and functor names ([String]) are numbers. *)
Definition pred := nat.

(** ast.rs 253-256. *)
Inductive term := TVar (v : var) | TConst (c : value).

(** common/binary_op.rs 6-21. *)
Inductive binop := OAdd | OSub | OMul | ODiv | OMod | OAnd | OOr | OXor
| OEq | ONeq | OLt | OLeq | OGt | OGeq.
(** common/unary_op.rs: [Neg], [Pos], [Not], [TypeCast(type)]; the type is a
    number. *)
Inductive unop := UNeg | UPos | UNot | UCast (ty : nat).
(** ast.rs 642-649 [BinaryConstraintOp]. *)
Inductive cop := CEq | CNeq | CLt | CLeq | CGt | CGeq.
(** ast.rs 665-675 [From<&BinaryConstraintOp> for BinaryExprOp]. *)
Definition binop_of_cop (c : cop) : binop :=
  match c with CEq => OEq | CNeq => ONeq | CGt => OGt | CGeq => OGeq
             | CLt => OLt | CLeq => OLeq end.

(** ast.rs 386-389. *)
Record atom := mkAtom { a_pred : pred; a_args : list term }.
(** ast.rs 537-543. *)
Inductive aexpr :=
| ABin (op : binop) (t1 t2 : term)
| AUn (op : unop) (t : term)
| AIte (c t e : term)
| ACall (f : nat) (args : list term)
| ANew (f : pred) (args : list term).
(** ast.rs 714-736 [Reduce]; the aggregator with its parameters is one number,
    the recorded types are dropped. *)
Record reduce := mkReduce {
  rd_agg : nat;
  rd_left : list var; rd_group : list var; rd_other : list var;
  rd_arg : list var; rd_toagg : list var;
  rd_body : atom; rd_groupby : option atom }.
(** ast.rs 310-318; [UnaryConstraintOp] has the single value [Not]. *)
Inductive lit :=
| LAtom (a : atom)
| LNeg (a : atom)
| LAssign (v : var) (e : aexpr)
| LBin (c : cop) (t1 t2 : term)
| LNot (t : term)
| LReduce (r : reduce)
| LTrue
| LFalse.
(** ast.rs 156-162. *)
Inductive head := HAtom (a : atom) | HDisj (a : atom) (r : list atom).
(** ast.rs 95-99, without attributes. *)
Record rule := mkRule { r_head : head; r_body : list lit }.

(** ast.rs 169-174 [Head::predicate]; a disjunction is kept non-empty
    ([disj[0]]). *)
Definition head_pred (h : head) : pred :=
  match h with HAtom a => a_pred a | HDisj a _ => a_pred a end.
Definition head_atoms (h : head) : list atom :=
  match h with HAtom a => [a] | HDisj a r => a :: r end.
(** ast.rs 102-104. *)
Definition r_pred (r : rule) : pred := head_pred (r_head r).

(** ast.rs 281-286 [as_variable]. *)
Definition tvar (t : term) : list var :=
  match t with TVar v => [v] | TConst _ => [] end.
(** ast.rs 506-533 [Assign::variable_args]. *)
Definition aexpr_vars (e : aexpr) : list var :=
  match e with
  | ABin _ a b => tvar a ++ tvar b
  | AUn _ a => tvar a
  | AIte a b c => tvar a ++ tvar b ++ tvar c
  | ACall _ l | ANew _ l => flat_map tvar l
  end.
(** ast.rs 773-779 [Reduce::variable_args]. *)
Definition reduce_vars (r : reduce) : list var :=
  rd_left r ++ rd_arg r ++ rd_group r.

(** ast.rs 114-122 [collect_new_expr_functors]. *)
Definition new_functors (r : rule) : list pred :=
  flat_map (fun l => match l with LAssign _ (ANew f _) => [f] | _ => [] end) (r_body r).

(** The parts of the registries that the dependency graph looks at:
    whether a predicate is foreign, whether a foreign predicate has a free
    argument of type [Entity], whether a foreign function returns [Entity],
    and the relations of the ADT variants. *)
Record registry := mkReg {
  g_foreign : pred -> bool;
  g_fp_entity : pred -> bool;
  g_fn_entity : nat -> bool;
  g_adts : list pred }.

(** ast.rs 124-152 [needs_dynamically_parse_entity]. *)
Definition needs_dyn_entity (g : registry) (r : rule) : bool :=
  existsb (fun l => match l with
                    | LAtom a => g_foreign g (a_pred a) && g_fp_entity g (a_pred a)
                    | LAssign _ (ACall f _) => g_fn_entity g f
                    | _ => false
                    end) (r_body r).

(** ast.rs 67-78 [Fact], [Relation]: a fact without its tag; a relation is its
    predicate and whether it has the goal attribute. *)
Record fact := mkFact { f_pred : pred; f_args : list value }.
Record brel := mkRel { b_pred : pred; b_goal : bool }.

(** ast.rs 22-32 [Program], with [outputs] already filtered by
    [output_relations] (compile.rs 115-121); disjunctive facts, which only
    differ in their tags, are among the facts. *)
Record program := mkProg {
  p_rels : list brel; p_outputs : list pred; p_facts : list fact;
  p_rules : list rule; p_reg : registry }.
