(** Model of the passes that remove patterns: /repo/core/src/compiler/front/
    transformations/desugar_case_is.rs and desugar_destruct.rs.
    Simplifications: the relation of a functor is the functor itself; the other parts of
    formulas and expressions are those of Front.v, and aggregations are left out, as there.
    Destructors occur as arguments of atoms and of destructors; elsewhere (in operators,
    and in negated atoms) the passes leave them and later passes panic. *)
From Coq Require Import List ZArith Bool Arith.
From Verif Require Import Value Back Eval Front.
Import ListNotations.

(** ast/entity.rs 6-9 [Entity] in a case, and ast/expr.rs [DestructExpr] in an atom; the
    number of a destructor is the id of its location (desugar_destruct.rs 27), which is not
    used for an entity. *)
Inductive pat := PExpr (e : expr) | PObj (l : nat) (f : pred) (args : list pat).

(** ast/formula.rs 5-16 before these passes. *)
Inductive sform :=
| SAtom (p : pred) (l : list pat)
| SNeg (p : pred) (l : list expr)
| SCons (e : expr)
| SCase (x : var) (p : pat)
| SConj (l : list sform)
| SDisj (l : list sform).
Record srule := mkSrule { sr_head : pred * list pat; sr_body : sform }.

(** desugar_case_is.rs 42-76 and desugar_destruct.rs 55-93, the recursion on an object or
    destructor that is an argument: the variable [tmp n] for it, its sub-objects, then its
    own atom; with the next number. *)
Fixpoint pat_arg (tmp : nat -> var) (p : pat) (n : nat) : expr * list formula * nat :=
  match p with
  | PExpr e => (e, [], n)
  | PObj _ f args =>
    let '(es, fs, n1) :=
      (fix go (l : list pat) (n : nat) : list expr * list formula * nat :=
         match l with
         | [] => ([], [], n)
         | a :: l => let '(e, f1, n1) := pat_arg tmp a n in let '(es, f2, n2) := go l n1 in (e :: es, f1 ++ f2, n2)
         end) args (S n) in
    (EVar (tmp n), fs ++ [FAtom f (EVar (tmp n) :: es)], n1)
  end.
Fixpoint pat_args (tmp : nat -> var) (l : list pat) (n : nat) : list expr * list formula * nat :=
  match l with
  | [] => ([], [], n)
  | a :: l => let '(e, f1, n1) := pat_arg tmp a n in let '(es, f2, n2) := pat_args tmp l n1 in (e :: es, f1 ++ f2, n2)
  end.
(** The outermost object, whose variable is given. *)
Definition pat_root (tmp : nat -> var) (v : var) (f : pred) (args : list pat) (n : nat) : list formula * nat :=
  let '(es, fs, n1) := pat_args tmp args n in (fs ++ [FAtom f (EVar v :: es)], n1).

Section Passes.
  (** The names [adt#var#(x)#n] (desugar_case_is.rs 60), [adt#destr#var#root#l] and
      [adt#destr#var#l#n] (desugar_destruct.rs 28, 77). *)
  Variables (ct : var -> nat -> var) (dr : nat -> var) (dt : nat -> nat -> var).

  (** desugar_case_is.rs 15-40 [transform_case_is_to_formula]. *)
  Definition desugar_case (x : var) (p : pat) : formula :=
    match p with
    | PExpr e => FCons (EBin OEq (EVar x) e)
    | PObj _ f args => FConj (fst (pat_root (ct x) x f args 0))
    end.
  (** desugar_destruct.rs 19-53 [transform_atom_with_destructor_to_formula]: one counter
      for all arguments. *)
  Fixpoint destruct_args (l : list pat) (n : nat) : list expr * list formula :=
    match l with
    | [] => ([], [])
    | PExpr e :: l => let '(es, fs) := destruct_args l n in (e :: es, fs)
    | PObj i f args :: l =>
        let '(f1, n1) := pat_root (dt i) (dr i) f args n in
        let '(es, fs) := destruct_args l n1 in (EVar (dr i) :: es, f1 ++ fs)
    end.
  (** desugar_destruct.rs 15-17 [has_destruct_in_atom]. *)
  Definition has_destruct (l : list pat) : bool := existsb (fun p => match p with PObj _ _ _ => true | _ => false end) l.
  (** desugar_destruct.rs 95-110 and desugar_case_is.rs 79-86. *)
  Fixpoint desugar (f : sform) : formula :=
    match f with
    | SAtom p l =>
        let '(es, fs) := destruct_args l 0 in
        if has_destruct l then FConj (FAtom p es :: fs) else FAtom p es
    | SNeg p l => FNeg p l
    | SCons e => FCons e
    | SCase x p => desugar_case x p
    | SConj l => FConj (map desugar l)
    | SDisj l => FDisj (map desugar l)
    end.
  (** desugar_destruct.rs 112-125: destructors in the head go to the body. *)
  Definition desugar_rule (r : srule) : frule :=
    let '(p, l) := sr_head r in
    let '(es, fs) := destruct_args l 0 in
    mkFrule (FHAtom (p, es)) (if has_destruct l then FConj (desugar (sr_body r) :: fs) else desugar (sr_body r)).
End Passes.
