(** Specification: well-typed rules.  Types of expressions are given by location, types
    of variables and of the arguments of relations by name.  Nothing here mentions sets
    of types, unification or rounds. *)
From Coq Require Import List ZArith Bool.
From Verif Require Import Back TypeSet Infer PropsTypeSet.
Import ListNotations.

Definition number_type (t : vtype) : Prop := In t signed_types \/ In t unsigned_types \/ In t float_types.
(** The types of the operands and of the result of a binary operation. *)
Definition bin_typed (op : binop) (a b e : vtype) : Prop :=
  match op with
  | OAdd => number_type a /\ b = a /\ e = a \/
      In (a, b, e) [(TString, TString, TString); (TDateTime, TDuration, TDateTime); (TDuration, TDateTime, TDateTime);
        (TDuration, TDuration, TDuration); (TTensor, TTensor, TTensor); (TTensor, TF64, TTensor); (TF64, TTensor, TTensor)]
  | OSub => number_type a /\ b = a /\ e = a \/
      In (a, b, e) [(TDateTime, TDuration, TDateTime); (TDateTime, TDateTime, TDuration); (TDuration, TDuration, TDuration);
        (TTensor, TTensor, TTensor); (TTensor, TF64, TTensor); (TF64, TTensor, TTensor)]
  | OMul => number_type a /\ b = a /\ e = a \/
      In (a, b, e) [(TDuration, TI32, TDuration); (TI32, TDuration, TDuration);
        (TTensor, TTensor, TTensor); (TTensor, TF64, TTensor); (TF64, TTensor, TTensor)]
  | ODiv => number_type a /\ b = a /\ e = a \/ (a, b, e) = (TDuration, TI32, TDuration)
  | OMod => number_type a /\ b = a /\ e = a
  | OAnd | OOr | OXor => a = TBool /\ b = TBool /\ e = TBool
  | OEq | ONeq => b = a /\ e = TBool
  | OLt | OLeq | OGt | OGeq => (number_type a \/ a = TDuration \/ a = TDateTime) /\ b = a /\ e = TBool
  end.
(** Casts: between numbers, from characters and strings to numbers and strings, between
    booleans, and from everything to [String]. *)
Definition cast_typed (a t : vtype) : Prop :=
  t = TString \/ number_type a /\ number_type t \/ a = TBool /\ t = TBool \/
  a = TChar /\ (t = TChar \/ t = TStr \/ number_type t) \/
  (a = TString \/ a = TStr) /\ (number_type t \/ t = TStr).
Definition un_typed (op : yunop) (a e : vtype) : Prop :=
  match op with
  | YNeg | YPos => number_type a /\ e = a
  | YNot => a = TBool /\ e = TBool
  | YCast t => e = t /\ cast_typed a t
  end.
(** The type of the k-th parameter of a foreign function. *)
Definition param (f : funty) (k : nat) : option argty :=
  match nth_error (fn_static f ++ fn_optional f) k with Some t => Some t | None => fn_variable f end.
(** [g] gives types to the generic parameters. *)
Definition call_typed (f : funty) (args : list vtype) (e : vtype) : Prop :=
  length (fn_static f) <= length args /\
  (fn_variable f = None -> length args <= length (fn_static f) + length (fn_optional f)) /\
  exists g : nat -> vtype,
    (forall i s, nth_error (fn_generics f) i = Some s -> member s (g i)) /\
    (forall k a, nth_error args k = Some a ->
       match param f k with
       | Some (AGeneric i) => a = g i
       | Some (ASet s) => member s a
       | None => False
       end) /\
    match fn_return f with RGeneric i => e = g i | RBase t => e = t end.

Section Typed.
Context (T : tenv) (tau : loc -> option vtype) (rho : pred -> option (list vtype)).
(** The types of the arguments of a predicate: those of the foreign ones are given. *)
Definition pred_types (p : pred) : option (list vtype) :=
  match t_pred T p with Some ts => Some ts | None => rho p end.
Section Rule.
Context (gamma : nat -> option vtype).
Fixpoint typed_expr (e : yexpr) : Prop :=
  match e with
  | YVar l v => exists t, tau l = Some t /\ gamma v = Some t
  | YWild l => True
  | YConst l c d => exists t, tau l = Some t /\ literal_type c t /\ forall t', d = Some t' -> t = t'
  | YBin l op a b => typed_expr a /\ typed_expr b /\ exists ta tb t, tau (yloc a) = Some ta /\ tau (yloc b) = Some tb /\ tau l = Some t /\
      bin_typed op ta tb t
  | YUn l op a => typed_expr a /\ exists ta t, tau (yloc a) = Some ta /\ tau l = Some t /\ un_typed op ta t
  | YIte l c a b => typed_expr c /\ typed_expr a /\ typed_expr b /\ tau (yloc c) = Some TBool /\
      exists t, tau (yloc a) = Some t /\ tau (yloc b) = Some t /\ tau l = Some t
  | YCall l f args => (fix all (l : list yexpr) := match l with [] => True | x :: l => typed_expr x /\ all l end) args /\
      exists ft ts t, t_fun T f = Some ft /\ Forall2 (fun a t => tau (yloc a) = Some t) args ts /\ tau l = Some t /\ call_typed ft ts t
  | YEnt l p args => (fix all (l : list yexpr) := match l with [] => True | x :: l => typed_expr x /\ all l end) args /\
      tau l = Some TEntity /\ exists t0 ts, rho p = Some (t0 :: ts) /\ Forall2 (fun a t => tau (yloc a) = Some t) args ts
  end.
Definition typed_atom (p : pred) (args : list yexpr) : Prop :=
  (forall a, In a args -> typed_expr a) /\
  exists ts, pred_types p = Some ts /\ length args <= length ts /\ (t_pred T p = None -> length args = length ts) /\
    forall k a, nth_error args k = Some a -> tau (yloc a) = nth_error ts k.
(** Aggregations are not covered. *)
Fixpoint typed_form (f : yform) : Prop :=
  match f with
  | YAtom p args | YNegAtom p args => typed_atom p args
  | YCons e => typed_expr e /\ tau (yloc e) = Some TBool
  | YConj l | YDisj l => (fix all (l : list yform) := match l with [] => True | x :: l => typed_form x /\ all l end) l
  | YImp a b => typed_form a /\ typed_form b
  | YReduce _ _ _ => False
  end.
Definition typed_rule (r : yrule) : Prop :=
  (forall a, In a (y_head r) -> typed_atom (fst a) (snd a)) /\ typed_form (y_body r).
End Rule.
End Typed.
(** The variables of the k-th rule have their own types. *)
Definition typed_rules (T : tenv) (tau : loc -> option vtype) (rho : pred -> option (list vtype))
    (gamma : nat -> nat -> option vtype) (rs : list yrule) : Prop :=
  forall k r, nth_error rs k = Some r -> typed_rule T tau rho (gamma k) r.

(** ** Where the nodes of a program are *)
Fixpoint ynodes (e : yexpr) : list (loc * yexpr) :=
  (yloc e, e) ::
  match e with
  | YVar _ _ | YWild _ | YConst _ _ _ => []
  | YBin _ _ a b => ynodes a ++ ynodes b
  | YUn _ _ a => ynodes a
  | YIte _ c a b => ynodes c ++ ynodes a ++ ynodes b
  | YCall _ _ args | YEnt _ _ args => flat_map ynodes args
  end.
Fixpoint fnodes (f : yform) : list (loc * yexpr) :=
  match f with
  | YAtom _ args | YNegAtom _ args => flat_map ynodes args
  | YCons e => ynodes e
  | YConj l | YDisj l => flat_map fnodes l
  | YImp a b => fnodes a ++ fnodes b
  | YReduce _ b g => fnodes b ++ match g with Some g => fnodes g | None => [] end
  end.
Definition rnodes (r : yrule) : list (loc * yexpr) :=
  flat_map (fun a => flat_map ynodes (snd a)) (y_head r) ++ fnodes (y_body r).
(** Every node has its own location. *)
Definition located (rs : list yrule) : Prop := NoDup (map fst (flat_map rnodes rs)).
Fixpoint no_reduce (f : yform) : bool :=
  match f with
  | YAtom _ _ | YNegAtom _ _ | YCons _ => true
  | YConj l | YDisj l => forallb no_reduce l
  | YImp a b => no_reduce a && no_reduce b
  | YReduce _ _ _ => false
  end.
