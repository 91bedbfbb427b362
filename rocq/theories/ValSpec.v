(** Specification: values of a type, arithmetic on the integer types, what operators may
    do to values of the right types, and the casts that exist.  Nothing here mentions the
    evaluator.  Used by C66 and C67. *)
From Coq Require Import List ZArith Bool String.
From Verif Require Import Value Back Eval TypeSet PropsTypeSet Infer TypeSpec Cast.
Import ListNotations.
Local Open Scope Z_scope.

(** The integer types, with their least and greatest numbers. *)
Definition ints : list (vtype * (Z -> value) * Z * Z) :=
  [ (TI8, I8, -128, 127); (TI16, I16, -32768, 32767); (TI32, I32, -2147483648, 2147483647);
    (TI64, I64, -9223372036854775808, 9223372036854775807);
    (TI128, I128, -170141183460469231731687303715884105728, 170141183460469231731687303715884105727);
    (TISize, ISize, -9223372036854775808, 9223372036854775807);
    (TU8, U8, 0, 255); (TU16, U16, 0, 65535); (TU32, U32, 0, 4294967295);
    (TU64, U64, 0, 18446744073709551615);
    (TU128, U128, 0, 340282366920938463463374607431768211455);
    (TUSize, USize, 0, 18446744073709551615) ].

(** [v] is a value of type [t], symbols and entities being internalized.  There are no
    values of type [Tensor]. *)
Definition is_a (v : value) (t : vtype) : Prop :=
  match t with
  | TF32 => exists f, v = F32 f
  | TF64 => exists f, v = F64 f
  | TChar => exists c, v = VChar c
  | TBool => exists b, v = VBool b
  | TStr => exists s, v = VStr s
  | TString => exists s, v = VString s
  | TSymbol => exists z, v = VSymbol z
  | TDateTime => exists z, v = VDateTime z
  | TDuration => exists z, v = VDuration z
  | TEntity => exists z, v = VEntity z
  | TTensor => False
  | _ => exists mk lo hi z, In (t, mk, lo, hi) ints /\ v = mk z /\ lo <= z <= hi
  end.

(** [r] is [z] or, if [z] does not fit, the bound on its side. *)
Definition nearest (lo hi z r : Z) : Prop :=
  (lo <= z <= hi -> r = z) /\ (z < lo -> r = lo) /\ (hi < z -> r = hi).
(** Quotient and remainder of the division that truncates towards zero. *)
Definition divides_to (a b q r : Z) : Prop :=
  a = b * q + r /\ Z.abs r < Z.abs b /\ (0 <= a -> 0 <= r) /\ (a <= 0 -> r <= 0).
Definition int_result (op : binop) (lo hi a b r : Z) : Prop :=
  match op with
  | OAdd => nearest lo hi (a + b) r
  | OSub => nearest lo hi (a - b) r
  | OMul => r = a * b
  | ODiv => exists m, divides_to a b r m
  | OMod => exists q, divides_to a b q r
  | _ => False
  end.
(** The operation has no result that fits. *)
Definition int_fault (op : binop) (lo hi a b : Z) : Prop :=
  match op with
  | OMul => a * b < lo \/ hi < a * b
  | ODiv | OMod => b = 0 \/ a = lo /\ b = -1 /\ lo < 0
  | _ => False
  end.
(** Two operands on which an operator panics: an integer operation without a result, or
    an operation on dates and durations that does not succeed. *)
Definition faults (E : renv) (op : binop) (v w : value) : Prop :=
  (exists t mk lo hi a b, In (t, mk, lo, hi) ints /\ v = mk a /\ w = mk b /\ int_fault op lo hi a b) \/
  e_time E op v w = EPanic /\ ((is_a v TDateTime \/ is_a v TDuration) \/ is_a w TDuration).
(** The results of operations on dates and durations have the types of the table. *)
Definition time_typed (E : renv) : Prop :=
  forall op a b e v w r, bin_typed op a b e -> a = TDateTime \/ a = TDuration \/ b = TDuration ->
    is_a v a -> is_a w b -> e_time E op v w = EOk r -> is_a r e.
(** Accepted operations that are not implemented. *)
Definition mod_float (op : binop) (a : vtype) : Prop := op = OMod /\ In a float_types.

(** The casts that are implemented. *)
Definition castable (a t : vtype) : Prop :=
  In a [TI8; TI32; TUSize; TChar; TString] /\ number_type t \/
  a = TF32 /\ t = TF64 \/ a = TF64 /\ t = TF32 \/
  t = TString /\ (number_type a \/ In a [TBool; TChar; TStr; TString; TSymbol]).
(** [r] is what is left of [z] in a type of [n] numbers that starts at [lo]. *)
Definition congruent (lo hi z r : Z) : Prop := lo <= r <= hi /\ exists k, z = r + k * (hi - lo + 1).

(** ** Variables that get their values from atoms *)
Fixpoint yvars (e : yexpr) : list nat :=
  match e with
  | YVar _ v => [v]
  | YWild _ | YConst _ _ _ => []
  | YBin _ _ a b => yvars a ++ yvars b
  | YUn _ _ a => yvars a
  | YIte _ c a b => yvars c ++ yvars a ++ yvars b
  | YCall _ _ l | YEnt _ _ l => flat_map yvars l
  end.
(** Wildcards are not operands. *)
Fixpoint no_wilds (e : yexpr) : bool :=
  match e with
  | YWild _ => false
  | YVar _ _ | YConst _ _ _ => true
  | YBin _ _ a b => no_wilds a && no_wilds b
  | YUn _ _ a => no_wilds a
  | YIte _ c a b => no_wilds c && no_wilds a && no_wilds b
  | YCall _ _ l | YEnt _ _ l => forallb no_wilds l
  end.
(** [v] is an argument of an atom of the body, or is equated to an expression whose
    variables are known already ([K]); in every branch of a disjunction. *)
Fixpoint gives (K : nat -> Prop) (f : yform) (v : nat) : Prop :=
  match f with
  | YAtom _ args => exists l, In (YVar l v) args
  | YCons (YBin _ OEq (YVar _ x) e) => x = v /\ no_wilds e = true /\ (forall y, In y (yvars e) -> K y) \/ exists l, e = YVar l v /\ K x
  | YConj l => (fix any l := match l with [] => False | f :: l => gives K f v \/ any l end) l
  | YDisj l => l <> [] /\ (fix all l := match l with [] => True | f :: l => gives K f v /\ all l end) l
  | _ => False
  end.
Fixpoint known (n : nat) (f : yform) (v : nat) : Prop :=
  match n with O => False | S n => known n f v \/ gives (known n f) f v end.
Definition ranged (f : yform) (v : nat) : Prop := exists n, known n f v.

(** ** Typed facts and foreign code *)
Definition typed_tuple (rho : pred -> option (list vtype)) (p : pred) (vs : list value) : Prop :=
  forall ts, rho p = Some ts -> Forall2 is_a vs ts.
(** Foreign functions and the operations on dates give values of their types; casts are
    those of the model. *)
Record env_typed (T : tenv) (c : conv) (E : renv) : Prop := mkEnvTyped {
  et_time : time_typed E;
  et_cast : forall t v, e_cast E (vt_code t) v = cast c t v;
  et_call : forall f ft ts t vs r, t_fun T f = Some ft -> call_typed ft ts t -> Forall2 is_a vs ts -> e_call E f vs = EOk r -> is_a r t }.
(** The constants of a rule have their contents. *)
Definition contents_ok (lit : loc -> content) (nodes : list (loc * yexpr)) : Prop :=
  forall l k d, In (l, YConst l k d) nodes -> content_kind (lit l) = k.
(** The arguments of the heads are made of variables that atoms and equations bind. *)
Definition head_ranged (r : yrule) : Prop :=
  forall a e, In a (y_head r) -> In e (snd a) -> no_wilds e = true /\ forall v, In v (yvars e) -> ranged (y_body r) v.
