(** Model of value types and of the sets of types that type inference works with:
    /repo/core/src/common/value_type.rs and
    /repo/core/src/compiler/front/analyzers/type_inference/type_set.rs. *)
From Coq Require Import List ZArith Bool.
Import ListNotations.

(** value_type.rs 8-33 [ValueType]. *)
Inductive vtype :=
| TI8 | TI16 | TI32 | TI64 | TI128 | TISize
| TU8 | TU16 | TU32 | TU64 | TU128 | TUSize
| TF32 | TF64 | TChar | TBool | TStr | TString | TSymbol
| TDateTime | TDuration | TEntity | TTensor.
Definition vtype_eq_dec : forall a b : vtype, {a = b} + {a <> b}.
Proof. decide equality. Defined.
Definition vt_eqb (a b : vtype) : bool := if vtype_eq_dec a b then true else false.

(** value_type.rs 112-213. *)
Definition is_signed_integer (t : vtype) : bool :=
  match t with TI8 | TI16 | TI32 | TI64 | TI128 | TISize => true | _ => false end.
Definition is_unsigned_integer (t : vtype) : bool :=
  match t with TU8 | TU16 | TU32 | TU64 | TU128 | TUSize => true | _ => false end.
Definition is_integer (t : vtype) : bool :=
  match t with
  | TI8 | TI16 | TI32 | TI64 | TI128 | TISize | TU8 | TU16 | TU32 | TU64 | TU128 | TUSize => true
  | _ => false
  end.
Definition is_float (t : vtype) : bool := match t with TF32 | TF64 => true | _ => false end.
Definition is_numeric (t : vtype) : bool := is_integer t || is_float t.
Definition is_boolean (t : vtype) : bool := match t with TBool => true | _ => false end.
Definition is_char (t : vtype) : bool := match t with TChar => true | _ => false end.
Definition is_string (t : vtype) : bool := match t with TStr | TString => true | _ => false end.
(** value_type.rs 215-227. *)
Definition vt_can_cast (t target : vtype) : bool :=
  if is_numeric t && is_numeric target then true
  else if is_boolean t && is_boolean target then true
  else if is_char t && (is_char target || is_string target || is_integer target || is_float target) then true
  else if is_string t && is_numeric target then true
  else is_string t && is_string target.

(** type_set.rs 6-17 [TypeSet]; the source locations are dropped. *)
Inductive tset :=
| SBase (t : vtype)
| SNumeric | SArith | SInteger | SSigned | SUnsigned | SFloat | SString | SAny.

(** type_set.rs 39-53 [PartialEq]: there is no case for two unsigned-integer sets. *)
Definition ts_eq (a b : tset) : bool :=
  match a, b with
  | SBase s, SBase t => vt_eqb s t
  | SNumeric, SNumeric => true
  | SArith, SArith => true
  | SInteger, SInteger => true
  | SSigned, SSigned => true
  | SFloat, SFloat => true
  | SString, SString => true
  | SAny, SAny => true
  | _, _ => false
  end.

(** type_set.rs 55-141 [PartialOrd], in the order of the code; there is no case for a
    base type and the unsigned integers, and [Any] is greater than itself. *)
Definition ts_cmp (a b : tset) : option comparison :=
  let when (c : bool) (r : comparison) := if c then Some r else None in
  match a, b with
  | SBase s, SBase t => when (vt_eqb s t) Eq
  | SBase s, SString => when (is_string s) Lt
  | SString, SBase s => when (is_string s) Gt
  | SBase s, SFloat => when (is_float s) Lt
  | SFloat, SBase s => when (is_float s) Gt
  | SBase s, SSigned => when (is_signed_integer s) Lt
  | SSigned, SBase s => when (is_signed_integer s) Gt
  | SBase s, SInteger => when (is_integer s) Lt
  | SInteger, SBase s => when (is_integer s) Gt
  | SBase s, SArith => when (is_numeric s) Lt
  | SArith, SBase s => when (is_numeric s) Gt
  | SBase s, SNumeric => when (is_numeric s) Lt
  | SNumeric, SBase s => when (is_numeric s) Gt
  | SBase _, SAny => Some Lt
  | SAny, SBase _ => Some Gt
  | SString, SString => Some Eq
  | SString, SAny => Some Lt
  | SAny, SString => Some Gt
  | SFloat, SFloat => Some Eq
  | SFloat, SArith => Some Lt
  | SArith, SFloat => Some Gt
  | SFloat, SNumeric => Some Lt
  | SNumeric, SFloat => Some Gt
  | SFloat, SAny => Some Lt
  | SAny, SFloat => Some Gt
  | SSigned, SSigned => Some Eq
  | SSigned, SInteger => Some Lt
  | SInteger, SSigned => Some Gt
  | SSigned, SArith => Some Lt
  | SArith, SSigned => Some Gt
  | SSigned, SNumeric => Some Lt
  | SNumeric, SSigned => Some Gt
  | SSigned, SAny => Some Lt
  | SAny, SSigned => Some Gt
  | SUnsigned, SUnsigned => Some Eq
  | SUnsigned, SInteger => Some Lt
  | SInteger, SUnsigned => Some Gt
  | SUnsigned, SArith => Some Lt
  | SArith, SUnsigned => Some Gt
  | SUnsigned, SNumeric => Some Lt
  | SNumeric, SUnsigned => Some Gt
  | SUnsigned, SAny => Some Lt
  | SAny, SUnsigned => Some Gt
  | SInteger, SInteger => Some Eq
  | SInteger, SArith => Some Lt
  | SArith, SInteger => Some Gt
  | SInteger, SNumeric => Some Lt
  | SNumeric, SInteger => Some Gt
  | SInteger, SAny => Some Lt
  | SAny, SInteger => Some Gt
  | SArith, SArith => Some Eq
  | SArith, SNumeric => Some Lt
  | SNumeric, SArith => Some Gt
  | SArith, SAny => Some Lt
  | SAny, SArith => Some Gt
  | SNumeric, SNumeric => Some Eq
  | SNumeric, SAny => Some Lt
  | SAny, SNumeric => Some Gt
  | SAny, SAny => Some Gt
  | _, _ => None
  end.

(** type_set.rs 285-296; [None] is the error. *)
Definition ts_unify (a b : tset) : option tset :=
  match ts_cmp a b with
  | Some Eq | Some Lt => Some a
  | Some Gt => Some b
  | None => None
  end.
(** type_set.rs 274-283; the callers make sure that the list is not empty. *)
Fixpoint unify_from (a : tset) (l : list tset) : option tset :=
  match l with
  | [] => Some a
  | b :: l => match ts_unify a b with Some c => unify_from c l | None => None end
  end.
Definition unify_type_sets (l : list tset) : option tset :=
  match l with [] => None | a :: _ => unify_from a l end.

(** type_set.rs 298-310. *)
Definition ts_contains (a : tset) (t : vtype) : bool :=
  match a with
  | SBase s => vt_eqb s t
  | SNumeric => is_numeric t
  | SArith => is_numeric t
  | SInteger => is_integer t
  | SSigned => is_signed_integer t
  | SUnsigned => is_unsigned_integer t
  | SFloat => is_float t
  | SString => is_string t
  | SAny => true
  end.
(** type_set.rs 238-250. *)
Definition ts_default (a : tset) : vtype :=
  match a with
  | SBase t => t
  | SNumeric => TI32
  | SArith => TI32
  | SInteger => TI32
  | SSigned => TI32
  | SUnsigned => TU32
  | SFloat => TF32
  | SString => TString
  | SAny => TI32
  end.
(** type_set.rs 201-220. *)
Definition ts_can_cast (a : tset) (t : vtype) : bool :=
  if vt_eqb TString t then true
  else match a with
  | SBase s => vt_can_cast s t
  | SNumeric => is_numeric t
  | SArith => is_numeric t
  | SInteger => is_numeric t
  | SSigned => is_numeric t
  | SUnsigned => is_numeric t
  | SFloat => is_numeric t
  | SString => is_string t || is_numeric t
  | SAny => is_numeric t
  end.
(** type_set.rs 232-237 [is_boolean]. *)
Definition ts_is_boolean (a : tset) : bool := match a with SBase t => is_boolean t | _ => false end.

(** ast/constant.rs [Constant]: of the payloads only the integers matter here. *)
Inductive fconst :=
| KInt (z : Z) | KFloat | KChar | KBool | KString | KSymbol | KDateTime | KDuration | KEntity.
(** type_set.rs 182-199. *)
Definition from_constant (c : fconst) : tset :=
  match c with
  | KInt z => if (z <? 0)%Z then SSigned else SNumeric
  | KFloat => SFloat
  | KChar => SBase TChar
  | KBool => SBase TBool
  | KString => SString
  | KSymbol => SBase TSymbol
  | KDateTime => SBase TDateTime
  | KDuration => SBase TDuration
  | KEntity => SBase TEntity
  end.

(** type_set.rs 24-37 [From<TypeFamily>]; [None] is the panic on the empty family. *)
Inductive tfamily := FamAny | FamNumber | FamInteger | FamSigned | FamUnsigned | FamFloat | FamString | FamBottom.
Definition of_family (f : tfamily) : option tset :=
  match f with
  | FamBottom => None
  | FamString => Some SString
  | FamFloat => Some SFloat
  | FamSigned => Some SSigned
  | FamUnsigned => Some SUnsigned
  | FamInteger => Some SInteger
  | FamNumber => Some SNumeric
  | FamAny => Some SAny
  end.

(** operator_rules.rs 5-128: the typing rules of [+], [-], [*], [/] and of the
    comparisons, with the numeric rules in their common order. *)
Definition numeric_types : list vtype :=
  [TI32; TI8; TI16; TI64; TI128; TISize; TU32; TU8; TU16; TU64; TU128; TUSize; TF32; TF64].
Definition same3 (t : vtype) := (t, t, t).
Definition add_rules : list (vtype * vtype * vtype) :=
  map same3 numeric_types ++
  [(TString, TString, TString); (TDateTime, TDuration, TDateTime); (TDuration, TDateTime, TDateTime);
   (TDuration, TDuration, TDuration); (TTensor, TTensor, TTensor); (TTensor, TF64, TTensor); (TF64, TTensor, TTensor)].
Definition sub_rules : list (vtype * vtype * vtype) :=
  map same3 numeric_types ++
  [(TDateTime, TDuration, TDateTime); (TDateTime, TDateTime, TDuration); (TDuration, TDuration, TDuration);
   (TTensor, TTensor, TTensor); (TTensor, TF64, TTensor); (TF64, TTensor, TTensor)].
Definition mult_rules : list (vtype * vtype * vtype) :=
  map same3 numeric_types ++
  [(TDuration, TI32, TDuration); (TI32, TDuration, TDuration);
   (TTensor, TTensor, TTensor); (TTensor, TF64, TTensor); (TF64, TTensor, TTensor)].
Definition div_rules : list (vtype * vtype * vtype) :=
  map same3 numeric_types ++ [(TDuration, TI32, TDuration)].
Definition compare_rules : list (vtype * vtype) :=
  map (fun t => (t, t)) numeric_types ++ [(TDuration, TDuration); (TDateTime, TDateTime)].
