(** Model of type casts (/repo/core/src/runtime/env/environment.rs 600-709), of the
    values of constants (/repo/core/src/compiler/front/ast/constant.rs 117-149, with the
    internalization of environment.rs 201-215) and of the expressions, formulas and rules
    that are compiled once types have been inferred
    (/repo/core/src/compiler/front/f2b/flatten_expr.rs 481-517).
    Simplifications: conversions from and to floats, and the texts of what is not an
    integer, a boolean or a string, are parameters ([conv]); tensors are left out, as in
    Value.v. *)
From Coq Require Import List ZArith Bool String Ascii DecimalString.
From Verif Require Import Value Back Eval TypeSet Infer Front.
Import ListNotations.

(** value_type.rs 36-67 [type_of]. *)
Definition val_type (v : value) : vtype :=
  match v with
  | I8 _ => TI8 | I16 _ => TI16 | I32 _ => TI32 | I64 _ => TI64 | I128 _ => TI128 | ISize _ => TISize
  | U8 _ => TU8 | U16 _ => TU16 | U32 _ => TU32 | U64 _ => TU64 | U128 _ => TU128 | USize _ => TUSize
  | F32 _ => TF32 | F64 _ => TF64 | VChar _ => TChar | VBool _ => TBool
  | VStr _ => TStr | VString _ => TString | VSymbol _ | VSymbolString _ => TSymbol
  | VDateTime _ => TDateTime | VDuration _ => TDuration | VEntity _ | VEntityString _ => TEntity
  end.
Definition kind_of (t : vtype) : option ikind :=
  match t with
  | TI8 => Some KI8 | TI16 => Some KI16 | TI32 => Some KI32 | TI64 => Some KI64 | TI128 => Some KI128 | TISize => Some KISize
  | TU8 => Some KU8 | TU16 => Some KU16 | TU32 => Some KU32 | TU64 => Some KU64 | TU128 => Some KU128 | TUSize => Some KUSize
  | _ => None
  end.

(** The conversions that are not modelled; floats are indices (Value.v), the boolean says
    whether the float has 64 bits. *)
Record conv := mkConv {
  cv_float : bool -> Z -> Z;                 (* from an integer *)
  cv_round : bool -> Z -> Z;                 (* to the other size *)
  cv_parse : bool -> string -> option Z;     (* [parse::<f32>()], [parse::<f64>()] *)
  cv_show : value -> string;                 (* [to_string] of floats and characters *)
  cv_char : Z -> string;
  cv_symbol : Z -> option string;            (* the symbol registry *)
  cv_register : string -> Z }.

(** [as] between integers: two's complement. *)
Definition wrap (k : ikind) (z : Z) : Z :=
  let m := (z mod 2 ^ ibits k)%Z in
  if isigned k && (2 ^ (ibits k - 1) <=? m)%Z then (m - 2 ^ ibits k)%Z else m.
(** [str::parse] for integers: a sign, which is not [-] for the unsigned ones, then
    digits; an error if the number does not fit. *)
Definition digits (s : string) : option Z := option_map (fun u => Z.of_uint u) (NilZero.uint_of_string s).
Definition parse_int (k : ikind) (s : string) : option Z :=
  let r := match s with
           | String "+"%char r => digits r
           | String "-"%char r => if isigned k then option_map Z.opp (digits r) else None
           | _ => digits s
           end in
  match r with
  | Some z => if (imin k <=? z)%Z && (z <=? imax k)%Z then Some z else None
  | None => None
  end.
(** [char::to_digit(10)]. *)
Definition to_digit (c : Z) : option Z := if (48 <=? c)%Z && (c <=? 57)%Z then Some (c - 48)%Z else None.
(** [to_string] of an integer and of a boolean. *)
Definition show_int (z : Z) : string := NilZero.string_of_int (Z.to_int z).
Definition show_bool (b : bool) : string := if b then "true" else "false".

(** environment.rs 600-706; casts that are not listed panic ([unimplemented!]). *)
Definition some_or {A B} (o : option A) (f : A -> B) : ev B := match o with Some a => EOk (f a) | None => ENone end.
Definition to_number (c : conv) (t : vtype) (i : ikind -> ev Z) (f : bool -> ev Z) : ev value :=
  match kind_of t, t with
  | Some k, _ => ebind (i k) (fun z => EOk (of_int k z))
  | None, TF32 => ebind (f false) (fun z => EOk (F32 z))
  | None, TF64 => ebind (f true) (fun z => EOk (F64 z))
  | None, _ => EPanic
  end.
Definition cast (c : conv) (t : vtype) (v : value) : ev value :=
  match t with
  | TString =>
    match v with
    | F32 _ | F64 _ => EOk (VString (cv_show c v))
    | VChar a => EOk (VString (cv_char c a))
    | VBool b => EOk (VString (show_bool b))
    | VStr s | VString s => EOk (VString s)
    | VSymbol i => match cv_symbol c i with Some s => EOk (VString s) | None => EPanic end
    | _ => match as_int v with Some (_, z) => EOk (VString (show_int z)) | None => EPanic end
    end
  | _ =>
    match v with
    | I8 z | I32 z | USize z => to_number c t (fun k => EOk (wrap k z)) (fun w => EOk (cv_float c w z))
    | VChar a => to_number c t (fun k => some_or (to_digit a) (wrap k)) (fun w => some_or (cv_parse c w (cv_char c a)) (fun f => f))
    | VString s => to_number c t (fun k => some_or (parse_int k s) (fun z => z)) (fun w => some_or (cv_parse c w s) (fun f => f))
    | F32 f => match t with TF64 => EOk (F64 (cv_round c true f)) | _ => EPanic end
    | F64 f => match t with TF32 => EOk (F32 (cv_round c false f)) | _ => EPanic end
    | _ => EPanic
    end
  end.

(** ast/constant.rs 4-15 [Constant] with its content; dates and durations are parsed by
    the parser of the language. *)
Inductive content :=
| CInt (z : Z) | CFloat (f : bool -> Z) | CChar (c : Z) | CBool (b : bool) | CString (s : string) | CSymbol (s : string)
| CDateTime (z : Z) | CDuration (z : Z) | CEntity (z : Z).
Definition content_kind (c : content) : fconst :=
  match c with
  | CInt z => KInt z | CFloat _ => KFloat | CChar _ => KChar | CBool _ => KBool | CString _ => KString | CSymbol _ => KSymbol
  | CDateTime _ => KDateTime | CDuration _ => KDuration | CEntity _ => KEntity
  end.
(** constant.rs 117-149; [None] is a panic.  Symbols are internalized (environment.rs
    201-205, before an expression is evaluated). *)
Definition const_value (c : conv) (k : content) (t : vtype) : option value :=
  match k, t with
  | CInt z, _ => match kind_of t, t with
                 | Some k, _ => Some (of_int k (wrap k z))
                 | None, TF32 => Some (F32 (cv_float c false z))
                 | None, TF64 => Some (F64 (cv_float c true z))
                 | None, _ => None
                 end
  | CFloat f, TF32 => Some (F32 (f false))
  | CFloat f, TF64 => Some (F64 (f true))
  | CChar a, TChar => Some (VChar a)
  | CBool b, TBool => Some (VBool b)
  | CString s, TString => Some (VString s)
  | CSymbol s, TSymbol => Some (VSymbol (cv_register c s))
  | CDateTime z, TDateTime => Some (VDateTime z)
  | CDuration z, TDuration => Some (VDuration z)
  | CEntity z, TEntity => Some (VEntity z)
  | _, _ => None
  end.

(** ** What is compiled once types are known *)
(** f2b.rs 96-149, a fact or a tuple of a set of facts: the constants are zipped with the
    types of the relation (the longer list is cut off); [None] is a panic.  Tags are left
    out. *)
Definition fact_values (c : conv) (ks : list content) (ts : list vtype) : option (list value) :=
  oall (map (fun kt => const_value c (fst kt) (snd kt)) (combine ks ts)).
(** The number of a type, for Back.v's [UCast]. *)
Definition vt_code (t : vtype) : nat :=
  match t with
  | TI8 => 0 | TI16 => 1 | TI32 => 2 | TI64 => 3 | TI128 => 4 | TISize => 5
  | TU8 => 6 | TU16 => 7 | TU32 => 8 | TU64 => 9 | TU128 => 10 | TUSize => 11
  | TF32 => 12 | TF64 => 13 | TChar => 14 | TBool => 15 | TStr => 16 | TString => 17 | TSymbol => 18
  | TDateTime => 19 | TDuration => 20 | TEntity => 21 | TTensor => 22
  end.
Definition unop_of (op : yunop) : unop :=
  match op with YNeg => UNeg | YPos => UPos | YNot => UNot | YCast t => UCast (vt_code t) end.
(** flatten_expr.rs 481-517: constants become values of the type at their location;
    [None] is a panic.  [lit] gives the contents of the constants. *)
Section Erase.
Context (c : conv) (tau : loc -> option vtype) (lit : loc -> content).
Fixpoint erase (e : yexpr) : option expr :=
  match e with
  | YVar _ v => Some (EVar v)
  | YWild _ => Some EWild
  | YConst l _ _ => obnd (tau l) (fun t => option_map EConst (const_value c (lit l) t))
  | YBin _ op a b => obnd (erase a) (fun a => obnd (erase b) (fun b => Some (EBin op a b)))
  | YUn _ op a => obnd (erase a) (fun a => Some (EUn (unop_of op) a))
  | YIte _ x a b => obnd (erase x) (fun x => obnd (erase a) (fun a => obnd (erase b) (fun b => Some (EIte x a b))))
  | YCall _ f l => obnd (oall (map erase l)) (fun l => Some (ECall f l))
  | YEnt _ p l => obnd (oall (map erase l)) (fun l => Some (ENew p l))
  end.
Definition erase_atom (a : yatom) : option fatom := obnd (oall (map erase (snd a))) (fun l => Some (fst a, l)).
Fixpoint erase_form (f : yform) : option formula :=
  match f with
  | YAtom p l => obnd (oall (map erase l)) (fun l => Some (FAtom p l))
  | YNegAtom p l => obnd (oall (map erase l)) (fun l => Some (FNeg p l))
  | YCons e => obnd (erase e) (fun e => Some (FCons e))
  | YConj l => obnd (oall (map erase_form l)) (fun l => Some (FConj l))
  | YDisj l => obnd (oall (map erase_form l)) (fun l => Some (FDisj l))
  | YImp a b => obnd (erase_form a) (fun a => obnd (erase_form b) (fun b => Some (FImp a b)))
  | YReduce _ _ _ => None
  end.
End Erase.
