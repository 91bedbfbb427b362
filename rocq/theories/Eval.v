(** Model of expressions and their evaluation:
    /repo/core/src/common/expr.rs, /repo/core/src/common/tuple_access.rs,
    /repo/core/src/common/generic_tuple.rs 115-129 and
    /repo/core/src/runtime/env/environment.rs 276-759. *)
From Coq Require Import List ZArith Bool String Lia.
From Verif Require Import Value Back.
Import ListNotations.
Set Implicit Arguments.

(** Result of an evaluation: a value ([Some]), no value ([None], the tuple is
    dropped), or a panic. *)
Inductive ev (A : Type) := EOk (a : A) | ENone | EPanic.
Arguments EOk {A}. Arguments ENone {A}. Arguments EPanic {A}.
Definition ebind {A B} (x : ev A) (f : A -> ev B) : ev B :=
  match x with EOk a => f a | ENone => ENone | EPanic => EPanic end.
(** [iter().map(f).collect::<Option<Vec<_>>>()]: stops at the first [None]. *)
Definition emap {A B} (f : A -> ev B) : list A -> ev (list B) :=
  fix go l := match l with
  | [] => EOk []
  | a :: r => ebind (f a) (fun b => ebind (go r) (fun bs => EOk (b :: bs)))
  end.

(** What evaluation takes from outside the engine: float arithmetic ([None] is
    NaN, floats being [Z] indices as in Value.v), negation of floats, the
    date/time arithmetic, type casts, foreign functions (including the
    internalization of their result), and the hash of a new entity. *)
Record renv := mkEnv {
  e_float : binop -> Z -> Z -> option Z;
  e_fneg : Z -> Z;
  e_time : binop -> value -> value -> ev value;
  e_cast : nat -> value -> ev value;
  e_call : nat -> list value -> ev value;
  e_entity : nat -> list value -> Z }.

(** Integer types with their bounds ([usize]/[isize] have 64 bits). *)
Inductive ikind := KI8 | KI16 | KI32 | KI64 | KI128 | KISize
| KU8 | KU16 | KU32 | KU64 | KU128 | KUSize.
Definition as_int (v : value) : option (ikind * Z) :=
  match v with
  | I8 z => Some (KI8, z) | I16 z => Some (KI16, z) | I32 z => Some (KI32, z)
  | I64 z => Some (KI64, z) | I128 z => Some (KI128, z) | ISize z => Some (KISize, z)
  | U8 z => Some (KU8, z) | U16 z => Some (KU16, z) | U32 z => Some (KU32, z)
  | U64 z => Some (KU64, z) | U128 z => Some (KU128, z) | USize z => Some (KUSize, z)
  | _ => None
  end.
Definition of_int (k : ikind) (z : Z) : value :=
  match k with
  | KI8 => I8 z | KI16 => I16 z | KI32 => I32 z | KI64 => I64 z | KI128 => I128 z | KISize => ISize z
  | KU8 => U8 z | KU16 => U16 z | KU32 => U32 z | KU64 => U64 z | KU128 => U128 z | KUSize => USize z
  end.
Definition ibits (k : ikind) : Z :=
  match k with
  | KI8 | KU8 => 8 | KI16 | KU16 => 16 | KI32 | KU32 => 32
  | KI64 | KU64 | KISize | KUSize => 64 | KI128 | KU128 => 128
  end%Z.
Definition isigned (k : ikind) : bool :=
  match k with KI8 | KI16 | KI32 | KI64 | KI128 | KISize => true | _ => false end.
Definition imin (k : ikind) : Z := if isigned k then (- 2 ^ (ibits k - 1))%Z else 0%Z.
Definition imax (k : ikind) : Z :=
  if isigned k then (2 ^ (ibits k - 1) - 1)%Z else (2 ^ ibits k - 1)%Z.
Definition ikind_eqb (a b : ikind) : bool :=
  match a, b with
  | KI8, KI8 | KI16, KI16 | KI32, KI32 | KI64, KI64 | KI128, KI128 | KISize, KISize
  | KU8, KU8 | KU16, KU16 | KU32, KU32 | KU64, KU64 | KU128, KU128 | KUSize, KUSize => true
  | _, _ => false
  end.
(** Plain arithmetic panics on overflow (debug build). *)
Definition checked (k : ikind) (z : Z) : ev value :=
  if (imin k <=? z)%Z && (z <=? imax k)%Z then EOk (of_int k z) else EPanic.
(** [saturating_add], [saturating_sub]. *)
Definition saturating (k : ikind) (z : Z) : ev value :=
  EOk (of_int k (Z.max (imin k) (Z.min (imax k) z))).

(** environment.rs 301-456: arithmetic on two integers of the same type. *)
Definition int_arith (op : binop) (k : ikind) (a b : Z) : ev value :=
  match op with
  | OAdd => saturating k (a + b)
  | OSub => saturating k (a - b)
  | OMul => checked k (a * b)
  | ODiv => if (b =? 0)%Z then EPanic else checked k (Z.quot a b)
  | OMod => if (b =? 0)%Z then EPanic
            else if (a =? imin k)%Z && (b =? -1)%Z && isigned k then EPanic
            else checked k (Z.rem a b)
  | _ => EPanic
  end.
Definition is_arith (op : binop) : bool :=
  match op with OAdd | OSub | OMul | ODiv | OMod => true | _ => false end.

(** environment.rs 301-456, all operand types.  [Mod] on floats panics. *)
Definition arith (E : renv) (op : binop) (v w : value) : ev value :=
  match as_int v, as_int w with
  | Some (k, a), Some (k', b) => if ikind_eqb k k' then int_arith op k a b else EPanic
  | _, _ =>
    match v, w with
    | F32 a, F32 b => match op with OMod => EPanic
        | _ => match e_float E op a b with Some c => EOk (F32 c) | None => ENone end end
    | F64 a, F64 b => match op with OMod => EPanic
        | _ => match e_float E op a b with Some c => EOk (F64 c) | None => ENone end end
    | VString a, VString b => match op with OAdd => EOk (VString (a ++ b)%string) | _ => EPanic end
    | VDateTime _, VDuration _ | VDuration _, VDateTime _ | VDuration _, VDuration _
    | VDateTime _, VDateTime _ | VDuration _, I32 _ | I32 _, VDuration _ => e_time E op v w
    | _, _ => EPanic
    end
  end.

(** environment.rs 459-464. *)
Definition logic (op : binop) (v w : value) : ev value :=
  match op, v, w with
  | OAnd, VBool a, VBool b => EOk (VBool (a && b))
  | OOr, VBool a, VBool b => EOk (VBool (a || b))
  | OXor, VBool a, VBool b => EOk (VBool (xorb a b))
  | _, _, _ => EPanic
  end.

(** environment.rs 467-515: [==] and [!=] are defined on two values of the same
    variant, except the uninternalized symbols and entities. *)
Definition same_variant (v w : value) : bool := Nat.eqb (vrank v) (vrank w).
Definition eq_able (v : value) : bool :=
  match v with VSymbolString _ | VEntityString _ => false | _ => true end.
Definition veqb (v w : value) : bool := match vcmp v w with Eq => true | _ => false end.
(** environment.rs 518-571: the order is defined on numbers, dates and
    durations. *)
Definition lt_able (v : value) : bool :=
  match v with
  | VChar _ | VBool _ | VStr _ | VString _ | VSymbol _ | VSymbolString _
  | VEntity _ | VEntityString _ => false
  | _ => true
  end.
Definition cmp_op (op : binop) (v w : value) : ev value :=
  match op with
  | OEq => if same_variant v w && eq_able v then EOk (VBool (veqb v w)) else EPanic
  | ONeq => if same_variant v w && eq_able v then EOk (VBool (negb (veqb v w))) else EPanic
  | _ =>
    if same_variant v w && lt_able v then
      match op with
      | OGt => EOk (VBool (match vcmp v w with Gt => true | _ => false end))
      | OGeq => EOk (VBool (match vcmp v w with Lt => false | _ => true end))
      | OLt => EOk (VBool (match vcmp v w with Lt => true | _ => false end))
      | OLeq => EOk (VBool (match vcmp v w with Gt => false | _ => true end))
      | _ => EPanic
      end
    else EPanic
  end.

(** environment.rs 300-572, on values. *)
Definition bin_value (E : renv) (op : binop) (v w : value) : ev value :=
  match op with
  | OAdd | OSub | OMul | ODiv | OMod => arith E op v w
  | OAnd | OOr | OXor => logic op v w
  | _ => cmp_op op v w
  end.
(** Operands that are tuples panic. *)
Definition bin_tuple (E : renv) (op : binop) (t u : tuple) : ev tuple :=
  match t, u with
  | TVal v, TVal w => ebind (bin_value E op v w) (fun r => EOk (TVal r))
  | _, _ => EPanic
  end.

(** environment.rs 579-709. *)
Definition un_value (E : renv) (op : unop) (v : value) : ev value :=
  match op with
  | UPos => EOk v
  | UNot => match v with VBool b => EOk (VBool (negb b)) | _ => EPanic end
  | UNeg => match v with
            | F32 a => EOk (F32 (e_fneg E a)) | F64 a => EOk (F64 (e_fneg E a))
            | _ => match as_int v with
                   | Some (k, a) => if isigned k then checked k (- a) else EPanic
                   | None => EPanic end
            end
  | UCast ty => e_cast E ty v
  end.
Definition un_tuple (E : renv) (op : unop) (t : tuple) : ev tuple :=
  match t with
  | TVal v => ebind (un_value E op v) (fun r => EOk (TVal r))
  | TTup _ => match op with UPos => EOk t | _ => EPanic end
  end.

(** tuple.rs 84-89 [as_value], 158-160 [as_bool]. *)
Definition as_value (t : tuple) : ev value :=
  match t with TVal v => EOk v | TTup _ => EPanic end.
Definition as_bool (t : tuple) : ev bool :=
  match t with TVal (VBool b) => EOk b | _ => EPanic end.

(** tuple_access.rs 3-7 [TupleAccessor]; the [i8] indices are numbers. *)
Record accessor := mkAcc { ac_len : nat; ac_0 : nat; ac_1 : nat; ac_2 : nat }.
(** tuple_access.rs 66-68 [iter]. *)
Definition acc_iter (a : accessor) : list nat := firstn (ac_len a) [ac_0 a; ac_1 a; ac_2 a].
(** tuple_access.rs 10-15 [empty], 17-22 [from_index]. *)
Definition acc_empty := mkAcc 0 0 0 0.
Definition acc_index (i : nat) := mkAcc 1 i 0 0.
(** tuple_access.rs 24-33 [shift]; [None] is the panic. *)
Definition acc_shift (a : accessor) : option accessor :=
  match ac_len a with 0 => None | S n => Some (mkAcc n (ac_1 a) (ac_2 a) 0) end.
(** tuple_access.rs 46-60 [join]; writing past the three indices panics. *)
Definition acc_join (a b : accessor) : option accessor :=
  match acc_iter a ++ acc_iter b with
  | [] => Some (mkAcc (ac_len a + ac_len b) 0 0 0)
  | [x] => Some (mkAcc (ac_len a + ac_len b) x 0 0)
  | [x; y] => Some (mkAcc (ac_len a + ac_len b) x y 0)
  | [x; y; z] => Some (mkAcc (ac_len a + ac_len b) x y z)
  | _ => None
  end.

(** generic_tuple.rs 115-129. *)
Fixpoint index_path (t : tuple) (p : list nat) : ev tuple :=
  match p with
  | [] => EOk t
  | i :: r => match t with
              | TVal _ => EPanic
              | TTup ts => match nth_error ts i with Some u => index_path u r | None => EPanic end
              end
  end.
Definition index (t : tuple) (a : accessor) : ev tuple := index_path t (acc_iter a).

(** expr.rs 9-18. *)
Inductive expr :=
| XTuple (l : list expr)
| XAccess (a : accessor)
| XConst (v : value)
| XBin (op : binop) (e1 e2 : expr)
| XUn (op : unop) (e : expr)
| XIte (c t e : expr)
| XCall (f : nat) (l : list expr)
| XNew (f : nat) (l : list expr).

Section ExprInd.
  Variable P : expr -> Prop.
  Hypothesis H1 : forall l, Forall P l -> P (XTuple l).
  Hypothesis H2 : forall a, P (XAccess a).
  Hypothesis H3 : forall v, P (XConst v).
  Hypothesis H4 : forall op a b, P a -> P b -> P (XBin op a b).
  Hypothesis H5 : forall op a, P a -> P (XUn op a).
  Hypothesis H6 : forall a b c, P a -> P b -> P c -> P (XIte a b c).
  Hypothesis H7 : forall f l, Forall P l -> P (XCall f l).
  Hypothesis H8 : forall f l, Forall P l -> P (XNew f l).
  Fixpoint expr_ind' (e : expr) : P e :=
    let go := (fix go l : Forall P l :=
      match l with [] => Forall_nil P | x :: r => Forall_cons x (expr_ind' x) (go r) end) in
    match e with
    | XTuple l => H1 (go l)
    | XAccess a => H2 a
    | XConst v => H3 v
    | XBin op a b => H4 op (expr_ind' a) (expr_ind' b)
    | XUn op a => H5 op (expr_ind' a)
    | XIte a b c => H6 (expr_ind' a) (expr_ind' b) (expr_ind' c)
    | XCall f l => H7 f (go l)
    | XNew f l => H8 f (go l)
    end.
End ExprInd.

(** environment.rs 276-289 [eval], 712-759.  Recording the new entity in the
    store ([add_entity_fact]) is a side effect and not part of the result. *)
Fixpoint eval (E : renv) (e : expr) (t : tuple) {struct e} : ev tuple :=
  match e with
  | XTuple l => ebind (emap (fun x => eval E x t) l) (fun us => EOk (TTup us))
  | XAccess a => index t a
  | XConst v => EOk (TVal v)
  | XBin op e1 e2 => ebind (eval E e1 t) (fun u => ebind (eval E e2 t) (fun w => bin_tuple E op u w))
  | XUn op e1 => ebind (eval E e1 t) (fun u => un_tuple E op u)
  | XIte c e1 e2 => ebind (eval E c t) (fun u => ebind (as_bool u) (fun b =>
                      if b then eval E e1 t else eval E e2 t))
  | XCall f l => ebind (emap (fun x => ebind (eval E x t) as_value) l)
                   (fun vs => ebind (e_call E f vs) (fun r => EOk (TVal r)))
  | XNew f l => ebind (emap (fun x => ebind (eval E x t) as_value) l)
                   (fun vs => EOk (TVal (VEntity (e_entity E f vs))))
  end.

(** [iter().map(f).collect()] where [f] may panic. *)
Definition omap {A B} (f : A -> option B) : list A -> option (list B) :=
  fix go l := match l with
  | [] => Some []
  | a :: r => match f a, go r with Some b, Some bs => Some (b :: bs) | _, _ => None end
  end.
Definition obnd {A B} (x : option A) (f : A -> option B) : option B :=
  match x with Some a => f a | None => None end.

(** expr.rs 96-122 [compose] with [other = Expr::Access(a)]. *)
Fixpoint compose_acc (e : expr) (a : accessor) {struct e} : option expr :=
  match e with
  | XConst v => Some (XConst v)
  | XAccess a1 => obnd (acc_join a a1) (fun b => Some (XAccess b))
  | XTuple l => obnd (omap (fun x => compose_acc x a) l) (fun l' => Some (XTuple l'))
  | XBin op x y => obnd (compose_acc x a) (fun x' => obnd (compose_acc y a) (fun y' => Some (XBin op x' y')))
  | XUn op x => obnd (compose_acc x a) (fun x' => Some (XUn op x'))
  | XIte x y z => obnd (compose_acc x a) (fun x' => obnd (compose_acc y a) (fun y' =>
                    obnd (compose_acc z a) (fun z' => Some (XIte x' y' z'))))
  | XCall f l => obnd (omap (fun x => compose_acc x a) l) (fun l' => Some (XCall f l'))
  | XNew f l => obnd (omap (fun x => compose_acc x a) l) (fun l' => Some (XNew f l'))
  end.

(** expr.rs 96-122 [compose]; [None] is a panic (accessor overflow, index out of
    range, "Type mismatch"). *)
Fixpoint compose (e o : expr) {struct e} : option expr :=
  match e with
  | XConst v => Some (XConst v)
  | XAccess a =>
    match o with
    | XAccess a2 => obnd (acc_join a2 a) (fun b => Some (XAccess b))
    | XTuple l =>
        match ac_len a with
        | 0 => Some (XTuple l)
        | _ => obnd (nth_error l (ac_0 a)) (fun sub =>
                 obnd (acc_shift a) (fun sa => compose_acc sub sa))
        end
    | _ => match ac_len a with 0 => Some o | _ => None end
    end
  | XTuple l => obnd (omap (fun x => compose x o) l) (fun l' => Some (XTuple l'))
  | XBin op x y => obnd (compose x o) (fun x' => obnd (compose y o) (fun y' => Some (XBin op x' y')))
  | XUn op x => obnd (compose x o) (fun x' => Some (XUn op x'))
  | XIte x y z => obnd (compose x o) (fun x' => obnd (compose y o) (fun y' =>
                    obnd (compose z o) (fun z' => Some (XIte x' y' z'))))
  | XCall f l => obnd (omap (fun x => compose x o) l) (fun l' => Some (XCall f l'))
  | XNew f l => obnd (omap (fun x => compose x o) l) (fun l' => Some (XNew f l'))
  end.
