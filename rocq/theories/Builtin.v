(** Model of the built-in predicates and functions on integers and strings:
    /repo/core/src/common/foreign_predicates/{range,string_chars,string_find,string_index,
    string_split}.rs and /repo/core/src/common/foreign_functions/{substring,string_length,
    string_char_at,string_index_of,string_concat,string_replace,format,abs,sign,min,max}.rs.
    Simplifications: a string is the list of its characters (numbers), positions in it are
    byte positions of its UTF-8 encoding, as in Rust; the operations of [str] are given by
    their documentation; tags are left out (all of them are [DynamicInputTag::None]). *)
From Coq Require Import List ZArith Bool Arith.
From Verif Require Import Aggregate.
Import ListNotations.

Definition text := list Z.
(** [char::len_utf8]. *)
Definition ulen (c : Z) : nat :=
  if Z.ltb c 128 then 1 else if Z.ltb c 2048 then 2 else if Z.ltb c 65536 then 3 else 4.
(** [str::len]. *)
Definition blen (s : text) : nat := list_sum (map ulen s).
(** The parts of a string before and after a byte position; [None] if it is not between
    characters. *)
Fixpoint cut (s : text) (i : nat) : option (text * text) :=
  match i with
  | 0 => Some ([], s)
  | _ => match s with
         | [] => None
         | c :: r => if Nat.leb (ulen c) i
                     then match cut r (i - ulen c) with Some (a, b) => Some (c :: a, b) | None => None end
                     else None
         end
  end.
(** [str::starts_with]. *)
Fixpoint starts (p s : text) : bool :=
  match p, s with
  | [], _ => true
  | c :: p, d :: s => Z.eqb c d && starts p s
  | _ :: _, [] => false
  end.
(** [str::match_indices]: from left to right, without overlaps; [skip] characters belong
    to the last match. *)
Fixpoint find_all (p s : text) (pos skip : nat) : list nat :=
  match s with
  | [] => match p, skip with [], 0 => [pos] | _, _ => [] end
  | c :: r => match skip with
              | S k => find_all p r (pos + ulen c) k
              | 0 => if starts p s then pos :: find_all p r (pos + ulen c) (length p - 1)
                     else find_all p r (pos + ulen c) 0
              end
  end.
(** [str::split]: what is between the matches; [cur] is the part read so far, reversed. *)
Fixpoint pieces (p s cur : text) (skip : nat) : list text :=
  match s with
  | [] => match p with [] => [rev cur; []] | _ => [rev cur] end
  | c :: r => match skip with
              | S k => pieces p r cur k
              | 0 => if starts p s
                     then rev cur :: match p with [] => pieces p r [c] 0 | _ :: q => pieces p r [] (length q) end
                     else pieces p r (c :: cur) 0
              end
  end.
(** [[T]::join]. *)
Fixpoint join (sep : text) (l : list text) : text :=
  match l with [] => [] | [x] => x | x :: r => x ++ sep ++ join sep r end.

(** ** Predicates *)
(** range.rs 23-62: the loop; [None] is an overflow of the counter. *)
Fixpoint range_loop (fuel : nat) (ty : ity) (curr stop : Z) : option (list Z) :=
  if Z.leb stop curr then Some []
  else match fuel with
       | 0 => None
       | S k => if in_range ty (curr + 1)
                then match range_loop k ty (curr + 1) stop with Some l => Some (curr :: l) | None => None end
                else None
       end.
Definition fp_range (ty : ity) (first stop : Z) : option (list Z) := range_loop (Z.to_nat (stop - first)) ty first stop.
(** string_chars.rs 43-55. *)
Definition fp_string_chars (s : text) : list (nat * Z) := combine (seq 0 (length s)) s.
(** string_index.rs 44-53. *)
Definition fp_string_index (s : text) : list nat := seq 0 (blen s).
(** string_find.rs 43-55. *)
Definition fp_string_find (s p : text) : list (nat * nat) := map (fun i => (i, i + length p)) (find_all p s 0 0).
(** string_split.rs 42-52. *)
Definition fp_string_split (s p : text) : list text := pieces p s [] 0.

(** ** Functions *)
(** substring.rs 40-52; [None] is a panic. *)
Definition ff_substring (s : text) (i : nat) (j : option nat) : option text :=
  match j with
  | None => option_map snd (cut s i)
  | Some j => if Nat.leb i j
              then match cut s j with Some (a, _) => option_map snd (cut a i) | None => None end
              else None
  end.
(** string_length.rs 29-35. *)
Definition ff_string_length (s : text) : nat := blen s.
(** string_char_at.rs 32-38; [None]: no value. *)
Definition ff_string_char_at (s : text) (i : nat) : option Z := hd_error (skipn i s).
(** string_index_of.rs 31-42. *)
Definition ff_string_index_of (s p : text) : option nat := hd_error (find_all p s 0 0).
(** string_concat.rs 28-39. *)
Definition ff_string_concat (l : list text) : text := fold_left (fun acc s => acc ++ s) l [].
(** string_replace.rs 29-35, [str::replace]. *)
Definition ff_string_replace (s p r : text) : text := join r (pieces p s [] 0).
(** format.rs 43-83, the arguments given by their texts; [None] is a panic. *)
Fixpoint interleave (l args : list text) : option text :=
  match l, args with
  | [], [] => Some []
  | x :: l, a :: args => match interleave l args with Some r => Some (a ++ x ++ r) | None => None end
  | _, _ => None
  end.
Definition braces : text := [123; 125]%Z.
Definition ff_format (f : text) (args : list text) : option text :=
  match pieces braces f [] 0 with
  | [] => None
  | x :: l => match interleave l args with Some r => Some (x ++ r) | None => None end
  end.

(** Numbers with their types; the floats are any type [F]. *)
Inductive num (F : Type) := NInt (ty : ity) (z : Z) | NF32 (f : F) | NF64 (f : F).
Arguments NInt {F}. Arguments NF32 {F}. Arguments NF64 {F}.
Inductive nty := YInt (ty : ity) | YF32 | YF64.
Definition nty_of {F} (n : num F) : nty := match n with NInt ty _ => YInt ty | NF32 _ => YF32 | NF64 _ => YF64 end.
Definition ity_eq_dec (a b : ity) : {a = b} + {a <> b}.
Proof. decide equality. Defined.
Section Numbers.
  Variables (F : Type) (fabs : F -> F) (fsign : F -> Z) (flt : F -> F -> bool).
  (** abs.rs 38-61; [None] is the overflow panic. *)
  Definition ff_abs (n : num F) : option (num F) :=
    match n with
    | NInt ty z => if signed ty then (if in_range ty (Z.abs z) then Some (NInt ty (Z.abs z)) else None) else Some n
    | NF32 f => Some (NF32 (fabs f))
    | NF64 f => Some (NF64 (fabs f))
    end.
  (** sign.rs 38-75. *)
  Definition ff_sign (n : num F) : num F :=
    match n with
    | NInt ty z => NInt ty (if signed ty then Z.sgn z else 1)
    | NF32 f | NF64 f => NInt TI32 (fsign f)
    end.
  (** max.rs 13-28 [dyn_max] and min.rs; the type is that of the first argument
      (foreign_function.rs [infer_return_type]); no value if another has another type.
      [ff_max []] is a panic in the code. *)
  Definition ngt (a b : num F) : option bool :=
    match a, b with
    | NInt ty x, NInt ty' y => if ity_eq_dec ty ty' then Some (Z.ltb y x) else None
    | NF32 x, NF32 y | NF64 x, NF64 y => Some (flt y x)
    | _, _ => None
    end.
  Fixpoint best (max : bool) (curr : num F) (l : list (num F)) : option (num F) :=
    match l with
    | [] => Some curr
    | n :: l => match (if max then ngt n curr else ngt curr n) with
                | Some b => best max (if b then n else curr) l
                | None => None
                end
    end.
  Definition ff_max (l : list (num F)) : option (num F) := match l with [] => None | n :: l => best true n l end.
  Definition ff_min (l : list (num F)) : option (num F) := match l with [] => None | n :: l => best false n l end.
End Numbers.
