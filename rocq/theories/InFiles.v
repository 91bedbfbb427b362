(** Model of the attributes [file] and [storage] of relations:
    /repo/core/src/compiler/front/analyzers/input_files.rs, storage_attr.rs, common/input_file.rs 27-43,
    runtime/database/metadata.rs 51-60, compiler/front/ast/attr.rs 60-90 and 170-203.

    Simplifications.
    - A declaration is its attributes and the relations it is about. Locations are left out.
    - Texts are lists of code points; the extension of a path is given by a function. Maps are lists of pairs. *)
From Coq Require Import List NArith Bool String.
Import ListNotations.
Set Implicit Arguments.
Local Open Scope string_scope.
Local Open Scope list_scope.

Definition text := list N.
(** attr.rs 5-25: a constant, a list or a tuple; [VOther] is a constant that is neither a text nor a boolean *)
Inductive fval := VText (t : text) | VBool (b : bool) | VOther | VList (l : list fval) | VTuple (l : list fval).
Record fattr := mkFA { fa_name : string; fa_pos : list fval; fa_kw : list (string * fval) }.
(** type declarations of relations; sets, facts and rules with the relations of their heads *)
Inductive fitem := FType (ats : list fattr) (ps : list string) | FRel (ats : list fattr) (ps : list string).
Inductive ferr :=
| FNum | FArg | FNoExt | FExt | FProbBool | FHeadBool | FDelimString | FDelimSingle | FDelimAscii | FKeysEmpty | FKeysString | FFields
| SNum | SType | SName | STwice (p : string).
Inductive fres (A : Type) := Ok (a : A) | Er (e : ferr).
Arguments Er {A}.
Definition bind (A B : Type) (r : fres A) (f : A -> fres B) : fres B := match r with Ok a => f a | Er e => Er e end.

(** attr.rs 176-203 *)
Definition kw_arg (a : fattr) (k : string) : option fval :=
  match find (fun x => String.eqb (fst x) k) (fa_kw a) with Some x => Some (snd x) | None => None end.
Definition f_find (n : string) (l : list fattr) : option fattr := find (fun a => String.eqb (fa_name a) n) l.
(** [str::len] counts bytes *)
Definition u8len (c : N) : nat := if N.ltb c 128 then 1 else if N.ltb c 2048 then 2 else if N.ltb c 65536 then 3 else 4.
Definition text_len (t : text) : nat := fold_right (fun c n => u8len c + n) 0 t.
Definition is_ascii (c : N) : bool := N.ltb c 128.

(** input_files.rs 30-54 *)
Definition process_delim (o : option fval) : fres (option N) :=
  match o with
  | Some (VText s) =>
      if Nat.eqb (text_len s) 1 then
        match s with c :: _ => if is_ascii c then Ok (Some c) else Er FDelimAscii | [] => Er FDelimSingle end
      else Er FDelimSingle
  | Some _ => Er FDelimString
  | None => Ok None
  end.
(** 56-78 *)
Definition process_bool (e : ferr) (o : option fval) : fres (option bool) :=
  match o with Some (VBool b) => Ok (Some b) | Some _ => Er e | None => Ok None end.
Fixpoint texts (e : ferr) (l : list fval) : fres (list text) :=
  match l with
  | [] => Ok []
  | VText t :: l => bind (texts e l) (fun r => Ok (t :: r))
  | _ :: _ => Er e
  end.
(** 80-116 *)
Definition process_keys (o : option fval) : fres (option (list text)) :=
  match o with
  | Some (VText s) => Ok (Some [s])
  | Some (VList []) => Er FKeysEmpty
  | Some (VList l) => bind (texts FKeysString l) (fun r => Ok (Some r))
  | Some _ => Er FKeysString
  | None => Ok None
  end.
(** 118-141 *)
Definition process_fields (o : option fval) : fres (option (list text)) :=
  match o with
  | Some (VList l) => bind (texts FFields l) (fun r => Ok (Some r))
  | Some _ => Er FFields
  | None => Ok None
  end.
Record csv := mkCsv { c_path : text; c_delim : N; c_header : bool; c_prob : bool; c_keys : option (list text); c_fields : option (list text) }.
(** input_file.rs 27-43 *)
Definition csv_with_options (p : text) (d : option N) (h pr : option bool) (k f : option (list text)) : csv :=
  mkCsv p (match d with Some d => d | None => 44%N end)
    (match h with Some b => b | None => false end || match k with Some _ => true | None => false end || match f with Some _ => true | None => false end)
    (match pr with Some b => b | None => false end) k f.

Section Files.
  Variable ext : text -> option text.
  Definition t_csv : text := [99; 115; 118]%N.
  Definition text_eqb (a b : text) : bool := if list_eq_dec N.eq_dec a b then true else false.
  (** 143-181 *)
  Definition process_attr (a : fattr) : fres csv :=
    match fa_pos a with
    | VText s :: _ =>
        match ext s with
        | Some e =>
            if text_eqb e t_csv then
              bind (process_delim (kw_arg a "deliminator")) (fun d =>
              bind (process_bool FHeadBool (match kw_arg a "has_header" with Some v => Some v | None => kw_arg a "header" end)) (fun h =>
              bind (process_bool FProbBool (kw_arg a "has_probability")) (fun pr =>
              bind (process_keys (kw_arg a "keys")) (fun k =>
              bind (process_fields (kw_arg a "fields")) (fun f => Ok (csv_with_options s d h pr k f))))))
            else Er FExt
        | None => Er FNoExt
        end
    | _ :: _ => Er FArg
    | [] => Er FNum
    end.
  Fixpoint flook (A : Type) (l : list (string * A)) (k : string) : option A :=
    match l with [] => None | (j, a) :: l => if String.eqb j k then Some a else flook l k end.
  Record istate := mkI { i_map : list (string * csv); i_errs : list ferr }.
  (** 183-194 *)
  Definition process_attrs (ats : list fattr) (st : istate) (p : string) : istate :=
    match f_find "file" ats with
    | None => st
    | Some a => match process_attr a with
                | Ok f => mkI ((p, f) :: i_map st) (i_errs st)
                | Er e => mkI (i_map st) (i_errs st ++ [e])
                end
    end.
  (** 197-203 *)
  Definition i_visit (st : istate) (i : fitem) : istate :=
    match i with FType ats ps => fold_left (process_attrs ats) ps st | FRel _ _ => st end.
  Definition i_analysis (its : list fitem) : istate := fold_left i_visit its (mkI [] []).
End Files.

(** ** Storage *)
Inductive storage := Sorted | IndexedVec.
(** metadata.rs 51-60: "sorted", "indexed_vec" *)
Definition t_sorted : text := [115; 111; 114; 116; 101; 100]%N.
Definition t_indexed : text := [105; 110; 100; 101; 120; 101; 100; 95; 118; 101; 99]%N.
Definition parse_storage (t : text) : option storage :=
  if text_eqb t t_sorted then Some Sorted else if text_eqb t t_indexed then Some IndexedVec else None.
(** storage_attr.rs 25-57 *)
Definition find_storage (a : fattr) : fres storage :=
  match fa_pos a with
  | VText s :: _ => match parse_storage s with Some m => Ok m | None => Er SName end
  | _ :: _ => Er SType
  | [] => Er SNum
  end.
Record ststate := mkSt { st_map : list (string * storage); st_errs : list ferr }.
(** 63-75 and 81-94 *)
Fixpoint set_storage (m : storage) (ps : list string) (st : ststate) : ststate :=
  match ps with
  | [] => st
  | p :: ps => match flook (st_map st) p with
               | None => set_storage m ps (mkSt ((p, m) :: st_map st) (st_errs st))
               | Some _ => mkSt (st_map st) (st_errs st ++ [STwice p])
               end
  end.
Definition f_attrs (i : fitem) : list fattr := match i with FType a _ | FRel a _ => a end.
Definition f_rels (i : fitem) : list string := match i with FType _ p | FRel _ p => p end.
Definition st_visit (st : ststate) (i : fitem) : ststate :=
  match f_find "storage" (f_attrs i) with
  | None => st
  | Some a => match find_storage a with
              | Ok m => set_storage m (f_rels i) st
              | Er e => mkSt (st_map st) (st_errs st ++ [e])
              end
  end.
Definition st_analysis (its : list fitem) : ststate := fold_left st_visit its (mkSt [] []).
