(** Model of input files: /repo/core/src/runtime/database/io/{input_file_content,
    input_file_registry}.rs, the loading of files in runtime/database/extensional/
    {relation,database}.rs, common/input_file.rs and the parsing of values in
    common/value_type.rs 229-278.
    Results are [ev]: [ENone] is an error that is returned, [EPanic] a panic. *)
From Coq Require Import List ZArith Bool Arith String.
From Coq Require Import List.
From Verif Require Import Value Back Eval TypeSet Cast.
Import ListNotations.
Local Open Scope string_scope.

(** The parsers that are not modelled: characters, dates and durations. *)
Record cenv := mkCenv { ce_conv : conv; ce_char : string -> option Z; ce_date : string -> option Z; ce_duration : string -> option Z }.

(** [collect] into a [Result]: the first error, or panic, ends it. *)
Fixpoint eall {A} (l : list (ev A)) : ev (list A) :=
  match l with
  | [] => EOk []
  | x :: l => ebind x (fun a => ebind (eall l) (fun r => EOk (a :: r)))
  end.
(** [ok_or]. *)
Definition ok_or {A} (o : option A) : ev A := match o with Some a => EOk a | None => ENone end.

(** common/value_type.rs 229-278 [parse]. *)
Definition parse_value (c : cenv) (t : vtype) (s : string) : ev value :=
  match kind_of t with
  | Some k => some_or (parse_int k s) (of_int k)
  | None =>
    match t with
    | TF32 => some_or (cv_parse (ce_conv c) false s) F32
    | TF64 => some_or (cv_parse (ce_conv c) true s) F64
    | TBool => if String.eqb s "true" then EOk (VBool true) else if String.eqb s "false" then EOk (VBool false) else ENone
    | TChar => some_or (ce_char c s) VChar
    | TString => EOk (VString s)
    | TDateTime => some_or (ce_date c s) VDateTime
    | TDuration => some_or (ce_duration c s) VDuration
    | _ => EPanic
    end
  end.
(** common/input_tag.rs 67-82, and [DynamicInputTag::None]. *)
Inductive ctag := CtNone | CtBool (b : bool) | CtFloat (f : Z).
Definition parse_tag (c : cenv) (s : string) : ev ctag :=
  if String.eqb s "true" then EOk (CtBool true)
  else if String.eqb s "false" then EOk (CtBool false)
  else some_or (cv_parse (ce_conv c) true s) CtFloat.

(** io/input_file_content.rs 25-70 [CSVFileContent::from_file]; the records are those that the
    csv library finds, which by its documentation refuses records of different lengths.  The
    library splits the text. *)
Record csv := mkCsv { cs_fields : list string; cs_rows : list (list string) }.
Definition from_records (hdr : bool) (recs : list (list string)) : ev csv :=
  match recs with
  | [] => EOk (mkCsv [] [])
  | r :: rs => if forallb (fun x => Nat.eqb (length x) (length r)) rs
               then EOk (if hdr then mkCsv r rs else mkCsv [] recs) else ENone
  end.
(** 52, 78-80 [get_header_id]: later fields overwrite earlier ones in the map. *)
Fixpoint header_id (fs : list string) (h : string) : option nat :=
  match fs with
  | [] => None
  | f :: fs => match header_id fs h with Some i => Some (S i) | None => if String.eqb f h then Some 0 else None end
  end.

(** relation.rs 356-362, and the same in the other functions. *)
Definition row_tag (c : cenv) (prob : bool) (row : list string) : ev ctag :=
  if prob then ebind (ok_or (nth_error row 0)) (parse_tag c) else EOk CtNone.
(** relation.rs 324-333, 445-454, 539-548: the columns of names, with types. *)
Definition columns (fs : list string) (names : list string) (ts : list vtype) : ev (list (nat * vtype)) :=
  eall (map (fun kt => ebind (ok_or (header_id fs (fst kt))) (fun i => EOk (i, snd kt))) (combine names ts)).
(** relation.rs 365-371, 476-482, 563-569: the values in columns. *)
Definition column_values (c : cenv) (cols : list (nat * vtype)) (row : list string) : ev (list value) :=
  eall (map (fun it => ebind (ok_or (nth_error row (fst it))) (parse_value c (snd it))) cols).
Definition index_row (row : list string) : list (nat * string) := combine (seq 0 (length row)) row.

(** relation.rs 288-408 [load_from_csv_with_keys_and_fields] and 410-519
    [load_from_csv_with_keys], which is the same without the set of fields. *)
Definition load_keys (c : cenv) (keys : list string) (fields : option (list string)) (prob : bool) (f : csv) (ts : list vtype)
  : ev (list (ctag * list value)) :=
  if negb (Nat.eqb (length ts) (length keys + 2)) then ENone else
  match skipn (length keys) ts with
  | [TSymbol; TString] =>
    ebind (columns (cs_fields f) keys ts) (fun cols =>
    ebind (match fields with
           | Some l => ebind (eall (map (fun h => ok_or (header_id (cs_fields f) h)) l)) (fun l => EOk (Some l))
           | None => EOk None
           end) (fun sel =>
    ebind (eall (map (fun row =>
      ebind (row_tag c prob row) (fun tag =>
      ebind (column_values c cols row) (fun ks =>
      eall (map (fun x => ebind (ok_or (nth_error (cs_fields f) (fst x)))
                                   (fun h => EOk (tag, (ks ++ [VSymbol (cv_register (ce_conv c) h); VString (snd x)])%list)))
               (filter (fun x => negb (existsb (fun j => Nat.eqb (fst x) (fst j)) cols)
                                 && match sel with Some l => existsb (Nat.eqb (fst x)) l | None => true end)
                  (skipn (if prob then 1 else 0) (index_row row))))))) (cs_rows f))) (fun out => EOk (concat out))))
  | _ => ENone
  end.
(** relation.rs 521-577 [load_from_csv_with_fields]. *)
Definition load_fields (c : cenv) (fields : list string) (prob : bool) (f : csv) (ts : list vtype) : ev (list (ctag * list value)) :=
  if negb (Nat.eqb (length ts) (length fields)) then ENone else
  ebind (columns (cs_fields f) fields ts) (fun cols =>
  eall (map (fun row => ebind (row_tag c prob row) (fun tag => ebind (column_values c cols row) (fun vs => EOk (tag, vs)))) (cs_rows f))).
(** relation.rs 579-622 [load_from_csv_raw]. *)
Definition load_raw (c : cenv) (prob : bool) (f : csv) (ts : list vtype) : ev (list (ctag * list value)) :=
  let off := if prob then 1 else 0 in
  eall (map (fun row =>
    if negb (Nat.eqb (length row) (length ts + off)) then ENone else
    ebind (row_tag c prob row) (fun tag =>
    ebind (eall (map (fun st => parse_value c (snd st) (fst st)) (combine (skipn off row) ts))) (fun vs => EOk (tag, vs)))) (cs_rows f)).

(** common/input_file.rs 3-44; the paths are numbers. *)
Record infile := mkIn { in_path : nat; in_delim : nat; in_header : bool; in_prob : bool; in_keys : option (list string); in_fields : option (list string) }.
Definition csv_with_options (p : nat) (d : option nat) (h pr : option bool) (ks fs : option (list string)) : infile :=
  mkIn p (match d with Some d => d | None => 44 end)
    (match h with Some h => h | None => false end || match ks with Some _ => true | None => false end || match fs with Some _ => true | None => false end)
    (match pr with Some b => b | None => false end) ks fs.
(** relation.rs 270-286 [load_from_csv]. *)
Definition load_csv (c : cenv) (i : infile) (f : csv) (ts : list vtype) : ev (list (ctag * list value)) :=
  match in_keys i, in_fields i with
  | Some ks, fs => load_keys c ks fs (in_prob i) f ts
  | None, Some fs => load_fields c fs (in_prob i) f ts
  | None, None => load_raw c (in_prob i) f ts
  end.

(** The files: the records of a path, split at a delimiter, if the file can be read. *)
Definition disk := nat -> nat -> option (list (list string)).
Definition registry_files := list (nat * csv).
Fixpoint file_of (g : registry_files) (p : nat) : option csv :=
  match g with [] => None | (q, f) :: g => if Nat.eqb q p then Some f else file_of g p end.
(** io/input_file_content.rs 13-22. *)
Definition load_content (D : disk) (i : infile) : ev csv :=
  ebind (ok_or (D (in_path i) (in_delim i))) (from_records (in_header i)).
(** io/input_file_registry.rs 38-54 [load]; [shared]: a clone of the registry is alive, so that
    [get_rc_mut] (utils/pointer_family.rs 99-101, [Arc::get_mut] and [unwrap]) panics. *)
Fixpoint registry_load (D : disk) (shared : bool) (is : list infile) (g : registry_files) : ev registry_files :=
  match is with
  | [] => EOk g
  | i :: is =>
    match file_of g (in_path i) with
    | Some _ => registry_load D shared is g
    | None => ebind (load_content D i) (fun f => if shared then EPanic else registry_load D shared is ((in_path i, f) :: g))
    end
  end.

(** relation.rs 135-155 [load_from_file]: the files that were loaded and the input facts. *)
Record frel := mkFrel { fl_loaded : list nat; fl_dyn : list (ctag * list value) }.
Definition load_from_file (c : cenv) (i : infile) (f : csv) (ts : list vtype) (r : frel) : ev frel :=
  if existsb (Nat.eqb (in_path i)) (fl_loaded r) then EOk r
  else ebind (load_csv c i f ts) (fun out => EOk (mkFrel (in_path i :: fl_loaded r) (fl_dyn r ++ out)%list)).
(** database.rs 203-246 [populate_program_facts], its part about files, for relations that are
    new; [None] of [file_of] would be the [unwrap] of 238. *)
Definition populate_files (c : cenv) (D : disk) (shared : bool) (rels : list (infile * list vtype)) (g : registry_files)
  : ev (list (list (ctag * list value))) :=
  ebind (registry_load D shared (map fst rels) g) (fun g =>
  eall (map (fun r => match file_of g (in_path (fst r)) with
                      | Some f => ebind (load_from_file c (fst r) f (snd r) (mkFrel [] [])) (fun x => EOk (fl_dyn x))
                      | None => EPanic
                      end) rels)).
