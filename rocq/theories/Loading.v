(** Model of loading sources into a front context: compiler/front/compile.rs 195-372 and
    utils/copy_on_write.rs 1-34, with the reference counts of utils/pointer_family.rs 152-172.

    Simplifications.
    - Paths are natural numbers and canonical: two imports name the same file exactly if the numbers
      are equal (source.rs 11-22). Files do not change while a source is loaded.
    - A file is what opening and parsing it gives: nothing (it cannot be opened), a parse error, or the
      paths it imports and its items.
    - The analysis is a type [A] with functions for its two phases and for the transformations
      between them; each phase says whether there is an error.
    - Contexts without foreign attribute processors; ids and locations of nodes are not modelled.
    - Memory is a list of cells with reference counts; a cell is not reused. *)
From Coq Require Import List Bool Arith Lia.
Import ListNotations.
Set Implicit Arguments.

Section Loading.
  Variable A item : Type.
  Variable a0 : A.
  (** [perform_pre_transformation_analysis] and [dump_errors] (286-291) *)
  Variable pre : A -> list item -> A * bool.
  (** [apply_transformations] (295-297) *)
  Variable transform : A -> list item -> A * list item.
  (** [process_items], [post_analysis] and [dump_errors] (304-314) *)
  Variable post : A -> list item -> A * bool.

  Record src := mkSrc { sc_imports : list nat; sc_body : list item }.
  (** [FileSource::new] and the parser: [None] cannot be opened, [Some None] cannot be parsed *)
  Variable fs : nat -> option (option src).

  (** ** Memory *)
  Definition heap := list (A * nat).
  Definition hread (h : heap) (q : nat) : A := fst (nth q h (a0, 0)).
  Definition hcount (h : heap) (q : nat) : nat := snd (nth q h (a0, 0)).
  Fixpoint hmap (h : heap) (q : nat) (f : A * nat -> A * nat) : heap :=
    match h, q with
    | [], _ => []
    | x :: r, 0 => f x :: r
    | x :: r, S q => x :: hmap r q f
    end.
  (** [Rc::clone] and [drop] *)
  Definition hincr (h : heap) (q : nat) : heap := hmap h q (fun x => (fst x, S (snd x))).
  Definition hdecr (h : heap) (q : nat) : heap := hmap h q (fun x => (fst x, pred (snd x))).
  Definition hwrite (h : heap) (q : nat) (a : A) : heap := hmap h q (fun x => (a, snd x)).
  (** copy_on_write.rs 14-22 [modify], the new value given: a new cell, the old one dropped *)
  Definition hmodify (h : heap) (q : nat) (a : A) : heap * nat := (hdecr (h ++ [(a, 1)]) q, length h).

  (** ** Contexts (the fields that loading changes) *)
  Record fctx := mkFctx { fc_imported : list nat; fc_sources : list (option nat); fc_items : list item; fc_ptr : nat }.
  Inductive ferr := EParse | ECycle (f : nat) | EOpen (f : nat) | EAnalysis.
  Inductive outcome := Done | Failed (e : ferr) | Panicked | NoFuel.

  (** 360-364 [add_import]: [None] is a source that is not a file *)
  Definition add_import (c : fctx) (p : option nat) : fctx :=
    match p with
    | Some f => mkFctx (f :: fc_imported c) (fc_sources c) (fc_items c) (fc_ptr c)
    | None => c
    end.
  (** 366-372 *)
  Definition is_imported (c : fctx) (f : nat) : bool := existsb (Nat.eqb f) (fc_imported c).

  (** 336-359 [process_imports]; [load] compiles a file *)
  Fixpoint process_imports (load : heap -> fctx -> option nat -> option src -> outcome * heap * fctx)
      (h : heap) (d : fctx) (l : list nat) : outcome * heap * fctx :=
    match l with
    | [] => (Done, h, d)
    | f :: r =>
      if is_imported d f then (Failed (ECycle f), h, d) else
      match fs f with
      | None => (Failed (EOpen f), h, d)
      | Some content =>
        let '(o, h', d') := load h d (Some f) content in
        match o with
        | Done => process_imports load h' d' r
        | _ => (o, h', d')
        end
      end
    end.

  (** 254-330: the source is added, analysed, transformed, analysed; [c] is [self], [d] is [dup_ctx] *)
  Definition finish (h : heap) (c d : fctx) (p : option nat) (body : list item) : outcome * heap * fctx :=
    let '(a1, e1) := pre (hread h (fc_ptr d)) body in
    let '(h1, q1) := hmodify h (fc_ptr d) a1 in
    if e1 then (Failed EAnalysis, hdecr h1 q1, c) else
    if Nat.eqb (hcount h1 q1) 1 then
      let '(a2, body') := transform (hread h1 q1) body in
      let h2 := hwrite h1 q1 a2 in
      let '(a3, e3) := post (hread h2 q1) body' in
      let '(h3, q3) := hmodify h2 q1 a3 in
      if e3 then (Failed EAnalysis, hdecr h3 q3, c) else
      (Done, hdecr h3 (fc_ptr c), mkFctx (fc_imported d) (fc_sources d ++ [p]) (fc_items d ++ body') q3)
    else (Panicked, h1, c).

  (** 216-334 [compile_source_with_parser_and_annotator] *)
  Fixpoint load (fuel : nat) (h : heap) (c : fctx) (p : option nat) (content : option src) : outcome * heap * fctx :=
    match fuel with
    | 0 => (NoFuel, h, c)
    | S fuel =>
      let h1 := hincr h (fc_ptr c) in
      match content with
      | None => (Failed EParse, hdecr h1 (fc_ptr c), c)
      | Some s =>
        let '(o, h2, d) := process_imports (load fuel) h1 (add_import c p) (sc_imports s) in
        match o with
        | Done => finish h2 c d p (sc_body s)
        | Failed e => (Failed e, hdecr h2 (fc_ptr d), c)
        | _ => (o, h2, c)
        end
      end
    end.
End Loading.
