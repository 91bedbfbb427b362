(** Model of what happens to facts on their way into and out of the engine: the check of their
    types (common/tuple_type.rs 30-51, runtime/database/extensional/database.rs 121-180 and 278-305,
    integrate/context.rs 287-324 and 612-648) and the translation of symbols and entity strings
    (runtime/env/environment.rs 190-215 and 247-271, runtime/env/dynamic_entity_storage.rs 31-53).

    Simplifications.
    - Tensors are left out, as in Value.v.
    - Entity strings are parsed by a parameter [parse] into the terms of Entity.v; the rest of
      adt_variant_registry.rs is [parse_entity] of that file.
    - The facts of entities that are waiting to be delivered are one list; DynEnt.v has the store.
    - Relations are numbers, input tags any type. *)
From Coq Require Import List ZArith Bool String.
From Verif Require Import Value Back Eval TypeSet Infer Front Cast Entity Utils.
Import ListNotations.
Set Implicit Arguments.

(** ** Types of tuples *)
(** tuple_type.rs 5, generic_tuple.rs 3-7 *)
Inductive ttype := TyVal (t : vtype) | TyTup (ts : list ttype).
(** tuple_type.rs 31-36 *)
Fixpoint type_of (t : tuple) : ttype :=
  match t with
  | TVal v => TyVal (val_type v)
  | TTup ts => TyTup (map type_of ts)
  end.
(** tuple_type.rs 38-50 *)
Fixpoint ty_matches (y : ttype) (t : tuple) {struct y} : bool :=
  match y, t with
  | TyTup ys, TTup ts =>
      if Nat.eqb (List.length ys) (List.length ts) then
        (fix go (ys : list ttype) (ts : list tuple) : bool :=
           match ys, ts with
           | y :: ys, t :: ts => ty_matches y t && go ys ts
           | _, _ => true
           end) ys ts
      else false
  | TyVal y, TVal v => vt_eqb (val_type v) y
  | _, _ => false
  end.
(** tuple_type.rs 52-58 with [can_be_singleton] false, as in type_inference.rs 134-138 *)
Definition from_types (l : list vtype) : ttype := TyTup (map TyVal l).

Section Translate.
  Variable h : string -> list feed -> Z.
  Variable cv : conv.
  Variable parse : string -> option ent.
  Variable vars : string -> option variant.

  (** The parts of the runtime environment that the translation changes. *)
  Record benv := mkBenv { b_syms : registry; b_ents : list vfact }.

  (** environment.rs 201-214 *)
  Definition internalize_value (e : benv) (v : value) : option value * benv :=
    match v with
    | VSymbolString s => let (r, i) := register (b_syms e) s in (Some (VSymbol (Z.of_nat i)), mkBenv r (b_ents e))
    | VEntityString s =>
        match obnd (parse s) (fun x => parse_entity h cv vars x TEntity) with
        | Some (fs, id) => (Some id, mkBenv (b_syms e) (b_ents e ++ fs))
        | None => (None, e)
        end
    | v => (Some v, e)
    end.
  (** environment.rs 190-199: stops at the first element that cannot be translated *)
  Fixpoint internalize_tuple (e : benv) (t : tuple) {struct t} : option tuple * benv :=
    match t with
    | TVal v => let (o, e1) := internalize_value e v in (option_map TVal o, e1)
    | TTup ts =>
        let (o, e1) := (fix go (e : benv) (ts : list tuple) : option (list tuple) * benv :=
          match ts with
          | [] => (Some [], e)
          | t :: ts =>
              match internalize_tuple e t with
              | (None, e1) => (None, e1)
              | (Some u, e1) => let (o, e2) := go e1 ts in (option_map (cons u) o, e2)
              end
          end) e ts in (option_map TTup o, e1)
    end.
  (** extensional/relation.rs 165-189: the tuples of a list of facts, those that cannot be translated left out *)
  Fixpoint internalize_all (e : benv) (ts : list tuple) : list tuple * benv :=
    match ts with
    | [] => ([], e)
    | t :: ts =>
        let (o, e1) := internalize_tuple e t in
        let (us, e2) := internalize_all e1 ts in
        (match o with Some u => u :: us | None => us end, e2)
    end.
End Translate.

(** environment.rs 258-270; [expect] panics *)
Definition externalize_value (r : registry) (v : value) : ev value :=
  match v with
  | VSymbol z => match get_symbol r (Z.to_nat z) with Some s => EOk (VSymbolString s) | None => EPanic end
  | v => EOk v
  end.
(** environment.rs 247-256 *)
Fixpoint externalize_tuple (r : registry) (t : tuple) : ev tuple :=
  match t with
  | TVal v => ebind (externalize_value r v) (fun w => EOk (TVal w))
  | TTup ts => ebind (emap (externalize_tuple r) ts) (fun us => EOk (TTup us))
  end.

(** ** Adding facts *)
Section Add.
  Variable IT : Type.
  (** The fields of [ExtensionalDatabase] (15-34) that adding facts reads or changes: the flag, the
      types of relations, and the facts given and not yet internalized. *)
  Record bdb := mkBdb { bd_check : bool; bd_types : list (nat * ttype); bd_input : nat -> list (IT * tuple) }.
  Inductive berr := TypeMismatch (t : tuple) | UnknownRelation.
  Fixpoint type_lookup (l : list (nat * ttype)) (r : nat) : option ttype :=
    match l with [] => None | (k, y) :: l => if Nat.eqb k r then Some y else type_lookup l r end.
  (** The loops of database.rs 287-296 and context.rs 297-307: the error is that of the first tuple that does not match *)
  Definition check_types (y : option ttype) (fs : list (IT * tuple)) : option berr :=
    match y with
    | None => Some UnknownRelation
    | Some y => option_map (fun f => TypeMismatch (snd f)) (find (fun f => negb (ty_matches y (snd f))) fs)
    end.
  (** extensional/relation.rs 126-132 *)
  Definition db_insert (d : bdb) (r : nat) (fs : list (IT * tuple)) : bdb :=
    mkBdb (bd_check d) (bd_types d) (fun q => if Nat.eqb q r then bd_input d q ++ fs else bd_input d q).
  (** database.rs 153-166 and 278-305 *)
  Definition db_add_facts (d : bdb) (r : nat) (fs : list (IT * tuple)) : option berr * bdb :=
    match (if bd_check d then check_types (type_lookup (bd_types d) r) fs else None) with
    | Some e => (Some e, d)
    | None => (None, db_insert d r fs)
    end.
  (** incremental.rs 612-624: [computed] are the relations that have results *)
  Record bctx := mkBctx { bc_computed : list nat; bc_db : bdb }.
  Definition exec_add_facts (c : bctx) (r : nat) (fs : list (IT * tuple)) : option berr * bctx :=
    let computed := match fs with [] => bc_computed c | _ => filter (fun q => negb (Nat.eqb q r)) (bc_computed c) end in
    let (e, d) := db_add_facts (bc_db c) r fs in (e, mkBctx computed d).
  (** context.rs 287-324: [types] are those of the front context (612-648: of the compiled program) *)
  Definition ctx_add_facts (types : nat -> option ttype) (check : bool) (c : bctx) (r : nat) (fs : list (IT * tuple)) : option berr * bctx :=
    match (if check then check_types (types r) fs else None) with
    | Some e => (Some e, c)
    | None => exec_add_facts c r fs
    end.
  (** database.rs 38-107: [DynamicExecutionContext::new] gives no types, [new_with_program] those of the program;
      a context of context.rs 42-93 gives no types and does not check *)
  Definition db_with_types (check : bool) (types : list (nat * ttype)) : bdb := mkBdb check types (fun _ => []).
  Definition integrate_ctx : bctx := mkBctx [] (db_with_types false []).
End Add.
