(** Model of constant declarations, enumerations and entities (terms of algebraic data
    types): /repo/core/src/compiler/front/ast/entity.rs, /repo/core/src/compiler/front/
    analyzers/constant_decl.rs, transformations/const_var_to_const.rs, /repo/core/src/
    common/{entity,adt_variant_registry}.rs and /repo/core/src/runtime/env/environment.rs
    738-758.
    Simplifications: the hash of an entity is a parameter, a function of everything that
    is fed to the hasher; strings are parsed by the parser of the language, so an entity
    string is its syntax tree; tensors are left out, as in Value.v. *)
From Coq Require Import List ZArith Bool String.
From Verif Require Import Value Back Eval TypeSet Infer Front Cast.
Import ListNotations.
Local Open Scope string_scope.
Local Open Scope list_scope.

(** ast/utils.rs 35-48 [NodeLocation], what its [Hash] feeds: the source and the
    offsets.  ast/constant.rs 73-86 [Constant]: a content with a location. *)
Definition loc := (nat * nat * nat)%type.
Definition lconst := (loc * content)%type.
(** What the hasher is fed besides the name of the functor: a literal with its location
    (ast/utils.rs 199-203, the derived [Hash]), or a value. *)
Inductive feed := FeedLit (c : lconst) | FeedVal (v : value).

(** ast/entity.rs 6-9, 108-112 [Entity], [Object].  [NExpr] is an expression that is
    neither a constant nor a variable. *)
Inductive ent :=
| NConst (c : lconst)
| NVar (v : string)
| NExpr
| NObj (l : loc) (f : string) (args : list ent).

(** ast/entity.rs 100-106 [EntityFact]. *)
Record efact := mkEfact { ef_functor : string; ef_id : lconst; ef_args : list lconst }.

Section Hash.
  (** common/entity.rs 4-11 [encode_entity]. *)
  Variable h : string -> list feed -> Z.

  (** ast/entity.rs 45-96 [to_facts_with_constant_variables]: the facts of the arguments
      come before the fact of the entity; [None] is a panic. *)
  Fixpoint to_facts (vars : string -> option lconst) (e : ent) : option (list efact * lconst) :=
    match e with
    | NConst c => Some ([], c)
    | NVar v => obnd (vars v) (fun c => Some ([], c))
    | NExpr => None
    | NObj l f args =>
      obnd (oall (map (to_facts vars) args)) (fun rs =>
        let cs := map snd rs in
        let id := (l, CEntity (h f (map FeedLit cs))) in
        Some (List.concat (map fst rs) ++ [mkEfact f id cs], id))
    end.
  (** ast/entity.rs 30-39, 123-133, ast/expr.rs 123-138: nothing but constants and
      variables that are constants. *)
  Fixpoint all_constant (vars : string -> option lconst) (e : ent) : bool :=
    match e with
    | NConst _ => true
    | NVar v => match vars v with Some _ => true | None => false end
    | NExpr => false
    | NObj _ _ args => forallb (all_constant vars) args
    end.

  (** ** Constant declarations *)
  (** constant_decl.rs 253-279, the errors that are pushed. *)
  Inductive cerror := Duplicated (v : string) | NonConstant (v : string) | EnumAssigned (v : string).
  (** constant_decl.rs 15-20 [ConstantDeclAnalysis].  A declared type is a value type. *)
  Record cstate := mkCs {
    cs_vars : list (string * (option vtype * lconst));
    cs_uses : list (loc * string);
    cs_facts : list efact;
    cs_errors : list cerror }.
  Definition cs_empty : cstate := mkCs [] [] [] [].
  Fixpoint find_var (v : string) (l : list (string * (option vtype * lconst))) : option (option vtype * lconst) :=
    match l with
    | [] => None
    | (w, c) :: l => if String.eqb v w then Some c else find_var v l
    end.
  Definition constant_of (st : cstate) (v : string) : option lconst := option_map snd (find_var v (cs_vars st)).
  Definition push_error (e : cerror) (st : cstate) : cstate := mkCs (cs_vars st) (cs_uses st) (cs_facts st) (e :: cs_errors st).
  Definition is_literal (e : ent) : bool := match e with NConst _ => true | _ => false end.

  (** constant_decl.rs 144-185 [visit] of a [ConstAssignment]: the type of what is not a
      literal is that of entities; [None] is a panic. *)
  Definition visit_const (st : cstate) (v : string) (ty : option vtype) (e : ent) : option cstate :=
    match find_var v (cs_vars st) with
    | Some _ => Some (push_error (Duplicated v) st)
    | None =>
      if all_constant (constant_of st) e then
        let ty := if is_literal e then ty else Some TEntity in
        obnd (to_facts (constant_of st) e) (fun r =>
          Some (mkCs ((v, (ty, snd r)) :: cs_vars st) (cs_uses st) (cs_facts st ++ fst r) (cs_errors st)))
      else Some (push_error (NonConstant v) st)
    end.

  (** constant_decl.rs 65-103 [extract_value]; [EnumPanic]: the next number does not fit
      into [i64]. *)
  Inductive enum_id := EnumId (z : Z) | EnumTaken | EnumPanic.
  Definition next_id (prev : option Z) : enum_id :=
    match prev with
    | Some p => if (p + 1 <=? imax KI64)%Z then EnumId (p + 1)%Z else EnumPanic
    | None => EnumId 0%Z
    end.
  Definition extract_value (assigned : option content) (prev : option Z) : enum_id :=
    match assigned with
    | Some (CInt i) =>
        if (0 <=? i)%Z then match prev with
                            | Some p => if (p <? i)%Z then EnumId i else EnumTaken
                            | None => EnumId i
                            end
        else next_id prev
    | _ => next_id prev
    end.
  (** constant_decl.rs 64-142 [process_enum_type_decl]: the first error ends it, the
      members before stay declared.  The constants have the default location. *)
  Definition no_loc : loc := (0, 0, 0)%nat.
  Fixpoint enum_members (st : cstate) (prev : option Z) (ms : list (string * option content)) : option cstate :=
    match ms with
    | [] => Some st
    | (v, a) :: ms =>
      match extract_value a prev with
      | EnumPanic => None
      | EnumTaken => Some (push_error (EnumAssigned v) st)
      | EnumId z =>
        match find_var v (cs_vars st) with
        | Some _ => Some (push_error (Duplicated v) st)
        | None => enum_members (mkCs ((v, (Some TUSize, (no_loc, CInt z))) :: cs_vars st) (cs_uses st) (cs_facts st) (cs_errors st)) (Some z) ms
        end
      end
    end.
  (** constant_decl.rs 230-237 [visit] of a [Variable]. *)
  Definition visit_use (st : cstate) (u : loc * string) : cstate :=
    match find_var (snd u) (cs_vars st) with
    | Some _ => mkCs (cs_vars st) (u :: cs_uses st) (cs_facts st) (cs_errors st)
    | None => st
    end.

  (** The items of a program that the analysis looks at, in the order of the walk; of
      rules, queries and facts, the occurrences of variables. *)
  Inductive item :=
  | IConst (v : string) (ty : option vtype) (e : ent)
  | IEnum (ms : list (string * option content))
  | IUses (l : list (loc * string)).
  Definition visit_item (st : cstate) (i : item) : option cstate :=
    match i with
    | IConst v ty e => visit_const st v ty e
    | IEnum ms => enum_members st None ms
    | IUses l => Some (fold_left visit_use l st)
    end.
  Fixpoint visit_items (st : cstate) (l : list item) : option cstate :=
    match l with
    | [] => Some st
    | i :: l => obnd (visit_item st i) (fun st => visit_items st l)
    end.
  Definition analyze (l : list item) : option cstate := visit_items cs_empty l.

  (** const_var_to_const.rs 52-81 [generate_items]: the facts that are added to the
      program. *)
  Definition adt_name (f : string) : string := ("adt#" ++ f)%string.
  Definition fact_items (st : cstate) : list (string * list lconst) :=
    map (fun f => (adt_name (ef_functor f), ef_id f :: ef_args f)) (cs_facts st).
  (** const_var_to_const.rs 84-100: an occurrence of a variable becomes the constant, with
      the location of the occurrence, or stays ([None]). *)
  Definition loc_eqb (a b : loc) : bool :=
    let '(a1, a2, a3) := a in let '(b1, b2, b3) := b in Nat.eqb a1 b1 && Nat.eqb a2 b2 && Nat.eqb a3 b3.
  Definition used_at (st : cstate) (l : loc) : bool := existsb (fun u => loc_eqb l (fst u)) (cs_uses st).
  Definition const_at (st : cstate) (l : loc) (v : string) : option lconst :=
    if used_at st l then option_map (fun c => (l, snd c)) (constant_of st v) else None.

  (** ** Entities from strings, and at run time *)
  (** adt_variant_registry.rs 9-13 [ADTVariant]; the first type is that of the id. *)
  Record variant := mkVariant { va_relation : string; va_types : list vtype }.
  (** adt_variant_registry.rs 62-87. *)
  Definition parse_const (c : conv) (k : content) (t : vtype) : option value :=
    match k, t with
    | CInt z, _ => match kind_of t, t with
                   | Some k, _ => Some (of_int k (wrap k z))
                   | None, TF32 => Some (F32 (cv_float c false z))
                   | None, TF64 => Some (F64 (cv_float c true z))
                   | None, _ => None
                   end
    | CFloat f, TF32 => Some (F32 (f false))
    | CFloat f, TF64 => Some (F64 (f true))
    | CBool b, TBool => Some (VBool b)
    | CChar a, TChar => Some (VChar a)
    | CString s, TString => Some (VString s)
    | _, _ => None
    end.
  (** A fact of an entity: the relation, the id and the arguments. *)
  Definition vfact := (string * value * list value)%type.
  (** adt_variant_registry.rs 56-115 [parse_entity]; [None] is an error, or the panic for
      a variant without types. *)
  Fixpoint parse_entity (c : conv) (reg : string -> option variant) (e : ent) (ty : vtype) : option (list vfact * value) :=
    match e with
    | NConst k => obnd (parse_const c (snd k) ty) (fun v => Some ([], v))
    | NVar _ | NExpr => None
    | NObj _ f args =>
      obnd (reg f) (fun va =>
        match va_types va with
        | [] => None
        | _ :: tys =>
          if Nat.eqb (List.length tys) (List.length args) then
            obnd ((fix go (l : list ent) (ts : list vtype) : option (list (list vfact * value)) :=
                     match l, ts with
                     | a :: l, t :: ts => obnd (parse_entity c reg a t) (fun r => obnd (go l ts) (fun rs => Some (r :: rs)))
                     | _, _ => Some []
                     end) args tys)
              (fun rs =>
                 let vs := map snd rs in
                 let id := VEntity (h f (map FeedVal vs)) in
                 Some (List.concat (map fst rs) ++ [(va_relation va, id, vs)], id))
          else None
        end)
    end.
  (** environment.rs 739-758 [eval_new], with flatten_expr.rs 467-480: the functor that is
      hashed is the name of the relation. *)
  Definition new_id (f : string) (vs : list value) : value := VEntity (h (adt_name f) (map FeedVal vs)).
End Hash.
