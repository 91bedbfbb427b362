(** Model of type declarations: how names of types get base types, how declared relations and facts get their
    types, and how algebraic data types become relations.
    /repo/core/src/compiler/front/analyzers/type_inference/type_inference.rs 158-243, 354-530 and 555-745,
    analyzers/algebraic_data_type.rs, transformations/adt_to_relation.rs, transform.rs 43-105.

    Simplifications.
    - Locations, names of fields, rules, queries and functions are left out; this is the state before the types of
      rules are inferred.
    - A constant is the set of types its literal may have, or the type it was declared with.
    - Maps are lists of pairs; the variants of a source are generated in the order they were declared.
    - [None] for a whole state is a panic. *)
From Coq Require Import List ZArith Bool String.
From Verif Require Import TypeSet.
Import ListNotations.
Set Implicit Arguments.
Local Open Scope string_scope.
Local Open Scope list_scope.

(** types.rs 8-40: a base type or a name *)
Inductive tyname := TBase (t : vtype) | TNamed (s : string).
Inductive cst := CLit (s : tset) | CTyped (t : tyname).
Inductive enum_val := EvInt (z : Z) | EvOther.
(** the arguments of an attribute [adt]: [None] when they are not a string and a list of booleans *)
Record adt_ann := mkAnn { an_name : option string; an_flags : option (list bool) }.
Inductive titem :=
| DAlias (n : string) (t : tyname)                              (* [type n = t] and [type n <: t] *)
| DEnum (n : string) (vs : list (option enum_val))
| DAdt (n : string) (vs : list (string * list tyname))
| DRel (ext : bool) (a : option adt_ann) (rs : list (string * list tyname))
| DSet (p : string) (tuples : list (list cst))
| DFact (p : string) (args : list cst).

Fixpoint tlook (A : Type) (l : list (string * A)) (k : string) : option A :=
  match l with [] => None | (j, a) :: l => if String.eqb j k then Some a else tlook l k end.
Fixpoint tset_at (A : Type) (l : list (string * A)) (k : string) (a : A) : list (string * A) :=
  match l with
  | [] => [(k, a)]
  | (j, b) :: l => if String.eqb j k then (j, a) :: l else (j, b) :: tset_at l k a
  end.
Fixpoint all_some (A : Type) (l : list (option A)) : option (list A) :=
  match l with
  | [] => Some []
  | None :: _ => None
  | Some a :: l => match all_some l with Some l => Some (a :: l) | None => None end
  end.
Fixpoint contains (s : string) : bool :=
  String.prefix "adt#" s || match s with EmptyString => false | String _ s => contains s end.

Inductive terr :=
| EDupType (n : string) | EUnknownType | EDupRel (p : string) | EUnify | EArity (p : string) | ESetArity (p : string)
| EForeign (p : string) | ENotForeign (p : string) | EExtArity (p : string) | EExtType (p : string)
| ENegEnum | EBadEnum | EUnknownVariant (p : string) | EDupVariant (c : string).

Record tstate := mkT {
  t_custom : list (string * vtype); t_decl : list string; t_inf : list (string * list tset);
  t_adt : list (string * string); t_errs : list terr }.
Definition t_err (e : terr) (st : tstate) : tstate := mkT (t_custom st) (t_decl st) (t_inf st) (t_adt st) (t_errs st ++ [e]).

(** type_inference.rs 848-860 *)
Definition find_type (cu : list (string * vtype)) (ty : tyname) : option vtype :=
  match ty with TBase t => Some t | TNamed n => tlook cu n end.
(** 162-180 *)
Definition add_custom (n : string) (ty : tyname) (st : tstate) : tstate :=
  match tlook (t_custom st) n with
  | Some _ => t_err (EDupType n) st
  | None => match find_type (t_custom st) ty with
            | Some t => mkT ((n, t) :: t_custom st) (t_decl st) (t_inf st) (t_adt st) (t_errs st)
            | None => t_err EUnknownType st
            end
  end.
Definition set_inf (p : string) (ts : list tset) (st : tstate) : tstate :=
  mkT (t_custom st) (t_decl st) (tset_at (t_inf st) p ts) (t_adt st) (t_errs st).
(** [zip] and [unify]: the longer list is cut *)
Fixpoint zip_unify (a b : list tset) : option (list tset) :=
  match a, b with
  | x :: a, y :: b => match ts_unify x y with
                      | Some z => match zip_unify a b with Some l => Some (z :: l) | None => None end
                      | None => None
                      end
  | _, _ => Some []
  end.
(** 182-243 *)
Definition add_rel (p : string) (tys : list tyname) (st : tstate) : tstate :=
  if existsb (String.eqb p) (t_decl st) then t_err (EDupRel p) st
  else
    let st := mkT (t_custom st) (p :: t_decl st) (t_inf st) (t_adt st) (t_errs st) in
    match all_some (map (find_type (t_custom st)) tys) with
    | None => t_err EUnknownType st
    | Some ts =>
        match tlook (t_inf st) p with
        | None => set_inf p (map SBase ts) st
        | Some old => match zip_unify old (map SBase ts) with
                      | Some l => set_inf p l st
                      | None => t_err EUnify st
                      end
        end
    end.
(** 445-464 *)
Fixpoint ext_check (p : string) (fts : list vtype) (tys : list tyname) (st : tstate) : tstate :=
  match fts, tys with
  | f :: fts, TBase t :: tys => if vt_eqb f t then ext_check p fts tys st else t_err (EExtType p) st
  | _ :: _, TNamed _ :: _ => t_err (EExtType p) st
  | _, _ => st
  end.
(** 245-252 *)
Definition resolve (cu : list (string * vtype)) (c : cst) : option tset :=
  match c with CLit s => Some s | CTyped ty => match find_type cu ty with Some t => Some (SBase t) | None => None end end.
(** 632-653: an unknown type is reported and skipped, a type that does not fit ends the visit *)
Fixpoint tuple_loop (cu : list (string * vtype)) (sets : list tset) (cs : list cst) : list terr * option (list tset) :=
  match sets, cs with
  | s :: sets, c :: cs =>
      match resolve cu c with
      | None => let '(es, r) := tuple_loop cu sets cs in (EUnknownType :: es, match r with Some l => Some (s :: l) | None => None end)
      | Some r => match ts_unify s r with
                  | Some u => let '(es, r) := tuple_loop cu sets cs in (es, match r with Some l => Some (u :: l) | None => None end)
                  | None => ([EUnify], None)
                  end
      end
  | _, _ => ([], Some sets)
  end.
(** 618-654 *)
Fixpoint set_loop (cu : list (string * vtype)) (p : string) (sets : list tset) (tuples : list (list cst)) : list terr * option (list tset) :=
  match tuples with
  | [] => ([], Some sets)
  | t :: tuples =>
      if Nat.eqb (List.length t) (List.length sets) then
        match tuple_loop cu sets t with
        | (es, None) => (es, None)
        | (es, Some sets) => let '(es2, r) := set_loop cu p sets tuples in (es ++ es2, r)
        end
      else let '(es, r) := set_loop cu p sets tuples in (EArity p :: es, r)
  end.

Section Visit.
  (** the foreign predicates and their types *)
  Variable fp : string -> option (list vtype).

  (** 424-487 *)
  Definition rel_one (ext : bool) (st : tstate) (r : string * list tyname) : tstate :=
    let '(p, tys) := r in
    match fp p with
    | Some fts =>
        if ext then if Nat.eqb (List.length fts) (List.length tys) then ext_check p fts tys st else t_err (EExtArity p) st
        else t_err (EForeign p) st
    | None => if ext then t_err (ENotForeign p) st else add_rel p tys st
    end.
  (** 491-516 *)
  Definition enum_member (st : tstate) (v : option enum_val) : tstate :=
    match v with
    | Some (EvInt z) => if Z.ltb z 0 then t_err ENegEnum st else st
    | Some EvOther => t_err EBadEnum st
    | None => st
    end.
  (** 555-661 *)
  Definition visit_set (p : string) (tuples : list (list cst)) (st : tstate) : tstate :=
    match fp p with
    | Some _ => t_err (EForeign p) st
    | None =>
        match tuples with
        | [] => st
        | t :: rest =>
            if forallb (fun u => Nat.eqb (List.length u) (List.length t)) rest then
              let start := match tlook (t_inf st) p with Some l => l | None => repeat SAny (List.length t) end in
              let '(es, r) := set_loop (t_custom st) p start tuples in
              let st := mkT (t_custom st) (t_decl st) (t_inf st) (t_adt st) (t_errs st ++ es) in
              match r with Some l => set_inf p l st | None => st end
            else t_err (ESetArity p) st
        end
    end.
  (** 663-745 *)
  Definition visit_fact (p : string) (args : list cst) (st : tstate) : tstate :=
    match fp p with
    | Some _ => t_err (EForeign p) st
    | None =>
        if contains p && match tlook (t_adt st) p with None => true | Some _ => false end then t_err (EUnknownVariant p) st
        else match all_some (map (resolve (t_custom st)) args) with
             | None => t_err EUnknownType st
             | Some ts =>
                 match tlook (t_inf st) p with
                 | None => set_inf p ts st
                 | Some old =>
                     if Nat.eqb (List.length ts) (List.length old) then
                       match zip_unify old ts with Some l => set_inf p l st | None => t_err EUnify st end
                     else t_err (EArity p) st
                 end
             end
    end.
  (** 371-516; 392-423 for the attribute [adt] *)
  Definition visit (st : tstate) (i : titem) : option tstate :=
    match i with
    | DAlias n ty => Some (add_custom n ty st)
    | DEnum n vs => Some (fold_left enum_member vs (add_custom n (TBase TUSize) st))
    | DAdt _ _ => Some st
    | DRel ext a rs =>
        match a with
        | None => Some (fold_left (rel_one ext) rs st)
        | Some (mkAnn (Some c) (Some _)) =>
            Some (fold_left (rel_one ext) rs
                    (mkT (t_custom st) (t_decl st) (t_inf st) (tset_at (t_adt st) ("adt#" ++ c)%string c) (t_errs st)))
        | Some _ => None
        end
    | DSet p ts => Some (visit_set p ts st)
    | DFact p args => Some (visit_fact p args st)
    end.
  Fixpoint visits (st : tstate) (l : list titem) : option tstate :=
    match l with [] => Some st | i :: l => match visit st i with Some st => visits st l | None => None end end.

  (** ** Algebraic data types *)
  Definition variant := (string * (string * list tyname))%type.
  (** algebraic_data_type.rs 31-66: errors and the variants stored, for the variants of one declaration *)
  Fixpoint adt_variants (n : string) (seen : list string) (vs : list (string * list tyname)) (st : list variant * list terr) : list variant * list terr :=
    match vs with
    | [] => st
    | (c, args) :: vs =>
        let e1 := if existsb (String.eqb c) seen then [EDupVariant c] else [] in
        let e2 := match tlook (fst st) c with Some _ => [EDupVariant c] | None => [] end in
        adt_variants n (if existsb (String.eqb c) seen then seen else c :: seen) vs
          (tset_at (fst st) c (n, args), snd st ++ e1 ++ e2)
    end.
  Definition adt_visit (st : list variant * list terr) (i : titem) : list variant * list terr :=
    match i with DAdt n vs => adt_variants n [] vs st | _ => st end.
  (** the variants of earlier sources have been cleared (adt_to_relation.rs 87-88) *)
  Definition adt_analysis (src : list titem) : list variant * list terr := fold_left adt_visit src ([], []).
  (** adt_to_relation.rs 20-31 *)
  Definition adt_item (i : titem) : titem := match i with DAdt n _ => DAlias n (TBase TEntity) | _ => i end.
  (** adt_to_relation.rs 38-86 *)
  Definition adt_types (src : list titem) : list string := flat_map (fun i => match i with DAdt n _ => [n] | _ => [] end) src.
  Definition gen (tys : list string) (v : variant) : titem :=
    let '(c, (n, args)) := v in
    DRel false (Some (mkAnn (Some c) (Some (map (fun a => match a with TNamed s => existsb (String.eqb s) tys | TBase _ => false end) args))))
      [(("adt#" ++ c)%string, TNamed n :: args)].
  Definition adt_transform (src : list titem) : list titem :=
    map adt_item src ++ map (gen (adt_types src)) (fst (adt_analysis src)).

  (** All sources one after the other. The types that are algebraic in earlier sources are remembered in the code
      but nothing reads the flags that they decide. *)
  Record tresult := mkTr { tr_state : tstate; tr_errors : list terr }.
  Definition program (srcs : list (list titem)) : option tresult :=
    match visits (mkT [] [] [] [] []) (flat_map adt_transform srcs) with
    | Some st => Some (mkTr st (flat_map (fun s => snd (adt_analysis s)) srcs ++ t_errs st))
    | None => None
    end.
  (** type_inference.rs 113-120 *)
  Definition relation_types (st : tstate) (p : string) : option (list vtype) :=
    match tlook (t_inf st) p with Some l => Some (map ts_default l) | None => None end.
  (** 354-368; [None] is the panic *)
  Definition variant_registry (st : tstate) : option (list (string * (string * list vtype))) :=
    all_some (map (fun x => match relation_types st (fst x) with Some ts => Some (snd x, (fst x, ts)) | None => None end) (t_adt st)).
End Visit.
