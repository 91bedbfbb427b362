(** Specification for C60: what is bound by a set of dependencies, what a body can
    compute when equalities give values, and finiteness.  Independent of the
    analysis (Bound.v). *)
From Coq Require Import List ZArith Bool Arith.
From Verif Require Import Value Back Eval BackSem Plan PlanSem Front FrontSem Bound.
Import ListNotations.

(** The least set of locations that contains [init] and is closed under the
    dependencies, with all locations of a variable bound together. *)
Section Derivable.
  Variables (deps : list dep) (vars : list (var * loc)) (init : list loc).
  Inductive derivable : loc -> Prop :=
  | dv_init l : In l init -> derivable l
  | dv_arg l : In (DArg l) deps -> derivable l
  | dv_const l : In (DConst l) deps -> derivable l
  | dv_foreign b f l : In (DForeign b f) deps -> (forall x, In x b -> derivable x) -> In l f -> derivable l
  | dv_bin a b e : In (DBin a b e) deps -> derivable a -> derivable b -> derivable e
  | dv_eq1 a b : In (DEq a b) deps -> derivable a -> derivable b
  | dv_eq2 a b : In (DEq a b) deps -> derivable b -> derivable a
  | dv_as1 a b e : In (DAddSub a b e) deps -> derivable a -> derivable b -> derivable e
  | dv_as2 a b e : In (DAddSub a b e) deps -> derivable a -> derivable e -> derivable b
  | dv_as3 a b e : In (DAddSub a b e) deps -> derivable b -> derivable e -> derivable a
  | dv_un a e : In (DUn a e) deps -> derivable a -> derivable e
  | dv_ite c a b e : In (DIte c a b e) deps -> derivable c -> derivable a -> derivable b -> derivable e
  | dv_call l e : In (DCall l e) deps -> (forall x, In x l -> derivable x) -> derivable e
  | dv_var v l l' : In (v, l) vars -> In (v, l') vars -> derivable l -> derivable l'.
End Derivable.

(** Variables that get finitely many values from the body when equalities too give
    values (compare [limited], PlanSem.v). *)
Inductive elimited (N : penv) (body : list lit) : var -> Prop :=
| elim l v : In l body -> is_new_lit l = false -> In v (lit_binds N l) ->
    (forall w, In w (lit_needs N l) -> elimited N body w) -> elimited N body v
| elim_l a b v : In (LBin CEq a b) body -> (forall w, In w (tvar a) -> elimited N body w) -> In v (tvar b) -> elimited N body v
| elim_r a b v : In (LBin CEq a b) body -> (forall w, In w (tvar b) -> elimited N body w) -> In v (tvar a) -> elimited N body v.

(** ** Finiteness *)
(** The values that a program works on; sums and differences can be undone up to
    finitely many choices. *)
Definition finitely {A} (P : A -> Prop) : Prop := exists l, forall x, P x -> In x l.
Definition undoable (E : renv) (ok : value -> Prop) : Prop := forall op x r, is_add_sub op = true ->
  finitely (fun y => ok y /\ bin_value E op x y = EOk r) /\ finitely (fun y => ok y /\ bin_value E op y x = EOk r).
(** Relations are finite; foreign predicates have finitely many tuples for given
    bound arguments. *)
Definition finite_rels (g : registry) (X : interp) : Prop := forall p, g_foreign g p = false -> finitely (X p).
Definition finite_foreign (B : benv) (g : registry) (nb : pred -> nat) : Prop := forall p vs, g_foreign g p = true ->
  finitely (fun ws => firstn (nb p) ws = vs /\ b_fp B p ws).
(** No wildcard is a bound argument of a foreign atom. *)
Fixpoint foreign_args_ok (foreign : pred -> bool) (nb : pred -> nat) (f : formula) : bool :=
  match f with
  | FAtom p l => if foreign p then forallb no_wild (firstn (nb p) l) else true
  | FConj l | FDisj l => forallb (foreign_args_ok foreign nb) l
  | FImp a b => foreign_args_ok foreign nb a && foreign_args_ok foreign nb b
  | _ => true
  end.
(** What a rule adds for substitutions into the values [ok]. *)
Definition front_consequence_in (ok : value -> Prop) (B : benv) (g : registry) (X M : interp) (r : frule) (p : pred) (t : list value) : Prop :=
  exists s a, (forall v, ok (s v)) /\ fholds B g X M s (fr_body r) /\ In a (fhead_atoms (fr_head r)) /\ p = fst a /\ have_values (b_env B) s (snd a) t.
(** The atoms of foreign predicates have the right number of arguments. *)
Fixpoint foreign_arity (foreign : pred -> bool) (ar : pred -> nat) (f : formula) : bool :=
  match f with
  | FAtom p l => if foreign p then Nat.eqb (length l) (ar p) else true
  | FConj l | FDisj l => forallb (foreign_arity foreign ar) l
  | FImp a b => foreign_arity foreign ar a && foreign_arity foreign ar b
  | _ => true
  end.
(** No new entities. *)
Fixpoint no_new (e : expr) : bool :=
  match e with
  | EVar _ | EConst _ | EWild => true
  | EBin _ a b => no_new a && no_new b
  | EUn _ a => no_new a
  | EIte c a b => no_new c && no_new a && no_new b
  | ECall _ l => forallb no_new l
  | ENew _ _ => false
  end.
Definition cons_plain (f : formula) : bool := match f with FCons e => no_new e && no_wild e | _ => true end.
(** The values that a program works on are closed under what it computes, and the
    constants of the rule are among them. *)
Definition closed_values (E : renv) (ok : value -> Prop) : Prop :=
  (forall op x y r, ok x -> ok y -> bin_value E op x y = EOk r -> ok r) /\
  (forall op x r, ok x -> un_value E op x = EOk r -> ok r) /\
  (forall f l r, (forall x, In x l -> ok x) -> e_call E f l = EOk r -> ok r) /\
  (forall f l, ok (VEntity (e_entity E f l))).
Fixpoint expr_consts (e : expr) : list value :=
  match e with
  | EVar _ | EWild => []
  | EConst c => [c]
  | EBin _ a b => expr_consts a ++ expr_consts b
  | EUn _ a => expr_consts a
  | EIte c a b => expr_consts c ++ expr_consts a ++ expr_consts b
  | ECall _ l | ENew _ l => flat_map expr_consts l
  end.
Fixpoint form_consts (f : formula) : list value :=
  match f with
  | FAtom _ l | FNeg _ l => flat_map expr_consts l
  | FCons e => expr_consts e
  | FConj l | FDisj l => flat_map form_consts l
  | FImp a b => form_consts a ++ form_consts b
  end.
(** The values of a machine: all but strings have at most 128 bits. *)
Definition payload (v : value) : option Z :=
  match v with
  | I8 z | I16 z | I32 z | I64 z | I128 z | ISize z | U8 z | U16 z | U32 z | U64 z | U128 z | USize z
  | F32 z | F64 z | VChar z | VSymbol z | VDateTime z | VDuration z | VEntity z => Some z
  | VBool _ | VStr _ | VString _ | VSymbolString _ | VEntityString _ => None
  end.
Definition machine (v : value) : Prop := match payload v with Some z => (- 2 ^ 128 <= z <= 2 ^ 128)%Z | None => True end.
