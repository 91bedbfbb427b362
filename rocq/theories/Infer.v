(** Model of type inference:
    /repo/core/src/compiler/front/analyzers/type_inference/{unification,local,
    type_inference,foreign_function,foreign_predicate,foreign_aggregate}.rs, with the
    aggregate types of /repo/core/src/common/foreign_aggregate.rs.

    The location of a node is a number; names of predicates, functions, aggregates,
    variables, generic types and named parameters are numbers.  Names of types are
    resolved to value types ([find_value_type], type_inference.rs 846-859).  The texts of
    errors are dropped.  The fields [var_types] and [vars_of_same_type] of a local
    context, which nothing in the code ever fills, are left out. *)
From Coq Require Import List Bool Arith.
From Verif Require Import Back TypeSet.
Import ListNotations.

(** Results: a value, an error, a panic. *)
Inductive tres (A : Type) := TOk (a : A) | TErr | TPanic.
Arguments TOk {A}. Arguments TErr {A}. Arguments TPanic {A}.
Definition tbind {A B} (x : tres A) (f : A -> tres B) : tres B :=
  match x with TOk a => f a | TErr => TErr | TPanic => TPanic end.
Definition of_opt {A} (x : option A) : tres A := match x with Some a => TOk a | None => TErr end.
Definition unwrap {A} (x : option A) : tres A := match x with Some a => TOk a | None => TPanic end.
Fixpoint tfold {A B} (f : A -> B -> tres B) (l : list A) (b : B) : tres B :=
  match l with [] => TOk b | a :: l => tbind (f a b) (tfold f l) end.

(** Hash maps with numbers as keys are lists of optional values. *)
Definition get {A} (m : list (option A)) (k : nat) : option A := nth k m None.
Fixpoint put {A} (m : list (option A)) (k : nat) (a : A) : list (option A) :=
  match k, m with
  | 0, [] => [Some a]
  | 0, _ :: m => Some a :: m
  | S k, [] => None :: put [] k a
  | S k, x :: m => x :: put m k a
  end.
(** Association lists for maps that are only looked up. *)
Fixpoint assoc {A} (k : nat) (l : list (nat * A)) : option A :=
  match l with [] => None | (j, a) :: l => if Nat.eqb k j then Some a else assoc k l end.

Definition loc := nat.
(** [inferred_expr_types], [inferred_relation_types]. *)
Definition exprs := list (option tset).
Definition rels := list (option (list tset)).

(** foreign_function.rs 8-73 [FunctionType]; the type families are type sets already
    ([From], 14-22, 69-89). *)
Inductive argty := AGeneric (i : nat) | ASet (s : tset).
Inductive retty := RGeneric (i : nat) | RBase (t : vtype).
Record funty := mkFun {
  fn_generics : list tset; fn_static : list argty; fn_optional : list argty;
  fn_variable : option argty; fn_return : retty }.
(** foreign_function.rs 107-124. *)
Definition valid_num_args (f : funty) (n : nat) : bool :=
  if n <? length (fn_static f) then false
  else match fn_variable f with
  | Some _ => true
  | None => n - length (fn_static f) <=? length (fn_optional f)
  end.
(** foreign_function.rs 126-139. *)
Definition arg_type (f : funty) (i : nat) : option argty :=
  if i <? length (fn_static f) then nth_error (fn_static f) i
  else let j := i - length (fn_static f) in
    if j <? length (fn_optional f) then nth_error (fn_optional f) j else fn_variable f.

(** common/foreign_aggregate.rs 14-26 [GenericTypeFamily], 70-79 [BindingTypes], 116-121
    [BindingType], 149-153 [ParamType], 176-186 [AggregateType]. *)
Inductive gfam := GUnitOr (g : gfam) | GTuple | GTupleOf (l : list gfam) | GFam (f : tfamily).
Inductive bty := BGeneric (g : nat) | BVal (t : vtype).
Inductive btys := BTuple (l : list bty) | BIfNotUnit (g : nat) (a b : btys).
Inductive pty := PMandatory (t : vtype) | POptional (t : vtype).
Record aggty := mkAggty {
  ag_generics : list (nat * gfam); ag_params : list pty; ag_named : list (nat * pty);
  ag_arg : btys; ag_input : btys; ag_output : btys; ag_excl : bool }.

(** unification.rs 13-80 [Unification].  The name of an algebraic data type variant
    stands for its relation [adt#...]; a type cast and a typed constant carry the value
    type (a constant with its declared type, [constant_types]). *)
Inductive pop := PAdd | PSub | PMul | PDiv.
Inductive unif :=
| UArg (e : loc) (p : pred) (i : nat)
| UVar (e : loc) (v : nat)
| UConst (e : loc) (s : tset) (decl : option vtype)
| UPoly (op : pop) (a b e : loc)
| UMod (a b e : loc)
| UEq (a b e : loc)
| ULogic (a b e : loc)
| UCmp (a b e : loc)
| UPosNeg (a e : loc)
| UNott (a e : loc)
| UIte (e c a b : loc)
| UCastt (a e : loc) (t : vtype)
| UCall (f : nat) (args : list loc) (e : loc)
| UAgg (lefts : list loc) (g : nat) (params : list loc) (named : list (nat * loc))
    (args inputs : list loc) (excl : bool)
| UEntity (p : pred) (args : list loc) (e : loc).

(** The registries. *)
Record tenv := mkTenv {
  t_pred : pred -> option (list vtype);
  t_fun : nat -> option funty;
  t_agg : nat -> option aggty }.

(** unification.rs 705-721.  If there is no entry then the type is unified with
    itself. *)
Definition unify_ty (e : loc) (s : tset) (X : exprs) : tres (tset * exprs) :=
  let old := match get X e with Some t => t | None => s end in
  match ts_unify s old with Some n => TOk (n, put X e n) | None => TErr end.
(** The result without the type. *)
Definition unify_loc (e : loc) (s : tset) (X : exprs) : tres exprs :=
  tbind (unify_ty e s X) (fun r => TOk (snd r)).
(** unification.rs 601-603 and [entry(..).or_insert(..)]. *)
Definition get_or_insert (e : loc) (s : tset) (X : exprs) : tset * exprs :=
  match get X e with Some t => (t, X) | None => (s, put X e s) end.

Definition rules_of (op : pop) : list (vtype * vtype * vtype) :=
  match op with PAdd => add_rules | PSub => sub_rules | PMul => mult_rules | PDiv => div_rules end.
(** unification.rs 605-653; the first rule is kept of several that apply (581-599). *)
Definition unify_poly (rules : list (vtype * vtype * vtype)) (strict : bool) (a b e : loc) (X : exprs) : tres exprs :=
  tbind (unify_ty a SAny X) (fun '(sa, X) =>
  tbind (unify_ty b SAny X) (fun '(sb, X) =>
  tbind (unify_ty e SAny X) (fun '(se, X) =>
    let fits := filter (fun '(t1, t2, te) => ts_contains sa t1 && ts_contains sb t2 && ts_contains se te) rules in
    let choose '(t1, t2, te) :=
      tbind (unify_loc a (SBase t1) X) (fun X =>
      tbind (unify_loc b (SBase t2) X) (fun X => unify_loc e (SBase te) X)) in
    match fits with
    | [] => TErr
    | [r] => choose r
    | r :: _ => if strict then choose r else TOk X
    end))).
(** unification.rs 655-703. *)
Definition unify_compare (strict : bool) (a b e : loc) (X : exprs) : tres exprs :=
  tbind (unify_loc e (SBase TBool) X) (fun X =>
  tbind (unify_ty a SAny X) (fun '(sa, X) =>
  tbind (unify_ty b SAny X) (fun '(sb, X) =>
    let fits := filter (fun '(t1, t2) => ts_contains sa t1 && ts_contains sb t2) compare_rules in
    let choose '(t1, t2) :=
      tbind (unify_loc a (SBase t1) X) (fun X => unify_loc b (SBase t2) X) in
    match fits with
    | [] => TErr
    | [r] => choose r
    | r :: _ => if strict then choose r else TOk X
    end))).

(** unification.rs 295-377: a call.  The instances of the generic types are kept as
    pairs in the order in which they are found. *)
Fixpoint call_args (f : funty) (i : nat) (args : list loc) (X : exprs) : tres (list (nat * loc) * exprs) :=
  match args with
  | [] => TOk ([], X)
  | a :: args =>
      tbind (unwrap (arg_type f i)) (fun t =>
        match t with
        | AGeneric g => tbind (call_args f (S i) args X) (fun '(l, X) => TOk ((g, a) :: l, X))
        | ASet s => tbind (unify_loc a s X) (call_args f (S i) args)
        end)
  end.
Definition instances (g : nat) (l : list (nat * loc)) : list loc :=
  map snd (filter (fun x => Nat.eqb (fst x) g) l).
Fixpoint unify_instances (fam : tset) (agg : tset) (l : list loc) (X : exprs) : tres (tset * exprs) :=
  match l with
  | [] => TOk (agg, X)
  | a :: l =>
      tbind (unify_ty a fam X) (fun '(s, X) =>
      tbind (of_opt (ts_unify agg s)) (fun agg => unify_instances fam agg l X))
  end.
Definition put_all (l : list loc) (s : tset) (X : exprs) : exprs := fold_left (fun X e => put X e s) l X.
Definition unify_generic (insts : list (nat * loc)) (gf : nat * tset) (X : exprs) : tres exprs :=
  match instances (fst gf) insts with
  | [] => TOk X
  | a :: l =>
      tbind (unify_ty a (snd gf) X) (fun '(s, X) =>
      tbind (unify_instances (snd gf) s l X) (fun '(s, X) => TOk (put_all (a :: l) s X)))
  end.
Definition enumerate {A} (l : list A) : list (nat * A) := combine (seq 0 (length l)) l.
Definition unify_call (f : funty) (args : list loc) (e : loc) (X : exprs) : tres exprs :=
  if valid_num_args f (length args) then
    tbind (call_args f 0 args X) (fun '(insts, X) =>
    tbind (match fn_return f with
           | RGeneric g => TOk (insts ++ [(g, e)], X)
           | RBase t => tbind (unify_loc e (SBase t) X) (fun X => TOk (insts, X))
           end) (fun '(insts, X) =>
      tfold (unify_generic insts) (enumerate (fn_generics f)) X))
  else TErr.

(** unification.rs 407-437: the positional parameters.  A parameter that does not fit
    an optional one is kept for the next. *)
Fixpoint unify_params (l : list pty) (opt : bool) (params : list loc) (X : exprs) : tres (list loc * exprs) :=
  match l with
  | [] => TOk (params, X)
  | PMandatory t :: l =>
      if opt then TErr
      else match params with
      | [] => TErr
      | a :: params => tbind (unify_loc a (SBase t) X) (unify_params l opt params)
      end
  | POptional t :: l =>
      match params with
      | [] => unify_params l true params X
      | a :: params' =>
          match unify_loc a (SBase t) X with
          | TOk X => unify_params l true params' X
          | TErr => unify_params l true params X
          | TPanic => TPanic
          end
      end
  end.
Definition pty_type (p : pty) : vtype := match p with PMandatory t | POptional t => t end.
Definition is_mandatory (p : pty) : bool := match p with PMandatory _ => true | POptional _ => false end.
(** unification.rs 452-472. *)
Definition unify_named (named : list (nat * loc)) (p : nat * pty) (X : exprs) : tres exprs :=
  match assoc (fst p) named with
  | Some a => unify_loc a (SBase (pty_type (snd p))) X
  | None => if is_mandatory (snd p) then TErr else TOk X
  end.
Fixpoint unify_each (s : list tset) (l : list loc) (X : exprs) : tres exprs :=
  match s, l with
  | t :: s, a :: l => tbind (unify_loc a t X) (unify_each s l)
  | _, _ => TOk X
  end.
(** As [unify_each], with the resulting types. *)
Fixpoint unify_each_ty (s : list tset) (l : list loc) (X : exprs) : tres (list tset * exprs) :=
  match s, l with
  | t :: s, a :: l =>
      tbind (unify_ty a t X) (fun '(n, X) =>
      tbind (unify_each_ty s l X) (fun '(ns, X) => TOk (n :: ns, X)))
  | _, _ => TOk ([], X)
  end.
(** unification.rs 876-955 [solve_generic_type]. *)
Definition as_family (g : gfam) : option tfamily := match g with GFam f => Some f | _ => None end.
Fixpoint all_some {A} (l : list (option A)) : option (list A) :=
  match l with
  | [] => Some []
  | x :: l => match x, all_some l with Some a, Some r => Some (a :: r) | _, _ => None end
  end.
Fixpoint solve_generic (g : gfam) (vars : list loc) (X : exprs) : tres (list tset * exprs) :=
  match g with
  | GTuple => match vars with [] => TErr | _ => unify_each_ty (map (fun _ => SAny) vars) vars X end
  | GTupleOf l =>
      match all_some (map as_family l) with
      | None => TErr
      | Some fams =>
          if Nat.eqb (length vars) (length fams) then
            tbind (unwrap (all_some (map of_family fams))) (fun sets => unify_each_ty sets vars X)
          else TErr
      end
  | GUnitOr g => match vars with [] => TOk ([], X) | _ => solve_generic g vars X end
  | GFam f =>
      match vars with
      | [a] => tbind (unwrap (of_family f)) (fun s => unify_each_ty [s] [a] X)
      | _ => TErr
      end
  end.
(** unification.rs 740-874 [ground_input_aggregate_binding_type].  [is_generic]
    (common/foreign_aggregate.rs 133-138) answers false for the generic types and true for the
    others: two or more elements are an error if one of them is a value type, and the
    unwrap panics otherwise unless the arity is wrong or there is no variable. *)
Definition is_generic (b : bty) : bool := match b with BGeneric _ => false | BVal _ => true end.
Definition grounded_t := list (nat * list tset).
Definition ground_input (gs : list (nat * gfam)) (b : btys) (vars : list loc) (G : grounded_t) (X : exprs)
    : tres (grounded_t * exprs) :=
  match b with
  | BIfNotUnit _ _ _ => TErr
  | BTuple [] => match vars with [] => TOk (G, X) | _ => TErr end
  | BTuple [BGeneric g] =>
      match assoc g G with
      | Some sets =>
          if Nat.eqb (length sets) (length vars) then tbind (unify_each sets vars X) (fun X => TOk (G, X)) else TErr
      | None =>
          match assoc g gs with
          | Some fam => tbind (solve_generic fam vars X) (fun '(sets, X) => TOk ((g, sets) :: G, X))
          | None => TErr
          end
      end
  | BTuple [BVal t] =>
      match vars with [a] => tbind (unify_loc a (SBase t) X) (fun X => TOk (G, X)) | _ => TErr end
  | BTuple l =>
      if existsb is_generic l then TErr
      else if negb (Nat.eqb (length l) (length vars)) then TErr
      else TPanic
  end.
(** unification.rs 957-1028 [solve_binding_types]. *)
Fixpoint solve_output (b : btys) (G : grounded_t) : tres (list tset) :=
  match b with
  | BIfNotUnit g x y =>
      match assoc g G with
      | Some (_ :: _) => solve_output x G
      | Some [] => solve_output y G
      | None => TErr
      end
  | BTuple l =>
      of_opt (option_map (@concat tset) (all_some (map (fun b =>
        match b with BGeneric g => assoc g G | BVal t => Some [SBase t] end) l)))
  end.
(** unification.rs 378-542 [Aggregate].  Without variables on the left the code reports
    an error or stops in [unreachable!] (389-404); the model always reports an error.  A
    rest of more than one positional parameter is an error (440-450). *)
Definition unify_agg (a : aggty) (lefts params : list loc) (named : list (nat * loc)) (args inputs : list loc)
    (excl : bool) (X : exprs) : tres exprs :=
  match lefts with
  | [] => TErr
  | _ =>
      tbind (unify_params (ag_params a) false params X) (fun '(rest, X) =>
        if 1 <? length rest then TErr
        else
          tbind (tfold (unify_named named) (ag_named a) X) (fun X =>
            if existsb (fun p => match assoc (fst p) (ag_named a) with None => true | Some _ => false end) named then TErr
            else if excl && negb (ag_excl a) then TErr
            else
              tbind (ground_input (ag_generics a) (ag_arg a) args [] X) (fun '(G, X) =>
              tbind (ground_input (ag_generics a) (ag_input a) inputs G X) (fun '(G, X) =>
              tbind (solve_output (ag_output a) G) (fun sets =>
                if Nat.eqb (length sets) (length lefts) then unify_each sets lefts X else TErr)))))
  end.

(** unification.rs 543-577: the arguments of an entity; the types of the relation are
    not unified back. *)
Fixpoint unify_entity (s : list tset) (l : list loc) (X : exprs) : tres exprs :=
  match s, l with
  | t :: s, a :: l =>
      let '(old, X) := get_or_insert a SAny X in
      tbind (of_opt (ts_unify old t)) (fun n => unify_entity s l (put X a n))
  | _, _ => TOk X
  end.

(** unification.rs 83-579. *)
Definition unify (T : tenv) (strict : bool) (R : rels) (u : unif) (X : exprs) : tres exprs :=
  match u with
  | UArg e p i =>
      match t_pred T p with
      | Some ts => match nth_error ts i with Some t => unify_loc e (SBase t) X | None => TErr end
      | None =>
          tbind (unwrap (get R p)) (fun ts =>
            match nth_error ts i with Some s => unify_loc e s X | None => TErr end)
      end
  | UVar _ _ => TOk X
  | UConst e s (Some t) => tbind (of_opt (ts_unify s (SBase t))) (fun n => TOk (put X e n))
  | UConst e s None => unify_loc e s X
  | UPoly op a b e => unify_poly (rules_of op) strict a b e X
  | UMod a b e =>
      let '(se, X) := get_or_insert e SArith X in
      let '(sa, X) := get_or_insert a SArith X in
      let '(sb, X) := get_or_insert b SArith X in
      tbind (of_opt (ts_unify sa sb)) (fun n =>
      tbind (of_opt (ts_unify n se)) (fun n => TOk (put (put (put X e n) a n) b n)))
  | UEq a b e =>
      tbind (unify_loc e (SBase TBool) X) (fun X =>
        let '(sa, X) := get_or_insert a SAny X in
        let '(sb, X) := get_or_insert b SAny X in
        tbind (of_opt (ts_unify sa sb)) (fun n => TOk (put (put X a n) b n)))
  | ULogic a b e =>
      tbind (unify_loc e (SBase TBool) X) (fun X =>
      tbind (unify_loc a (SBase TBool) X) (fun X => unify_loc b (SBase TBool) X))
  | UCmp a b e => unify_compare strict a b e X
  | UPosNeg a e =>
      let '(se, X) := get_or_insert e SArith X in
      let '(sa, X) := get_or_insert a SArith X in
      tbind (of_opt (ts_unify se sa)) (fun n => TOk (put (put X e n) a n))
  | UNott a e => tbind (unify_loc e (SBase TBool) X) (fun X => unify_loc a (SBase TBool) X)
  | UIte e c a b =>
      tbind (unify_loc c (SBase TBool) X) (fun X =>
        let '(se, X) := get_or_insert e SAny X in
        let '(sa, X) := get_or_insert a SAny X in
        let '(sb, X) := get_or_insert b SAny X in
        tbind (of_opt (ts_unify se sa)) (fun n =>
        tbind (of_opt (ts_unify n sb)) (fun n => TOk (put (put (put X e n) a n) b n))))
  | UCastt a e t => tbind (unify_loc e (SBase t) X) (fun X => unify_loc a SAny X)
  | UCall f args e => match t_fun T f with Some ft => unify_call ft args e X | None => TErr end
  | UAgg lefts g params named args inputs excl =>
      match t_agg T g with Some a => unify_agg a lefts params named args inputs excl X | None => TErr end
  | UEntity p args e =>
      tbind (unify_loc e (SBase TEntity) X) (fun X =>
        match get R p with
        | Some [] => TPanic
        | Some (_ :: ts) => if Nat.eqb (length args) (length ts) then unify_entity ts args X else TErr
        | None => TErr
        end)
  end.

(** local.rs 8-17 [LocalTypeInferenceContext]. *)
Record ctx := mkCtx {
  cx_arities : list (pred * nat);
  cx_unifs : list unif;
  cx_constraints : list loc }.

(** local.rs 83-107, on the side of the relations: the locations of the i-th arguments
    of a predicate in all contexts, and those of the variables of a rule. *)
Fixpoint add_to {K} (eqb : K -> K -> bool) (k : K) (e : loc) (l : list (K * list loc)) : list (K * list loc) :=
  match l with
  | [] => [(k, [e])]
  | (j, es) :: l => if eqb k j then (j, es ++ [e]) :: l else (j, es) :: add_to eqb k e l
  end.
Definition pi_eqb (a b : pred * nat) : bool := Nat.eqb (fst a) (fst b) && Nat.eqb (snd a) (snd b).
Definition rel_exprs (us : list unif) : list ((pred * nat) * list loc) :=
  fold_left (fun m u => match u with UArg e p i => add_to pi_eqb (p, i) e m | _ => m end) us [].
Definition var_exprs (us : list unif) : list (nat * list loc) :=
  fold_left (fun m u => match u with UVar e v => add_to Nat.eqb v e m | _ => m end) us [].

(** The types of those locations that have one. *)
Definition types_at (X : exprs) (l : list loc) : list tset :=
  flat_map (fun e => match get X e with Some s => [s] | None => [] end) l.
(** local.rs 147-203. *)
Definition var_type (X : exprs) (x : nat * list loc) : tres (list loc * tset) :=
  match types_at X (snd x) with
  | [] => TErr
  | l => tbind (of_opt (unify_type_sets l)) (fun s => TOk (snd x, s))
  end.
Fixpoint tmap {A B} (f : A -> tres B) (l : list A) : tres (list B) :=
  match l with [] => TOk [] | a :: l => tbind (f a) (fun b => tbind (tmap f l) (fun r => TOk (b :: r))) end.
Definition propagate_vars (vs : list (nat * list loc)) (X : exprs) : tres exprs :=
  tbind (tmap (var_type X) vs) (fun l => TOk (fold_left (fun X x => put_all (fst x) (snd x) X) l X)).
(** local.rs 205-224; the type of the argument is replaced. *)
Fixpoint set_nth {A} (i : nat) (a : A) (l : list A) : list A :=
  match l, i with
  | [], _ => []
  | _ :: l, 0 => a :: l
  | x :: l, S i => x :: set_nth i a l
  end.
Definition propagate_rel (X : exprs) (x : (pred * nat) * list loc) (R : rels) : tres rels :=
  match types_at X (snd x) with
  | [] => TOk R
  | l =>
      tbind (of_opt (unify_type_sets l)) (fun s =>
        match get R (fst (fst x)) with
        | None => TOk R
        | Some ts => if snd (fst x) <? length ts then TOk (put R (fst (fst x)) (set_nth (snd (fst x)) s ts)) else TPanic
        end)
  end.

Definition state := (exprs * rels)%type.
(** type_inference.rs 299-315 and 320-337: one context. *)
Definition ctx_step (T : tenv) (strict : bool) (re : list ((pred * nat) * list loc)) (c : ctx) (s : state) : tres state :=
  let '(X, R) := s in
  tbind (tfold (unify T strict R) (cx_unifs c) X) (fun X =>
  tbind (propagate_vars (var_exprs (cx_unifs c)) X) (fun X =>
  tbind (tfold (propagate_rel X) re R) (fun R => TOk (X, R)))).

(** [HashMap: PartialEq] with [TypeSet: PartialEq]. *)
Definition opt_eq (a b : option tset) : bool :=
  match a, b with Some a, Some b => ts_eq a b | None, None => true | _, _ => false end.
Definition exprs_eq (X Y : exprs) : bool :=
  forallb (fun e => opt_eq (get X e) (get Y e)) (seq 0 (Nat.max (length X) (length Y))).
(** type_inference.rs 291-316: [None] is exhausted fuel. *)
Fixpoint infer_loop (fuel : nat) (T : tenv) (re : list ((pred * nat) * list loc)) (cs : list ctx) (s : state)
    : option (tres state) :=
  match fuel with
  | 0 => None
  | S fuel =>
      match tfold (ctx_step T false re) cs s with
      | TOk s' => if exprs_eq (fst s) (fst s') then Some (TOk s') else infer_loop fuel T re cs s'
      | TErr => Some TErr
      | TPanic => Some TPanic
      end
  end.

(** local.rs 226-260. *)
Definition check_cast (X : exprs) (u : unif) : tres unit :=
  match u with
  | UCastt a e t => tbind (unwrap (get X a)) (fun s => if ts_can_cast s t then TOk tt else TErr)
  | _ => TOk tt
  end.
Definition check_constraint (X : exprs) (e : loc) : tres unit :=
  tbind (unwrap (get X e)) (fun s => if ts_is_boolean s then TOk tt else TErr).
(** local.rs 262-271. *)
Definition get_var_type (X : exprs) (x : nat * list loc) : tres (nat * tset) :=
  match snd x with
  | [] => TPanic
  | e :: _ => tbind (unwrap (get X e)) (fun s => TOk (fst x, s))
  end.
Definition var_types_t := list (nat * tset).
(** type_inference.rs 318-346. *)
Definition final_step (T : tenv) (re : list ((pred * nat) * list loc)) (c : ctx) (s : state * list var_types_t)
    : tres (state * list var_types_t) :=
  tbind (ctx_step T true re c (fst s)) (fun s' =>
  tbind (tfold (fun u (_ : unit) => check_cast (fst s') u) (cx_unifs c) tt) (fun _ =>
  tbind (tfold (fun e (_ : unit) => check_constraint (fst s') e) (cx_constraints c) tt) (fun _ =>
  tbind (tmap (get_var_type (fst s')) (var_exprs (cx_unifs c))) (fun vs => TOk (s', snd s ++ [vs]))))).
Definition all_rel_exprs (cs : list ctx) := rel_exprs (flat_map cx_unifs cs).
(** type_inference.rs 270-352 [infer_types_helper]. *)
Definition infer_types (fuel : nat) (T : tenv) (cs : list ctx) (R : rels) : option (tres (state * list var_types_t)) :=
  let re := all_rel_exprs cs in
  match infer_loop fuel T re cs ([], R) with
  | None => None
  | Some (TOk s) => Some (tfold (final_step T re) cs (s, []))
  | Some TErr => Some TErr
  | Some TPanic => Some TPanic
  end.

(** ** The syntax tree *)
(** ast/expr.rs 6-16 [Expr] with locations; [YEnt] stands for [New] and [Destruct]. *)
Inductive yunop := YNeg | YPos | YNot | YCast (t : vtype).
Inductive yexpr :=
| YVar (l : loc) (v : nat)
| YWild (l : loc)
| YConst (l : loc) (c : fconst) (decl : option vtype)
| YBin (l : loc) (op : binop) (a b : yexpr)
| YUn (l : loc) (op : yunop) (a : yexpr)
| YIte (l : loc) (c a b : yexpr)
| YCall (l : loc) (f : nat) (args : list yexpr)
| YEnt (l : loc) (p : pred) (args : list yexpr).
Definition yloc (e : yexpr) : loc :=
  match e with
  | YVar l _ | YWild l | YConst l _ _ | YBin l _ _ _ | YUn l _ _ | YIte l _ _ _ | YCall l _ _ | YEnt l _ _ => l
  end.
(** ast/aggregate.rs 6-13 [Reduce]; [None] on the left is a wildcard, and the bindings
    are [VariableBinding]s, which are not variables. *)
Record yreduce := mkYred {
  yr_left : list (loc * option nat); yr_agg : nat; yr_params : list (loc * fconst);
  yr_named : list (nat * (loc * fconst)); yr_excl : bool;
  yr_args : list (loc * nat); yr_bindings : list (loc * nat) }.
(** ast/formula.rs 5-16 [Formula] after the desugaring of [Case], [Range] and
    [ForallExistsReduce]. *)
Inductive yform :=
| YAtom (p : pred) (args : list yexpr)
| YNegAtom (p : pred) (args : list yexpr)
| YCons (e : yexpr)
| YConj (l : list yform)
| YDisj (l : list yform)
| YImp (a b : yform)
| YReduce (r : yreduce) (body : yform) (group : option yform).
Definition yatom := (pred * list yexpr)%type.
(** ast/rule.rs; the atoms of the head in their order. *)
Record yrule := mkYrule { y_head : list yatom; y_body : yform }.

(** local.rs 370-433 and lib/astnode-derive/src/lib.rs 391-407: a node is visited before
    its fields, the fields in the order of the declaration. *)
Definition bin_unif (op : binop) (a b e : loc) : unif :=
  match op with
  | OAdd => UPoly PAdd a b e | OSub => UPoly PSub a b e | OMul => UPoly PMul a b e | ODiv => UPoly PDiv a b e
  | OMod => UMod a b e
  | OAnd | OOr | OXor => ULogic a b e
  | OEq | ONeq => UEq a b e
  | OLt | OLeq | OGt | OGeq => UCmp a b e
  end.
Definition un_unif (op : yunop) (a e : loc) : unif :=
  match op with YNeg | YPos => UPosNeg a e | YNot => UNott a e | YCast t => UCastt a e t end.
Fixpoint walk_expr (e : yexpr) : list unif :=
  match e with
  | YVar l v => [UVar l v]
  | YWild _ => []
  | YConst l c d => [UConst l (from_constant c) d]
  | YBin l op a b => bin_unif op (yloc a) (yloc b) l :: walk_expr a ++ walk_expr b
  | YUn l op a => un_unif op (yloc a) l :: walk_expr a
  | YIte l c a b => UIte l (yloc c) (yloc a) (yloc b) :: walk_expr c ++ walk_expr a ++ walk_expr b
  | YCall l f args => UCall f (map yloc args) l :: flat_map walk_expr args
  | YEnt l p args => UEntity p (map yloc args) l :: flat_map walk_expr args
  end.
(** local.rs 273-290. *)
Definition walk_atom (p : pred) (args : list yexpr) : list unif :=
  map (fun x => UArg (yloc (snd x)) p (fst x)) (enumerate args) ++ flat_map walk_expr args.
(** local.rs 298-342, the left variables, the parameters and the arguments. *)
Definition walk_reduce (r : yreduce) : list unif :=
  UAgg (map fst (yr_left r)) (yr_agg r) (map fst (yr_params r)) (map (fun x => (fst x, fst (snd x))) (yr_named r))
    (map fst (yr_args r)) (map fst (yr_bindings r)) (yr_excl r) ::
  flat_map (fun x => match snd x with Some v => [UVar (fst x) v] | None => [] end) (yr_left r) ++
  map (fun x => UConst (fst x) (from_constant (snd x)) None) (yr_params r) ++
  map (fun x => UConst (fst (snd x)) (from_constant (snd (snd x))) None) (yr_named r) ++
  map (fun x => UVar (fst x) (snd x)) (yr_args r).
Fixpoint walk_form (f : yform) : list unif :=
  match f with
  | YAtom p args | YNegAtom p args => walk_atom p args
  | YCons e => walk_expr e
  | YConj l | YDisj l => flat_map walk_form l
  | YImp a b => walk_form a ++ walk_form b
  | YReduce r b g => walk_reduce r ++ walk_form b ++ match g with Some g => walk_form g | None => [] end
  end.
Fixpoint form_atoms (f : yform) : list yatom :=
  match f with
  | YAtom p args | YNegAtom p args => [(p, args)]
  | YCons _ => []
  | YConj l | YDisj l => flat_map form_atoms l
  | YImp a b => form_atoms a ++ form_atoms b
  | YReduce _ b g => form_atoms b ++ match g with Some g => form_atoms g | None => [] end
  end.
Fixpoint form_constraints (f : yform) : list yexpr :=
  match f with
  | YAtom _ _ | YNegAtom _ _ => []
  | YCons e => [e]
  | YConj l | YDisj l => flat_map form_constraints l
  | YImp a b => form_constraints a ++ form_constraints b
  | YReduce _ b g => form_constraints b ++ match g with Some g => form_constraints g | None => [] end
  end.
Definition rule_atoms (r : yrule) : list yatom := y_head r ++ form_atoms (y_body r).
(** local.rs 32-36. *)
Definition ctx_of_rule (r : yrule) : ctx :=
  mkCtx (map (fun a => (fst a, length (snd a))) (rule_atoms r))
    (flat_map (fun a => walk_atom (fst a) (snd a)) (y_head r) ++ walk_form (y_body r))
    (map yloc (form_constraints (y_body r))).

(** ** Programs *)
(** The items that matter: relation type declarations (type_inference.rs 182-241, 424-484,
    a duplicate is an error), facts, sets of constants, rules; the query of an atom is
    visited as a rule with that head and no body (798-838).  A constant comes with
    the declared type of the constant it was made from ([resolve_constant_type],
    243-250).  An error stops the model; the code collects the errors and compilation
    fails after the inference has been tried. *)
Definition dconst := (fconst * option vtype)%type.
Inductive titem :=
| IDecl (p : pred) (ts : list vtype)
| IFact (p : pred) (cs : list dconst)
| ISet (p : pred) (tuples : list (list dconst))
| IRule (r : yrule).
Record tprog := mkTprog { tp_decls : list pred; tp_rels : rels; tp_ctxs : list ctx }.
Definition resolve_constant (c : dconst) : tset :=
  match snd c with Some t => SBase t | None => from_constant (fst c) end.
Fixpoint unify_zip (a b : list tset) : option (list tset) :=
  match a, b with
  | s :: a, t :: b =>
      match ts_unify s t, unify_zip a b with Some n, Some l => Some (n :: l) | _, _ => None end
  | _, _ => Some []
  end.
Definition memn (p : nat) (l : list nat) : bool := existsb (Nat.eqb p) l.
Definition is_foreign (T : tenv) (p : pred) : bool := match t_pred T p with Some _ => true | None => false end.
(** local.rs 50-81: predicates in the order of their first atom. *)
Definition unify_arity (T : tenv) (a : pred * nat) (R : rels) : tres rels :=
  if is_foreign T (fst a) then TOk R
  else match get R (fst a) with
  | None => TOk (put R (fst a) (repeat SAny (snd a)))
  | Some ts => if Nat.eqb (snd a) (length ts) then TOk R else TErr
  end.
(** type_inference.rs 552-651: the set of constants. *)
Definition unify_tuple (t : list dconst) (ts : list tset) : tres (list tset) :=
  if Nat.eqb (length t) (length ts) then of_opt (unify_zip ts (map resolve_constant t)) else TErr.
Definition visit (T : tenv) (i : titem) (P : tprog) : tres tprog :=
  match i with
  | IDecl p ts =>
      if is_foreign T p || memn p (tp_decls P) then TErr
      else
        let new := map SBase ts in
        tbind (match get (tp_rels P) p with
               | Some old => of_opt (unify_zip old new)
               | None => TOk new
               end) (fun sets => TOk (mkTprog (p :: tp_decls P) (put (tp_rels P) p sets) (tp_ctxs P)))
  | IFact p cs =>
      if is_foreign T p then TErr
      else
        let new := map resolve_constant cs in
        tbind (match get (tp_rels P) p with
               | Some old => if Nat.eqb (length new) (length old) then of_opt (unify_zip old new) else TErr
               | None => TOk new
               end) (fun sets => TOk (mkTprog (tp_decls P) (put (tp_rels P) p sets) (tp_ctxs P)))
  | ISet p tuples =>
      if is_foreign T p then TErr
      else match tuples with
      | [] => TOk P
      | t :: _ =>
          if forallb (fun u => Nat.eqb (length u) (length t)) tuples then
            let old := match get (tp_rels P) p with Some s => s | None => repeat SAny (length t) end in
            tbind (tfold unify_tuple tuples old) (fun sets =>
              TOk (mkTprog (tp_decls P) (put (tp_rels P) p sets) (tp_ctxs P)))
          else TErr
      end
  | IRule r =>
      if existsb (fun a => is_foreign T (fst a)) (y_head r) then TErr
      else
        let c := ctx_of_rule r in
        tbind (tfold (unify_arity T) (cx_arities c) (tp_rels P)) (fun R =>
          TOk (mkTprog (tp_decls P) R (tp_ctxs P ++ [c])))
  end.
(** front/analysis.rs 72-96, the part of type inference: walk the items, then infer. *)
Definition infer_program (fuel : nat) (T : tenv) (items : list titem) : option (tres (state * list var_types_t)) :=
  match tfold (visit T) items (mkTprog [] [] []) with
  | TOk P => infer_types fuel T (tp_ctxs P) (tp_rels P)
  | TErr => Some TErr
  | TPanic => Some TPanic
  end.
(** type_inference.rs 83-95, 125-146: what the rest of the compiler asks for. *)
Definition expr_type (r : state * list var_types_t) (e : loc) : option vtype := option_map ts_default (get (fst (fst r)) e).
Definition rel_type (r : state * list var_types_t) (p : pred) : option (list vtype) :=
  option_map (map ts_default) (get (snd (fst r)) p).
Definition variable_type (r : state * list var_types_t) (k v : nat) : option vtype :=
  match nth_error (snd r) k with Some vs => option_map ts_default (assoc v vs) | None => None end.
