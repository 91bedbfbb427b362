(** Model of the RAM dataflow syntax (/repo/core/src/compiler/ram/ast.rs
    227-262) with expressions, of its translation to runtime operators, and of
    the RAM optimizations in /repo/core/src/compiler/ram/optimizations/. *)
From Coq Require Import List ZArith Bool Arith.
From Verif Require Import Order Value Prov ListAux SortedCol Schedulers Relation Dataflow Back Eval.
Import ListNotations.
Set Implicit Arguments.

(** ram/ast.rs 429-433 [ReduceGroupByType]. *)
Inductive rgrp := GNone | GImplicit | GJoin (r : nat).
(** ram/ast.rs 227-262 [enum Dataflow].  Names are numbers; [Exclusion] is not
    modelled; an aggregator with its parameters is a number. *)
Inductive rdf :=
| RUnit (u : tuple)
| RVec (ts : list tuple)
| RRel (r : nat)
| ROverwrite (d : rdf)
| RFilter (d : rdf) (e : expr)
| RProject (d : rdf) (e : expr)
| RFind (d : rdf) (k : tuple)
| RSorted (d : rdf)
| RInter (d1 d2 : rdf)
| RJoin (d1 d2 : rdf)
| RProd (d1 d2 : rdf)
| RUnion (d1 d2 : rdf)
| RDiff (d1 d2 : rdf)
| RAnti (d1 d2 : rdf)
| RJoinIV (d : rdf) (r : nat)
| RGround (fp : nat) (args : list value)
| RConstraint (d : rdf) (fp : nat) (args : list expr)
| RFpJoin (d : rdf) (fp : nat) (args : list expr)
| RReduce (agg : nat) (p : nat) (grp : rgrp).

(** What the names of a dataflow stand for. *)
Record lenv (P : Prov) := mkLenv {
  l_env : renv;
  l_iv : nat -> tuple -> option (tuple * ptag P);
  l_ground : nat -> list value -> list (elem P);
  l_constr : nat -> list (ev tuple) -> option (ptag P);
  l_fpjoin : nat -> list (ev tuple) -> list (elem P);
  l_reduce : nat -> nat -> rgrp -> list (elem P) }.

(** [Project]: a tuple without value is dropped (project.rs); [Filter] keeps the
    tuples whose condition evaluates to true.  A panic ends the run in Rust; here
    it drops the tuple, and the theorems ask for its absence where it matters. *)
Definition proj_fn (E : renv) (e : expr) (t : tuple) : option tuple :=
  match eval E e t with EOk u => Some u | _ => None end.
Definition filt_fn (E : renv) (e : expr) (t : tuple) : bool :=
  match eval E e t with EOk (TVal (VBool true)) => true | _ => false end.

(** dynamic/iteration.rs 323-462 [build_dynamic_dataflow]. *)
Fixpoint lower {P : Prov} (L : lenv P) (d : rdf) : dflow P :=
  match d with
  | RUnit u => DUnit u
  | RVec ts => DVec ts
  | RRel r => DRel r
  | ROverwrite d => DOverwrite (lower L d)
  | RFilter d e => DFilter (lower L d) (filt_fn (l_env L) e)
  | RProject d e => DProject (lower L d) (proj_fn (l_env L) e)
  | RFind d k => DFind (lower L d) k
  | RSorted d => DSorted (lower L d)
  | RInter a b => DInter (lower L a) (lower L b)
  | RJoin a b => DJoin (lower L a) (lower L b)
  | RProd a b => DProd (lower L a) (lower L b)
  | RUnion a b => DUnion (lower L a) (lower L b)
  | RDiff a b => DDiff (lower L a) (lower L b)
  | RAnti a b => DAnti (lower L a) (lower L b)
  | RJoinIV d r => DJoinIV (lower L d) (l_iv L r)
  | RGround fp args => DGround (l_ground L fp args)
  | RConstraint d fp args =>
      DConstraint (lower L d) (fun t => l_constr L fp (map (fun e => eval (l_env L) e t) args))
  | RFpJoin d fp args =>
      DFpJoin (lower L d) (fun t => l_fpjoin L fp (map (fun e => eval (l_env L) e t) args))
  | RReduce agg p grp => DReduce (l_reduce L agg p grp)
  end.

(** project_cascade.rs 18-75 [project_cascade_on_dataflow], without the
    changed flag.  [pend] is the projection collected so far: [Project(d1, p1)]
    over [Project(d2, p2)] becomes [Project(d2, p1.compose(p2))] and is looked
    at again (58-63); over anything else the recursion continues below (64).
    [None] is a panic of [compose]. *)
Definition wrap (pend : option expr) (d : rdf) : rdf :=
  match pend with Some p => RProject d p | None => d end.
Fixpoint cascade (pend : option expr) (d : rdf) : option rdf :=
  let un k d1 := obnd (cascade None d1) (fun d' => Some (wrap pend (k d'))) in
  let bi k d1 d2 := obnd (cascade None d1) (fun a => obnd (cascade None d2) (fun b =>
                      Some (wrap pend (k a b)))) in
  match d with
  | RProject d1 p =>
      match pend with
      | None => cascade (Some p) d1
      | Some q => obnd (compose q p) (fun q' => cascade (Some q') d1)
      end
  | RUnion a b => bi RUnion a b
  | RJoin a b => bi RJoin a b
  | RInter a b => bi RInter a b
  | RProd a b => bi RProd a b
  | RAnti a b => bi RAnti a b
  | RDiff a b => bi RDiff a b
  | RJoinIV d1 r => un (fun x => RJoinIV x r) d1
  | RFilter d1 e => un (fun x => RFilter x e) d1
  | RFind d1 k => un (fun x => RFind x k) d1
  | RSorted d1 => un RSorted d1
  | ROverwrite d1 => un ROverwrite d1
  | RConstraint d1 fp a => un (fun x => RConstraint x fp a) d1
  | RFpJoin d1 fp a => un (fun x => RFpJoin x fp a) d1
  | RUnit _ | RVec _ | RRel _ | RGround _ _ | RReduce _ _ _ => Some (wrap pend d)
  end.
