(** Specification: which tuples a RAM dataflow stands for, as relational algebra
    over sets of tuples, and how the facts of the back end are laid out as tuples.
    Independent of how dataflows are built and run.  Used by C53. *)
From Coq Require Import List ZArith Bool Arith.
From Verif Require Import Value Back Eval Ram Dataflow BackSem B2R.
Import ListNotations.
Set Implicit Arguments.

Definition rels := nat -> tuple -> Prop.
Definition vtup (vs : list value) : tuple := TTup (map TVal vs).
(** The values of the expressions at a tuple. *)
Definition evals (E : renv) (es : list expr) (t : tuple) (vs : list value) : Prop :=
  Forall2 (fun e v => eval E e t = EOk (TVal v)) es vs.

Section RDen.
  (** Values of expressions, foreign predicates, results of aggregations. *)
  Variable E : renv.
  Variable fp : pred -> rel.
  Variable ag : nat -> nat -> rgrp -> tuple -> Prop.
  (** The right sides of differences and antijoins are read off [M]. *)
  Variable M : rels.

  Fixpoint rden (I : rels) (d : rdf) (t : tuple) {struct d} : Prop :=
    match d with
    | RUnit u => t = u
    | RVec ts => In t ts
    | RRel r => I r t
    | ROverwrite d | RSorted d => rden I d t
    | RFilter d e => rden I d t /\ eval E e t = EOk (TVal (VBool true))
    | RProject d e => exists u, rden I d u /\ eval E e u = EOk t
    | RFind d k => rden I d t /\ tnth t 0 = Some k
    | RInter d1 d2 => rden I d1 t /\ rden I d2 t
    | RJoin d1 d2 => exists t1 t2 k x y, rden I d1 t1 /\ rden I d2 t2 /\
        tnth t1 0 = Some k /\ tnth t2 0 = Some k /\ tnth t1 1 = Some x /\ tnth t2 1 = Some y /\ t = TTup [k; x; y]
    | RProd d1 d2 => exists t1 t2, rden I d1 t1 /\ rden I d2 t2 /\ t = TTup [t1; t2]
    | RUnion d1 d2 => rden I d1 t \/ rden I d2 t
    | RDiff d1 d2 => rden I d1 t /\ ~ rden M d2 t
    | RAnti d1 d2 => rden I d1 t /\ forall k, tnth t 0 = Some k -> ~ rden M d2 k
    | RJoinIV d r => exists t1 k x y, rden I d t1 /\ tnth t1 0 = Some k /\ tnth t1 1 = Some x /\
        I r (TTup [k; y]) /\ t = TTup [k; x; y]
    | RGround p args => exists vs, fp p (args ++ vs) /\ t = vtup vs
    | RConstraint d p es => rden I d t /\ exists vs, evals E es t vs /\ fp p vs
    | RFpJoin d p es => exists u vs ws, rden I d u /\ evals E es u vs /\ fp p (vs ++ ws) /\ t = TTup [u; vtup ws]
    | RReduce a p g => ag a p g t
    end.
End RDen.

(** How the facts of a relation are laid out: flat, or for the relations of
    aggregations as a pair of group and rest, each of which is a value if it has one
    component. *)
Definition one_or_vtup (vs : list value) : tuple := match vs with [v] => TVal v | _ => vtup vs end.
Definition layout (sh : shape) (vs : list value) : tuple :=
  match sh with
  | SPlain => vtup vs
  | SBody 0 => one_or_vtup vs
  | SBody n | SGroup n => TTup [one_or_vtup (firstn n vs); one_or_vtup (skipn n vs)]
  end.
