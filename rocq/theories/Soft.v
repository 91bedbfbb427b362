(** Model of the soft comparisons: /repo/core/src/common/foreign_predicates/{soft_cmp,
    soft_gt,soft_lt,soft_eq,soft_neq}.rs.
    Simplifications: real numbers instead of f64. *)
From Coq Require Import Reals ZArith.
From Verif Require Import Aggregate.
Local Open Scope R_scope.

(** soft_cmp.rs 7-12. *)
Inductive sigmoid := Logistic (beta : R) | Reciprocal (beta : R) | Cauchy (beta : R) | OptimalMonotonic (beta : R).
Definition scale (s : sigmoid) : R := match s with Logistic b | Reciprocal b | Cauchy b | OptimalMonotonic b => b end.
(** soft_cmp.rs 41-66 [eval]. *)
Definition soft_eval (s : sigmoid) (x : R) : R :=
  match s with
  | Logistic beta => 1 / (1 + exp (- beta * x))
  | Reciprocal beta => (beta * x) / (1 + 2 * beta * Rabs x) + 1 / 2
  | Cauchy beta => / PI * atan (beta * x) + 1 / 2
  | OptimalMonotonic beta =>
      let xp := beta * x in
      if Rlt_dec xp (- (1 / 4)) then - 1 / (16 * xp)
      else if Rlt_dec (1 / 4) xp then 1 - 1 / (16 * xp)
      else xp + 1 / 2
  end.
(** soft_cmp.rs 72-91 [eval_deriv]; [None] is [unimplemented!]. *)
Definition soft_deriv (s : sigmoid) (x : R) : option R :=
  match s with
  | Logistic beta => let epv := exp (1 / 2 * beta * x) in Some (2 * epv / (epv * epv + 1))
  | _ => None
  end.

(** The operands: integers of a type ([None]: the subtraction overflows) or floats. *)
Definition int_diff (ty : ity) (x y : Z) : option R := if in_range ty (x - y) then Some (IZR (x - y)) else None.
Definition on_some (d : option R) (f : R -> option R) : option R := match d with Some d => f d | None => None end.
(** soft_gt.rs 33-42, soft_lt.rs 31-40, soft_eq.rs 33-42, soft_neq.rs 33-42. *)
Definition soft_gt (s : sigmoid) (ty : ity) (x y : Z) : option R := on_some (int_diff ty x y) (fun d => Some (soft_eval s d)).
Definition soft_lt (s : sigmoid) (ty : ity) (x y : Z) : option R := on_some (int_diff ty y x) (fun d => Some (soft_eval s d)).
Definition soft_eq (s : sigmoid) (ty : ity) (x y : Z) : option R := on_some (int_diff ty x y) (soft_deriv s).
Definition soft_neq (s : sigmoid) (ty : ity) (x y : Z) : option R := on_some (int_diff ty x y) (fun d => on_some (soft_deriv s d) (fun p => Some (1 - p))).
(** The same of floats. *)
Definition fsoft_gt (s : sigmoid) (x y : R) : R := soft_eval s (x - y).
Definition fsoft_lt (s : sigmoid) (x y : R) : R := soft_eval s (y - x).
Definition fsoft_eq (s : sigmoid) (x y : R) : option R := soft_deriv s (x - y).
