(** Models of concrete provenances, /repo/core/src/runtime/provenance. *)
From Coq Require Import List ZArith QArith Qcanon Bool Lia.
From Verif Require Import Order Value Prov OSet.
Import ListNotations.
Set Implicit Arguments.

(** discrete/unit.rs 35-71. *)
Definition unit_prov : Prov := {|
  ptag := unit; pzero := tt; pone := tt;
  padd := fun _ _ => tt; pmult := fun _ _ => tt;
  pneg := fun _ => None; pminus := default_minus (fun _ _ => tt) (fun _ => None);
  psat := fun _ _ => true; pdiscard := fun _ => false; pwlt := fun _ _ => false |}.

(** discrete/boolean.rs 14-60; [minus] is overridden, [negate] is the default. *)
Definition bool_prov : Prov := {|
  ptag := bool; pzero := false; pone := true;
  padd := orb; pmult := andb;
  pneg := fun _ => None; pminus := fun a b => Some (andb a (negb b));
  psat := Bool.eqb; pdiscard := negb; pwlt := fun _ _ => false |}.

(** discrete/natural.rs 8-56; [usize] is unbounded here (overflow panics or
    wraps in Rust). *)
Definition nat_prov : Prov := {|
  ptag := nat; pzero := 0%nat; pone := 1%nat;
  padd := Nat.add; pmult := Nat.mul;
  pneg := fun _ => None; pminus := default_minus Nat.mul (fun _ => None);
  psat := fun _ _ => true; pdiscard := fun n => Nat.eqb n 0; pwlt := fun _ _ => false |}.

(** discrete/tropical.rs: [NatWithInfty], [None] is [Infty]; [partial_cmp] of
    two infinities is [None]. *)
Definition trop_partial_cmp (a b : option nat) : option comparison :=
  match a, b with
  | None, None => None
  | None, Some _ => Some Gt
  | Some _, None => Some Lt
  | Some n, Some m => Some (Nat.compare n m)
  end.
Definition trop_add (a b : option nat) : option nat :=
  match trop_partial_cmp a b with
  | Some Lt => a | Some Gt => b | Some Eq => a | None => a end.
Definition trop_mult (a b : option nat) : option nat :=
  match a, b with Some n, Some m => Some (n + m)%nat | _, _ => None end.
Definition trop_eqb (a b : option nat) : bool :=
  match a, b with
  | Some n, Some m => Nat.eqb n m | None, None => true | _, _ => false end.
Definition trop_prov : Prov := {|
  ptag := option nat; pzero := None; pone := Some 0%nat;
  padd := trop_add; pmult := trop_mult;
  pneg := fun _ => None; pminus := default_minus trop_mult (fun _ => None);
  psat := trop_eqb; pdiscard := fun t => match t with None => true | _ => false end;
  pwlt := fun _ _ => false |}.

(** Probabilities [f64] are canonical rationals [Qc] (no rounding, no NaN). *)
Definition qc_ltb (a b : Qc) : bool := match (a ?= b)%Qc with Lt => true | _ => false end.
Definition qc_leb (a b : Qc) : bool := match (a ?= b)%Qc with Gt => false | _ => true end.
Definition qc_eqb (a b : Qc) : bool := match (a ?= b)%Qc with Eq => true | _ => false end.
Definition qc_max (a b : Qc) : Qc := if qc_ltb a b then b else a.
Definition qc_min (a b : Qc) : Qc := if qc_ltb b a then b else a.

(** probabilistic/min_max_prob.rs 33-83, [valid_threshold = 0]. *)
Definition minmax_neg (p : Qc) : option Qc := Some (1 - p)%Qc.
Definition minmax_prov : Prov := {|
  ptag := Qc; pzero := 0%Qc; pone := 1%Qc;
  padd := qc_max; pmult := qc_min;
  pneg := minmax_neg; pminus := default_minus qc_min minmax_neg;
  psat := qc_eqb; pdiscard := fun p => qc_leb p 0%Qc; pwlt := qc_ltb |}.

(** probabilistic/add_mult_prob.rs 25-75. *)
Definition addmult_prov : Prov := {|
  ptag := Qc; pzero := 0%Qc; pone := 1%Qc;
  padd := fun a b => qc_min (a + b)%Qc 1%Qc; pmult := Qcmult;
  pneg := minmax_neg; pminus := default_minus Qcmult minmax_neg;
  psat := fun _ _ => true; pdiscard := fun p => qc_leb p 0%Qc; pwlt := qc_ltb |}.

(** numerical/real_tropical.rs: [None] is infinity.  [|a - b| < 0.001] with an
    infinite operand: [inf - x] is infinite, [inf - inf] is NaN, both compare
    false. Negative infinity is not represented. *)
Definition rtrop_add (a b : option Qc) : option Qc :=
  match a, b with
  | None, _ => b | _, None => a | Some x, Some y => Some (qc_min x y) end.
Definition rtrop_mult (a b : option Qc) : option Qc :=
  match a, b with Some x, Some y => Some (x + y)%Qc | _, _ => None end.
Definition qc_abs (a : Qc) : Qc := if qc_ltb a 0%Qc then (- a)%Qc else a.
Definition rtrop_sat (eps : Qc) (a b : option Qc) : bool :=
  match a, b with Some x, Some y => qc_ltb (qc_abs (x - y)%Qc) eps | _, _ => false end.
Definition rtrop_prov : Prov := {|
  ptag := option Qc; pzero := None; pone := Some 0%Qc;
  padd := rtrop_add; pmult := rtrop_mult;
  pneg := fun _ => None; pminus := default_minus rtrop_mult (fun _ => None);
  psat := rtrop_sat (Q2Qc (1 # 1000)); pdiscard := fun t => match t with None => true | _ => false end;
  (* weight = exp (-tag) *)
  pwlt := fun a b => match a, b with
                     | None, Some _ => true | Some x, Some y => qc_ltb y x | _, None => false end |}.

(** discrete/proofs.rs: a proof is a [BTreeSet<usize>], a tag a
    [BTreeSet<Proof>]; both strictly sorted lists, ordered lexicographically. *)
Definition proof := list nat.
Definition proof_cmp : proof -> proof -> comparison := lex Nat.compare.
Definition proof_merge (p q : proof) : proof := oof Nat.compare (p ++ q).
Definition proofs_add (a b : list proof) : list proof := oof proof_cmp (a ++ b).
(** 213-219: cartesian product, then proofs with a conflict are dropped;
    [conflict] is [Disjunctions::has_conflict] of the current context. *)
Definition proofs_mult (conflict : proof -> bool) (a b : list proof) : list proof :=
  filter (fun p => negb (conflict p))
    (oof proof_cmp (flat_map (fun p => map (proof_merge p) b) a)).
Definition proofs_eqb (a b : list proof) : bool :=
  match lex proof_cmp a b with Eq => true | _ => false end.
(** [negate] panics in Rust; here it is [None]. *)
Definition proofs_prov (conflict : proof -> bool) : Prov := {|
  ptag := list proof; pzero := []; pone := [[]];
  padd := proofs_add; pmult := proofs_mult conflict;
  pneg := fun _ => None; pminus := default_minus (proofs_mult conflict) (fun _ => None);
  psat := proofs_eqb; pdiscard := fun t => match t with [] => true | _ => false end;
  pwlt := fun _ _ => false |}.
