(** Model of the sharing of temporary relations,
    /repo/core/src/compiler/ram/optimizations/deduplicate.rs, and of
    [substitute_relation], /repo/core/src/compiler/ram/ast.rs 365-415. *)
From Coq Require Import List ZArith Bool Arith.
From Verif Require Import Order Value Back Eval Ram Optimize Scc.
Import ListNotations.

(** *** [PartialEq] of dataflows (derived, ram/ast.rs 226) *)
Definition accessor_eq_dec : forall a b : accessor, {a = b} + {a <> b}.
Proof. decide equality; apply Nat.eq_dec. Defined.
(** The decisions below never inspect the equality proofs, so that they compute. *)
Ltac dec_one x y d := let E := fresh "E" in let N := fresh "N" in
  destruct (d x y) as [E|N]; [|right; congruence].
Definition expr_eq_dec : forall a b : expr, {a = b} + {a <> b}.
Proof.
  fix IH 1. intros a b.
  assert (L : forall l m : list expr, {l = m} + {l <> m}).
  { fix go 1. intros [|x l] [|y m]; [left; reflexivity|right; discriminate..|].
    dec_one x y IH. dec_one l m go. left; congruence. }
  destruct a, b; try (right; discriminate).
  - dec_one l l0 L. left; congruence.
  - dec_one a a0 accessor_eq_dec. left; congruence.
  - dec_one v v0 value_eq_dec. left; congruence.
  - dec_one op op0 binop_eq_dec. dec_one a1 b1 IH. dec_one a2 b2 IH. left; congruence.
  - dec_one op op0 unop_eq_dec. dec_one a b IH. left; congruence.
  - dec_one a1 b1 IH. dec_one a2 b2 IH. dec_one a3 b3 IH. left; congruence.
  - dec_one f f0 Nat.eq_dec. dec_one l l0 L. left; congruence.
  - dec_one f f0 Nat.eq_dec. dec_one l l0 L. left; congruence.
Defined.
Definition tuple_eq_dec : forall a b : tuple, {a = b} + {a <> b} := to_eq_dec tcmp_TOrder.
Definition ldec {A : Type} (d : forall a b : A, {a = b} + {a <> b}) : forall l m : list A, {l = m} + {l <> m}.
Proof.
  fix go 1. intros [|x l] [|y m]; [left; reflexivity|right; discriminate..|].
  dec_one x y d. dec_one l m go. left; congruence.
Defined.
Definition gdec : forall a b : rgrp, {a = b} + {a <> b}.
Proof. intros [| |x] [| |y]; try (right; discriminate); try (left; reflexivity). dec_one x y Nat.eq_dec. left; congruence. Defined.
Definition rdf_eq_dec : forall a b : rdf, {a = b} + {a <> b}.
Proof.
  fix IH 1. intros a b.
  destruct a, b; try (right; discriminate);
  repeat match goal with
  | x : rdf, y : rdf |- {?f ?x = ?f ?y} + {_} => dec_one x y IH; left; congruence
  | |- {?f ?x ?u = ?f ?y ?v} + {_} => dec_one x y IH; first [dec_one u v IH|dec_one u v expr_eq_dec|dec_one u v tuple_eq_dec|dec_one u v Nat.eq_dec]; left; congruence
  | |- {?f ?x ?u ?w = ?f ?y ?v ?z} + {_} => dec_one x y IH; dec_one u v Nat.eq_dec; dec_one w z (ldec expr_eq_dec); left; congruence
  | |- {?f ?x = ?f ?y} + {_} => first [dec_one x y Nat.eq_dec|dec_one x y tuple_eq_dec|dec_one x y (ldec tuple_eq_dec)]; left; congruence
  | |- {?f ?x ?u = ?f ?y ?v} + {_} => dec_one x y Nat.eq_dec; dec_one u v (ldec value_eq_dec); left; congruence
  | |- {?f ?x ?u ?w = ?f ?y ?v ?z} + {_} => dec_one x y Nat.eq_dec; dec_one u v Nat.eq_dec; dec_one w z gdec; left; congruence
  end.
Defined.

(** *** ram/ast.rs 365-415, 455-489 *)
(** The names of a dataflow under [f]; [substitute_relation(source, target)] is
    the renaming of [source] to [target]. *)
Fixpoint rename (f : nat -> nat) (d : rdf) : rdf :=
  match d with
  | RUnit u => RUnit u
  | RVec ts => RVec ts
  | RRel r => RRel (f r)
  | ROverwrite d => ROverwrite (rename f d)
  | RFilter d e => RFilter (rename f d) e
  | RProject d e => RProject (rename f d) e
  | RFind d k => RFind (rename f d) k
  | RSorted d => RSorted (rename f d)
  | RInter a b => RInter (rename f a) (rename f b)
  | RJoin a b => RJoin (rename f a) (rename f b)
  | RProd a b => RProd (rename f a) (rename f b)
  | RUnion a b => RUnion (rename f a) (rename f b)
  | RDiff a b => RDiff (rename f a) (rename f b)
  | RAnti a b => RAnti (rename f a) (rename f b)
  | RJoinIV d r => RJoinIV (rename f d) (f r)
  | RGround fp args => RGround fp args
  | RConstraint d fp args => RConstraint (rename f d) fp args
  | RFpJoin d fp args => RFpJoin (rename f d) fp args
  | RReduce agg p grp => RReduce agg (f p) (match grp with GJoin g => GJoin (f g) | _ => grp end)
  end.
Definition swap (source target : nat) (r : nat) : nat := if Nat.eqb r source then target else r.

(** *** deduplicate.rs 73-131 [EquivalentRelations]
    [eq_map] is an association list with the newest entry first, [sets] the
    vector of sets; a set is a list whose order stands for the iteration order of
    the [HashSet]. *)
Record eqrels := mkEq { q_map : list (nat * nat); q_sets : list (list nat) }.
Fixpoint set_nth {A} (i : nat) (a : A) (l : list A) : list A :=
  match l, i with
  | [], _ => []
  | _ :: r, 0 => a :: r
  | x :: r, S i => x :: set_nth i a r
  end.
Definition add_eq (q : eqrels) (r1 r2 : nat) : eqrels :=
  match lookup r1 (q_map q), lookup r2 (q_map q) with
  | Some i1, Some i2 =>
      if Nat.eqb i1 i2 then q else
      let rels := nth i2 (q_sets q) [] in
      mkEq (map (fun r => (r, i1)) rels ++ q_map q)
           (set_nth i1 (extend rels (nth i1 (q_sets q) [])) (set_nth i2 [] (q_sets q)))
  | Some i1, None =>
      mkEq ((r2, i1) :: q_map q) (set_nth i1 (insert r2 (nth i1 (q_sets q) [])) (q_sets q))
  | None, Some i2 =>
      mkEq ((r1, i2) :: q_map q) (set_nth i2 (insert r1 (nth i2 (q_sets q) [])) (q_sets q))
  | None, None =>
      let i := length (q_sets q) in
      mkEq ((r2, i) :: (r1, i) :: q_map q) (q_sets q ++ [extend [r1; r2] []])
  end.

(** A stratum: its relation names and its updates. *)
Record rstratum := mkStr { rs_rels : list nat; rs_updates : list (nat * rdf) }.

(** Lines 17-43.  The pairs with [i = j] have equal heads and change nothing. *)
Definition pair_step (is_temp : nat -> bool) (q : eqrels) (p : (nat * rdf) * (nat * rdf)) : eqrels :=
  let '((h1, d1), (h2, d2)) := p in
  if rdf_eq_dec d1 d2 then
    if Nat.eqb h1 h2 then q
    else if is_temp h1 && is_temp h2 then add_eq q h1 h2 else q
  else q.
Definition equivalents (is_temp : nat -> bool) (us : list (nat * rdf)) : eqrels :=
  fold_left (pair_step is_temp) (list_prod us us) (mkEq [] []).

(** Lines 55-72. *)
Definition replace_rel (pivot : nat) (s : rstratum) (a : nat) : rstratum :=
  mkStr (filter (fun r => negb (Nat.eqb r a)) (rs_rels s))
    (map (fun u => (fst u, rename (swap a pivot) (snd u)))
         (filter (fun u => negb (Nat.eqb (fst u) a)) (rs_updates s))).
(** Lines 46-72: [order] is the order in which a set is iterated. *)
Definition replace_set (order : list nat -> list nat) (s : rstratum) (set : list nat) : rstratum :=
  match order set with
  | pivot :: rest => fold_left (replace_rel pivot) rest s
  | [] => s
  end.
(** Lines 13-74; the result of the function is whether it changed something. *)
Definition deduplicate (is_temp : nat -> bool) (order : list nat -> list nat) (s : rstratum) : rstratum :=
  fold_left (replace_set order) (q_sets (equivalents is_temp (rs_updates s))) s.
