(** Model of how a back-end program becomes the program that the runtime executes:
    /repo/core/src/compiler/back/b2r.rs 94-344 ([strata_to_ram_strata],
    [stratum_relations], [predicate_to_ram_relation]) and
    /repo/core/src/compiler/ram/ast.rs 102-175 ([Stratum], [Relation]).
    The updates are those of B2RStrata.v.  Left out: tuple types, input files,
    storage, disjunctive facts. *)
From Coq Require Import List Arith Bool.
From Verif Require Import Value Back Eval Ram Schedulers Scc RamSem B2RStrata Exec.
Import ListNotations.
Set Implicit Arguments.

Section Decl.
  Variable IT : Type.
  (** The tags of facts; which predicates have names starting with [adt#]; the
      schedulers given by attributes. *)
  Variable tag_of : fact -> option IT.
  Variable is_adt : pred -> bool.
  Variable sched_of : pred -> option scheduler.
  Variable P : program.

  (** b2r.rs 215-330 [predicate_to_ram_relation] and 332-344 [fact_to_ram_fact]:
      facts in the order of the program; hidden unless an output; immutable if no
      rule has the predicate in its head and it is not an [adt#] one. *)
  Definition pred_rel (b : brel) : xrel IT :=
    let p := b_pred b in
    mkXR p
      (map (fun f => (tag_of f, vtup (f_args f))) (filter (fun f => Nat.eqb (f_pred f) p) (p_facts P)))
      (negb (is_adt p) && negb (existsb (fun r => Nat.eqb (r_pred r) p) (p_rules P)))
      (negb (memb p (p_outputs P)))
      (b_goal b)
      (sched_of p).
  (** ram/ast.rs 158-170 [hidden_relation]: temporary relations, permuted copies,
      and relations made for negation. *)
  Definition temp_rel (n : nat) : xrel IT := mkXR n [] false true false None.
  (** A relation of a lowered stratum is the first declared one of that name (b2r.rs
      216 [relation_of_predicate]), or one made by the compiler. *)
  Definition rel_of (n : nat) : xrel IT :=
    match find (fun b => Nat.eqb (b_pred b) n) (p_rels P) with Some b => pred_rel b | None => temp_rel n end.
  (** ram/ast.rs 102-108: the relations of a stratum are a map by name. *)
  Definition xstratum_of (y : rstratum) : xstratum IT :=
    mkXS (map rel_of (nodup Nat.eq_dec (rs_rels y))) (rs_updates y).
  Definition xprog_of (xs : list rstratum) : xprog IT := map xstratum_of xs.
End Decl.
