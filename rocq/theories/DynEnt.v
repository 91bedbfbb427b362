(** Model of entities created while a program runs and of the monitored run:
    /repo/core/src/runtime/env/dynamic_entity_storage.rs and
    /repo/core/src/runtime/dynamic/iteration.rs 94-257. *)
From Coq Require Import List ZArith Arith Bool.
From Verif Require Import Order Value Prov ListAux SortedCol Schedulers Relation Dataflow Iteration.
Import ListNotations.
Set Implicit Arguments.

(** dynamic_entity_storage.rs 10-13 [struct DynamicEntityStorage], field
    [entities]: per functor, per entity, the stored argument tuples.  Functors are
    relation names (numbers), entities their hashes, argument tuples lists of
    values.  The two hash maps are association lists, so the order in which they
    are walked is the order of insertion.  [registry] (parsing of entity strings)
    is not modelled; neither is the mutex. *)
Definition ent_args := list (list value).
Definition ent_map := list (Z * ent_args).
Definition ent_store := list (nat * ent_map).

(** One stored fact: functor, entity, arguments. *)
Definition ent_fact := (nat * Z * list value)%type.

(** dynamic_entity_storage.rs 44-52 [add_entity_fact], the inner map. *)
Fixpoint add_args (id : Z) (args : list value) (m : ent_map) : ent_map :=
  match m with
  | [] => [(id, [args])]
  | (i, ts) :: r => if Z.eqb i id then (i, ts ++ [args]) :: r else (i, ts) :: add_args id args r
  end.

(** dynamic_entity_storage.rs 44-52 [add_entity_fact]. *)
Fixpoint add_entity_fact (x : ent_fact) (s : ent_store) : ent_store :=
  let '(f, id, args) := x in
  match s with
  | [] => [(f, [(id, [args])])]
  | (g, m) :: r => if Nat.eqb g f then (g, add_args id args m) :: r else (g, m) :: add_entity_fact x r
  end.

Definition add_entity_facts (xs : list ent_fact) (s : ent_store) : ent_store :=
  fold_left (fun s x => add_entity_fact x s) xs s.

(** dynamic_entity_storage.rs 64: the fact of an entity with its arguments. *)
Definition ent_tuple (id : Z) (args : list value) : tuple :=
  TTup (TVal (VEntity id) :: map TVal args).

(** dynamic_entity_storage.rs 59-66. *)
Definition ent_tuples (m : ent_map) : list tuple :=
  flat_map (fun '(id, ts) => map (ent_tuple id) ts) m.

(** dynamic_entity_storage.rs 54-70 [drain_entities]: what is taken out and what
    stays. *)
Definition drain_entities (keep : nat -> bool) (s : ent_store) : list (nat * list tuple) * ent_store :=
  (map (fun '(f, m) => (f, ent_tuples m)) (filter (fun x => keep (fst x)) s),
   filter (fun x => negb (keep (fst x))) s).

Section Run.
  Variable P : Prov.
  Variable it : iteration P.
  Notation state := (state P).

  (** The entity facts that evaluating the dataflow of an update adds to the store
      (environment.rs 739-760 [eval_new] and 198-214 [internalize_value], called
      from projections and foreign predicates).  Any function of what the
      dataflow sees; the order of evaluation within one dataflow is given by the
      list. *)
  Variable creates : denv P -> nat * dflow P -> list ent_fact.

  (** A run's state: relations, stored entity facts, and (ghost) all the facts
      added so far. *)
  Record estate := mkEst { es_rels : state; es_store : ent_store; es_log : list ent_fact }.

  (** iteration.rs 100-107, one update with its side effect. *)
  Definition e_update (n : nat) (x : estate) (u : nat * dflow P) : estate :=
    let c := creates (env_of it n (es_rels x)) u in
    mkEst (do_update it n (es_rels x) u) (add_entity_facts c (es_store x)) (es_log x ++ c).
  Definition e_updates (n : nat) (x : estate) : estate := fold_left (e_update n) (i_updates it) x.

  (** iteration.rs 128-141 [drain_dynamic_entities]; [has_dynamic_relation] is
      membership in [i_rels].  [UntaggedVec] creates no entities. *)
  Definition has_dynamic_relation (r : nat) : bool := existsb (Nat.eqb r) (i_rels it).
  Definition drain_dynamic_entities (n : nat) (x : estate) : estate :=
    let '(out, rest) := drain_entities has_dynamic_relation (es_store x) in
    mkEst (fold_left (fun st '(f, ts) => do_update it n st (f, DVec ts)) out (es_rels x)) rest (es_log x).

  (** iteration.rs 96-114 [run], the loop. *)
  Fixpoint e_loop (fuel : nat) (x : estate) (n : nat) : option (estate * nat * verdict) :=
    match fuel with
    | 0 => None
    | S k =>
        let '(st1, v) := need_to_iterate it (es_rels x) n in
        let x1 := mkEst st1 (es_store x) (es_log x) in
        match v with
        | Continue => e_loop k (drain_dynamic_entities n (e_updates n x1)) (S n)
        | _ => Some (x1, n, v)
        end
    end.

  (** What a monitor is told (iteration.rs 189, 223, 234, 253). *)
  Inductive observed := SawIteration (n : nat) | SawLimit | SawGoal | SawConverging.
  (** iteration.rs 213-257 [need_to_iterate_with_monitor]: same decisions as
      [need_to_iterate], telling the monitor why it stops. *)
  Definition saw (v : verdict) : list observed :=
    match v with Continue => [] | StopQuiet => [SawConverging] | StopLimit => [SawLimit] | StopGoal => [SawGoal] end.

  (** iteration.rs 177-203 [run_with_monitor], the loop: nothing is drained.  The
      messages printed (193) are not modelled. *)
  Fixpoint m_loop (fuel : nat) (x : estate) (n : nat) : option (estate * nat * verdict * list observed) :=
    match fuel with
    | 0 => None
    | S k =>
        let '(st1, v) := need_to_iterate it (es_rels x) n in
        let x1 := mkEst st1 (es_store x) (es_log x) in
        match v with
        | Continue =>
            match m_loop k (e_updates n x1) (S n) with
            | Some (y, n', v', tr) => Some (y, n', v', SawIteration n :: tr)
            | None => None
            end
        | _ => Some (x1, n, v, saw v)
        end
    end.
End Run.
Arguments mkEst {P}.
