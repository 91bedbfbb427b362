(** Model of /repo/core/src/runtime/dynamic/iteration.rs (evaluation of one
    stratum) and /repo/core/src/runtime/env/stopping_criteria.rs. *)
From Coq Require Import List Arith Bool.
From Verif Require Import Order Value Prov ListAux SortedCol Schedulers Relation Dataflow.
Import ListNotations.
Set Implicit Arguments.

(** iteration.rs 12-20 [struct DynamicIteration] and the parts of the runtime
    environment it consults.  [i_sched] is the scheduler of each relation
    (iteration.rs 274-278); [i_limit], [i_goalstop] are
    stopping_criteria.rs 41-49 and 58-66; [i_rels] are the keys of
    [dynamic_relations].  Dynamically created entities
    ([drain_dynamic_entities]) are not modelled. *)
Record iteration (P : Prov) := mkIter {
  i_rels : list nat;
  i_cols : nat -> option (list (elem P));
  i_updates : list (nat * dflow P);
  i_sched : nat -> scheduler;
  i_outputs : list nat;
  i_goals : list nat;
  i_early : bool;
  i_limit : option nat;
  i_goalstop : bool
}.

(** Why the loop stops (or not). *)
Inductive verdict := Continue | StopQuiet | StopLimit | StopGoal.

Section Iter.
  Variable P : Prov.
  Variable it : iteration P.
  Notation elem := (elem P).
  (** The relations, by name. *)
  Definition state := nat -> relation P.

  (** iteration.rs 270-286 [changed]: every dynamic relation is updated, no short
      cut.  The map's iteration order is irrelevant because relations are
      independent. *)
  Definition changed_all (st : state) : state * bool :=
    (fun r => if existsb (Nat.eqb r) (i_rels it) then fst (changed (i_sched it r) (st r)) else st r,
     existsb (fun r => snd (changed (i_sched it r) (st r))) (i_rels it)).

  (** iteration.rs 259-268 [derived_non_empty_goal_relation]. *)
  Definition goals_reached (st : state) : bool :=
    match i_goals it with
    | [] => false
    | gs => forallb (fun r => match recent (st r) with [] => false | _ => true end) gs
    end.

  (** iteration.rs 143-175 [need_to_iterate]. *)
  Definition need_to_iterate (st : state) (n : nat) : state * verdict :=
    let '(st1, ch) := changed_all st in
    if ch || (n =? 0) then
      let over := match i_limit it with Some k => k <? n | None => false end in
      if over then (fst (changed_all st1), StopLimit)
      else if i_goalstop it && goals_reached st1 then (fst (changed_all st1), StopGoal)
      else (st1, Continue)
    else
      match i_limit it with
      | Some k => if n <? k then (st1, Continue) else (st1, StopQuiet)
      | None => (st1, StopQuiet)
      end.

  Definition env_of (n : nat) (st : state) : denv P := mkEnv (n =? 0) (i_cols it) st.

  Definition upd (st : state) (r : nat) (v : relation P) : state :=
    fun x => if x =? r then v else st x.

  (** iteration.rs 102-107: the updates of one iteration. *)
  Definition do_update (n : nat) (st : state) (u : nat * dflow P) : state :=
    let '(tgt, d) := u in
    upd st tgt (insert_batches (i_early it) (map snd (iter_recent (env_of n st) d)) (st tgt)).
  Definition do_updates (n : nat) (st : state) : state := fold_left (do_update n) (i_updates it) st.

  (** iteration.rs 98-114, the loop; [None] when fuel runs out.  Returns the final
      relations, the number of executed iterations, and why it stopped. *)
  Fixpoint loop (fuel : nat) (st : state) (n : nat) : option (state * nat * verdict) :=
    match fuel with
    | 0 => None
    | S f =>
        let '(st1, v) := need_to_iterate st n in
        match v with
        | Continue => loop f (do_updates n st1) (S n)
        | _ => Some (st1, n, v)
        end
    end.

  (** dynamic/incremental.rs 287-296, with [create_dynamic_relation]
      (iteration.rs 48-52): the initial relations.  The extensional facts of a
      relation are inserted through a dataflow, so early discarding applies.
      There is one batch in Rust; any number is allowed here. *)
  Definition init_state (facts : nat -> list (list elem)) : state :=
    fun r => if existsb (Nat.eqb r) (i_rels it) then insert_batches (i_early it) (facts r) (@rel_new P)
             else @rel_new P.

  (** iteration.rs 116-122: one output collection; [None] when [complete] panics.
      ([metadata.from_vec] for the default storage re-sorts a sorted list.) *)
  Definition output (st : state) (r : nat) : option (list elem) := complete (st r).
End Iter.
