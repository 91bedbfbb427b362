(** Model of /repo/core/src/runtime/dynamic/relation.rs. *)
From Coq Require Import List Arith Bool.
From Verif Require Import Order Value Prov ListAux SortedCol Schedulers.
Import ListNotations.
Set Implicit Arguments.

(** relation.rs 12-26 [struct DynamicRelation]; the [Rc<RefCell>] wrappers are
    dropped, the state is threaded instead. *)
Record relation (P : Prov) := mkRel {
  stable : list (list (elem P));
  recent : list (elem P);
  to_add : list (list (elem P));
  waitlist : list (elem P)
}.
Arguments mkRel {P}.

Section Rel.
  Variable P : Prov.
  Notation elem := (elem P).
  Notation relation := (relation P).

  (** relation.rs 29-36 [new]. *)
  Definition rel_new : relation := mkRel [] [] [] [].

  (** relation.rs 104-117 [insert_tagged]; the tags are given ([tagging_optional_fn]
      already applied). *)
  Definition insert_tagged (data : list elem) (r : relation) : relation :=
    mkRel (stable r) (recent r) (to_add r ++ [from_vec data]) (waitlist r).

  (** relation.rs 158-165: merging the fresh batch into the established ones.
      [rst] is [stable] reversed; the result too. *)
  Fixpoint absorb (rst : list (list elem)) (rec : list elem) : list (list elem) :=
    match rst with
    | last :: r => if length last <=? 2 * length rec then absorb r (merge rec last) else rec :: rst
    | [] => [rec]
    end.

  (** relation.rs 168-176: condensing [to_add]; [rb] is [to_add] reversed. *)
  Fixpoint condense_loop (acc : list elem) (rb : list (list elem)) : list elem :=
    match rb with [] => acc | b :: r => condense_loop (merge acc b) r end.
  Definition condense (batches : list (list elem)) : list elem :=
    match rev batches with [] => [] | b :: r => condense_loop b r end.

  (** relation.rs 158-165, step 1 of [changed]. *)
  Definition promote (r : relation) : list (list elem) :=
    match recent r with
    | [] => stable r
    | _ :: _ => rev (absorb (rev (stable r)) (recent r))
    end.

  (** relation.rs 156-190 [changed]; new state and answer. *)
  Definition changed (s : scheduler) (r : relation) : relation * bool :=
    let '(ta, wl, st) := schedule s (condense (to_add r)) (waitlist r) (promote r) in
    (mkRel st ta [] wl, match ta with [] => false | _ => true end).

  (** relation.rs 199-204: the batch as inserted, with early discarding. *)
  Definition prep_batch (early : bool) (b : list elem) : list elem :=
    from_vec (if early then filter (fun e => negb (pdiscard P (snd e))) b else b).

  (** relation.rs 192-206 [insert_dataflow_recent], given the batches of the
      dataflow. *)
  Definition insert_batches (early : bool) (bs : list (list elem)) (r : relation) : relation :=
    mkRel (stable r) (recent r) (to_add r ++ map (prep_batch early) bs) (waitlist r).

  (** relation.rs 224-233 [complete]; [None] when an assertion fails.  The merge
      loop pops from the end. *)
  Fixpoint complete_loop (acc : list elem) (rb : list (list elem)) : list elem :=
    match rb with [] => acc | b :: r => complete_loop (merge acc b) r end.
  Definition complete (r : relation) : option (list elem) :=
    match recent r, to_add r with
    | [], [] => Some (complete_loop [] (rev (stable r)))
    | _, _ => None
    end.
End Rel.
