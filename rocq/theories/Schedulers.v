(** Model of /repo/core/src/runtime/env/scheduling.rs and
    /repo/core/src/runtime/env/schedulers/{utils,lfp,dfs,astar,beam}.rs. *)
From Coq Require Import List Arith Bool.
From Verif Require Import Order Value Prov ListAux SortedCol.
Import ListNotations.
Set Implicit Arguments.

(** scheduling.rs 44-59 [enum Scheduler]. *)
Inductive scheduler := LFP | DFS | AStar | Beam (size : nat).

Section Sched.
  Variable P : Prov.
  Notation elem := (elem P).

  (** lfp.rs 23 and 28-30: the next position in [to_add] to look at, for the
      stable tuple [t].  [gal] selects the galloping variant. *)
  Definition next_index (gal : bool) (ta : list elem) (index : nat) (t : tuple) : nat :=
    if gal then gallop_index ta index (fun y => tltb (fst y) t)
    else index + prefix_len (fun y : elem => tltb (fst y) t) (skipn index ta).

  (** lfp.rs 18-33 with utils.rs 6-58: [retain_mut] over one stable batch,
      threading [index], [to_add] and [to_remove_to_add_indices]. *)
  Fixpoint p1_batch (gal : bool) (batch : list elem) (index : nat) (ta : list elem) (rm : list nat)
    : list elem * list elem * list nat :=
    match batch with
    | [] => ([], ta, rm)
    | s :: r =>
        let i := next_index gal ta index (fst s) in
        match nth_error ta i with
        | None => let '(b', ta', rm') := p1_batch gal r i ta rm in (s :: b', ta', rm')
        | Some x =>
            if teqb (fst x) (fst s) then
              let n := padd P (snd s) (snd x) in
              if psat P (snd s) n then
                let '(b', ta', rm') := p1_batch gal r i ta (i :: rm) in ((fst s, n) :: b', ta', rm')
              else p1_batch gal r i (lset i (fst x, n) ta) rm
            else let '(b', ta', rm') := p1_batch gal r i ta rm in (s :: b', ta', rm')
        end
    end.

  (** lfp.rs 17-34: all stable batches in order; the galloping variant is chosen
      when [to_add.len() > 4 * stable_batch.len()]. *)
  Fixpoint p1_batches (stable : list (list elem)) (ta : list elem) (rm : list nat)
    : list (list elem) * list elem * list nat :=
    match stable with
    | [] => ([], ta, rm)
    | b :: r =>
        let '(b', ta1, rm1) := p1_batch (4 * length b <? length ta) b 0 ta rm in
        let '(r', ta2, rm2) := p1_batches r ta1 rm1 in
        (b' :: r', ta2, rm2)
    end.

  (** lfp.rs 15-38, identical in dfs.rs 16-39, astar.rs 18-41, beam.rs 19-42:
      returns the new stable batches and the pending elements kept. *)
  Definition phase1 (ta : list elem) (stable : list (list elem)) : list (list elem) * list elem :=
    match ta with
    | [] => (stable, [])
    | _ :: _ =>
        let '(st', ta', rm) := p1_batches stable ta [] in
        (st', retain (fun i _ => negb (existsb (Nat.eqb i) rm)) ta')
    end.

  (** Looking a waiting element up in the stable batches (dfs.rs 60-88,
      astar.rs 64-92). *)
  Inductive probe_res :=
  | PNot                                         (* in no batch *)
  | PSat (stable : list (list elem))             (* found, saturated *)
  | PUnsat (e : elem) (stable : list (list elem)) (* found, to be rescheduled *).

  Fixpoint probe (w : elem) (stable : list (list elem)) : probe_res :=
    match stable with
    | [] => PNot
    | b :: r =>
        let i := gallop_index b 0 (fun y => tltb (fst y) (fst w)) in
        let skip := match probe w r with
                    | PNot => PNot
                    | PSat r' => PSat (b :: r')
                    | PUnsat e r' => PUnsat e (b :: r')
                    end in
        match nth_error b i with
        | None => skip
        | Some s =>
            if teqb (fst s) (fst w) then
              let n := padd P (snd s) (snd w) in
              if psat P (snd s) n then PSat (lset i (fst s, n) b :: r)
              else PUnsat (fst w, n) (retain (fun id _ => negb (id =? i)) b :: r)
            else skip
        end
    end.

  (** dfs.rs 58-89, astar.rs 62-93: [while let Some(w) = waitlist.pop()].  [rw] is
      the waiting list in reverse order.  Result: [to_add], remaining reversed
      waiting list, stable batches. *)
  Fixpoint wait_loop (rw : list elem) (stable : list (list elem))
    : list elem * list elem * list (list elem) :=
    match rw with
    | [] => ([], [], stable)
    | w :: r =>
        match probe w stable with
        | PNot => (col_insert_unchecked w [], r, stable)
        | PSat st' => wait_loop r st'
        | PUnsat e st' => (col_insert_unchecked e [], r, st')
        end
    end.

  (** Result of scheduling: (to_add, waitlist, stable). *)
  Definition sched_res := (list elem * list elem * list (list elem))%type.

  (** lfp.rs 9-39 [schedule_lfp]. *)
  Definition schedule_lfp (ta wl : list elem) (stable : list (list elem)) : sched_res :=
    let '(st, ta') := phase1 ta stable in (ta', wl, st).

  (** dfs.rs 9-91 [schedule_dfs]. *)
  Definition schedule_dfs (ta wl : list elem) (stable : list (list elem)) : sched_res :=
    let '(st, ta') := phase1 ta stable in
    match ta' with
    | f :: rest => (col_insert_unchecked f [], wl ++ rest, st)
    | [] => let '(ta2, rw, st2) := wait_loop (rev wl) st in (ta2, rev rw, st2)
    end.

  (** astar.rs 44-59: insertion of one element into the waiting list. *)
  Definition astar_insert (wl : list elem) (e : elem) : list elem :=
    let i := gallop_index wl 0 (fun x => pwlt P (snd x) (snd e)) in
    match nth_error wl i with
    | Some x => if teqb (fst x) (fst e) then lset i (fst x, padd P (snd x) (snd e)) wl
                else linsert i e wl
    | None => wl ++ [e]
    end.

  (** astar.rs 11-94 [schedule_a_star]. *)
  Definition schedule_astar (ta wl : list elem) (stable : list (list elem)) : sched_res :=
    let '(st, ta') := phase1 ta stable in
    let '(ta2, rw, st2) := wait_loop (rev (fold_left astar_insert ta' wl)) st in
    (ta2, rev rw, st2).

  (** beam.rs 46-53: insertion of one element into [sorted_delta]. *)
  Definition beam_insert (sd : list elem) (e : elem) : list elem :=
    linsert (gallop_index sd 0 (fun x => pwlt P (snd x) (snd e))) e sd.

  (** beam.rs 58-60: [beam_size] times [to_add.insert_unchecked(sorted_delta.pop())];
      [rsd] is [sorted_delta] reversed.  (The [unwrap] cannot fail: the guard on
      line 56 ensures enough elements.) *)
  Fixpoint beam_take (k : nat) (rsd to_add : list elem) : list elem * list elem :=
    match k, rsd with
    | S k', e :: r => beam_take k' r (col_insert_unchecked e to_add)
    | _, _ => (to_add, rsd)
    end.

  (** beam.rs 73-75: [while to_add.len() < beam_size && !waitlist.is_empty()];
      [rw] is the waiting list reversed. *)
  Fixpoint beam_fill (k : nat) (rw to_add : list elem) : list elem * list elem :=
    match rw with
    | e :: r => if length to_add <? k then beam_fill k r (col_insert e to_add) else (to_add, rw)
    | [] => (to_add, [])
    end.

  (** beam.rs 11-77 [schedule_beam]. *)
  Definition schedule_beam (k : nat) (ta wl : list elem) (stable : list (list elem)) : sched_res :=
    let '(st, ta') := phase1 ta stable in
    let sd := fold_left beam_insert ta' [] in
    if k <=? length sd then
      let '(ta2, rsd) := beam_take k (rev sd) [] in (ta2, wl ++ rev rsd, st)
    else
      let ta2 := fold_left (fun acc e => col_insert_unchecked e acc) sd [] in
      let '(ta3, rw) := beam_fill k (rev wl) ta2 in (ta3, rev rw, st).

  (** scheduling.rs 86-99 [Scheduler::schedule]. *)
  Definition schedule (s : scheduler) (ta wl : list elem) (stable : list (list elem)) : sched_res :=
    match s with
    | LFP => schedule_lfp ta wl stable
    | DFS => schedule_dfs ta wl stable
    | AStar => schedule_astar ta wl stable
    | Beam k => schedule_beam k ta wl stable
    end.
End Sched.
