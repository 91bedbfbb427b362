(** Models of the small utilities of /repo/core/src/utils and
    /repo/core/src/common. *)
From Coq Require Import List Arith Bool String NArith.
From Verif Require Import ListAux.
Import ListNotations.
Set Implicit Arguments.

(** ** common/symbol_registry.rs *)

(** [SymbolRegistry] (4-7): [symbol_to_id_map] is an association list searched
    from the most recent insertion, [id_to_symbol_map] a list. *)
Record registry := mkReg { sym_to_id : list (string * nat); id_to_sym : list string }.
Definition reg_new : registry := mkReg [] [].
Fixpoint sfind (m : list (string * nat)) (s : string) : option nat :=
  match m with
  | [] => None
  | (k, v) :: r => if String.eqb k s then Some v else sfind r s
  end.
(** 24-33 *)
Definition register (r : registry) (s : string) : registry * nat :=
  match sfind (sym_to_id r) s with
  | Some id => (r, id)
  | None => let id := List.length (id_to_sym r) in
            (mkReg ((s, id) :: sym_to_id r) (id_to_sym r ++ [s]), id)
  end.
(** 36-43 *)
Definition get_id (r : registry) (s : string) : option nat := sfind (sym_to_id r) s.
Definition get_symbol (r : registry) (i : nat) : option string := nth_error (id_to_sym r) i.

(** A history of registrations with the returned ids ([SymbolRegistry2] of
    runtime/env/symbol_registry.rs puts a mutex around each call, so any
    concurrent execution is one of these sequences). *)
Fixpoint register_all (r : registry) (l : list string) : registry * list nat :=
  match l with
  | [] => (r, [])
  | s :: l' => let (r1, i) := register r s in
               let (r2, is) := register_all r1 l' in (r2, i :: is)
  end.

(** ** utils/id_allocator.rs *)

(** [IdAllocator::alloc] (19-23).  [w] is the number of values of [usize]:
    without overflow checks [+= 1] wraps; with them the last one panics. *)
Definition alloc (w : N) (id : N) : N * N := (((id + 1) mod w)%N, id).
Fixpoint alloc_n (w : N) (n : nat) (id : N) : N * list N :=
  match n with
  | O => (id, [])
  | S m => let (id1, r) := alloc w id in
           let (id2, rs) := alloc_n w m id1 in (id2, r :: rs)
  end.

(** ** utils/cartesian.rs *)

(** The [while let] loop of [next] (32-48): from position [k], returns the new
    indices and [has_curr].  [None]: out of fuel or out of bounds. *)
Fixpoint cart_bump (fuel k : nat) (total idx : list nat) : option (list nat * bool) :=
  match fuel with
  | O => None
  | S f =>
      if List.length idx <=? k then Some (idx, false)
      else match nth_error idx k, nth_error total k with
           | Some c, Some t =>
               if c + 1 <? t then Some (lset k (c + 1) idx, true)
               else cart_bump f (k + 1) total (lset k 0 idx)
           | _, _ => None
           end
  end.
(** [collect] of the iterator (27-55). *)
Fixpoint cart_iter (fuel : nat) (total idx : list nat) (has_curr : bool) : option (list (list nat)) :=
  if has_curr then
    match fuel with
    | O => None
    | S f => match cart_bump (S (List.length idx)) 0 total idx with
             | None => None
             | Some (idx', h) => match cart_iter f total idx' h with
                                 | None => None
                                 | Some l => Some (idx :: l)
                                 end
             end
    end
  else Some [].
(** [cartesian] (1, 9-18, 58). *)
Definition cartesian (fuel : nat) (sizes : list nat) : option (list (list nat)) :=
  cart_iter fuel sizes (repeat 0 (List.length sizes)) (forallb (fun s => 0 <? s) sizes).

(** ** utils/indexed_retain.rs *)
Section Retain.
  Variables (T S : Type).
  (** [FnMut(usize, &T) -> bool]: a predicate with private state. *)
  Variable f : S -> nat -> T -> S * bool.

  (** [slice::swap]; [None] is an out of bounds panic. *)
  Definition swap (v : list T) (a b : nat) : option (list T) :=
    if (a <? List.length v) && (b <? List.length v) then Some (lswap a b v) else None.
  (** the [for i in 0..len] loop (16-23); [n] iterations remain. *)
  Fixpoint retain_loop (n i del : nat) (v : list T) (s : S) : option (list T * nat * S) :=
    match n with
    | O => Some (v, del, s)
    | Datatypes.S n' =>
        match nth_error v i with
        | None => None
        | Some x =>
            let (s', keep) := f s i x in
            if negb keep then retain_loop n' (i + 1) (del + 1) v s'
            else if 0 <? del
                 then match swap v (i - del) i with
                      | Some v' => retain_loop n' (i + 1) del v' s'
                      | None => None
                      end
                 else retain_loop n' (i + 1) del v s'
        end
    end.
  (** [retain_with_index] (8-28). *)
  Definition retain_with_index (v : list T) (s : S) : option (list T * S) :=
    match retain_loop (List.length v) 0 0 v s with
    | None => None
    | Some (v', del, s') =>
        Some (if 0 <? del then firstn (List.length v - del) v' else v', s')
    end.
End Retain.
