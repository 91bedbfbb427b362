(** Model of /repo/core/src/runtime/utils/gallop.rs and of
    /repo/core/src/runtime/dynamic/collections/sorted.rs. *)
From Coq Require Import List Arith Bool.
From Verif Require Import Order Value Prov ListAux.
Import ListNotations.
Set Implicit Arguments.

(** gallop.rs 28-31, the doubling loop: [while begin+step < len && cmp(s[begin+step])].
    Fuel bounds the number of rounds; every round advances [begin]. *)
Fixpoint gallop_up {A} (fuel : nat) (cmp : A -> bool) (s : list A) (b step : nat) : nat * nat :=
  match fuel with
  | 0 => (b, step)
  | S f => match nth_error s (b + step) with
           | Some x => if cmp x then gallop_up f cmp s (b + step) (2 * step) else (b, step)
           | None => (b, step)
           end
  end.

(** gallop.rs 33-39, the halving loop (entered after [step >>= 1]). *)
Fixpoint gallop_down {A} (fuel : nat) (cmp : A -> bool) (s : list A) (b step : nat) : nat :=
  match fuel with
  | 0 => b
  | S f =>
      if step =? 0 then b else
      let b' := match nth_error s (b + step) with
                | Some x => if cmp x then b + step else b
                | None => b
                end in
      gallop_down f cmp s b' (Nat.div2 step)
  end.

(** The two loops shared by gallop.rs 27-39 and dynamic_relation.rs 163-174. *)
Definition gallop_core {A} (cmp : A -> bool) (s : list A) (b : nat) : nat :=
  let '(b1, step) := gallop_up (length s) cmp s b 1 in
  gallop_down step cmp s b1 (Nat.div2 step).

(** gallop.rs 24-45 [gallop_index]. Note the test of [slice[0]], not [slice[begin]]. *)
Definition gallop_index {A} (s : list A) (b : nat) (cmp : A -> bool) : nat :=
  match s with
  | x :: _ => if cmp x then S (gallop_core cmp s b) else b
  | [] => b
  end.

(** dynamic/dataflow/dynamic_relation.rs 155-180 [search_ahead_variable_helper]:
    [Some elem_id'] for [true] with the updated position, [None] for [false].
    The assertion [elem_id > 0] is the caller's obligation. *)
Definition search_ahead {A} (s : list A) (elem_id : nat) (cmp : A -> bool) : option nat :=
  let curr := elem_id - 1 in
  match nth_error s curr with
  | Some x => if cmp x then Some (S (gallop_core cmp s curr)) else None
  | None => None
  end.

Section Col.
  Variable P : Prov.
  Notation elem := (elem P).

  (** Stable sort ([Vec::sort]) on elements compared by tuple. *)
  Fixpoint sinsert (e : elem) (l : list elem) : list elem :=
    match l with
    | [] => [e]
    | x :: r => match tcmp (fst e) (fst x) with Gt => x :: sinsert e r | _ => e :: l end
    end.
  Fixpoint ssort (l : list elem) : list elem :=
    match l with [] => [] | e :: r => sinsert e (ssort r) end.

  (** sorted.rs 69-81: the deduplication loop on the sorted vector [els] with
      its [index], [last_index] and [to_keep]. *)
  Fixpoint dedup_loop (fuel : nat) (els : list elem) (index last_index to_keep : nat)
    : list elem * nat :=
    match fuel with
    | 0 => (els, to_keep)
    | S f =>
        match nth_error els index, nth_error els last_index with
        | Some e, Some l =>
            if teqb (fst e) (fst l) then
              dedup_loop f (lset last_index (fst l, padd P (snd l) (snd e)) els)
                         (S index) last_index to_keep
            else
              let els' := if to_keep <? index then lswap to_keep index els else els in
              dedup_loop f els' (S index) to_keep (S to_keep)
        | _, _ => (els, to_keep)
        end
    end.

  (** sorted.rs 60-86 [from_vec]. *)
  Definition from_vec (v : list elem) : list elem :=
    let els := ssort v in
    if 1 <? length els then
      let '(els', keep) := dedup_loop (length els) els 1 0 1 in firstn keep els'
    else els.

  (** sorted.rs 116-154 [retain], the loop over [i] with [num_to_keep] and
      [maybe_last_empty_id]. *)
  Fixpoint retain_loop (fuel : nat) (f : nat -> elem -> bool) (els : list elem)
           (i keep : nat) (empty : option nat) : list elem * nat :=
    match fuel with
    | 0 => (els, keep)
    | S fl =>
        match nth_error els i with
        | None => (els, keep)
        | Some e =>
            if f i e then
              match empty with
              | Some k => retain_loop fl f (lswap i k els) (S i) (S keep) (Some (S k))
              | None => retain_loop fl f els (S i) (S keep) None
              end
            else retain_loop fl f els (S i) keep (match empty with Some k => Some k | None => Some i end)
        end
    end.
  Definition retain (f : nat -> elem -> bool) (els : list elem) : list elem :=
    let '(els', keep) := retain_loop (length els) f els 0 0 None in firstn keep els'.

  (** sorted.rs 184-199 [insert]. *)
  Definition col_insert (e : elem) (l : list elem) : list elem :=
    let i := gallop_index l 0 (fun x => tltb (fst x) (fst e)) in
    match nth_error l i with
    | Some n => if teqb (fst n) (fst e) then lset i (fst n, padd P (snd e) (snd n)) l
                else linsert i e l
    | None => l ++ [e]
    end.

  (** sorted.rs 203-206 [insert_unchecked]. *)
  Definition col_insert_unchecked (e : elem) (l : list elem) : list elem :=
    linsert (gallop_index l 0 (fun x => tltb (fst x) (fst e))) e l.

  (** sorted.rs 247-262: the main merge loop, [l1] the rest of [elements1], [l2]
      the rest of [elements2]. *)
  Fixpoint merge_loop (l1 l2 : list elem) {struct l1} : list elem :=
    match l1 with
    | [] => l2
    | e :: r1 =>
        (fix take (l2 : list elem) : list elem :=
           match l2 with
           | [] => e :: merge_loop r1 []
           | x :: r2 =>
               match tcmp (fst x) (fst e) with
               | Lt => x :: take r2
               | Eq => (fst e, padd P (snd e) (snd x)) :: merge_loop r1 r2
               | Gt => e :: merge_loop r1 l2
               end
           end) l2
    end.

  (** sorted.rs 227-264, after the emptiness tests, with [l1] starting lower. *)
  Definition merge_ordered (x : elem) (r1 : list elem) (y : elem) (r2 : list elem) : list elem :=
    if tltb (fst (last (x :: r1) x)) (fst y) then (x :: r1) ++ (y :: r2)
    else if teqb (fst x) (fst y)
         then (fst x, padd P (snd x) (snd y)) :: merge_loop r1 r2
         else x :: merge_loop r1 (y :: r2).

  (** sorted.rs 208-265 [merge]. *)
  Definition merge (a b : list elem) : list elem :=
    match a, b with
    | [], _ => b
    | _, [] => a
    | x :: r1, y :: r2 =>
        match tcmp (fst x) (fst y) with
        | Gt => merge_ordered y r2 x r1
        | _ => merge_ordered x r1 y r2
        end
    end.
End Col.
