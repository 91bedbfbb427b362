(** Model of further aggregators: /repo/core/src/common/foreign_aggregates/{sort,rank,
    enumerate,top_k,sampler,uniform,categorical,string_join,avg,weighted_sum_avg,disjunct}.rs.
    Simplifications: weights are rational numbers; [sort_by] is insertion sort (both are
    stable); the binary heap is a list with a function that finds a least element; random
    numbers are parameters. *)
From Coq Require Import List Arith Bool ZArith QArith Qcanon String.
From Coq Require Import List.
From Verif Require Import Order Value Prov SortedCol Dataflow Aggregate.
Import ListNotations.
Local Open Scope nat_scope.
Set Implicit Arguments.

(** tuple.rs 38-43 [to_values]. *)
Fixpoint to_values (t : tuple) : list tuple :=
  match t with TVal _ => [t] | TTup l => flat_map to_values l end.

(** Stable sorting. *)
Section Sort.
  Variables (A : Type) (cmp : A -> A -> comparison).
  Fixpoint sinsert (x : A) (l : list A) : list A :=
    match l with [] => [x] | y :: r => match cmp x y with Gt => y :: sinsert x r | _ => x :: l end end.
  Fixpoint ssort (l : list A) : list A := match l with [] => [] | x :: r => sinsert x (ssort r) end.
End Sort.

(** sort.rs 106-112 [compare]; tuples of different shapes are [unreachable!]. *)
Definition sort_cmp (num_args : nat) (a b : tuple) : comparison :=
  match a, b with
  | TVal _, TVal _ => tcmp a b
  | TTup l, TTup m => scmp (skipn num_args l) (skipn num_args m)
  | _, _ => Eq
  end.

Section More.
  Variable P : Prov.
  Notation elem := (elem P).

  (** The number of an element before its values: sort.rs 130-144, rank.rs 89-96,
      enumerate.rs 54-63. *)
  Definition numbered (values : tuple -> list tuple) (l : list elem) : list elem :=
    map (fun ie => (TTup (usize (fst ie) :: values (fst (snd ie))), snd (snd ie))) (enum l).
  (** sort.rs 116-146. *)
  Definition sort_agg (argsort asc : bool) (num_args : nat) (batch : list elem) : list elem :=
    numbered (fun t => if argsort then firstn num_args (to_values t) else to_values t)
      (ssort (fun a b => if asc then sort_cmp num_args (fst a) (fst b) else sort_cmp num_args (fst b) (fst a)) batch).
  Variable weight : ptag P -> Qc.
  (** rank.rs 66-97. *)
  Definition rank_agg (asc : bool) (batch : list elem) : list elem :=
    numbered to_values
      (ssort (fun a b => if asc then (weight (snd a) ?= weight (snd b))%Qc else (- weight (snd a) ?= - weight (snd b))%Qc) batch).
  (** enumerate.rs 54-63. *)
  Definition enumerate_agg (batch : list elem) : list elem := numbered to_values batch.

  (** sampler.rs 106-124: the elements with the sampled numbers. *)
  Definition sampled (ids : list nat) (batch : list elem) : list elem :=
    flat_map (fun i => match nth_error batch i with Some e => [e] | None => [] end) ids.
  (** weighted_sum_avg.rs 162-189, avg.rs 96-113, string_join.rs 140-159: for all sets of elements, the result
      for the set and the tag that exactly these hold.  [None]: some result panics. *)
  Definition worlds_agg (f : list elem -> option tuple) (batch : list elem) : option (list elem) :=
    option_map (@concat _)
      (opt_all (map (fun chosen =>
        match f (sampled chosen batch) with
        | None => None
        | Some r => Some (match choose_tag batch chosen with Some t => [(r, t)] | None => [] end)
        end) (powerset (seq 0 (length batch))))).
End More.

(** ** top-k *)
(** top_k.rs 85-141 [aggregate_top_k_helper]; [least] is [BinaryHeap::peek], the order
    of [Element] being that of the weights, reversed; the result is the heap in some
    order. *)
Section TopK.
  Variable least : list (nat * Qc) -> nat * Qc.
  Definition without (i : nat) (h : list (nat * Qc)) : list (nat * Qc) := filter (fun e => negb (Nat.eqb (fst e) i)) h.
  Definition top_step (h : list (nat * Qc)) (e : nat * Qc) : list (nat * Qc) :=
    let m := least h in
    match (snd m ?= snd e)%Qc with Lt => e :: without (fst m) h | _ => h end.
  Definition top_k (k : nat) (ws : list Qc) : list nat :=
    let es := enum ws in
    let h := firstn (Nat.min k (length ws)) es in
    map fst (match h with [] => [] | _ => fold_left top_step (skipn (Nat.min k (length ws)) es) h end).
End TopK.
Definition top_agg (P : Prov) (weight : ptag P -> Qc) (least : list (nat * Qc) -> nat * Qc) (k : nat) (batch : list (elem P)) : list (elem P) :=
  sampled (top_k least k (map (fun e => weight (snd e)) batch)) batch.
(** uniform.rs 56-66, categorical.rs 58-70: [draw i] is the [i]-th number drawn; the order of
    the hash set is not fixed. *)
Definition draw_k (draw : nat -> nat) (k len : nat) : list nat :=
  if Nat.leb len k then seq 0 len else nodup Nat.eq_dec (map draw (seq 0 k)).

(** ** string_join *)
(** [as_string] (a panic on other values). *)
Definition text_of (num_args : nat) (t : tuple) : option string :=
  match operand num_args t with Some (TVal (VString s)) => Some s | _ => None end.
(** string_join.rs 74-81 [perform_string_join]. *)
Definition join_tuples (num_args : nat) (sep : string) (l : list tuple) : option tuple :=
  option_map (fun ss => TVal (VString (String.concat sep ss))) (opt_all (map (text_of num_args) l)).
Section Join.
  Variable P : Prov.
  Notation elem := (elem P).
  (** 94-138 [aggregate_all_arg_multi_world]: runs of elements with the same arguments. *)
  Fixpoint runs (num_args : nat) (l : list elem) : list (list elem) :=
    match l with
    | [] => []
    | e :: r =>
        match runs num_args r with
        | (x :: g) :: gs =>
            match scmp (tupto num_args (fst e)) (tupto num_args (fst x)) with
            | Eq => (e :: x :: g) :: gs
            | _ => [e] :: (x :: g) :: gs
            end
        | gs => [e] :: gs
        end
    end.
  (** One element of each run (utils/cartesian.rs). *)
  Fixpoint choices (A : Type) (l : list (list A)) : list (list A) :=
    match l with [] => [[]] | g :: r => flat_map (fun x => map (cons x) (choices r)) g end.
  Definition all_tag (l : list elem) : ptag P := fold_left (fun acc e => pmult P acc (snd e)) l (pone P).
  (** 162-176 [aggregate]. *)
  Definition string_join_agg (nmw all : bool) (num_args : nat) (sep : string) (batch : list elem) : option (list elem) :=
    let f (l : list elem) := join_tuples num_args sep (map fst l) in
    if nmw then option_map (fun r => [(r, pone P)]) (f batch)
    else if all then
      match num_args with
      | 0 => option_map (fun r => [(r, all_tag batch)]) (f batch)
      | _ => opt_all (map (fun l => option_map (fun r => (r, all_tag l)) (f l)) (choices (runs num_args batch)))
      end
    else worlds_agg f batch.
End Join.

(** ** avg *)
(** value_type.rs 306-372 [avg], for integers; [None] is a panic: an overflow of the sum or
    of the number, or a division by zero. *)
Definition avg_step (ty : ity) (acc : option (Z * Z)) (t : tuple) : option (Z * Z) :=
  match acc, as_int ty t with
  | Some (a, n), Some z => if in_range ty (a + z) && in_range ty (n + 1) then Some (a + z, n + 1)%Z else None
  | _, _ => None
  end.
Definition avg_of (ty : ity) (num_args : nat) (l : list tuple) : option tuple :=
  match fold_left (fun acc t => match operand num_args t with Some v => avg_step ty acc v | None => None end) l (Some (0, 0)%Z) with
  | Some (a, n) => if Z.eqb n 0 then None else Some (of_int ty (Z.quot a n))
  | None => None
  end.
(** avg.rs 91-115. *)
Definition avg_agg (P : Prov) (ty : ity) (num_args : nat) (nmw : bool) (batch : list (elem P)) : option (list (elem P)) :=
  if nmw then option_map (fun r => [(r, pone P)]) (avg_of ty num_args (map fst batch))
  else worlds_agg (fun l => avg_of ty num_args (map fst l)) batch.

(** ** disjunct *)
(** disjunct.rs 57-105: the elements with the numbers of their exclusions, and the next
    number; the new tag is the product of the old one and the tag of the exclusion. *)
Fixpoint disjunct_loop (P : Prov) (num_args : nat) (curr : list tuple) (id : nat) (l : list (elem P)) : list (elem P * nat) * nat :=
  match l with
  | [] => ([], S id)
  | e :: r =>
      let args := tupto num_args (fst e) in
      match scmp args curr with
      | Eq => let '(out, n) := disjunct_loop num_args curr id r in ((e, id) :: out, n)
      | _ => let '(out, n) := disjunct_loop num_args args (S id) r in ((e, S id) :: out, n)
      end
  end.
Definition disjunct_agg (P : Prov) (num_args next : nat) (batch : list (elem P)) : list (elem P * nat) * nat :=
  match batch with
  | [] => ([], next)
  | e :: _ =>
      match num_args with
      | 0 => (map (fun e => (e, next)) batch, S next)
      | _ => disjunct_loop num_args (tupto num_args (fst e)) next batch
      end
  end.
