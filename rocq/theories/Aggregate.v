(** Model of the aggregators in /repo/core/src/common/foreign_aggregates
    (count, exists, min_max, sum_prod), of their specialised versions for some
    provenances, of the tuple iterators in /repo/core/src/common/tuples.rs and
    of the grouping dataflows in
    /repo/core/src/runtime/dynamic/dataflow/aggregation. *)
From Coq Require Import List Arith Bool ZArith QArith Qcanon.
From Verif Require Import Order Value Prov ProvInst SortedCol Dataflow.
Import ListNotations.
Local Open Scope nat_scope.
Set Implicit Arguments.

(** itertools [combinations(k)] and [powerset]: by size, then
    lexicographically by position *)
Fixpoint combos (A : Type) (k : nat) (l : list A) : list (list A) :=
  match k, l with
  | 0, _ => [[]]
  | S _, [] => []
  | S k', x :: r => map (cons x) (combos k' r) ++ combos k r
  end.
Definition powerset (A : Type) (l : list A) : list (list A) :=
  flat_map (fun k => combos k l) (seq 0 (S (length l))).
Definition enum (A : Type) (l : list A) : list (nat * A) := combine (seq 0 (length l)) l.
Definition mem_nat (i : nat) (l : list nat) : bool := existsb (Nat.eqb i) l.

(** [t[n..]] of a tuple.  The code panics on a plain value or a tuple that is
    too short, which typing excludes; here the result is empty. *)
Definition tfrom (n : nat) (t : tuple) : list tuple :=
  match t with TTup l => skipn n l | TVal _ => [] end.
(** [t[..n]] *)
Definition tupto (n : nat) (t : tuple) : list tuple :=
  match t with TTup l => firstn n l | TVal _ => [] end.
Definition scmp : list tuple -> list tuple -> comparison := lex tcmp.
Definition usize (n : nat) : tuple := TVal (USize (Z.of_nat n)).

Section Agg.
  Variable P : Prov.
  Notation elem := (elem P).
  Notation tag := (ptag P).

  (** the tag of "exactly the chosen elements are true": count.rs 71-79,
      sum_prod.rs 132-140 *)
  Definition choose_step (chosen : list nat) (acc : option tag) (ie : nat * elem) : option tag :=
    match acc with
    | None => None
    | Some a =>
        if mem_nat (fst ie) chosen then Some (pmult P a (snd (snd ie)))
        else option_map (pmult P a) (pneg P (snd (snd ie)))
    end.
  Definition choose_tag (batch : list elem) (chosen : list nat) : option tag :=
    fold_left (choose_step chosen) (enum batch) (Some (pone P)).

  (** count.rs 55-88; [nmw] is [non_multi_world] *)
  Definition count_agg (nmw : bool) (batch : list elem) : list elem :=
    if nmw then [(usize (length batch), pone P)]
    else
      match batch with
      | [] => [(usize 0, pone P)]
      | _ =>
          flat_map (fun chosen =>
            match choose_tag batch chosen with
            | Some t => [(usize (length chosen), t)]
            | None => []
            end) (powerset (seq 0 (length batch)))
      end.

  (** exists.rs 60-92 *)
  Definition exists_step (s : option tag * option tag) (e : elem) : option tag * option tag :=
    (match fst s with Some t => Some (padd P t (snd e)) | None => Some (snd e) end,
     match snd s with Some n => option_map (pmult P n) (pneg P (snd e)) | None => None end).
  Definition exists_agg (nmw : bool) (batch : list elem) : list elem :=
    if nmw then [(TVal (VBool (negb (match batch with [] => true | _ => false end))), pone P)]
    else
      let s := fold_left exists_step batch (None, Some (pone P)) in
      match fst s with Some t => [(TVal (VBool true), t)] | None => [] end ++
      match snd s with Some t => [(TVal (VBool false), t)] | None => [] end.

  (** ** min_max.rs *)

  (** tuples.rs 26-101: [minimum]/[maximum] compare whole tuples, the argument
      versions compare from [num_args] on *)
  Definition mkey (num_args : nat) (t : tuple) : list tuple :=
    match num_args with 0 => [t] | _ => tfrom num_args t end.
  Definition better (is_min : bool) (c : comparison) : bool :=
    match c with Lt => is_min | Gt => negb is_min | Eq => false end.
  Fixpoint extremum (is_min : bool) (num_args : nat) (best : option (list tuple)) (res : list tuple) (l : list tuple) : list tuple :=
    match l with
    | [] => res
    | v :: r =>
        match best with
        | None => extremum is_min num_args (Some (mkey num_args v)) (res ++ [v]) r
        | Some m =>
            match scmp (mkey num_args v) m with
            | Eq => extremum is_min num_args best (res ++ [v]) r
            | c => if better is_min c then extremum is_min num_args (Some (mkey num_args v)) [v] r
                   else extremum is_min num_args best res r
            end
        end
    end.

  (** [post_process_arg] (161-177) *)
  Definition post_arg (arg_only : bool) (num_args : nat) (t : tuple) : tuple :=
    if arg_only then
      match num_args, t with
      | 1, TTup (a :: _) => a
      | _, _ => TTup (tupto num_args t)
      end
    else t.
  (** [discrete_min_max] (179-199) *)
  Definition discrete_min_max (is_min arg_only : bool) (num_args : nat) (l : list tuple) : list elem :=
    map (fun t => (post_arg arg_only num_args t, pone P)) (extremum is_min num_args None [] l).

  (** [sort_by_key], stable (205) *)
  Fixpoint kinsert (num_args : nat) (e : elem) (l : list elem) : list elem :=
    match l with
    | [] => [e]
    | x :: r => match scmp (tfrom num_args (fst e)) (tfrom num_args (fst x)) with
                | Gt => x :: kinsert num_args e r
                | _ => e :: l
                end
    end.
  Fixpoint ksort (num_args : nat) (l : list elem) : list elem :=
    match l with [] => [] | e :: r => kinsert num_args e (ksort num_args r) end.

  (** the strata (213-225): [curr] is set once, at the first element *)
  Fixpoint strata_loop (num_args i : nat) (curr : option (list tuple)) (l : list elem) : list nat :=
    match l with
    | [] => []
    | e :: r =>
        match curr with
        | Some c => match scmp (tfrom num_args (fst e)) c with
                    | Gt => i :: strata_loop num_args (S i) curr r
                    | _ => strata_loop num_args (S i) curr r
                    end
        | None => strata_loop num_args (S i) (Some (tfrom num_args (fst e))) r
        end
    end.
  Definition strata (num_args : nat) (l : list elem) : list nat := 0 :: strata_loop num_args 0 None l.

  (** the conjunction of the negated tags of [l] (245-247) *)
  Definition false_tag (l : list elem) : option tag :=
    fold_left (fun acc e => match acc with Some a => option_map (pmult P a) (pneg P (snd e)) | None => None end) l (Some (pone P)).
  (** 233-254: the loop over the strata; [start :: rest] are the remaining starts *)
  Fixpoint strata_tags (is_min : bool) (l : list elem) (starts : list nat) : list elem :=
    match starts with
    | [] => []
    | s :: rest =>
        let e := match rest with [] => length l | e :: _ => e end in
        match false_tag (if is_min then firstn s l else skipn e l) with
        | Some f => map (fun x => (fst x, pmult P f (snd x))) (skipn s (firstn e l))
        | None => []
        end ++ strata_tags is_min l rest
    end.
  (** the loop without arguments (263-272) over the batch in the order of [i] *)
  Fixpoint minmax_loop (acc : tag) (l : list elem) : list elem :=
    match l with
    | [] => []
    | (x, t) :: r =>
        (x, pmult P acc t) :: minmax_loop (match pneg P t with Some n => pmult P acc n | None => acc end) r
    end.
  (** [multi_world_min_max] (201-281) *)
  Definition multi_min_max (is_min arg_only : bool) (num_args : nat) (batch : list elem) : list elem :=
    map (fun e => (post_arg arg_only num_args (fst e), snd e))
      (match num_args with
       | 0 => minmax_loop (pone P) (if is_min then batch else rev batch)
       | _ => let l := ksort num_args batch in strata_tags is_min l (strata num_args l)
       end).
  (** 285-293 *)
  Definition minmax_agg (is_min arg_only nmw : bool) (num_args : nat) (batch : list elem) : list elem :=
    if nmw then discrete_min_max is_min arg_only num_args (map fst batch)
    else multi_min_max is_min arg_only num_args batch.
End Agg.

(** ** sum and product *)

(** the integer value types; floats are not modelled here *)
Inductive ity := TI8 | TI16 | TI32 | TI64 | TI128 | TISize | TU8 | TU16 | TU32 | TU64 | TU128 | TUSize.
Definition bits (ty : ity) : Z :=
  match ty with
  | TI8 | TU8 => 8 | TI16 | TU16 => 16 | TI32 | TU32 => 32 | TI64 | TU64 | TISize | TUSize => 64
  | TI128 | TU128 => 128
  end%Z.
Definition signed (ty : ity) : bool :=
  match ty with TI8 | TI16 | TI32 | TI64 | TI128 | TISize => true | _ => false end.
Definition in_range (ty : ity) (z : Z) : bool :=
  if signed ty then (Z.leb (- 2 ^ (bits ty - 1)) z && Z.ltb z (2 ^ (bits ty - 1)))%Z
  else (Z.leb 0 z && Z.ltb z (2 ^ bits ty))%Z.
(** [as_i8] etc.: [None] is the panic on a value of another type *)
Definition as_int (ty : ity) (t : tuple) : option Z :=
  match ty, t with
  | TI8, TVal (I8 z) | TI16, TVal (I16 z) | TI32, TVal (I32 z) | TI64, TVal (I64 z)
  | TI128, TVal (I128 z) | TISize, TVal (ISize z)
  | TU8, TVal (U8 z) | TU16, TVal (U16 z) | TU32, TVal (U32 z) | TU64, TVal (U64 z)
  | TU128, TVal (U128 z) | TUSize, TVal (USize z) => Some z
  | _, _ => None
  end.
Definition of_int (ty : ity) (z : Z) : tuple :=
  TVal match ty with
       | TI8 => I8 z | TI16 => I16 z | TI32 => I32 z | TI64 => I64 z | TI128 => I128 z | TISize => ISize z
       | TU8 => U8 z | TU16 => U16 z | TU32 => U32 z | TU64 => U64 z | TU128 => U128 z | TUSize => USize z
       end.
(** value_type.rs 280-295 and 374-389.  An intermediate result out of range
    is a panic ([None]), as in builds with overflow checks; without them the
    code wraps around. *)
Definition arith_step (is_sum : bool) (ty : ity) (acc : option Z) (t : tuple) : option Z :=
  match acc, as_int ty t with
  | Some a, Some z =>
      let r := if is_sum then (a + z)%Z else (a * z)%Z in
      if in_range ty r then Some r else None
  | _, _ => None
  end.
(** sum_prod.rs 104-120 [perform_sum_prod]; [t[num_args]] panics when missing *)
Definition operand (num_args : nat) (t : tuple) : option tuple :=
  match num_args with 0 => Some t | _ => tnth t num_args end.
Definition sum_prod (is_sum : bool) (ty : ity) (num_args : nat) (l : list tuple) : option tuple :=
  option_map (of_int ty)
    (fold_left (fun acc t => match operand num_args t with Some v => arith_step is_sum ty acc v | None => None end)
       l (Some (if is_sum then 0 else 1)%Z)).

Section Sum.
  Variable P : Prov.
  Definition opt_all (A : Type) (l : list (option A)) : option (list A) :=
    fold_right (fun o acc => match o, acc with Some x, Some r => Some (x :: r) | _, _ => None end) (Some []) l.
  (** sum_prod.rs 123-148; [None] if some sum panics *)
  Definition sum_prod_agg (is_sum : bool) (ty : ity) (num_args : nat) (nmw : bool) (batch : list (elem P)) : option (list (elem P)) :=
    if nmw then option_map (fun r => [(r, pone P)]) (sum_prod is_sum ty num_args (map fst batch))
    else
      option_map (@concat _)
        (opt_all (map (fun chosen =>
          match sum_prod is_sum ty num_args
                  (flat_map (fun i => match nth_error batch i with Some e => [fst e] | None => [] end) chosen) with
          | None => None
          | Some r => Some (match choose_tag batch chosen with Some t => [(r, t)] | None => [] end)
          end) (powerset (seq 0 (length batch))))).
End Sum.

(** ** specialised versions *)

(** discrete/boolean.rs 61-109: only elements with tag [true] count *)
Definition btrue (batch : list (elem bool_prov)) : list tuple := map fst (filter (fun e => snd e) batch).
Definition bool_count (batch : list (elem bool_prov)) : list (elem bool_prov) := [(usize (length (btrue batch)), true)].
Definition bool_exists (batch : list (elem bool_prov)) : list (elem bool_prov) :=
  [(TVal (VBool (existsb (fun e => snd e) batch)), true)].
Definition bool_min_max (is_min arg_only : bool) (num_args : nat) (batch : list (elem bool_prov)) : list (elem bool_prov) :=
  discrete_min_max bool_prov is_min arg_only num_args (btrue batch).
Definition bool_sum_prod (is_sum : bool) (ty : ity) (num_args : nat) (batch : list (elem bool_prov)) : option (list (elem bool_prov)) :=
  option_map (fun r => [(r, true)]) (sum_prod is_sum ty num_args (btrue batch)).
(** discrete/unit.rs 76-119: all elements count *)
Definition unit_count (batch : list (elem unit_prov)) : list (elem unit_prov) := [(usize (length batch), tt)].
Definition unit_exists (batch : list (elem unit_prov)) : list (elem unit_prov) :=
  [(TVal (VBool (negb (match batch with [] => true | _ => false end))), tt)].

(** probabilistic/min_max_prob.rs 85-124.  [sort_by] on the tags, descending,
    stable; the fold starts at infinity ([None] here). *)
Fixpoint dinsert (e : elem minmax_prov) (l : list (elem minmax_prov)) : list (elem minmax_prov) :=
  match l with
  | [] => [e]
  | x :: r => if qc_ltb (snd e) (snd x) then x :: dinsert e r else e :: l
  end.
Fixpoint dsort (l : list (elem minmax_prov)) : list (elem minmax_prov) :=
  match l with [] => [] | e :: r => dinsert e (dsort r) end.
Definition omin (a : option Qc) (b : Qc) : option Qc := Some (match a with None => b | Some x => qc_min x b end).
Definition max_min_prob (l : list (elem minmax_prov)) (k : nat) : option Qc :=
  fold_left (fun a ie => omin a (if fst ie <? k then snd (snd ie) else (1 - snd (snd ie))%Qc)) (enum l) None.
Definition minmax_count (nmw : bool) (batch : list (elem minmax_prov)) : list (elem minmax_prov) :=
  if nmw then [(usize (length batch), 1%Qc)]
  else
    match batch with
    | [] => [(usize 0, 1%Qc)]
    | _ => flat_map (fun k => match max_min_prob (dsort batch) k with Some p => [(usize k, p)] | None => [] end)
             (seq 0 (S (length batch)))
    end.

(** ** grouping *)
Section Group.
  Variable P : Prov.
  Variable agg : list (elem P) -> list (elem P).
  Notation tag := (ptag P).
  (** an element split into key [tuple[0]] and rest [tuple[1]] with its tag *)
  Definition keyed := (tuple * elem P)%type.
  Definition keyed_of (e : elem P) : option keyed :=
    match tnth (fst e) 0, tnth (fst e) 1 with
    | Some k, Some v => Some (k, (v, snd e))
    | _, _ => None
    end.
  Definition key_eqb (k : tuple) (x : keyed) : bool := match tcmp (fst x) k with Eq => true | _ => false end.

  (** implicit_group.rs 34-85; a missing component is a panic ([None]) *)
  Definition consolidate (k : tuple) (group : list (elem P)) : list (elem P) :=
    map (fun r => (TTup [k; fst r], snd r)) (agg group).
  Fixpoint igroup_loop (k : tuple) (group : list (elem P)) (l : list keyed) : list (elem P) :=
    match l with
    | [] => consolidate k group
    | x :: r => if key_eqb k x then igroup_loop k (group ++ [snd x]) r
                else consolidate k group ++ igroup_loop (fst x) [snd x] r
    end.
  Definition implicit_group (batch : list (elem P)) : option (list (elem P)) :=
    option_map (fun l => match l with [] => [] | x :: r => igroup_loop (fst x) [snd x] r end)
      (opt_all (map keyed_of batch)).

  (** join_group.rs 43-126 *)
  Fixpoint take_keyed (k : tuple) (l : list keyed) : list keyed :=
    match l with x :: r => if key_eqb k x then x :: take_keyed k r else [] | [] => [] end.
  Fixpoint drop_keyed (k : tuple) (l : list keyed) : list keyed :=
    match l with x :: r => if key_eqb k x then drop_keyed k r else l | [] => [] end.
  Fixpoint jgroup_loop (fuel : nat) (i j : list keyed) : list (tuple * list keyed * list keyed) :=
    match fuel with
    | 0 => []
    | S f =>
        match i, j with
        | [], _ => []
        | x :: r, [] => (fst x, [x], []) :: jgroup_loop f r []
        | x :: r, y :: s =>
            match tcmp (fst x) (fst y) with
            | Eq => (fst x, x :: take_keyed (fst x) r, y :: take_keyed (fst x) s)
                      :: jgroup_loop f (drop_keyed (fst x) r) (drop_keyed (fst x) s)
            | Lt => (fst x, [x], []) :: jgroup_loop f r j
            | Gt => jgroup_loop f i s
            end
        end
    end.
  Definition join_result (g : tuple * list keyed * list keyed) : list (elem P) :=
    let '(k, by_, to_agg) := g in
    let res := agg (map snd to_agg) in
    flat_map (fun x => map (fun r => (TTup [k; fst (snd x); fst r], pmult P (snd (snd x)) (snd r))) res) by_.
  Definition join_group (group_by main : list (elem P)) : option (list (elem P)) :=
    match opt_all (map keyed_of group_by), opt_all (map keyed_of main) with
    | Some i, Some j => Some (flat_map join_result (jgroup_loop (length i + length j) i j))
    | _, _ => None
    end.
End Group.
