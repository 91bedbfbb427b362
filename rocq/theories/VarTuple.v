(** Model of the tuples of variables and of positions that the back end lowers
    plans with: /repo/core/src/common/generic_tuple.rs,
    /repo/core/src/compiler/back/var_tuple.rs,
    /repo/core/src/compiler/back/permutation.rs and
    /repo/core/src/common/tuple_access.rs. *)
From Coq Require Import List ZArith Bool Arith.
From Verif Require Import Value Back Eval Scc Plan.
Import ListNotations.
Set Implicit Arguments.

(** generic_tuple.rs 3-7 [GenericTuple<T>]; [VariableTuple] is [gt var]
    (var_tuple.rs 9), [Permutation] is [gt nat] (permutation.rs 6). *)
Inductive gt (A : Type) := GV (a : A) | GT (l : list (gt A)).
Arguments GV {A}. Arguments GT {A}.

Section GtInd.
  Variables (A : Type) (P : gt A -> Prop).
  Hypothesis HV : forall a, P (GV a).
  Hypothesis HT : forall l, Forall P l -> P (GT l).
  Fixpoint gt_ind' (g : gt A) : P g :=
    match g with
    | GV a => HV a
    | GT l => HT ((fix go l : Forall P l :=
        match l with [] => Forall_nil P | x :: r => Forall_cons x (gt_ind' x) (go r) end) l)
    end.
End GtInd.

(** [derive(PartialEq)]. *)
Fixpoint gt_eqb (g h : gt nat) {struct g} : bool :=
  match g, h with
  | GV a, GV b => Nat.eqb a b
  | GT l, GT m =>
      (fix go (l m : list (gt nat)) {struct l} : bool :=
         match l, m with
         | [], [] => true
         | x :: l, y :: m => gt_eqb x y && go l m
         | _, _ => false
         end) l m
  | _, _ => false
  end.

(** var_tuple.rs 24-46 [from_vars]. *)
Definition from_vars (vs : list var) (can_be_singleton : bool) : gt var :=
  match dedup vs with
  | [] => GT []
  | [v] => if can_be_singleton then GV v else GT [GV v]
  | l => GT (map GV l)
  end.

(** var_tuple.rs 81-99 [variables]. *)
Fixpoint variables (g : gt var) : list var :=
  match g with
  | GV v => [v]
  | GT l =>
      (fix go (visited : list var) (l : list (gt var)) {struct l} : list var :=
         match l with
         | [] => []
         | e :: l => let vs := filter (fun v => negb (memb v visited)) (variables e) in vs ++ go (visited ++ vs) l
         end) [] l
  end.

(** var_tuple.rs 70-72 [dedup]. *)
Definition gdedup (g : gt var) : gt var := from_vars (variables g) true.
(** var_tuple.rs 65-68 [subtuple]. *)
Definition subtuple (g : gt var) (vs : list var) : gt var :=
  GT (map GV (filter (fun v => memb v (variables g)) vs)).

(** tuple_access.rs 35-44 [prepend]; the panic on an accessor that is full. *)
Definition acc_prepend (i : nat) (a : accessor) : ev accessor :=
  if ac_len a <? 3 then EOk (mkAcc (S (ac_len a)) i (ac_0 a) (ac_1 a)) else EPanic.

(** var_tuple.rs 128-146 [accessor_of]: the first occurrence; [ENone] when there
    is none.  The cast of a position to [i8] is left out. *)
Fixpoint accessor_of (g : gt var) (v : var) {struct g} : ev accessor :=
  match g with
  | GV w => if Nat.eqb v w then EOk acc_empty else ENone
  | GT l =>
      (fix go (i : nat) (l : list (gt var)) {struct l} : ev accessor :=
         match l with
         | [] => ENone
         | e :: l => match accessor_of e v with
                     | EOk a => acc_prepend i a
                     | ENone => go (S i) l
                     | EPanic => EPanic
                     end
         end) 0 l
  end.

(** var_tuple.rs 48-63 [expand]: only the variables that the tuple had before are
    left out, so a variable given twice is added twice. *)
Definition expand (g : gt var) (vs : list var) : option (gt var) :=
  obnd (omap (fun v => match accessor_of g v with
                       | EOk _ => Some []
                       | ENone => Some [GV v]
                       | EPanic => None
                       end) vs)
       (fun more => Some (match g with
                          | GV v => GT (GV v :: concat more)
                          | GT l => GT (l ++ concat more)
                          end)).

(** var_tuple.rs 101-106 [unit_type], as the tuple of that type. *)
Fixpoint unit_tuple (g : gt var) : option tuple :=
  match g with
  | GV _ => None
  | GT l => obnd (omap unit_tuple l) (fun ts => Some (TTup ts))
  end.

(** var_tuple.rs 108-126 [matches]. *)
Definition matches (g : gt var) (args : list term) : bool :=
  match g with
  | GV _ => false
  | GT ts => Nat.eqb (length ts) (length args) &&
             forallb (fun x => match x with (TVar v1, GV v2) => Nat.eqb v1 v2 | _ => false end) (combine args ts)
  end.

(** [unwrap] or [panic!] when a variable is not found. *)
Definition access (g : gt var) (v : var) : option expr :=
  match accessor_of g v with EOk a => Some (XAccess a) | _ => None end.
(** var_tuple.rs 161-166 [term_to_ram_expr], unwrapped. *)
Definition term_expr (g : gt var) (t : term) : option expr :=
  match t with TConst c => Some (XConst c) | TVar v => access g v end.

(** var_tuple.rs 148-159 [projection]. *)
Fixpoint projection (g args : gt var) {struct args} : option expr :=
  match args with
  | GT ts => obnd (omap (projection g) ts) (fun es => Some (XTuple es))
  | GV v => access g v
  end.

(** var_tuple.rs 176-197: the right-hand side of an assignment over a tuple. *)
Definition aexpr_expr (g : gt var) (e : aexpr) : option expr :=
  match e with
  | ABin op a b => obnd (term_expr g a) (fun x => obnd (term_expr g b) (fun y => Some (XBin op x y)))
  | AUn op a => obnd (term_expr g a) (fun x => Some (XUn op x))
  | AIte c a b => obnd (term_expr g c) (fun z => obnd (term_expr g a) (fun x => obnd (term_expr g b) (fun y =>
                    Some (XIte z x y))))
  | ACall f l => obnd (omap (term_expr g) l) (fun es => Some (XCall f es))
  | ANew f l => obnd (omap (term_expr g) l) (fun es => Some (XNew f es))
  end.
(** A [HashMap] collected from pairs: the last pair with the key counts. *)
Definition last_assign (v : var) (l : list (var * aexpr)) : option aexpr :=
  match find (fun x => Nat.eqb (fst x) v) (rev l) with Some x => Some (snd x) | None => None end.
(** var_tuple.rs 168-202 [projection_assigns]. *)
Fixpoint projection_assigns (g args : gt var) (l : list (var * aexpr)) {struct args} : option expr :=
  match args with
  | GT ts => obnd (omap (fun x => projection_assigns g x l) ts) (fun es => Some (XTuple es))
  | GV v => match accessor_of g v with
            | EOk a => Some (XAccess a)
            | ENone => obnd (last_assign v l) (aexpr_expr g)
            | EPanic => None
            end
  end.

(** [position] of a variable among the arguments. *)
Fixpoint position (v : var) (args : list term) : option nat :=
  match args with
  | [] => None
  | t :: args => if match t with TVar w => Nat.eqb v w | TConst _ => false end then Some 0
                 else option_map S (position v args)
  end.
(** var_tuple.rs 211-236 [permutation]; a position seen before becomes the empty
    tuple. *)
Fixpoint perm_helper (g : gt var) (args : list term) (visited : list nat) {struct g} : option (gt nat * list nat) :=
  match g with
  | GT l => obnd
      ((fix go (l : list (gt var)) (visited : list nat) {struct l} : option (list (gt nat) * list nat) :=
          match l with
          | [] => Some ([], visited)
          | e :: l => obnd (perm_helper e args visited) (fun x =>
                      obnd (go l (snd x)) (fun y => Some (fst x :: fst y, snd y)))
          end) l visited)
      (fun x => Some (GT (fst x), snd x))
  | GV v => obnd (position v args) (fun i =>
              if memb i visited then Some (GT [], visited) else Some (GV i, i :: visited))
  end.
Definition permutation (g : gt var) (args : list term) : option (gt nat) :=
  option_map fst (perm_helper g args []).

(** permutation.rs 42-47 [expr]. *)
Fixpoint perm_expr (g : gt nat) : expr :=
  match g with
  | GV i => XAccess (acc_index i)
  | GT l => XTuple (map perm_expr l)
  end.
(** permutation.rs 49-72 [order_preserving]; [None] is false, otherwise the
    counter. *)
Fixpoint op_helper (g : gt nat) (counter : nat) {struct g} : option nat :=
  match g with
  | GV x => if Nat.eqb x counter then Some (S counter) else None
  | GT l => (fix go (l : list (gt nat)) (counter : nat) {struct l} : option nat :=
               match l with [] => Some counter | t :: l => obnd (op_helper t counter) (go l) end) l counter
  end.
Definition order_preserving (g : gt nat) : bool := match op_helper g 0 with Some _ => true | None => false end.
