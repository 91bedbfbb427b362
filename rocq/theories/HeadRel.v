(** Model of the warnings about relations that are used but not computed:
    /repo/core/src/compiler/front/analyzers/head_relation.rs, with the transformations that make rules out of
    queries and reduce rules (transformations/atomic_query.rs, desugar_reduce_rule.rs), the order of the analyses
    (analysis.rs 74-121) and the compilation of one source after the other (compile.rs 112-135, 226-334).

    Simplifications.
    - Of formulas and heads only the predicates of atoms and their locations are kept; a location is a number, [None]
      is the location of a node that the compiler made.
    - Conjunctive heads are not split (the atoms and their predicates are the same after the split).
    - Whether a source is rejected for other reasons, and whether the number of results of a reduce rule is known, is
      given with the source.
    - Sets are lists without duplicates; imported sources are compiled as earlier sources. *)
From Coq Require Import List Bool String Ascii.
Import ListNotations.
Set Implicit Arguments.
Local Open Scope string_scope.
Local Open Scope list_scope.

Definition hloc := option nat.
(** formula.rs 5-16; [HOther] stands for case, constraint and range; aggregate.rs 5-13 and 52-59 for [HReduce] *)
Inductive hform :=
| HAtom (p : string) (l : hloc)
| HNegAtom (p : string) (l : hloc)
| HAnd (fs : list hform)
| HOr (fs : list hform)
| HImplies (a b : hform)
| HOther
| HReduce (body : hform) (group : option hform).
(** relation_decl.rs 113-119, query.rs *)
Inductive hitem :=
| HType (ps : list string)
| HSet (p : string)
| HFact (p : string) (l : hloc)
| HRule (heads : list (string * hloc)) (body : hform)
| HReduceRule (known : bool) (p : string) (body : hform) (group : option hform)
| HQuery (p : string) (l : hloc)
| HQueryAtom (name p : string) (l : hloc).

(** atomic_query.rs 36-72: the query becomes a query of a predicate without location; desugar_reduce_rule.rs 18-80 *)
Definition h_item (i : hitem) : hitem :=
  match i with
  | HQueryAtom name p l => HQuery name None
  | HReduceRule true p body group => HRule [(p, None)] (HReduce body group)
  | _ => i
  end.
Definition h_new (i : hitem) : list hitem :=
  match i with HQueryAtom name p l => [HRule [(name, None)] (HAnd [HAtom p None])] | _ => [] end.
(** transform.rs 43-105 *)
Definition h_transform (its : list hitem) : list hitem := map h_item its ++ flat_map h_new its.

(** head_relation.rs 8-13 *)
Record hstate := mkH { h_used : list (string * hloc); h_decl : list string }.
Fixpoint hset (l : list (string * hloc)) (p : string) (x : hloc) : list (string * hloc) :=
  match l with
  | [] => [(p, x)]
  | (q, y) :: l => if String.eqb q p then (q, x) :: l else (q, y) :: hset l p x
  end.
Definition h_mem (p : string) (l : list string) : bool := existsb (String.eqb p) l.
Definition h_declare (p : string) (st : hstate) : hstate :=
  mkH (h_used st) (if h_mem p (h_decl st) then h_decl st else p :: h_decl st).
(** 71-85 *)
Definition h_use (st : hstate) (x : string * hloc) : hstate := mkH (hset (h_used st) (fst x) (snd x)) (h_decl st).
(** the atoms of a formula, in the order in which the walk visits them *)
Fixpoint h_atoms (f : hform) : list (string * hloc) :=
  match f with
  | HAtom p l | HNegAtom p l => [(p, l)]
  | HAnd fs | HOr fs => flat_map h_atoms fs
  | HImplies a b => h_atoms a ++ h_atoms b
  | HOther => []
  | HReduce b g => h_atoms b ++ match g with Some g => h_atoms g | None => [] end
  end.
(** 45-85, with the walk over the children *)
Definition h_visit (st : hstate) (i : hitem) : hstate :=
  match i with
  | HType ps => fold_left (fun st p => h_declare p st) ps st
  | HSet p => h_declare p st
  | HFact p l => h_use (h_declare p st) (p, l)
  | HRule heads body =>
      fold_left h_use (heads ++ h_atoms body) (fold_left (fun st x => h_declare (fst x) st) heads st)
  | HReduceRule _ _ body group => fold_left h_use (h_atoms (HReduce body group)) st
  | HQuery p l => h_use st (p, l)
  | HQueryAtom name p l => h_use (h_use st (name, l)) (p, l)
  end.
Fixpoint has_hash (s : string) : bool :=
  match s with EmptyString => false | String c s => Ascii.eqb c "#" || has_hash s end.
(** 32-42 *)
Definition h_warn (st : hstate) : list (string * hloc) :=
  filter (fun x => negb (h_mem (fst x) (h_decl st)) && negb (has_hash (fst x))) (h_used st).

(** compile.rs: a source that is rejected changes nothing, 112-135: a predicate is registered *)
Inductive hstep := Compile (its : list hitem) (rejected : bool) | Register (p : string).
Definition h_do (st : hstate) (s : hstep) : hstate * list (list (string * hloc)) :=
  match s with
  | Register p => (h_declare p st, [])
  | Compile its true => (st, [])
  | Compile its false => let st := fold_left h_visit (h_transform its) st in (st, [h_warn st])
  end.
Fixpoint h_run (st : hstate) (l : list hstep) : hstate * list (list (string * hloc)) :=
  match l with
  | [] => (st, [])
  | s :: l => let '(st, o) := h_do st s in let '(st, o2) := h_run st l in (st, o ++ o2)
  end.
(** 16-26 *)
Definition h_start (fps : list string) : hstate := mkH [] fps.
