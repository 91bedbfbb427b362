(** Model of rules with tags: /repo/core/src/compiler/front/transformations/tagged_rule.rs,
    /repo/core/src/compiler/front/analyzers/tagged_rule.rs and
    /repo/core/src/compiler/front/ast/relation_decl.rs 91-103.
    Simplifications: the name of the predicate and of its variable are parameters; messages
    of errors are dropped. *)
From Coq Require Import List ZArith Bool.
From Verif Require Import Value Back Eval TypeSet Front Cast.
Import ListNotations.

(** transformations/tagged_rule.rs 20-55; [None] is the panic of [rule_tag_predicate]
    (relation_decl.rs 91-103) on heads that are not atoms. *)
Definition tag_rule (p : pred) (v : var) (tag : expr) (r : frule) : option frule :=
  match fr_head r with
  | FHAtom _ => Some (mkFrule (fr_head r) (FConj [FConj [FCons (EBin OEq (EVar v) tag); FAtom p [EVar v]]; fr_body r]))
  | _ => None
  end.
(** transformations/tagged_rule.rs 56-65: rules with the attribute [@tagged]. *)
Definition tag_attr_rule (p : pred) (r : frule) : option frule :=
  match fr_head r with
  | FHAtom _ => Some (mkFrule (fr_head r) (FConj [FAtom p []; fr_body r]))
  | _ => None
  end.

(** analyzers/tagged_rule.rs 15-20 [TAG_TYPE], 74-100 [get_target_tag_type]: the type of the
    argument of the predicate; [None] is an error. *)
Definition tag_types : list vtype := [TF64; TF32; TBool].
Definition target_tag_type (s : tset) : option vtype :=
  if match s with SBase b => existsb (vt_eqb b) tag_types | _ => false end then Some (ts_default s)
  else if existsb (ts_can_cast s) tag_types then Some (ts_default s)
  else None.

(** analyzers/tagged_rule.rs 169-184 [evaluate_with_env]: the float of the tag of the only
    result, which has no free arguments; [ENone] is no result. *)
Definition tag_value (c : conv) (v : value) : ev Z :=
  match cast c TF64 v with
  | EOk (F64 f) => EOk f
  | EOk _ | ENone => ENone
  | EPanic => EPanic
  end.
