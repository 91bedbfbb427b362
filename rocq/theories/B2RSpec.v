(** What a rule has to be like for its lowering to mean the rule.  Used by C53. *)
From Coq Require Import List ZArith Bool Arith Lia Permutation.
From Verif Require Import Value Back Eval Ram Dataflow BackSem Scc Plan PlanSem VarTuple VarTupleFacts B2R RamSem B2RFacts B2RFacts2.
Import ListNotations.
Set Implicit Arguments.

(** A plan without a join of two plans on the same variables, neither of which is
    an atom under filters. *)
Definition clash (p q : plan) : bool :=
  match direct_atom p, direct_atom q, join_vars p q with
  | None, None, _ :: _ => set_eqb (bvars p) (bvars q)
  | _, _, _ => false
  end.
Fixpoint clash_free (p : plan) : bool :=
  match p with
  | PUnit _ | PReduce _ _ | PGround _ _ | PFpGround _ _ => true
  | PProject _ p _ | PFilter _ p _ | PFpConstr _ p _ | PFpJoin _ p _ => clash_free p
  | PJoin _ p q => negb (clash p q) && clash_free p && clash_free q
  | PAnti _ p q => clash_free p && clash_free q
  end.

Definition is_asg (l : lit) : bool := match l with LAssign _ _ => true | _ => false end.
Definition assigned (body : list lit) : list var := flat_map (fun l => match l with LAssign v _ => [v] | _ => [] end) body.
Definition compared (l : lit) : list var :=
  match l with LBin _ a b => dedup (tvar a ++ tvar b) | LNot a => dedup (tvar a) | _ => [] end.

(** Variables whose values matter: those of the head, of literals other than
    assignments, and of assignments of such variables. *)
Inductive used (hv : list var) (body : list lit) : var -> Prop :=
| us_head v : In v hv -> used hv body v
| us_lit l v : In l body -> is_asg l = false -> In v (lit_vars l) -> used hv body v
| us_asg w e v : In (LAssign w e) body -> used hv body w -> In v (aexpr_vars e) -> used hv body v.

(** How the head is laid out. *)
Definition head_ok (C : cenv) (h : atom) : Prop :=
  match ce_shape C (a_pred h) with
  | SPlain => True
  | SBody n | SGroup n => existsb is_const (a_args h) = false /\ NoDup (avars h)
  end.

(** How an aggregation is grouped, and the tuple of a result: group, other
    variables of the group-by formula, aggregate. *)
Definition red_grouping (r : reduce) : rgrp :=
  match rd_group r, rd_groupby r with
  | [], _ => GNone
  | _ :: _, Some a => GJoin (a_pred a)
  | _ :: _, None => GImplicit
  end.
Definition red_tuple (r : reduce) (s : subst) : tuple :=
  let lt := one_or_vtup (map s (rd_left r)) in
  match red_grouping r with
  | GNone => lt
  | GImplicit => TTup [one_or_vtup (map s (rd_group r)); lt]
  | GJoin _ => TTup [one_or_vtup (map s (rd_group r)); one_or_vtup (map s (rd_other r)); lt]
  end.

Section Lowerable.
  Variables (C : cenv) (N : penv) (g : registry) (B : benv).
  Variables (ag : nat -> nat -> rgrp -> tuple -> Prop) (JI JM : rels) (I M : interp).
  (** The types of the variables. *)
  Variable T : var -> value -> Prop.
  Record lowerable (h : atom) (body : list lit) : Prop := {
    (** Relations hold the facts of their predicates. *)
    lo_pos : forall a, In (LAtom a) body -> pe_foreign N (a_pred a) = false -> atom_ok C JI JM I M false a;
    lo_neg : forall a, In (LNeg a) body -> atom_ok C JI JM I M true a;
    (** No atom repeats a variable, or no two constraints share one. *)
    lo_dup : (forall a, In (LAtom a) body -> pe_foreign N (a_pred a) = false -> NoDup (avars a)) \/ NoDup (flat_map compared body);
    (** Assigned variables get values from their assignment only. *)
    lo_once : NoDup (assigned body);
    lo_single : forall v e l, In (LAssign v e) body -> In l body -> In v (lit_binds N l) -> l = LAssign v e;
    lo_new : forall v e w, In (LAssign v e) body -> is_new e = true -> In w (aexpr_vars e) -> limited N body w;
    (** Literals give values of the types of their variables; constraints compare
        values that can be compared. *)
    lo_typed : forall l s, In l body -> lit_sat B g I M s l -> (forall w, In w (lit_needs N l) -> T w (s w)) ->
      forall v, In v (lit_binds N l) -> T v (s v);
    lo_cmp : forall c a b s, In (LBin c a b) body -> (forall v, In v (tvar a ++ tvar b) -> T v (s v)) -> con_typed s (KBin c a b);
    (** An assignment whose variable does not matter has a value. *)
    lo_total : forall v e, In (LAssign v e) body -> is_new e = false -> used (avars h) body v \/
      forall s, (forall w, In w (aexpr_vars e) -> T w (s w)) -> exists x, aeval (b_env B) s e = EOk x;
    (** Foreign predicates are given their arguments and yield as many values,
        which can be compared. *)
    lo_bounded : forall a, In (LAtom a) body -> pe_foreign N (a_pred a) = true ->
      ce_bounded C (a_pred a) = pe_bounded N (a_pred a) /\ pe_bounded N (a_pred a) <= length (a_args a);
    lo_fp : forall a ws, In (LAtom a) body -> pe_foreign N (a_pred a) = true -> b_fp B (a_pred a) ws ->
      length ws = length (a_args a) /\ Forall (fun v => eq_able v = true) ws;
    (** The results of an aggregation in the runtime are those in the rules. *)
    lo_red : forall r t, In (LReduce r) body -> (ag (rd_agg r) (a_pred (rd_body r)) (red_grouping r) t <->
      exists s, b_agg B r (M (a_pred (rd_body r)))
                  (match rd_groupby r with Some a => M (a_pred a) | None => none_rel end) s /\ t = red_tuple r s);
    lo_redvars : forall r, In (LReduce r) body -> NoDup (rd_left r) /\ NoDup (rd_group r) /\ NoDup (rd_other r);
    (** The head is made of variables of the body. *)
    lo_head : forall v, In v (avars h) -> exists l, In l body /\ In v (lit_vars l);
    lo_shape : head_ok C h }.
End Lowerable.
