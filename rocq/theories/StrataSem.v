(** Specification: the model of a list of RAM strata as sets of tuples, and the
    programs whose lowering is expected to have the models of the program.  Used by
    C54. *)
From Coq Require Import List ZArith Bool Arith Permutation.
From Verif Require Import Value Back Eval Ram Dataflow BackSem Scc Plan PlanSem PlanFacts PropsPlan VarTuple B2R B2RFacts B2RStrata RamSem B2RSpec.
Import ListNotations.
Set Implicit Arguments.

(** ** Models of RAM strata *)
Section RModel.
  Variable E : renv.
  Variable fp : pred -> rel.
  (** The results of aggregations, given the relations. *)
  Variable AG : rels -> nat -> nat -> rgrp -> tuple -> Prop.
  (** The facts. *)
  Variable F : rels.

  (** [X] agrees with [J] outside the stratum, has the facts, and is closed under
      the updates, right sides and aggregations being read off [J]. *)
  Record closed (s : rstratum) (J X : rels) : Prop := {
    cl_out : forall r, ~ In r (rs_rels s) -> forall t, X r t <-> J r t;
    cl_fact : forall r t, In r (rs_rels s) -> F r t -> X r t;
    cl_upd : forall r d t, In (r, d) (rs_updates s) -> rden E fp (AG J) J X d t -> X r t }.
  (** The relations of each stratum are the least closed ones. *)
  Definition rmodel (ss : list rstratum) (J : rels) : Prop :=
    forall s r t, In s ss -> In r (rs_rels s) -> (J r t <-> forall X, closed s J X -> X r t).
End RModel.

(** ** Programs *)
Section Programs.
  Variables (C : cenv) (N : penv) (B : benv) (AG : rels -> nat -> nat -> rgrp -> tuple -> Prop).
  Variable P : program.
  Variable ss : list stratum.
  (** The types of the relations. *)
  Variable Ty : pred -> list value -> Prop.
  Notation g := (p_reg P).

  Definition preds (ss : list stratum) : list pred := flat_map st_preds ss.
  (** The relations a body reads positively, on the right of negation, and in
      aggregations. *)
  Definition pos_preds (body : list lit) : list pred :=
    flat_map (fun l => match l with LAtom a => if pe_foreign N (a_pred a) then [] else [a_pred a] | _ => [] end) body.
  Definition neg_preds (body : list lit) : list pred :=
    flat_map (fun l => match l with LNeg a => [a_pred a] | _ => [] end) body.
  Definition red_preds (body : list lit) : list pred :=
    flat_map (fun l => match l with
                       | LReduce r => a_pred (rd_body r) :: match rd_groupby r with Some a => [a_pred a] | None => [] end
                       | _ => [] end) body.

  (** Each predicate is in one stratum; rules read their own stratum and earlier
      ones, negation and aggregation earlier ones only. *)
  Record strata_ok : Prop := {
    so_nodup : NoDup (preds ss);
    so_head : forall r, In r (p_rules P) -> In (r_pred r) (preds ss);
    so_fact : forall f, In f (p_facts P) -> In (f_pred f) (preds ss) /\ ce_shape C (f_pred f) = SPlain /\ Ty (f_pred f) (f_args f);
    so_pos : forall r l1 s l2, In r (p_rules P) -> ss = l1 ++ s :: l2 -> In (r_pred r) (st_preds s) ->
      incl (pos_preds (r_body r)) (preds (l1 ++ [s]));
    so_neg : forall r l1 s l2, In r (p_rules P) -> ss = l1 ++ s :: l2 -> In (r_pred r) (st_preds s) ->
      incl (neg_preds (r_body r) ++ red_preds (r_body r)) (preds l1) }.

  (** The relations a body reads hold well-typed facts of their predicates. *)
  Definition holds_facts (J : rels) (I : interp) (sh : shape) (p : pred) : Prop :=
    (forall t, J p t <-> exists vs, I p vs /\ t = layout sh vs) /\ forall vs, I p vs -> Ty p vs.
  Record reads_hold (JI JM : rels) (I M : interp) (body : list lit) : Prop := {
    rh_pos : forall p, In p (pos_preds body) -> holds_facts JI I SPlain p;
    rh_neg : forall p, In p (neg_preds body) -> holds_facts JM M SPlain p;
    rh_red : forall p, In p (red_preds body) -> holds_facts JM M (ce_shape C p) p }.

  (** Rules with one head atom whose bodies can be planned and lowered, that
      respect the types and make no entities. *)
  Record rule_ok (order : list pred -> rule -> list state -> list state) (h : atom) (body : list lit) : Prop := {
    ru_plan : plannable N g body;
    ru_safe : safe N body;
    ru_neg : no_neg_foreign N body;
    ru_tests : tests_before N body;
    ru_clash : forall ps p, query_plan N (order ps (mkRule (HAtom h) body)) body = Some p -> clash_free p = true;
    ru_plain : forall p, In p (pos_preds body ++ neg_preds body) -> ce_shape C p = SPlain;
    ru_low : exists T, forall JI JM I M, reads_hold JI JM I M body -> lowerable C N g B (AG JM) JI JM I M T h body;
    ru_type : forall JI JM I M vs, reads_hold JI JM I M body ->
      head_consequence B g I M (mkRule (HAtom h) body) (a_pred h) vs -> Ty (a_pred h) vs;
    ru_new : forall v e, In (LAssign v e) body -> is_new e = false }.
  Record program_ok (order : list pred -> rule -> list state -> list state) : Prop := {
    po_strata : strata_ok;
    po_rules : forall r, In r (p_rules P) -> exists h body, r = mkRule (HAtom h) body /\ rule_ok order h body;
    po_adts : g_adts g = [] }.

  (** The facts as tuples, and the facts that tuples stand for. *)
  Definition fact_rels : rels := fun p t => exists f, In f (p_facts P) /\ p = f_pred f /\ t = vtup (f_args f).
  Definition decode (J : rels) : interp := fun p vs => In p (preds ss) /\ J p (layout (ce_shape C p) vs).
End Programs.
