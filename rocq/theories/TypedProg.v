(** Specification: typed stratified programs with negation, comparisons and
    expressions, without aggregation, foreign code and new entities.  The
    conditions are on the text of the program.  Used by C54 and C55. *)
From Coq Require Import List ZArith Bool Arith.
From Verif Require Import Value Back Eval BackSem Scc Plan PlanSem PlanFacts PlanFacts2 PropsPlan VarTuple B2R B2RFacts B2RSpec B2RStrata StrataSem.
Import ListNotations.
Set Implicit Arguments.

(** Types are the variants of values, by their number ([vrank]). *)
Definition ty := nat.
Definition ty_bool : ty := 15.
(** The variants that [==] is defined on, and those that [<] is defined on. *)
Definition ty_eq (k : ty) : bool := negb (Nat.eqb k 19) && negb (Nat.eqb k 23).
Definition ty_time (k : ty) : bool := Nat.eqb k 20 || Nat.eqb k 21.

Section Typed.
  (** The types of the columns, and of the variables of a rule. *)
  Variable sig : pred -> list ty.
  Definition typed_fact (p : pred) (vs : list value) : Prop := Forall2 (fun k v => vrank v = k /\ ty_eq k = true) (sig p) vs.

  Variable tau : var -> ty.
  Definition term_ty (t : term) : ty := match t with TVar v => tau v | TConst c => vrank c end.
  Definition typed_atom (a : atom) : Prop := Forall2 (fun k t => term_ty t = k /\ ty_eq k = true) (sig (a_pred a)) (a_args a).
  (** Expressions: arithmetic on numbers and strings, comparisons, logic.  Dates,
      casts, calls of functions are left out. *)
  Inductive typed_aexpr : aexpr -> ty -> Prop :=
  | te_arith op a b k : is_arith op = true -> ty_time k = false -> term_ty a = k -> term_ty b = k -> typed_aexpr (ABin op a b) k
  | te_cmp op a b : is_arith op = false -> term_ty a = term_ty b -> typed_aexpr (ABin op a b) ty_bool
  | te_pos a k : term_ty a = k -> typed_aexpr (AUn UPos a) k
  | te_neg a k : term_ty a = k -> typed_aexpr (AUn UNeg a) k
  | te_not a : term_ty a = ty_bool -> typed_aexpr (AUn UNot a) ty_bool
  | te_ite c a b k : term_ty c = ty_bool -> term_ty a = k -> term_ty b = k -> typed_aexpr (AIte c a b) k.
  Definition typed_lit (l : lit) : Prop :=
    match l with
    | LAtom a | LNeg a => typed_atom a
    | LAssign v e => typed_aexpr e (tau v) /\ ty_eq (tau v) = true
    | LBin _ a b => term_ty a = term_ty b /\ ty_eq (term_ty a) = true
    | LNot a => term_ty a = ty_bool
    | LTrue => True
    | LReduce _ | LFalse => False
    end.
End Typed.

Section Programs.
  Variables (C : cenv) (N : penv) (sig : pred -> list ty).
  (** A rule of a typed program. *)
  Record typed_rule (h : atom) (body : list lit) : Prop := {
    (** types; no foreign predicates *)
    tr_types : exists tau, typed_atom sig tau h /\ forall l, In l body -> typed_lit sig tau l;
    tr_foreign : forall a, In (LAtom a) body \/ In (LNeg a) body -> pe_foreign N (a_pred a) = false;
    (** safety *)
    tr_safe : safe N body;
    tr_head : forall v, In v (avars h) -> limited N body v;
    (** assigned variables are assigned once, are not in atoms, and are used *)
    tr_once : NoDup (assigned body);
    tr_single : forall v e a, In (LAssign v e) body -> In (LAtom a) body -> ~ In v (avars a);
    tr_used : forall v e, In (LAssign v e) body -> used (avars h) body v;
    (** no atom repeats a variable, or no two constraints share one *)
    tr_dup : (forall a, In (LAtom a) body -> NoDup (avars a)) \/ NoDup (flat_map compared body);
    (** negated atoms have no constants or no repeated variables *)
    tr_neg : forall a, In (LNeg a) body -> (forall t, In t (a_args a) -> is_const t = false) \/ NoDup (avars a);
    (** atoms over relations read from files do not have both *)
    tr_static : forall a, In (LAtom a) body \/ In (LNeg a) body -> ce_static C (a_pred a) = true -> existsb is_const (a_args a) = true -> NoDup (avars a);
    (** the relations are not aggregated; names made by the compiler are not in use *)
    tr_plain : forall p, In p (a_pred h :: pos_preds N body ++ neg_preds body) -> ce_shape C p = SPlain;
    tr_fresh : fresh_names N (rule_vars body);
    tr_consts : forall a, In (LAtom a) body \/ In (LNeg a) body -> fresh_consts C a }.
  Record typed_program (P : program) (ss : list stratum) : Prop := {
    tp_rules : forall r, In r (p_rules P) -> exists h body, r = mkRule (HAtom h) body /\ typed_rule h body;
    tp_facts : forall f, In f (p_facts P) -> In (f_pred f) (preds ss) /\ ce_shape C (f_pred f) = SPlain /\ typed_fact sig (f_pred f) (f_args f);
    (** a stratification *)
    tp_nodup : NoDup (preds ss);
    tp_head : forall r, In r (p_rules P) -> In (r_pred r) (preds ss);
    tp_pos : forall r l1 s l2, In r (p_rules P) -> ss = l1 ++ s :: l2 -> In (r_pred r) (st_preds s) ->
      incl (pos_preds N (r_body r)) (preds (l1 ++ [s]));
    tp_neg : forall r l1 s l2, In r (p_rules P) -> ss = l1 ++ s :: l2 -> In (r_pred r) (st_preds s) ->
      incl (neg_preds (r_body r)) (preds l1);
    tp_adts : g_adts (p_reg P) = [];
    tp_reg : forall p, g_foreign (p_reg P) p = pe_foreign N p }.
  (** The same without the strata, which the compiler finds: every predicate is
      declared, and no relation has the goal attribute. *)
  Record typed_source (P : program) : Prop := {
    ts_rules : forall r, In r (p_rules P) -> exists h body, r = mkRule (HAtom h) body /\ typed_rule h body;
    ts_facts : forall f, In f (p_facts P) -> In (f_pred f) (map b_pred (p_rels P)) /\ ce_shape C (f_pred f) = SPlain /\ typed_fact sig (f_pred f) (f_args f);
    ts_preds : forall r p, In r (p_rules P) -> In p (r_pred r :: pos_preds N (r_body r) ++ neg_preds (r_body r)) -> In p (map b_pred (p_rels P));
    ts_goal : forall b, In b (p_rels P) -> b_goal b = false;
    ts_adts : g_adts (p_reg P) = [];
    ts_reg : forall p, g_foreign (p_reg P) p = pe_foreign N p }.
End Programs.
