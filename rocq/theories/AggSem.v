(** Specification: the meaning of aggregations in rules, independent of how they are
    compiled (FrontAgg.v).  Used by C74 and C75. *)
From Coq Require Import List ZArith Bool Arith.
From Verif Require Import Value Back Eval BackSem Scc PlanSem Front FrontSem Bound FrontAgg.
Import ListNotations.

(** What an aggregator yields for a set of tuples: its number, the number of arguments
    (the first components of the tuples), the set, a result. *)
Definition aggregator := nat -> nat -> (list value -> Prop) -> list value -> Prop.
Definition extensional (A : aggregator) : Prop :=
  forall op k S S' ws, (forall t, S t <-> S' t) -> A op k S ws -> A op k S' ws.

(** *** Aggregations of the back IR *)
(** Without group-by variables there is one group; otherwise the groups are those of the
    where-clause, or those that occur in the body. *)
Definition grouped (r : reduce) (Body Group : rel) (s : subst) : Prop :=
  match rd_group r with
  | [] => True
  | _ :: _ => match rd_groupby r with
              | Some _ => Group (map s (rd_group r ++ rd_other r))
              | None => exists t, Body (map s (rd_group r) ++ t)
              end
  end.
Definition agg_meaning (A : aggregator) (r : reduce) (Body Group : rel) (s : subst) : Prop :=
  grouped r Body Group s /\ A (rd_agg r) (length (rd_arg r)) (fun t => Body (map s (rd_group r) ++ t)) (map s (rd_left r)).

(** *** Aggregations in formulas *)
Section Meaning.
  Variables (A : aggregator) (B : benv) (g : registry) (M : interp) (wc : nat -> var).
  (** The variables that a formula grounds. *)
  Variable bv : aform -> list var.
  (** The group-by variables: those of the body that are in the head of the rule and not
      bindings or arguments; or, if there is a where-clause, those of the body that the
      where-clause grounds. *)
  Definition implicit (hv args bs : list var) (body : aform) : list var :=
    filter (fun v => memb v hv && negb (memb v bs) && negb (memb v args)) (bv body).
  Definition explicit (w body : aform) : list var := filter (fun v => memb v (bv body)) (bv w).
  (** A formula holds in a rule with the head variables [hv]; positive atoms outside of
      aggregations are read off [X], all other atoms off [M].  An aggregation is over the
      values of its arguments and bindings for which its body holds, given the values of
      the group-by variables. *)
  Fixpoint aholds (X : interp) (hv : list var) (s : subst) (f : aform) {struct f} : Prop :=
    match f with
    | AAtom p l => fholds B g X M s (FAtom p l)
    | ANeg p l => fholds B g X M s (FNeg p l)
    | ACons e => constraint_holds (b_env B) s e
    | AConj l => (fix all l := match l with [] => True | f :: l => aholds X hv s f /\ all l end) l
    | ADisj l => (fix any l := match l with [] => False | f :: l => aholds X hv s f \/ any l end) l
    | AImp a b => aholds X hv s a -> aholds X hv s b
    | ARed lv op args bs body wh =>
        let inside (G : list var) (t : list value) :=
          exists s', agree G s s' /\ aholds M (bs ++ args) s' body /\ t = map s' (args ++ bs) in
        match wh with
        | None =>
            let G := implicit hv args bs body in
            (G = [] \/ exists t, inside G t) /\ A op (length args) (inside G) (map s (map (lvar_of wc) lv))
        | Some (vs, w) =>
            (exists s', agree (bv w) s s' /\ aholds M vs s' w) /\
            A op (length args) (inside (explicit w body)) (map s (map (lvar_of wc) lv))
        end
    | AAll _ _ _ _ _ _ => False
    end.
  (** What a rule adds. *)
  Definition agg_consequence (X : interp) (r : arule) (p : pred) (t : list value) : Prop :=
    exists s a, aholds X (head_vars (ar_head r)) s (ar_body r) /\ In a (fhead_atoms (ar_head r)) /\ p = fst a /\
      have_values (b_env B) s (snd a) t.
  (** *** Conditions *)
  (** The expressions outside of aggregations are regular (FrontSem.v); those of a
      disjunct, if it holds. *)
  Fixpoint exprs_regular (X : interp) (hv : list var) (s : subst) (f : aform) {struct f} : Prop :=
    match f with
    | AAtom _ l | ANeg _ l => forall e, In e l -> regular (b_env B) s e
    | ACons e => forall a, In a (cons_args e) -> regular (b_env B) s a
    | AConj l => (fix all l := match l with [] => True | f :: l => exprs_regular X hv s f /\ all l end) l
    | ADisj l => (fix all l := match l with [] => True | f :: l => (aholds X hv s f -> exprs_regular X hv s f) /\ all l end) l
    | AImp _ _ | ARed _ _ _ _ _ _ | AAll _ _ _ _ _ _ => True
    end.
  (** So are those in aggregations, where their body and where-clause hold. *)
  Fixpoint aggs_regular (f : aform) : Prop :=
    match f with
    | AConj l | ADisj l => (fix all l := match l with [] => True | f :: l => aggs_regular f /\ all l end) l
    | AImp a b => aggs_regular a /\ aggs_regular b
    | ARed _ _ args bs body wh =>
        (forall s, aholds M (bs ++ args) s body -> exprs_regular M (bs ++ args) s body) /\ aggs_regular body /\
        match wh with None => True | Some (vs, w) => (forall s, aholds M vs s w -> exprs_regular M vs s w) /\ aggs_regular w end
    | _ => True
    end.
End Meaning.
(** No conjunction is empty; negated atoms have no wildcards. *)
Fixpoint afull (f : aform) : bool :=
  match f with
  | AConj l => match l with [] => false | _ :: _ => forallb afull l end
  | ADisj l => forallb afull l
  | AImp a b => afull a && afull b
  | ARed _ _ _ _ body wh | AAll _ _ _ _ body wh => afull body && match wh with None => true | Some (_, w) => afull w end
  | _ => true
  end.
Fixpoint aneg_wild_free (f : aform) : bool :=
  match f with
  | ANeg _ l => forallb no_wild l
  | AConj l | ADisj l => forallb aneg_wild_free l
  | AImp a b => aneg_wild_free a && aneg_wild_free b
  | ARed _ _ _ _ body wh | AAll _ _ _ _ body wh => aneg_wild_free body && match wh with None => true | Some (_, w) => aneg_wild_free w end
  | _ => true
  end.
(** Where-clauses share a variable with the body. *)
Fixpoint shared (bv : aform -> list var) (f : aform) : bool :=
  match f with
  | AConj l | ADisj l => forallb (shared bv) l
  | AImp a b => shared bv a && shared bv b
  | ARed _ _ _ _ body wh | AAll _ _ _ _ body wh =>
      shared bv body && match wh with
                        | None => true
                        | Some (_, w) => shared bv w && match explicit bv w body with [] => false | _ :: _ => true end
                        end
  | _ => true
  end.
Fixpoint aform_vars (wc : nat -> var) (f : aform) : list var :=
  match f with
  | AAtom _ l | ANeg _ l => flat_map expr_vars l
  | ACons e => expr_vars e
  | AConj l | ADisj l => flat_map (aform_vars wc) l
  | AImp a b => aform_vars wc a ++ aform_vars wc b
  | ARed lv _ args bs body wh => map (lvar_of wc) lv ++ args ++ bs ++ aform_vars wc body ++ match wh with None => [] | Some (vs, w) => vs ++ aform_vars wc w end
  | AAll _ _ _ bs body wh => bs ++ aform_vars wc body ++ match wh with None => [] | Some (vs, w) => vs ++ aform_vars wc w end
  end.

(** The variables that a formula grounds, by the boundness analysis (C60, C76). *)
Section Grounds.
  Variables (foreign : pred -> bool) (nbound arity : pred -> nat).
  Definition ctx_vars (cs : list jctx) : list var :=
    match rctx_bound foreign nbound arity [] [] cs with Some (Bounded vs) => vs | _ => [] end.
  Definition grounds (f : aform) : list var :=
    match from_aform f with Some cs => ctx_vars cs | None => [] end.
End Grounds.
