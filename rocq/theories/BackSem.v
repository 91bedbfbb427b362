(** Specification: the meaning of back-IR programs (Back.v), independent of the
    compiler and of the engine.  Literals are satisfied by total substitutions;
    a model is stable when it is exactly what the rules derive from it, negation
    and aggregation being read off the model.  Used by C27-C29 and C38. *)
From Coq Require Import List ZArith Bool Arith Lia.
From Verif Require Import Value Back Eval.
Import ListNotations.

Definition subst := var -> value.
Definition tval (s : subst) (t : term) : value :=
  match t with TVar v => s v | TConst c => c end.
Definition tvals (s : subst) (l : list term) : list value := map (tval s) l.

(** Comparisons: equality is equality of values; the order is that of the
    values and only relates comparable ones. *)
Definition cop_sat (c : cop) (v w : value) : Prop :=
  match c with
  | CEq => v = w
  | CNeq => v <> w
  | CLt => same_variant v w = true /\ lt_able v = true /\ vcmp v w = Lt
  | CLeq => same_variant v w = true /\ lt_able v = true /\ vcmp v w <> Gt
  | CGt => same_variant v w = true /\ lt_able v = true /\ vcmp v w = Gt
  | CGeq => same_variant v w = true /\ lt_able v = true /\ vcmp v w <> Lt
  end.

(** The value of the right-hand side of an assignment. *)
Definition aeval (E : renv) (s : subst) (e : aexpr) : ev value :=
  match e with
  | ABin op a b => bin_value E op (tval s a) (tval s b)
  | AUn op a => un_value E op (tval s a)
  | AIte c a b => match tval s c with
                  | VBool true => EOk (tval s a)
                  | VBool false => EOk (tval s b)
                  | _ => EPanic end
  | ACall f l => e_call E f (tvals s l)
  | ANew f l => EOk (VEntity (e_entity E f (tvals s l)))
  end.

Definition rel := list value -> Prop.
Definition interp := pred -> rel.

(** What rules take from outside: values of expressions, foreign predicates,
    aggregators (a relation between the aggregated relation, the group-by
    relation and a substitution, depending only on which tuples the relations
    contain and on the variables of the aggregation), and the entity facts that
    foreign functions and predicates create. *)
Definition reduce_free (r : reduce) : list var := reduce_vars r ++ rd_other r.
Record benv := mkBenv {
  b_env : renv;
  b_fp : pred -> rel;
  b_agg : reduce -> rel -> rel -> subst -> Prop;
  b_agg_ext : forall r A A' B B' s, (forall t, A t <-> A' t) -> (forall t, B t <-> B' t) ->
    b_agg r A B s -> b_agg r A' B' s;
  b_agg_local : forall r A B s s', (forall v, In v (reduce_free r) -> s v = s' v) ->
    b_agg r A B s -> b_agg r A B s';
  b_fn_ents : nat -> list value -> pred -> rel;
  b_fp_ents : pred -> list value -> pred -> rel }.

Definition none_rel : rel := fun _ => False.

(** Literals other than positive atoms of relations. *)
Definition other_sat (B : benv) (g : registry) (M : interp) (s : subst) (l : lit) : Prop :=
  match l with
  | LAtom a => g_foreign g (a_pred a) = true -> b_fp B (a_pred a) (tvals s (a_args a))
  | LNeg a => if g_foreign g (a_pred a) then ~ b_fp B (a_pred a) (tvals s (a_args a))
              else ~ M (a_pred a) (tvals s (a_args a))
  | LAssign v e => aeval (b_env B) s e = EOk (s v)
  | LBin c a b => cop_sat c (tval s a) (tval s b)
  | LNot t => tval s t = VBool false
  | LReduce r => b_agg B r (M (a_pred (rd_body r)))
                   (match rd_groupby r with Some a => M (a_pred a) | None => none_rel end) s
  | LTrue => True
  | LFalse => False
  end.

(** What a rule with a satisfied body yields: its head atoms, the facts of the
    entities it builds, the facts of entities created by foreign code. *)
Inductive yields (B : benv) (g : registry) (r : rule) (s : subst) : pred -> list value -> Prop :=
| y_head a : In a (head_atoms (r_head r)) -> yields B g r s (a_pred a) (tvals s (a_args a))
| y_new v f l : In (LAssign v (ANew f l)) (r_body r) ->
    yields B g r s f (VEntity (e_entity (b_env B) f (tvals s l)) :: tvals s l)
| y_call v f l q t : In (LAssign v (ACall f l)) (r_body r) -> g_fn_entity g f = true ->
    In q (g_adts g) -> b_fn_ents B f (tvals s l) q t -> yields B g r s q t
| y_fp a q t : In (LAtom a) (r_body r) -> g_foreign g (a_pred a) = true -> g_fp_entity g (a_pred a) = true ->
    In q (g_adts g) -> b_fp_ents B (a_pred a) (tvals s (a_args a)) q t -> yields B g r s q t.

(** Least fixpoint of the rules with negation and aggregation read off [M]. *)
Inductive der (B : benv) (P : program) (M : interp) : pred -> list value -> Prop :=
| der_fact f : In f (p_facts P) -> der B P M (f_pred f) (f_args f)
| der_rule r s p t : In r (p_rules P) ->
    (forall a, In (LAtom a) (r_body r) -> g_foreign (p_reg P) (a_pred a) = false ->
       der B P M (a_pred a) (tvals s (a_args a))) ->
    (forall l, In l (r_body r) -> other_sat B (p_reg P) M s l) ->
    yields B (p_reg P) r s p t -> der B P M p t.

Definition stable (B : benv) (P : program) (M : interp) : Prop :=
  forall p t, M p t <-> der B P M p t.

(** One application of a rule: positive atoms are read off [X], negation and
    aggregation off [M]. *)
Definition lit_sat (B : benv) (g : registry) (X M : interp) (s : subst) (l : lit) : Prop :=
  match l with
  | LAtom a => if g_foreign g (a_pred a) then b_fp B (a_pred a) (tvals s (a_args a))
               else X (a_pred a) (tvals s (a_args a))
  | _ => other_sat B g M s l
  end.
Definition body_sat (B : benv) (g : registry) (X M : interp) (s : subst) (body : list lit) : Prop :=
  forall l, In l body -> lit_sat B g X M s l.
Definition consequence (B : benv) (g : registry) (X M : interp) (r : rule) (p : pred) (t : list value) : Prop :=
  exists s, body_sat B g X M s (r_body r) /\ yields B g r s p t.
(** The head facts only. *)
Definition head_consequence (B : benv) (g : registry) (X M : interp) (r : rule) (p : pred) (t : list value) : Prop :=
  exists s a, body_sat B g X M s (r_body r) /\ In a (head_atoms (r_head r)) /\
    p = a_pred a /\ t = tvals s (a_args a).
