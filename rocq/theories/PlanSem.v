(** Specification: the meaning of query plans (Plan.v) and of being limited,
    independent of how plans are built and compiled.  Used by C52 and C53. *)
From Coq Require Import List ZArith Bool Arith.
From Verif Require Import Value Back Eval BackSem Plan.
Import ListNotations.

Definition agree (vs : list var) (s s' : subst) : Prop := forall v, In v vs -> s v = s' v.

Definition con_sat (s : subst) (c : con) : Prop :=
  match c with
  | KBin c a b => cop_sat c (tval s a) (tval s b)
  | KNot a => tval s a = VBool false
  end.
Definition assign_sat (E : renv) (s : subst) (x : var * aexpr) : Prop := aeval E s (snd x) = EOk (s (fst x)).

Section Sem.
  Variable B : benv.
  (** Negation and aggregation are read off [M]. *)
  Variable M : interp.

  (** A plan means a set of assignments of its bounded variables.  Variables
      bounded below a node but not at the node are projected away.  An antijoin
      compares the variables bounded on both sides. *)
  Fixpoint psem (I : interp) (p : plan) (s : subst) {struct p} : Prop :=
    exists s', agree (bvars p) s s' /\
    match p with
    | PUnit _ => True
    | PReduce _ r => b_agg B r (M (a_pred (rd_body r)))
                       (match rd_groupby r with Some a => M (a_pred a) | None => none_rel end) s'
    | PGround _ a => I (a_pred a) (tvals s' (a_args a))
    | PProject _ p l => psem I p s' /\ forall x, In x l -> assign_sat (b_env B) s' x
    | PFilter _ p cs => psem I p s' /\ forall c, In c cs -> con_sat s' c
    | PJoin _ p q => psem I p s' /\ psem I q s'
    | PAnti _ p q => psem I p s' /\
        ~ exists s'', agree (filter (fun v => existsb (Nat.eqb v) (bvars q)) (bvars p)) s' s'' /\ psem M q s''
    | PFpGround _ a => b_fp B (a_pred a) (tvals s' (a_args a))
    | PFpConstr _ p a | PFpJoin _ p a => psem I p s' /\ b_fp B (a_pred a) (tvals s' (a_args a))
    end.
End Sem.

(** Variables of a literal, and those a literal gives values to. *)
Definition lit_vars (l : lit) : list var :=
  match l with
  | LAtom a | LNeg a => avars a
  | LAssign v e => v :: aexpr_vars e
  | LBin _ a b => tvar a ++ tvar b
  | LNot a => tvar a
  | LReduce r => reduce_free r
  | LTrue | LFalse => []
  end.
Section Limited.
  Variable N : penv.
  Definition lit_binds (l : lit) : list var :=
    match l with
    | LAtom a => if pe_foreign N (a_pred a) then flat_map tvar (skipn (pe_bounded N (a_pred a)) (a_args a)) else avars a
    | LAssign v _ => [v]
    | LReduce r => reduce_vars r
    | _ => []
    end.
  (** What a literal needs before it can give values: the bounded arguments of a
      foreign predicate, the operands of an assignment. *)
  Definition lit_needs (l : lit) : list var :=
    match l with
    | LAtom a => if pe_foreign N (a_pred a) then flat_map tvar (firstn (pe_bounded N (a_pred a)) (a_args a)) else []
    | LAssign _ e => aexpr_vars e
    | LNeg a => avars a
    | LBin _ a b => tvar a ++ tvar b
    | LNot a => tvar a
    | _ => []
    end.
  Definition is_new_lit (l : lit) : bool := match l with LAssign _ e => is_new e | _ => false end.
  (** Variables that get finitely many values from the body. *)
  Inductive limited (body : list lit) : var -> Prop :=
  | lim l v : In l body -> is_new_lit l = false -> In v (lit_binds l) ->
      (forall w, In w (lit_needs l) -> limited body w) -> limited body v.
  (** A body is safe when everything it needs is limited; the operands of new
      entities may also be other new entities of the body. *)
  Definition safe (body : list lit) : Prop := forall l v, In l body -> In v (lit_needs l) ->
    limited body v \/ (is_new_lit l = true /\ exists e, In (LAssign v e) body /\ is_new e = true).
End Limited.
