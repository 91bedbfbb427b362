(** Specification: the meaning of front-end expressions, formulas and rules
    (Front.v), independent of the passes that compile them.  Used by C58-C60. *)
From Coq Require Import List ZArith Bool Arith.
From Verif Require Import Value Back Eval BackSem Front.
Import ListNotations.

(** The values that an expression may have: wildcards may have any; only the
    branch that is taken of an if-then-else needs to have a value. *)
Fixpoint has_value (E : renv) (s : subst) (e : expr) (r : value) : Prop :=
  match e with
  | EVar v => r = s v
  | EWild => True
  | EConst c => r = c
  | EBin op a b => exists x y, has_value E s a x /\ has_value E s b y /\ bin_value E op x y = EOk r
  | EUn op a => exists x, has_value E s a x /\ un_value E op x = EOk r
  | EIte c a b => (has_value E s c (VBool true) /\ has_value E s a r) \/ (has_value E s c (VBool false) /\ has_value E s b r)
  | ECall f l => exists vs, (fix go l vs := match l, vs with
                                            | [], [] => True
                                            | e :: l, v :: vs => has_value E s e v /\ go l vs
                                            | _, _ => False end) l vs /\ e_call E f vs = EOk r
  | ENew f l => exists vs, (fix go l vs := match l, vs with
                                           | [], [] => True
                                           | e :: l, v :: vs => has_value E s e v /\ go l vs
                                           | _, _ => False end) l vs /\ r = VEntity (e_entity E f vs)
  end.
Definition have_values (E : renv) (s : subst) : list expr -> list value -> Prop := Forall2 (has_value E s).

(** The arguments of a negated atom: a wildcard stands for all values. *)
Definition arg_pattern (E : renv) (s : subst) (e : expr) (w : option value) : Prop :=
  match w with Some v => e <> EWild /\ has_value E s e v | None => e = EWild end.
Definition fits (ws : list (option value)) (vs : list value) : Prop :=
  Forall2 (fun w v => match w with Some x => v = x | None => True end) ws vs.

(** A constraint is an expression that has the value true. *)
Definition constraint_holds (E : renv) (s : subst) (e : expr) : Prop :=
  match e with
  | EBin op a b => match cop_of op with
                   | Some c => exists x y, has_value E s a x /\ has_value E s b y /\ cop_sat c x y
                   | None => has_value E s e (VBool true)
                   end
  | EUn UNot a => has_value E s a (VBool false)
  | _ => has_value E s e (VBool true)
  end.

Section Formulas.
  (** The relations that positive atoms and negated atoms are read off. *)
  Variables (B : benv) (g : registry) (X M : interp).
  Definition tuples (R : interp) (p : pred) (vs : list value) : Prop := if g_foreign g p then b_fp B p vs else R p vs.
  Fixpoint fholds (s : subst) (f : formula) : Prop :=
    match f with
    | FAtom p l => exists vs, have_values (b_env B) s l vs /\ tuples X p vs
    | FNeg p l => exists ws, Forall2 (arg_pattern (b_env B) s) l ws /\ forall vs, fits ws vs -> ~ tuples M p vs
    | FCons e => constraint_holds (b_env B) s e
    | FConj l => (fix all l := match l with [] => True | f :: l => fholds s f /\ all l end) l
    | FDisj l => (fix any l := match l with [] => False | f :: l => fholds s f \/ any l end) l
    | FImp a b => fholds s a -> fholds s b
    end.
  (** What a rule adds: its head atoms for every substitution that satisfies the
      body. *)
  Definition fhead_atoms (h : fhead) : list fatom :=
    match h with FHAtom a => [a] | FHConj l => l | FHDisj a l => a :: l end.
  Definition front_consequence (r : frule) (p : pred) (t : list value) : Prop :=
    exists s a, fholds s (fr_body r) /\ In a (fhead_atoms (fr_head r)) /\ p = fst a /\ have_values (b_env B) s (snd a) t.
End Formulas.

(** ** Conditions *)
Fixpoint expr_vars (e : expr) : list var :=
  match e with
  | EVar v => [v]
  | EWild | EConst _ => []
  | EBin _ a b => expr_vars a ++ expr_vars b
  | EUn _ a => expr_vars a
  | EIte c a b => expr_vars c ++ expr_vars a ++ expr_vars b
  | ECall _ l | ENew _ l => flat_map expr_vars l
  end.
Fixpoint form_vars (f : formula) : list var :=
  match f with
  | FAtom _ l | FNeg _ l => flat_map expr_vars l
  | FCons e => expr_vars e
  | FConj l | FDisj l => flat_map form_vars l
  | FImp a b => form_vars a ++ form_vars b
  end.
Fixpoint no_wild (e : expr) : bool :=
  match e with
  | EVar _ | EConst _ => true
  | EWild => false
  | EBin _ a b => no_wild a && no_wild b
  | EUn _ a => no_wild a
  | EIte c a b => no_wild c && no_wild a && no_wild b
  | ECall _ l | ENew _ l => forallb no_wild l
  end.
(** Wildcards are arguments (analyzers/invalid_wildcard.rs rejects the others,
    apart from those in calls). *)
Definition arg_ok (e : expr) : bool := match e with EWild => true | _ => no_wild e end.
Fixpoint wild_ok (f : formula) : bool :=
  match f with
  | FAtom _ l | FNeg _ l => forallb arg_ok l
  | FCons e => no_wild e
  | FConj l | FDisj l => forallb wild_ok l
  | FImp a b => wild_ok a && wild_ok b
  end.
(** No conjunction is empty. *)
Fixpoint full (f : formula) : bool :=
  match f with
  | FConj l => match l with [] => false | _ :: _ => forallb full l end
  | FDisj l => forallb full l
  | FImp a b => full a && full b
  | _ => true
  end.
(** Negated atoms have no wildcards. *)
Fixpoint neg_wild_free (f : formula) : bool :=
  match f with
  | FNeg _ l => forallb no_wild l
  | FConj l | FDisj l => forallb neg_wild_free l
  | FImp a b => neg_wild_free a && neg_wild_free b
  | _ => true
  end.
(** Constraints are not negated: they are not in the premise of an implication. *)
Fixpoint cons_ok (pos : bool) (f : formula) : bool :=
  match f with
  | FCons _ => pos
  | FAtom _ _ | FNeg _ _ => true
  | FConj l | FDisj l => forallb (cons_ok pos) l
  | FImp a b => cons_ok (negb pos) a && cons_ok pos b
  end.
Fixpoint imp_free (f : formula) : bool :=
  match f with
  | FConj l | FDisj l => forallb imp_free l
  | FImp _ _ => false
  | _ => true
  end.
(** The arguments of atoms have values. *)
Fixpoint args_evaluate (E : renv) (s : subst) (f : formula) : Prop :=
  match f with
  | FAtom _ l | FNeg _ l => forall e, In e l -> exists v, has_value E s e v
  | FCons _ => True
  | FConj l | FDisj l => (fix all l := match l with [] => True | f :: l => args_evaluate E s f /\ all l end) l
  | FImp a b => args_evaluate E s a /\ args_evaluate E s b
  end.
(** Whether a relation has a tuple that fits is decided. *)
Definition decided (B : benv) (g : registry) (D : interp) : Prop :=
  forall p ws, (exists vs, fits ws vs /\ tuples B g D p vs) \/ ~ exists vs, fits ws vs /\ tuples B g D p vs.

(** ** Conditions for flattening *)
(** A sum or difference of integers that does not saturate. *)
Definition in_range (k : ikind) (z : Z) : Prop := (imin k <= z <= imax k)%Z.
Definition exact_at (E : renv) (s : subst) (op : binop) (a b : expr) : Prop :=
  forall x y, has_value E s a x -> has_value E s b y ->
    exists k i j, x = of_int k i /\ y = of_int k j /\ in_range k i /\ in_range k j /\
      match op with OAdd => in_range k (i + j) | _ => in_range k (i - j) end.
Definition exact (E : renv) (s : subst) (op : binop) (a b : expr) : Prop :=
  match op with
  | OAdd => exact_at E s op a b
  | OSub => (exists c, b = EConst c) /\ exact_at E s op a b
  | _ => True
  end.
(** An expression all of whose parts have values, even the branches that are not
    taken; nothing saturates, and only constants are subtracted. *)
Fixpoint regular (E : renv) (s : subst) (e : expr) : Prop :=
  (exists r, has_value E s e r) /\
  match e with
  | EVar _ | EWild | EConst _ => True
  | EBin op a b => regular E s a /\ regular E s b /\ exact E s op a b
  | EUn _ a => regular E s a
  | EIte c a b => regular E s c /\ regular E s a /\ regular E s b
  | ECall _ l | ENew _ l => (fix all l := match l with [] => True | e :: l => regular E s e /\ all l end) l
  end.
(** The same for the expressions of a formula; of a disjunction only the parts
    that hold need be regular. *)
Definition cons_args (e : expr) : list expr :=
  match e with EBin _ a b => [a; b] | EUn _ a => [a] | _ => [] end.
Fixpoint form_regular (B : benv) (g : registry) (X M : interp) (s : subst) (f : formula) : Prop :=
  match f with
  | FAtom _ l | FNeg _ l => forall e, In e l -> regular (b_env B) s e
  | FCons e => forall a, In a (cons_args e) -> regular (b_env B) s a
  | FConj l => (fix all l := match l with [] => True | f :: l => form_regular B g X M s f /\ all l end) l
  | FDisj l => (fix all l := match l with [] => True | f :: l => (fholds B g X M s f -> form_regular B g X M s f) /\ all l end) l
  | FImp a b => form_regular B g X M s a /\ form_regular B g X M s b
  end.
(** The constraints that the language has: comparisons and negations. *)
Definition is_constraint (e : expr) : bool :=
  match e with
  | EBin op _ _ => match op with OEq | ONeq | OLt | OLeq | OGt | OGeq => true | _ => false end
  | EUn UNot _ => true
  | _ => false
  end.
Fixpoint constraints_ok (f : formula) : bool :=
  match f with
  | FCons e => is_constraint e
  | FConj l | FDisj l => forallb constraints_ok l
  | FImp a b => constraints_ok a && constraints_ok b
  | _ => true
  end.
Definition head_vars (h : fhead) : list var := flat_map (fun a => flat_map expr_vars (snd a)) (fhead_atoms h).
