(** Model of aggregations in the front end: /repo/core/src/compiler/front/ast/
    {formula,aggregate}.rs, transformations/{desugar_forall_exists,forall_to_not_exists,
    implies_to_disjunction}.rs, analyzers/boundness/context.rs 163-315 and
    f2b/f2b.rs 315-593.
    Simplifications: an aggregator with its parameters and exclamation mark is one
    number; variables are their names with the types inferred for them and are ordered by
    number instead of by name; attributes and the declarations of the temporary relations
    are left out; the other parts are those of Front.v and Bound.v. *)
From Coq Require Import List ZArith Bool Arith.
From Verif Require Import Value Back Eval Scc Front Bound.
Import ListNotations.

(** ast/formula.rs 137-151 [VariableOrWildcard]; the number of a wildcard is the id of
    its location. *)
Inductive lvar := LV (v : var) | LW (i : nat).
(** ast/formula.rs 5-16 with ast/aggregate.rs [Reduce] (results, operator, arguments,
    bindings, body, where-clause) and [ForallExistsReduce] (the id of its location,
    whether it is negated). *)
Inductive aform :=
| AAtom (p : pred) (l : list expr)
| ANeg (p : pred) (l : list expr)
| ACons (e : expr)
| AConj (l : list aform)
| ADisj (l : list aform)
| AImp (a b : aform)
| ARed (lv : list lvar) (op : nat) (args bs : list var) (body : aform) (wh : option (list var * aform))
| AAll (id : nat) (neg : bool) (op : nat) (bs : list var) (body : aform) (wh : option (list var * aform)).
Record arule := mkArule { ar_head : fhead; ar_body : aform }.

(** ** Quantifiers *)
(** ast/formula.rs 19-43 [negate]: aggregations panic. *)
Fixpoint anegate (f : aform) : option aform :=
  match f with
  | AAtom p l => Some (ANeg p l)
  | ANeg p l => Some (AAtom p l)
  | ADisj l => obnd (oall (map anegate l)) (fun l => Some (AConj l))
  | AConj l => obnd (oall (map anegate l)) (fun l => Some (ADisj l))
  | AImp a b => obnd (anegate b) (fun b => Some (AConj [a; b]))
  | ACons _ | ARed _ _ _ _ _ _ | AAll _ _ _ _ _ _ => None
  end.

Fixpoint asize (f : aform) : nat :=
  match f with
  | AConj l | ADisj l => S (list_sum (map asize l))
  | AImp a b => 4 + asize a + asize b
  | ARed _ _ _ _ b wh => 4 + asize b + match wh with Some (_, g) => asize g | None => 0 end
  | AAll _ _ _ _ b wh => 7 + asize b + match wh with Some (_, g) => asize g | None => 0 end
  | _ => 1
  end.

Section Passes.
  (** The names [r#desugar#i] (desugar_forall_exists.rs 36) and [v#forall#temp]
      (forall_to_not_exists.rs 35); the operator [exists] for an operator [forall]
      (30, 50-55). *)
  Variables (qv : nat -> var) (ft : var -> var) (to_exists : nat -> option nat).

  (** desugar_forall_exists.rs 26-66. *)
  Definition desugar_quant (id : nat) (neg : bool) (op : nat) (bs : list var) (body : aform) (wh : option (list var * aform)) : aform :=
    AConj [ARed [LV (qv id)] op [] bs body wh; ACons (EBin OEq (EVar (qv id)) (EConst (VBool (negb neg))))].
  (** forall_to_not_exists.rs 28-77 [transform_forall] of an aggregation whose body is an
      implication; the outer [None] is the panic of the negation, the inner one the
      formula is kept. *)
  Definition transform_forall (lv : list lvar) (op : nat) (args bs : list var) (body : aform) (wh : option (list var * aform)) : option (option aform) :=
    match to_exists op, lv, body with
    | Some e, [LV b], AImp l r =>
        obnd (anegate r) (fun r => Some (Some (AConj
          [ACons (EBin OEq (EVar b) (EUn UNot (EVar (ft b)))); ARed [LV (ft b)] e args bs (AConj [l; r]) wh])))
    | _, _, _ => Some None
    end.
  (** transform.rs 62-83: at every node the passes run in turn, then the walk goes on to
      the children of the result.  [None]: a panic, or out of fuel; [asize] is enough. *)
  Fixpoint quant_walk (fuel : nat) (f : aform) : option aform :=
    match fuel with
    | 0 => None
    | S k =>
        let where_walk (wh : option (list var * aform)) : option (option (list var * aform)) :=
          match wh with
          | None => Some None
          | Some (vs, g) => obnd (quant_walk k g) (fun g => Some (Some (vs, g)))
          end in
        match f with
        | AAll id neg op bs body wh => quant_walk k (desugar_quant id neg op bs body wh)
        | ARed lv op args bs body wh =>
            obnd (transform_forall lv op args bs body wh) (fun t =>
              match t with
              | Some f' => quant_walk k f'
              | None => obnd (quant_walk k body) (fun body => obnd (where_walk wh) (fun wh => Some (ARed lv op args bs body wh)))
              end)
        | AImp a b => obnd (anegate a) (fun a => obnd (quant_walk k a) (fun a => obnd (quant_walk k b) (fun b => Some (ADisj [a; b]))))
        | AConj l => obnd (oall (map (quant_walk k) l)) (fun l => Some (AConj l))
        | ADisj l => obnd (oall (map (quant_walk k) l)) (fun l => Some (ADisj l))
        | _ => Some f
        end
    end.
  Definition transform_quants (f : aform) : option aform := quant_walk (asize f) f.
End Passes.

(** ** Contexts *)
(** boundness/context.rs 115-120 [ConjunctionContext] and 200-212 [AggregationContext]. *)
Inductive jctx := mkJ (pos neg : list formula) (aggs : list actx)
with actx := mkA (lv : list lvar) (op : nat) (args bs : list var) (body : list jctx) (wh : option (list var * list jctx)).
Definition j_pos (c : jctx) : list formula := match c with mkJ p _ _ => p end.
Definition j_neg (c : jctx) : list formula := match c with mkJ _ n _ => n end.
Definition j_aggs (c : jctx) : list actx := match c with mkJ _ _ a => a end.
(** context.rs 123-129 [join]. *)
Definition jjoin (l : list jctx) : jctx := mkJ (flat_map j_pos l) (flat_map j_neg l) (flat_map j_aggs l).
(** context.rs 56-88 [DisjunctionContext::from_formula] and 239-284
    [AggregationContext::from_reduce]; [None] is the panic on implications and
    quantifiers. *)
Fixpoint from_aform (f : aform) : option (list jctx) :=
  match f with
  | ADisj l => obnd (oall (map from_aform l)) (fun cs => Some (concat cs))
  | AConj l => obnd (oall (map from_aform l)) (fun cs => Some (map jjoin (multi_product cs)))
  | AAtom p l => Some [mkJ [FAtom p l] [] []]
  | ANeg p l => Some [mkJ [] [FNeg p l] []]
  | ACons e => Some [mkJ [FCons e] [] []]
  | ARed lv op args bs body wh =>
      obnd (from_aform body) (fun b =>
        obnd (match wh with
              | None => Some None
              | Some (vs, g) => obnd (from_aform g) (fun g => Some (Some (vs, g)))
              end) (fun wh => Some [mkJ [] [] [mkA lv op args bs b wh]]))
  | AImp _ _ | AAll _ _ _ _ _ _ => None
  end.

(** ** Boundness *)
Definition lvars (l : list lvar) : list var := flat_map (fun x => match x with LV v => [v] | LW _ => [] end) l.
Section Bound.
  Variables (foreign : pred -> bool) (nbound arity : pred -> nat).
  (** context.rs 163-198 with local.rs 58-69: the locations of variables that the
      aggregations bind are bound from the start. *)
  Definition pos_bound (pos : list formula) (init : list var) (bexprs : list expr) : option answer :=
    let '(x, ls, n) := conj_context foreign nbound arity (mkConj pos []) bexprs in
    match bound_fix (S (S n)) x (fold_left add (flat_map (locs_of (lc_vars x)) init) (fold_left add ls [])) with
    | None => None
    | Some s => Some (if forallb (fun v => forallb (has s) (locs_of (lc_vars x) v)) (variables x) && forallb (has s) (lc_cons x)
                      then Bounded (nodup Nat.eq_dec (init ++ variables x)) else Unbound)
    end.
  Fixpoint answers (l : list (option answer)) : option (list answer) :=
    match l with [] => Some [] | a :: l => obnd a (fun a => obnd (answers l) (fun l => Some (a :: l))) end.
  (** The variables that all of the aggregations of a conjunction bind. *)
  Definition union (a b : answer) : answer :=
    match a, b with Bounded x, Bounded y => Bounded (x ++ y) | _, _ => Unbound end.
  (** A conjunction whose aggregations are known: its formulas and their variables. *)
  Definition kconj := (list formula * answer)%type.
  Definition kconj_bound (bexprs : list expr) (k : kconj) : option answer :=
    match snd k with Bounded init => pos_bound (fst k) init bexprs | Unbound => Some Unbound end.
  (** context.rs 90-111 and 34-47: with the variables of the head. *)
  Definition ctx_bound (bexprs : list expr) (hv : list var) (ks : list kconj) : option answer :=
    obnd (answers (map (kconj_bound bexprs) ks)) (fun l =>
      Some (match (match l with [] => Bounded [] | a :: r => fold_left meet r a end) with
            | Bounded vs => if forallb (fun v => memb v vs) hv then Bounded vs else Unbound
            | Unbound => Unbound
            end)).
  Definition kjoin (l : list kconj) : kconj := (flat_map fst l, fold_left union (map snd l) (Bounded [])).
  (** context.rs 286-325 [AggregationContext::compute_boundness], of an aggregation whose
      conjunctions are known. *)
  Definition known_bound (bexprs : list expr) (lv : list lvar) (args bs : list var) (body : list kconj) (wh : option (list var * list kconj)) : option answer :=
    obnd (match wh with None => Some (Bounded []) | Some (vs, g) => ctx_bound bexprs vs g end) (fun w =>
      obnd (ctx_bound bexprs (bs ++ args) (match wh with None => body | Some (_, g) => map kjoin (multi_product [body; g]) end)) (fun j =>
        Some (match w, j with
              | Bounded _, Bounded vs =>
                  let vs := filter (fun v => negb (memb v bs)) vs in
                  if forallb (fun v => memb v vs) args then Bounded (vs ++ lvars lv ++ args) else Unbound
              | _, _ => Unbound
              end))).
  Fixpoint agg_bound (bexprs : list expr) (a : actx) : option answer :=
    match a with
    | mkA lv op args bs body wh =>
        let known := fix known (l : list jctx) : option (list kconj) :=
          match l with
          | [] => Some []
          | c :: l => obnd (conj_known bexprs c) (fun k => obnd (known l) (fun l => Some (k :: l)))
          end in
        obnd (known body) (fun body =>
          obnd (match wh with None => Some None | Some (vs, g) => obnd (known g) (fun g => Some (Some (vs, g))) end) (fun wh =>
            known_bound bexprs lv args bs body wh))
    end
  with conj_known (bexprs : list expr) (c : jctx) : option kconj :=
    match c with
    | mkJ pos _ aggs =>
        obnd ((fix all (l : list actx) : option answer :=
                 match l with
                 | [] => Some (Bounded [])
                 | a :: l => obnd (agg_bound bexprs a) (fun a => obnd (all l) (fun r => Some (union a r)))
                 end) aggs) (fun a => Some (pos, a))
    end.
  Definition conjs_known (bexprs : list expr) (l : list jctx) : option (list kconj) := oall (map (conj_known bexprs) l).
  (** context.rs 34-47 [RuleContext::compute_boundness]. *)
  Definition rctx_bound (bexprs : list expr) (hv : list var) (cs : list jctx) : option answer :=
    obnd (conjs_known bexprs cs) (ctx_bound bexprs hv).
  Definition arule_bound (pattern : pred -> option (list bool)) (r : arule) : option bool :=
    obnd (from_aform (ar_body r)) (fun cs =>
      obnd (rctx_bound (demanded pattern (ar_head r)) (ehead_vars (ar_head r)) cs) (fun a =>
        Some (match a with Bounded _ => true | Unbound => false end))).

  (** ** Translation *)
  (** The elements of a [BTreeSet]. *)
  Fixpoint vinsert (v : var) (l : list var) : list var :=
    match l with
    | [] => [v]
    | w :: r => if Nat.eqb v w then l else if Nat.ltb v w then v :: l else w :: vinsert v r
    end.
  Definition vset (l : list var) : list var := fold_right vinsert [] l.
  (** The path to a temporary relation: the conjunction, the aggregation, and whether it
      is the body or the where-clause (f2b.rs 336-342, 420, 482); the name of the relation
      is the name of the rule and the path in one string. *)
  Definition path := list (nat * nat * bool).
  (** [wc]: the variable for a wildcard (f2b.rs 500). *)
  Variables (fr wc : nat -> var) (nm : path -> pred).

  (** f2b.rs 440-477: the group-by variables, the other variables of the where-clause and
      its atom. *)
  Definition implicit_vars (hv : list var) (args bs body : list var) : list var :=
    vset (filter (fun v => memb v hv && negb (memb v bs) && negb (memb v args)) body).
  Definition joined_vars (wh body : list var) : list var := vset (filter (fun v => memb v body) wh).
  Definition other_vars (wh body : list var) : list var := vset (filter (fun v => negb (memb v body)) wh).
  Definition lvar_of (l : lvar) : var := match l with LV v => v | LW i => wc i end.
  Definition var_atom (p : pred) (vs : list var) : atom := mkAtom p (map TVar vs).
  Definition bounded_vars (a : option answer) : option (list var) :=
    match a with Some (Bounded vs) => Some vs | _ => None end.

  (** f2b.rs 380-593 [reduce_to_back_literal]: the aggregation, the rules of its temporary
      relations, the next number.  [None] is a panic: the boundness is computed again
      without the demanded expressions, and unwrapped (390-398). *)
  Fixpoint lower_agg (a : actx) (pi : path) (ci ai : nat) (hv : list var) (n : nat) {struct a} : option (reduce * list rule * nat) :=
    match a with
    | mkA lv op args bs body wh =>
        let conjs := fix conjs (l : list jctx) (pi : path) (hv : list var) (h : head) (ci n : nat) : option (list rule * list rule * nat) :=
          match l with
          | [] => Some ([], [], n)
          | c :: l =>
              obnd (lower_conj c pi ci hv h [] n) (fun x => let '(r, ts, n1) := x in
                obnd (conjs l pi hv h (S ci) n1) (fun y => let '(rs, us, n2) := y in Some (r :: rs, ts ++ us, n2)))
          end in
        obnd (bounded_vars (rctx_bound [] (bs ++ args) body)) (fun bv =>
          obnd (match wh with
                | None => Some (implicit_vars hv args bs bv, [], None, [], n)
                | Some (vs, g) =>
                    obnd (bounded_vars (rctx_bound [] vs g)) (fun gv =>
                      let j := joined_vars gv bv in
                      let o := other_vars gv bv in
                      let p := (ci, ai, false) :: pi in
                      obnd (conjs g p vs (HAtom (var_atom (nm p) (j ++ o))) 0 n) (fun y => let '(rs, us, n1) := y in
                        Some (j, o, Some (var_atom (nm p) (j ++ o)), rs ++ us, n1)))
                end) (fun x => let '(j, o, ga, ts, n1) := x in
            let p := (ci, ai, true) :: pi in
            obnd (conjs body p (bs ++ args) (HAtom (var_atom (nm p) (j ++ args ++ bs))) 0 n1) (fun y => let '(rs, us, n2) := y in
              Some (mkReduce op (map lvar_of lv) j o args bs (var_atom (nm p) (j ++ args ++ bs)) ga, ts ++ rs ++ us, n2))))
    end
  (** f2b.rs 315-378 [formula_to_back_rules], for one conjunction: the rule and the
      temporary rules. *)
  with lower_conj (c : jctx) (pi : path) (ci : nat) (hv : list var) (h : head) (extra : list lit) (n : nat) {struct c} : option (rule * list rule * nat) :=
    match c with
    | mkJ pos neg aggs =>
        obnd ((fix all (l : list actx) (ai n : nat) : option (list lit * list rule * nat) :=
                 match l with
                 | [] => Some ([], [], n)
                 | a :: l =>
                     obnd (lower_agg a pi ci ai hv n) (fun x => let '(r, ts, n1) := x in
                       obnd (all l (S ai) n1) (fun y => let '(ls, us, n2) := y in Some (LReduce r :: ls, ts ++ us, n2)))
                 end) aggs 0 n) (fun x => let '(reds, ts, n1) := x in
          obnd (flat_lits fr pos n1) (fun x => obnd (flat_lits fr neg (snd x)) (fun y =>
            Some (mkRule h (fst x ++ fst y ++ reds ++ extra), ts, snd y))))
    end.
  Definition lower_conjs (extra : list lit) : list jctx -> path -> list var -> head -> nat -> nat -> option (list rule * list rule * nat) :=
    fix conjs (l : list jctx) (pi : path) (hv : list var) (h : head) (ci n : nat) : option (list rule * list rule * nat) :=
      match l with
      | [] => Some ([], [], n)
      | c :: l =>
          obnd (lower_conj c pi ci hv h extra n) (fun x => let '(r, ts, n1) := x in
            obnd (conjs l pi hv h (S ci) n1) (fun y => let '(rs, us, n2) := y in Some (r :: rs, ts ++ us, n2)))
      end.
  (** f2b.rs 197-313 [rule_decl_to_back_rules]: the rules for the head and the temporary
      rules. *)
  Definition lower_rule (r : arule) : option (list rule * list rule) :=
    obnd (from_aform (ar_body r)) (fun cs =>
      obnd (flat_head fr (ar_head r)) (fun x => let '(h, extra, n) := x in
        obnd (lower_conjs extra cs [] (ehead_vars (ar_head r)) h 0 n) (fun y => let '(rs, us, _) := y in Some (rs, us)))).
End Bound.

(** f2b.rs 16-54 [to_back_program], 186-195 [to_back_rules], for programs with
    aggregations; [nm i] are the names of the temporary relations of the rule [i].
    Simplifications: as in FrontProg.v; the temporary relations are not declared. *)
Record aprogram := mkAprog {
  ap_rels : list brel; ap_outputs : list pred; ap_facts : list fact;
  ap_rules : list arule; ap_reg : registry }.
Section Program.
  Variables (nbound arity : pred -> nat) (fr wc : nat -> var) (nm : nat -> path -> pred).
  Fixpoint lower_rules (foreign : pred -> bool) (i : nat) (l : list arule) : option (list rule) :=
    match l with
    | [] => Some []
    | r :: l =>
        obnd (lower_rule foreign nbound arity fr wc (nm i) r) (fun x =>
          obnd (lower_rules foreign (S i) l) (fun rs => Some ((fst x ++ snd x) ++ rs)))
    end.
  Definition compile_agg (F : aprogram) : option program :=
    obnd (lower_rules (g_foreign (ap_reg F)) 0 (ap_rules F)) (fun rs =>
      Some (mkProg (ap_rels F) (ap_outputs F) (ap_facts F) rs (ap_reg F))).
End Program.
