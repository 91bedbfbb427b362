(** Model of the demand transformation (magic sets),
    /repo/core/src/compiler/back/optimizations/demand_transform.rs.
    Sets of variables are lists without duplicates; the hash map of adornments is an
    association list in the order of the relations (lookups go by name, and the order
    in which the demand relations are declared does not matter later on). *)
From Coq Require Import List Bool Arith String Ascii.
From Verif Require Import Value Back Eval Scc Optimize.
Import ListNotations.

(** Lines 309-341, 378-380 [Boundness], [Pattern]: a list of booleans, true is bound. *)
Definition pattern := list bool.
Fixpoint pattern_of (s : string) : option pattern :=
  match s with
  | EmptyString => Some []
  | String c s => obnd (pattern_of s) (fun p =>
      if Ascii.eqb c "b" then Some (true :: p) else if Ascii.eqb c "f" then Some (false :: p) else None)
  end.
(** Lines 353-359 [get_bounded_args]: [zip] and [filter_map]. *)
Fixpoint pick {A} (pat : pattern) (l : list A) : list A :=
  match l, pat with
  | a :: l, b :: pat => if b then a :: pick pat l else pick pat l
  | _, _ => []
  end.
(** Lines 361-376 [get_bounded_vars]. *)
Definition pick_vars (pat : pattern) (l : list term) : list var := flat_map tvar (pick pat l).

(** Lines 383-422 [Adornment]; the type list is dropped. *)
Record adornment := mkAdorn { ad_pattern : pattern; ad_pred : pred }.
Definition adornments := list (pred * adornment).

(** Lines 37-50 and 393-412.  [attr] is the demand attribute of a relation, [arity]
    the number of its arguments, [dname] the name made from the relation and the
    pattern.  [None] is an error (invalid pattern, arity mismatch). *)
Fixpoint collect_adornments (attr : pred -> option string) (arity : pred -> nat) (dname : pred -> pattern -> pred)
    (rels : list brel) : option adornments :=
  match rels with
  | [] => Some []
  | b :: rels =>
      match attr (b_pred b) with
      | None => collect_adornments attr arity dname rels
      | Some s =>
          obnd (pattern_of s) (fun p =>
            if Nat.eqb (arity (b_pred b)) (List.length p) then
              obnd (collect_adornments attr arity dname rels) (fun l =>
                Some ((b_pred b, mkAdorn p (dname (b_pred b) p)) :: l))
            else None)
      end
  end.

(** Lines 84-98; a disjunctive head panics ([None]). *)
Definition transform_on_demand_rule (r : rule) (a : adornment) : option rule :=
  match r_head r with
  | HAtom h => Some (mkRule (r_head r) (r_body r ++ [LAtom (mkAtom (ad_pred a) (pick (ad_pattern a) (a_args h)))]))
  | HDisj _ _ => None
  end.
(** Lines 100-106. *)
Definition contains_on_demand (ads : adornments) (r : rule) : bool :=
  existsb (fun l => match l with
    | LAtom a | LNeg a => match lookup (a_pred a) ads with Some _ => true | None => false end
    | _ => false
    end) (r_body r).

(** Lines 471-476 [OnDemandAtom]. *)
Record odatom := mkOd { od_atom : atom; od_adorn : adornment; od_vars : list var }.
(** Lines 113-144: the literals that are not on demand, and the atoms that are,
    negated or not. *)
Definition base_of (ads : adornments) (body : list lit) : list lit :=
  filter (fun l => match l with
    | LAtom a | LNeg a => match lookup (a_pred a) ads with Some _ => false | None => true end
    | _ => true
    end) body.
Definition to_ground_of (ads : adornments) (body : list lit) : list odatom :=
  flat_map (fun l => match l with
    | LAtom a | LNeg a => match lookup (a_pred a) ads with
        | Some ad => [mkOd a ad (pick_vars (ad_pattern ad) (a_args a))] | None => [] end
    | _ => []
    end) body.

(** Lines 236-273 [compute_grounded_variables]: a round of the loop sees the set of
    the round before; the set only grows, so it is compared by size. *)
Definition ground_round (base : list lit) (g : list var) : list var :=
  extend (flat_map (fun l => match l with
    | LAssign v e => if forallb (fun w => memb w g) (aexpr_vars e) then [v] else []
    | _ => [] end) base) g.
Fixpoint ground_loop (fuel : nat) (base : list lit) (g : list var) : option (list var) :=
  match fuel with
  | 0 => None
  | S f => let g' := ground_round base g in
           if Nat.eqb (List.length g') (List.length g) then Some g else ground_loop f base g'
  end.
Definition atom_vars_of (l : lit) : list var := match l with LAtom a => flat_map tvar (a_args a) | _ => [] end.
Definition grounded (base : list lit) : option (list var) :=
  ground_loop (S (List.length base)) base (extend (flat_map atom_vars_of base) []).

(** Lines 465-469 [Arc]. *)
Record darc := mkArc { arc_lhs : list lit; arc_rhs : list odatom }.
(** Lines 187-234 [generate_sips_with_max_num_atoms_per_layer]; the inner [None] is
    the failure, the outer one is exhausted fuel.  All atoms that have been grounded,
    also the negated ones, join the base as positive atoms (line 227). *)
Fixpoint sips_loop (fuel : nat) (base : list lit) (todo : list odatom) : option (option (list darc)) :=
  match fuel with
  | 0 => None
  | S f =>
      obnd (grounded base) (fun g =>
        let ok o := forallb (fun v => memb v g) (od_vars o) in
        let now := filter ok todo in
        let later := filter (fun o => negb (ok o)) todo in
        let arc := mkArc base now in
        match later, now with
        | [], _ => Some (Some [arc])
        | _, [] => Some None
        | _, _ => obnd (sips_loop f (base ++ map (fun o => LAtom (od_atom o)) now) later) (fun r =>
                    Some (match r with Some arcs => Some (arc :: arcs) | None => None end))
        end)
  end.
Definition generate_sips (base : list lit) (todo : list odatom) : option (option (list darc)) :=
  sips_loop (S (List.length todo)) base todo.

(** Lines 275-307. *)
Definition remove_ungrounded (base : list lit) : option (list lit) :=
  obnd (grounded base) (fun g => Some (filter (fun l => match l with
    | LAssign _ e => forallb (fun v => memb v g) (aexpr_vars e)
    | LBin _ a b => forallb (fun v => memb v g) (tvar a ++ tvar b)
    | LNot t => forallb (fun v => memb v g) (tvar t)
    | _ => true
    end) base)).
Definition is_identity (base : list lit) (goal : atom) : bool :=
  match base with [LAtom a] => if atom_eq_dec a goal then true else false | _ => false end.
(** Lines 167-179. *)
Definition demand_rule (base : list lit) (o : odatom) : option (list rule) :=
  obnd (remove_ungrounded base) (fun base =>
    if is_identity base (od_atom o) then Some []
    else Some [mkRule (HAtom (mkAtom (ad_pred (od_adorn o)) (pick (ad_pattern (od_adorn o)) (a_args (od_atom o))))) base]).
Definition arc_rules (a : darc) : option (list rule) :=
  obnd (omap (demand_rule (arc_lhs a)) (arc_rhs a)) (fun l => Some (List.concat l)).
(** Lines 108-165. *)
Definition generate_demand_rules (ads : adornments) (r : rule) : option (list rule) :=
  obnd (generate_sips (base_of ads (r_body r)) (to_ground_of ads (r_body r))) (fun arcs =>
    match arcs with
    | Some arcs => obnd (omap arc_rules arcs) (fun l => Some (List.concat l))
    | None => Some []
    end).

(** Lines 52-82: the transformed rules, the demand rules, the other rules. *)
Definition demand_of (ads : adornments) (r : rule) : option (list rule) :=
  if contains_on_demand ads r then generate_demand_rules ads r else Some [].
Fixpoint transform_rules (ads : adornments) (rs : list rule) : option (list rule * list rule * list rule) :=
  match rs with
  | [] => Some ([], [], [])
  | r :: rs =>
      match lookup (r_pred r) ads with
      | Some a =>
          obnd (transform_on_demand_rule r a) (fun r' =>
          obnd (demand_of ads r') (fun d =>
          obnd (transform_rules ads rs) (fun '(ts, ds, os) => Some (r' :: ts, d ++ ds, os))))
      | None =>
          obnd (demand_of ads r) (fun d =>
          obnd (transform_rules ads rs) (fun '(ts, ds, os) => Some (ts, d ++ ds, r :: os)))
      end
  end.
Definition demand_transform_with (ads : adornments) (P : program) : option program :=
  match ads with
  | [] => Some P
  | _ => obnd (transform_rules ads (p_rules P)) (fun '(ts, ds, os) =>
           Some (mkProg (p_rels P ++ map (fun a => mkRel (ad_pred (snd a)) false) ads)
             (p_outputs P) (p_facts P) (ts ++ ds ++ os) (p_reg P)))
  end.
(** Lines 9-35. *)
Definition demand_transform (attr : pred -> option string) (arity : pred -> nat) (dname : pred -> pattern -> pred)
    (P : program) : option program :=
  obnd (collect_adornments attr arity dname (p_rels P)) (fun ads => demand_transform_with ads P).

(** /repo/core/src/compiler/back/compile.rs lines 16-49 [apply_optimizations] with the
    demand transformation ([do_not_demand_transform] off); an error of the
    transformation is [Panicked], as are the panics. *)
Definition apply_optimizations_demand (attr : pred -> option string) (arity : pred -> nat) (dname : pred -> pattern -> pred)
    (E : renv) (nb : pred -> nat) (p : program) : outcome program :=
  obindo (opt_rules E (p_reg p) nb (p_rules p)) (fun rs =>
    match demand_transform attr arity dname (mkProg (p_rels p) (p_outputs p) (p_facts p) (remove_false_rules rs) (p_reg p)) with
    | None => Panicked
    | Some q =>
        match empty_to_fact (p_rules q) with
        | None => Panicked
        | Some (ks, fs) => Fine (mkProg (p_rels q) (p_outputs q) (p_facts q ++ fs) ks (p_reg q))
        end
    end).
