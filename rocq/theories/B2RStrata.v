(** Model of the lowering of strata to RAM strata:
    /repo/core/src/compiler/back/b2r.rs 93-213.  Not modelled: the declarations of
    the relations (types, facts, attributes). *)
From Coq Require Import List ZArith Bool Arith.
From Verif Require Import Value Back Eval Ram Scc Plan VarTuple B2R.
Import ListNotations.
Set Implicit Arguments.

(** ram/ast.rs 102-128 [Stratum]: names of the relations, updates. *)
Record rstratum := mkRS { rs_rec : bool; rs_rels : list nat; rs_updates : list (nat * rdf) }.

(** ram/ast.rs 352-373 [source_relations]. *)
Fixpoint sources (d : rdf) : list nat :=
  match d with
  | RUnit _ | RVec _ | RGround _ _ => []
  | RRel r => [r]
  | ROverwrite d | RFilter d _ | RProject d _ | RFind d _ | RSorted d | RConstraint d _ _ | RFpJoin d _ _ => sources d
  | RInter d1 d2 | RJoin d1 d2 | RProd d1 d2 | RUnion d1 d2 | RDiff d1 d2 | RAnti d1 d2 => sources d1 ++ sources d2
  | RJoinIV d r => r :: sources d
  | RReduce _ p _ => [p]
  end.

Section Strata.
  Variables (C : cenv) (N : penv).
  (** The attribute [NoTemporaryRelation] of rules, and the preferences of the
      search for a join order, which look at the stratum and the rule. *)
  Variable inplace : rule -> bool.
  Variable order : list pred -> rule -> list state -> list state.

  (** ast.rs 39-41 [rules_of_predicate]. *)
  Definition rules_of (rs : list rule) (p : pred) : list rule :=
    filter (fun r => Nat.eqb (r_pred r) p) rs.

  (** b2r.rs 198-203.  Disjunctive heads are not modelled and taken for a panic. *)
  Definition lower_rule (preds : list pred) (r : rule) : step (nat * rdf) :=
    p <- sopt (query_plan N (order preds r) (r_body r)) ;;
    match r_head r with
    | HAtom h => update_df C h p (inplace r)
    | HDisj _ _ => sopt None
    end.
  Fixpoint lower_rules (preds : list pred) (rs : list rule) : step (list (nat * rdf)) :=
    match rs with
    | [] => sret []
    | r :: rs => u <- lower_rule preds r ;; us <- lower_rules preds rs ;; sret (u :: us)
    end.
  (** b2r.rs 171-213 [stratum_to_ram_stratum].  The temporary updates start empty in
      every stratum. *)
  Definition lower_stratum (rs : list rule) (s : stratum) : step rstratum := fun z =>
    match lower_rules (st_preds s) (flat_map (rules_of rs) (st_preds s)) (mkB (z_next z) [] (z_perms z) (z_negs z)) with
    | Some (us, z') => Some (mkRS (st_rec s) (st_preds s ++ map fst (z_temps z')) (z_temps z' ++ us), z')
    | None => None
    end.
  Fixpoint lower_strata1 (rs : list rule) (ss : list stratum) : step (list rstratum) :=
    match ss with
    | [] => sret []
    | s :: ss => x <- lower_stratum rs s ;; xs <- lower_strata1 rs ss ;; sret (x :: xs)
    end.

  (** b2r.rs 122-144, 1328-1333: the updates of permuted copies.  [pred_permutations]
      maps a predicate to a set of permutations. *)
  Fixpoint gdistinct (l : list (gt nat)) : list (gt nat) :=
    match l with
    | [] => []
    | g :: l => if existsb (gt_eqb g) l then gdistinct l else g :: gdistinct l
    end.
  Definition perms_of (z : bstate) (p : pred) : list (gt nat) :=
    gdistinct (map snd (filter (fun x => Nat.eqb (fst x) p) (z_perms z))).
  Definition perm_updates (z : bstate) (s : rstratum) : list (nat * rdf) :=
    flat_map (fun p => map (fun g => (ce_perm C p g, RProject (RRel p) (perm_expr g))) (perms_of z p)) (rs_rels s).
  Definition add_perms (z : bstate) (s : rstratum) : rstratum :=
    let us := perm_updates z s in mkRS (rs_rec s) (rs_rels s ++ map fst us) (rs_updates s ++ us).

  (** b2r.rs 146-165: each negative dataflow goes to the first stratum at which all
      relations it reads have occurred; those made for negation themselves do not
      count.  The second component are those that fit nowhere. *)
  Fixpoint place_negs (acc : list nat) (negs : list (nat * rdf)) (ss : list rstratum) : list rstratum * list (nat * rdf) :=
    match ss with
    | [] => ([], negs)
    | s :: ss =>
        let acc := acc ++ rs_rels s in
        let fits (x : nat * rdf) := forallb (fun r => memb r acc) (sources (snd x)) in
        let cur := filter fits negs in
        let '(ss', rest) := place_negs acc (filter (fun x => negb (fits x)) negs) ss in
        (mkRS (rs_rec s) (rs_rels s ++ map fst cur) (rs_updates s ++ cur) :: ss', rest)
    end.
  (** b2r.rs 93-169 [strata_to_ram_strata]; the second component is dropped there. *)
  Definition lower_strata (rs : list rule) (ss : list stratum) : option (list rstratum * list (nat * rdf)) :=
    match lower_strata1 rs ss (mkB 0 [] [] []) with
    | Some (xs, z) => Some (place_negs [] (z_negs z) (map (add_perms z) xs))
    | None => None
    end.
End Strata.
