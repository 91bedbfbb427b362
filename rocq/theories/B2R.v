(** Model of the lowering of query plans to RAM dataflows:
    /repo/core/src/compiler/back/b2r.rs.  Not modelled: rules with a disjunctive
    head (382-426), facts and relation attributes (223-344), types of temporary
    relations. *)
From Coq Require Import List ZArith Bool Arith.
From Verif Require Import Value Back Eval Ram Scc Plan VarTuple.
Import ListNotations.
Set Implicit Arguments.

(** b2r.rs 20-43 [B2RContext], [NegativeDataflow]: the next number, the temporary
    updates, the permutations asked for, and the negative dataflows (their sources
    are computed from the dataflow). *)
Record bstate := mkB {
  z_next : nat;
  z_temps : list (nat * rdf);
  z_perms : list (pred * gt nat);
  z_negs : list (nat * rdf) }.
(** b2r.rs 47-90 [DataflowProp]. *)
Record bprop := mkBp { d_sorted : bool; d_neg : bool; d_inplace : bool }.
Definition with_sorted (b : bool) (d : bprop) : bprop := mkBp b (d_neg d) (d_inplace d).
Definition with_neg (b : bool) (d : bprop) : bprop := mkBp (d_sorted d) b (d_inplace d).

(** The attributes that shape the tuples of a relation: none, aggregate body with
    its number of group-by variables, aggregate group-by with the number of joined
    ones. *)
Inductive shape := SPlain | SBody (num_group_by : nat) | SGroup (num_join : nat).
(** What lowering takes from outside: the names [#temp#n] (1255), [#ntemp#n]
    (1235), [p#perm#g] (1336) and [const#i] of the type of a constant (1340-1345);
    whether a relation is immutable and read from a file (589); the number of
    bounded arguments of a foreign predicate; the shape of a relation; whether it is
    a magic set (374); whether it is stored as an indexed vector (1308-1326); the
    order in which a [HashSet] of variables is listed, and the sorted order. *)
Record cenv := mkCenv {
  ce_temp : nat -> nat;
  ce_ntemp : nat -> nat;
  ce_perm : pred -> gt nat -> nat;
  ce_const : nat -> value -> var;
  ce_static : pred -> bool;
  ce_bounded : pred -> nat;
  ce_shape : pred -> shape;
  ce_magic : pred -> bool;
  ce_iv : nat -> bool;
  ce_hash : list var -> list var;
  ce_sort : list var -> list var }.

(** Lowering steps: [None] is a panic. *)
Definition step (A : Type) := bstate -> option (A * bstate).
Definition sret {A} (a : A) : step A := fun z => Some (a, z).
Definition sopt {A} (o : option A) : step A := fun z => match o with Some a => Some (a, z) | None => None end.
Definition sbind {A B} (m : step A) (f : A -> step B) : step B :=
  fun z => match m z with Some (a, z') => f a z' | None => None end.
Notation "x <- m ;; k" := (sbind m (fun x => k)) (at level 61, m at next level, right associativity).

Section Lowering.
  Variable C : cenv.

  (** b2r.rs 1253-1268 [create_temp_relation]. *)
  Definition create_temp (d : rdf) : step rdf := fun z =>
    let n := ce_temp C (z_next z) in
    Some (RRel n, mkB (S (z_next z)) (z_temps z ++ [(n, d)]) (z_perms z) (z_negs z)).
  (** b2r.rs 1229-1251 [create_negative_temp_relation]. *)
  Definition create_ntemp (d : rdf) : step rdf := fun z =>
    let n := ce_ntemp C (z_next z) in
    Some (RRel n, mkB (S (z_next z)) (z_temps z) (z_perms z) (z_negs z ++ [(n, d)])).
  (** b2r.rs 30-32 [add_permutation]. *)
  Definition add_perm (p : pred) (g : gt nat) : step unit := fun z =>
    Some (tt, mkB (z_next z) (z_temps z) (z_perms z ++ [(p, g)]) (z_negs z)).
  (** b2r.rs 1109-1128 [process_dataflow]. *)
  Definition process (d : rdf) (pr : bprop) : step rdf :=
    if d_sorted pr then
      if d_neg pr then create_ntemp d
      else if d_inplace pr then sret (RSorted d) else create_temp d
    else sret d.

  (** ** Atoms *)
  (** b2r.rs 1270-1286 [atom_eq_vars]. *)
  Fixpoint eq_vars (i : nat) (m : list (var * nat)) (args : list term) : list (nat * nat) :=
    match args with
    | [] => []
    | TVar v :: args =>
        match find (fun x => Nat.eqb (fst x) v) m with
        | Some (_, j) => (j, i) :: eq_vars (S i) m args
        | None => eq_vars (S i) ((v, i) :: m) args
        end
    | TConst _ :: args => eq_vars (S i) m args
    end.
  (** [And] of a non-empty list, from the left. *)
  Definition and_all (e : expr) (es : list expr) : expr := fold_left (fun a b => XBin OAnd a b) es e.
  (** b2r.rs 1288-1306 [atom_filter]. *)
  Definition eq_expr (x : nat * nat) : expr :=
    XBin OEq (XAccess (acc_index (fst x))) (XAccess (acc_index (snd x))).
  Definition atom_filter (args : list term) : option expr :=
    match eq_vars 0 [] args with
    | [] => None
    | x :: xs => Some (and_all (eq_expr x) (map eq_expr xs))
    end.

  (** b2r.rs 457-465 [empty_ground_plan_to_ram_dataflow]. *)
  Definition empty_ground (goal : gt var) (a : atom) : step rdf :=
    if matches goal (a_args a) then sret (RRel (a_pred a))
    else e <- sopt (projection (GT []) goal) ;; sret (RProject (RRel (a_pred a)) e).

  (** b2r.rs 596-632 [no_constant_ground_plan_to_ram_dataflow]. *)
  Definition no_const_ground (goal : gt var) (a : atom) (pr : bprop) : step rdf :=
    if matches goal (a_args a) then sret (RRel (a_pred a))
    else
      perm <- sopt (permutation goal (a_args a)) ;;
      match atom_filter (a_args a) with
      | Some f =>
          let d := RProject (RFilter (RRel (a_pred a)) f) (perm_expr perm) in
          if d_sorted pr && negb (order_preserving perm)
          then _ <- add_perm (a_pred a) perm ;;
               (if d_neg pr then create_ntemp d else create_temp d)
          else sret d
      | None =>
          if d_sorted pr && negb (order_preserving perm)
          then _ <- add_perm (a_pred a) perm ;; sret (RRel (ce_perm C (a_pred a) perm))
          else sret (RProject (RRel (a_pred a)) (perm_expr perm))
      end.

  (** The arguments with constants replaced (475-483, 527-538). *)
  Definition sub_var (x : nat * term) : var := match snd x with TConst c => ce_const C (fst x) c | TVar v => v end.
  Definition sub_vars (a : atom) : list var := map sub_var (enum (a_args a)).
  Definition sub_atom (a : atom) : atom := mkAtom (a_pred a) (map TVar (sub_vars a)).
  (** ast.rs 466-483 [const_var_partition]. *)
  Definition const_part (a : atom) : list (nat * value) :=
    flat_map (fun x => match snd x with TConst c => [(fst x, c)] | TVar _ => [] end) (enum (a_args a)).

  (** b2r.rs 467-514 [static_with_constant_ground_plan_to_ram_dataflow]; the atom
      below has no constants and at least one argument, so it is lowered by
      [no_const_ground] (634-648). *)
  Definition static_ground (goal : gt var) (a : atom) (pr : bprop) : step rdf :=
    let sub_goal := from_vars (sub_vars a) true in
    d <- no_const_ground sub_goal (sub_atom a) (with_sorted false pr) ;;
    match map (fun x => XBin OEq (XAccess (acc_index (fst x))) (XConst (snd x))) (const_part a) with
    | [] => sopt None
    | e :: es =>
        pe <- sopt (projection sub_goal goal) ;;
        process (RProject (RFilter d (and_all e es)) pe) pr
    end.
  (** b2r.rs 516-579 [dynamic_with_constant_ground_plan_to_ram_dataflow]. *)
  Definition one_or_tuple (l : list var) : gt var := match l with [v] => GV v | _ => GT (map GV l) end.
  Definition dynamic_goal (a : atom) : gt var :=
    GT [one_or_tuple (map (fun x => ce_const C (fst x) (snd x)) (const_part a)); one_or_tuple (avars a)].
  Definition find_tuple (a : atom) : tuple :=
    match const_part a with [(_, c)] => TVal c | l => TTup (map (fun x => TVal (snd x)) l) end.
  Definition dynamic_ground (goal : gt var) (a : atom) (pr : bprop) : step rdf :=
    d <- no_const_ground (dynamic_goal a) (sub_atom a) (with_sorted true pr) ;;
    pe <- sopt (projection (dynamic_goal a) goal) ;;
    process (RProject (RFind d (find_tuple a)) pe) pr.
  (** ast.rs 440-455 [constant_args_are_upfront]. *)
  Fixpoint upfront (seen : bool) (args : list term) : bool :=
    match args with
    | [] => true
    | TVar _ :: args => upfront true args
    | TConst _ :: args => negb seen && upfront seen args
    end.
  (** b2r.rs 634-648 [ground_plan_to_ram_dataflow] with 581-594. *)
  Definition ground_df (goal : gt var) (a : atom) (pr : bprop) : step rdf :=
    match a_args a with
    | [] => empty_ground goal a
    | _ :: _ =>
        if existsb is_const (a_args a) then
          if ce_static C (a_pred a) && negb (upfront false (a_args a))
          then static_ground goal a pr else dynamic_ground goal a pr
        else no_const_ground goal a pr
    end.

  (** ** The other nodes *)
  (** A sub-plan, lowered with a goal and a property. *)
  Definition sub := gt var -> bprop -> step rdf.

  (** b2r.rs 1213-1227 [constraints_to_ram_filter]. *)
  Definition con_expr (g : gt var) (c : con) : option expr :=
    match c with
    | KBin c a b => obnd (term_expr g a) (fun x => obnd (term_expr g b) (fun y => Some (XBin (binop_of_cop c) x y)))
    | KNot a => obnd (term_expr g a) (fun x => Some (XUn UNot x))
    end.
  Definition cons_expr (g : gt var) (cs : list con) : option expr :=
    obnd (omap (con_expr g) cs) (fun es => match es with [] => None | e :: es => Some (and_all e es) end).
  (** ast.rs 636-638 [unique_variable_args]. *)
  Definition uniq (vs : list var) : list var := ce_sort C (dedup vs).
  (** b2r.rs 650-668 [filter_plan_to_ram_dataflow]. *)
  Definition filter_df (s : sub) (cs : list con) (goal : gt var) (pr : bprop) : step rdf :=
    sub_goal <- sopt (expand goal (flat_map (fun c => uniq (con_vars c)) cs)) ;;
    d <- s sub_goal pr ;;
    f <- sopt (cons_expr sub_goal cs) ;;
    pe <- sopt (projection sub_goal goal) ;;
    process (RProject (RFilter d f) pe) pr.

  (** b2r.rs 670-701 [project_plan_to_ram_dataflow].  Fuel: the recursion goes
      through fewer assignments, or ends in the next call. *)
  Fixpoint project_df (fuel : nat) (s : sub) (bv : list var) (l : list (var * aexpr)) (goal : gt var) (pr : bprop) : step rdf :=
    let to_bound := filter (fun v => negb (memb v bv)) (variables goal) in
    match to_bound with
    | [] => s goal pr
    | _ :: _ =>
        match l, fuel with
        | [], _ => sopt None
        | _ :: _, 0 => sopt None
        | _ :: _, S fuel =>
            let cur := filter (fun x => memb (fst x) to_bound) l in
            let rest := filter (fun x => negb (memb (fst x) to_bound)) l in
            let sub_goal := from_vars (ce_hash C (filter (fun v => memb v bv) (variables goal))
                                       ++ flat_map (fun x => aexpr_vars (snd x)) cur) false in
            d <- project_df fuel s bv rest sub_goal (with_sorted false pr) ;;
            pe <- sopt (projection_assigns sub_goal goal cur) ;;
            process (RProject d pe) pr
        end
    end.

  (** ast.rs 402-419 [is_pure]. *)
  Definition is_pure (a : atom) : bool := negb (existsb is_const (a_args a)) && (length (dedup (avars a)) =? length (avars a)).
  (** b2r.rs 1199-1211 [sub_tuple]. *)
  Definition sub_tuple (goal : gt var) (p : plan) : gt var :=
    let otherwise := subtuple goal (ce_sort C (bvars p)) in
    match direct_atom p with
    | Some a => if is_pure a then subtuple goal (avars a) else otherwise
    | None => otherwise
    end.
  (** b2r.rs 731-756 [product_to_ram_dataflow]. *)
  Definition product_df (p q : plan) (sp sq : sub) (goal : gt var) (pr : bprop) : step rdf :=
    let pr' := with_neg false (with_sorted true pr) in
    let g1 := sub_tuple goal p in
    d1 <- sp g1 pr' ;;
    let g2 := sub_tuple goal q in
    d2 <- sq g2 pr' ;;
    pe <- sopt (projection (GT [g1; g2]) goal) ;;
    process (RProject (RProd d1 d2) pe) pr.
  (** b2r.rs 767-771 and 920-924. *)
  Definition inter_goal (p q : plan) (goal : gt var) : gt var :=
    match direct_atom p, direct_atom q with
    | Some a, _ => from_vars (uniq (avars a)) false
    | None, Some a => from_vars (uniq (avars a)) false
    | None, None => goal
    end.
  (** b2r.rs 758-788 [intersect_to_ram_dataflow]. *)
  Definition intersect_df (p q : plan) (sp sq : sub) (goal : gt var) (pr : bprop) : step rdf :=
    let g := inter_goal p q goal in
    let pr' := with_neg false (with_sorted true pr) in
    d1 <- sp g pr' ;;
    d2 <- sq g pr' ;;
    if gt_eqb g goal then sret (RInter d1 d2)
    else pe <- sopt (projection g goal) ;; process (RProject (RInter d1 d2) pe) pr.
  (** The variables of the goal bounded by a plan and not joined (805-811). *)
  Definition own_vars (goal : gt var) (bv jv : list var) : gt var :=
    from_vars (ce_sort C (filter (fun v => memb v bv && negb (memb v jv)) (variables goal))) true.
  Definition join_vars (p q : plan) : list var := filter (fun v => memb v (bvars q)) (bvars p).
  (** b2r.rs 790-847 [join_to_ram_dataflow]. *)
  Definition join_df (p q : plan) (sp sq : sub) (goal : gt var) (pr : bprop) : step rdf :=
    let jv := join_vars p q in
    let pr' := with_neg false (with_sorted true pr) in
    let k := from_vars (ce_sort C jv) true in
    let g1 := own_vars goal (bvars p) jv in
    d1 <- sp (GT [k; g1]) pr' ;;
    let g2 := own_vars goal (bvars q) jv in
    d2 <- sq (GT [k; g2]) pr' ;;
    pe <- sopt (projection (GT [k; g1; g2]) goal) ;;
    process (RProject (match d2 with
                       | RRel r => if ce_iv C r then RJoinIV d1 r else RJoin d1 d2
                       | _ => RJoin d1 d2
                       end) pe) pr.
  (** b2r.rs 703-729 [join_plan_to_ram_dataflow]. *)
  Definition join_plan_df (p q : plan) (sp sq : sub) (goal : gt var) (pr : bprop) : step rdf :=
    match join_vars p q with
    | [] => product_df p q sp sq goal pr
    | _ :: _ => if set_eqb (bvars p) (bvars q) then intersect_df p q sp sq goal pr
                else join_df p q sp sq goal pr
    end.

  (** b2r.rs 867-909 [antijoin_to_ram_dataflow]. *)
  Definition antijoin_df (p q : plan) (sp sq : sub) (goal : gt var) (pr : bprop) : step rdf :=
    let jv := join_vars p q in
    let k := from_vars (ce_sort C jv) true in
    let g1 := GT [k; own_vars goal (bvars p) jv] in
    d1 <- sp g1 (with_neg false (with_sorted true pr)) ;;
    d2 <- sq k (with_neg true (with_sorted true pr)) ;;
    pe <- sopt (projection g1 goal) ;;
    process (RProject (RAnti d1 d2) pe) pr.
  (** b2r.rs 911-943 [difference_to_ram_dataflow]. *)
  Definition difference_df (p q : plan) (sp sq : sub) (goal : gt var) (pr : bprop) : step rdf :=
    let g := inter_goal p q goal in
    d1 <- sp g (with_neg false (with_sorted true pr)) ;;
    d2 <- sq g (with_neg true (with_sorted true pr)) ;;
    if gt_eqb g goal then sret (RDiff d1 d2)
    else pe <- sopt (projection g goal) ;; process (RProject (RDiff d1 d2) pe) pr.
  (** b2r.rs 849-865 [antijoin_plan_to_ram_dataflow]. *)
  Definition anti_plan_df (p q : plan) (sp sq : sub) (goal : gt var) (pr : bprop) : step rdf :=
    if set_eqb (bvars p) (bvars q) then difference_df p q sp sq goal pr else antijoin_df p q sp sq goal pr.

  (** b2r.rs 945-993 [reduce_plan_to_ram_dataflow]. *)
  Definition reduce_goal (r : reduce) : gt var :=
    let lt := from_vars (rd_left r) true in
    match rd_group r with
    | [] => lt
    | _ :: _ => match rd_groupby r with
                | Some _ => GT [from_vars (rd_group r) true; from_vars (rd_other r) true; lt]
                | None => GT [from_vars (rd_group r) true; lt]
                end
    end.
  Definition reduce_grp (r : reduce) : rgrp :=
    match rd_group r with
    | [] => GNone
    | _ :: _ => match rd_groupby r with Some a => GJoin (a_pred a) | None => GImplicit end
    end.
  Definition reduce_df (r : reduce) (goal : gt var) (pr : bprop) : step rdf :=
    pe <- sopt (projection (reduce_goal r) goal) ;;
    process (RProject (RReduce (rd_agg r) (a_pred (rd_body r)) (reduce_grp r)) pe) pr.

  (** [as_constant], [as_variable], unwrapped. *)
  Definition as_const (t : term) : option value := match t with TConst c => Some c | TVar _ => None end.
  Definition as_var (t : term) : option var := match t with TVar v => Some v | TConst _ => None end.
  Definition fp_split (a : atom) : list term * list term :=
    (firstn (ce_bounded C (a_pred a)) (a_args a), skipn (ce_bounded C (a_pred a)) (a_args a)).
  (** b2r.rs 995-1028 [fp_ground_plan_to_ram_dataflow]. *)
  Definition fp_ground_df (a : atom) (goal : gt var) (pr : bprop) : step rdf :=
    inputs <- sopt (omap as_const (fst (fp_split a))) ;;
    vs <- sopt (omap as_var (snd (fp_split a))) ;;
    pe <- sopt (projection (from_vars vs false) goal) ;;
    process (RProject (RGround (a_pred a) inputs) pe) pr.
  (** b2r.rs 1030-1060 [fp_constraint_plan_to_ram_dataflow]. *)
  Definition fp_constr_df (p : plan) (sp : sub) (a : atom) (goal : gt var) (pr : bprop) : step rdf :=
    let g := from_vars (ce_hash C (bvars p)) false in
    d <- sp g (with_sorted false pr) ;;
    es <- sopt (omap (term_expr g) (a_args a)) ;;
    pe <- sopt (projection g goal) ;;
    process (RProject (RConstraint d (a_pred a) es) pe) pr.
  (** b2r.rs 1062-1107 [fp_join_plan_to_ram_dataflow]. *)
  Definition fp_join_df (p : plan) (sp : sub) (a : atom) (goal : gt var) (pr : bprop) : step rdf :=
    let g := from_vars (ce_hash C (bvars p)) false in
    d <- sp g (with_sorted false pr) ;;
    es <- sopt (omap (term_expr g) (fst (fp_split a))) ;;
    vs <- sopt (omap as_var (snd (fp_split a))) ;;
    pe <- sopt (projection (GT [g; from_vars vs false]) goal) ;;
    process (RProject (RFpJoin d (a_pred a) es) pe) pr.

  (** b2r.rs 436-455 [plan_to_ram_dataflow]. *)
  Fixpoint plan_df (p : plan) (goal : gt var) (pr : bprop) {struct p} : step rdf :=
    match p with
    | PUnit _ => u <- sopt (unit_tuple goal) ;; sret (RUnit u)
    | PGround _ a => ground_df goal a pr
    | PFilter _ q cs => filter_df (plan_df q) cs goal pr
    | PProject _ q l => project_df (S (S (length l))) (plan_df q) (bvars q) l goal pr
    | PJoin _ q r => join_plan_df q r (plan_df q) (plan_df r) goal pr
    | PAnti _ q r => anti_plan_df q r (plan_df q) (plan_df r) goal pr
    | PReduce _ r => reduce_df r goal pr
    | PFpGround _ a => fp_ground_df a goal pr
    | PFpConstr _ q a => fp_constr_df q (plan_df q) a goal pr
    | PFpJoin _ q a => fp_join_df q (plan_df q) a goal pr
    end.

  (** ** Rules *)
  (** b2r.rs 1130-1179 [head_atom_variable_tuple]; slicing past the end panics. *)
  Definition cut (n : nat) (l : list var) : option (list var * list var) :=
    if n <=? length l then Some (firstn n l, skipn n l) else None.
  Definition head_tuple (h : atom) : option (gt var * bool) :=
    match ce_shape C (a_pred h) with
    | SBody 0 => Some (from_vars (avars h) true, false)
    | SBody n => obnd (cut n (avars h)) (fun x =>
                   Some (GT [from_vars (fst x) true; from_vars (snd x) true], false))
    | SGroup n => obnd (cut n (avars h)) (fun x =>
                   Some (GT [from_vars (fst x) true; from_vars (snd x) true], false))
    | SPlain => Some (GT (map GV (avars h)), existsb is_const (a_args h))
    end.
  (** b2r.rs 1181-1197 [projection_to_atom_head]. *)
  Definition head_proj (g : gt var) (h : atom) : option expr :=
    obnd (omap (term_expr g) (a_args h)) (fun es => Some (XTuple es)).
  (** b2r.rs 346-381, 429-433 [plan_to_ram_update] for an atom as head. *)
  Definition update_df (h : atom) (p : plan) (inplace : bool) : step (nat * rdf) :=
    x <- sopt (head_tuple h) ;;
    let subgoal := gdedup (fst x) in
    d <- plan_df p subgoal (mkBp false false inplace) ;;
    d' <- (if snd x then e <- sopt (head_proj subgoal h) ;; sret (RProject d e)
           else if gt_eqb (fst x) subgoal then sret d
           else e <- sopt (projection subgoal (fst x)) ;; sret (RProject d e)) ;;
    sret (a_pred h, if ce_magic C (a_pred h) then ROverwrite d' else d').
End Lowering.
