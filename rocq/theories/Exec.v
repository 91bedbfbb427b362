(** Model of the execution context of a whole program:
    /repo/core/src/runtime/dynamic/incremental.rs (context, strata),
    /repo/core/src/runtime/database/extensional/{relation,database}.rs and
    /repo/core/src/runtime/database/intentional/database.rs.
    Left out: type checks, input files, monitors, the recovery of output tags,
    storage other than sorted, dynamically created entities. *)
From Coq Require Import List Arith Bool.
From Verif Require Import Order Value Prov ListAux SortedCol Schedulers Relation Dataflow Iteration
  Back Eval Ram Scc Dedup Increm.
Import ListNotations.
Set Implicit Arguments.

(** Finite maps with numbers as keys (the [HashMap]s and the [BTreeMap] of the
    databases).  The order of the keys is the order of the list. *)
Fixpoint aget {A} (k : nat) (l : list (nat * A)) : option A :=
  match l with [] => None | (j, a) :: l => if Nat.eqb k j then Some a else aget k l end.
Definition ahas {A} (k : nat) (l : list (nat * A)) : bool := match aget k l with Some _ => true | None => false end.
Fixpoint aset {A} (k : nat) (a : A) (l : list (nat * A)) : list (nat * A) :=
  match l with [] => [(k, a)] | (j, b) :: l => if Nat.eqb k j then (k, a) :: l else (j, b) :: aset k a l end.
Definition adel {A} (k : nat) (l : list (nat * A)) : list (nat * A) := filter (fun x => negb (Nat.eqb k (fst x))) l.

Section Exec.
  Variable P : Prov.
  (** Input tags, and the state of the provenance context that tagging changes. *)
  Variables IT X : Type.
  Notation elem := (elem P).

  (** The parts of the runtime environment and of the provenance context that
      execution consults: [internalize_tuple], [tagging_optional_fn], early
      discarding, the stopping criteria, the default scheduler, and the meaning of
      the names in a dataflow given the collections it reads. *)
  Record rtenv := mkRt {
    c_intern : tuple -> option tuple;
    c_tag : X -> option IT -> ptag P * X;
    c_early : bool;
    c_limit : option nat;
    c_goalstop : bool;
    c_default : scheduler;
    c_lenv : list (nat * option (list elem)) -> lenv P }.
  Variable E : rtenv.

  (** ** Programs *)
  (** ram/ast.rs 130-175 [Relation]: name, facts, [immutable], [output.is_hidden],
      [is_goal], [scheduler]. *)
  Record xrel := mkXR {
    x_name : nat;
    x_facts : list (option IT * tuple);
    x_imm : bool;
    x_hidden : bool;
    x_goal : bool;
    x_sched : option scheduler }.
  (** ram/ast.rs 102-128 [Stratum]; a program is its strata ([relation_to_stratum]
      is the stratum that has the relation). *)
  Record xstratum := mkXS { xs_rels : list xrel; xs_updates : list (nat * rdf) }.
  Definition xprog := list xstratum.
  Definition xs_names (s : xstratum) : list nat := map x_name (xs_rels s).
  Definition xrels (p : xprog) : list xrel := flat_map xs_rels p.
  Definition xfind (p : xprog) (r : nat) : option xrel := find (fun x => Nat.eqb (x_name x) r) (xrels p).
  Definition ximm (p : xprog) (r : nat) : bool := match xfind p r with Some x => x_imm x | None => false end.
  (** The program as [persistent_relations] sees it. *)
  Definition flat (p : xprog) : rprog :=
    mkRP (map (fun x => mkRR (x_name x) (map snd (x_facts x))) (xrels p)) (flat_map xs_updates p).

  (** dependency.rs 50-57. *)
  Definition xs_deps (s : xstratum) : list nat :=
    filter (fun r => negb (memb r (xs_names s))) (nodup Nat.eq_dec (flat_map (fun u => collect (snd u)) (xs_updates s))).

  (** incremental.rs 686-724 [stratum_inputs_outputs].  [relation_to_stratum[&dep]]
      panics on an unknown relation. *)
  Definition deps_known (p : xprog) : bool :=
    forallb (fun s => forallb (fun r => match xfind p r with Some _ => true | None => false end) (xs_deps s)) p.
  Definition needed_outside (p : xprog) (r : nat) : bool := existsb (fun s => memb r (xs_deps s)) p.
  (** The last stratum, counted from [i], that reads [r] from outside. *)
  Fixpoint lifespan (p : xprog) (i : nat) (r : nat) : option nat :=
    match p with
    | [] => None
    | s :: p => match lifespan p (S i) r with
                | Some j => Some j
                | None => if memb r (xs_deps s) then Some i else None
                end
    end.

  (** ** The extensional database *)
  (** extensional/relation.rs 18-44. *)
  Record erel := mkE {
    e_prog : list (option IT * tuple);
    e_progint : bool;
    e_dyn : list (option IT * tuple);
    e_stat : list (option IT * tuple);
    e_int : list elem;
    e_done : bool }.
  Definition e_new : erel := mkE [] false [] [] [] false.
  Definition edb := list (nat * erel).
  Definition e_get (d : edb) (r : nat) : erel := match aget r d with Some e => e | None => e_new end.

  (** extensional/relation.rs 104-133, extensional/database.rs 121-180. *)
  Definition add_dynamic (r : nat) (fs : list (option IT * tuple)) (d : edb) : edb :=
    let e := e_get d r in
    aset r (mkE (e_prog e) (e_progint e) (e_dyn e ++ fs) (e_stat e) (e_int e)
      (match fs with [] => e_done e | _ => false end)) d.
  Definition add_static (r : nat) (fs : list (option IT * tuple)) (d : edb) : edb :=
    let e := e_get d r in
    aset r (mkE (e_prog e) (e_progint e) (e_dyn e) (e_stat e ++ fs) (e_int e)
      (match fs with [] => e_done e | _ => false end)) d.

  (** extensional/relation.rs 162-189: a tuple that cannot be internalized is
      dropped, untagged. *)
  Fixpoint tag_all (x : X) (fs : list (option IT * tuple)) : list elem * X :=
    match fs with
    | [] => ([], x)
    | (o, t) :: fs =>
        match c_intern E t with
        | None => tag_all x fs
        | Some u => let '(g, x1) := c_tag E x o in
                    let '(es, x2) := tag_all x1 fs in ((u, g) :: es, x2)
        end
    end.
  (** extensional/relation.rs 156-197 [internalize]. *)
  Definition internalize_rel (x : X) (e : erel) : erel * X :=
    let '(a, x1) := tag_all x (e_prog e) in
    let '(b, x2) := tag_all x1 (e_dyn e) in
    let '(c, x3) := tag_all x2 (e_stat e) in
    (mkE (e_prog e) (match e_prog e with [] => e_progint e | _ => true end) [] []
       (from_vec (a ++ b ++ c ++ e_int e)) true, x3).
  (** extensional/database.rs 262-267. *)
  Fixpoint internalize (x : X) (d : edb) : edb * X :=
    match d with
    | [] => ([], x)
    | (r, e) :: d => let '(e', x1) := internalize_rel x e in
                     let '(d', x2) := internalize x1 d in ((r, e') :: d', x2)
    end.

  (** extensional/database.rs 203-246 [populate_program_facts], without files;
      [None] is the error [NewProgramFacts]. *)
  Definition populate_rel (d : edb) (x : xrel) : option edb :=
    match x_facts x with
    | [] => Some d
    | _ :: _ =>
        let e := e_get d (x_name x) in
        if e_progint e && negb (match e_prog e with [] => true | _ => false end)
           && (length (e_prog e) <? length (x_facts x))
        then None
        else Some (aset (x_name x) (mkE (e_prog e ++ x_facts x) (e_progint e) (e_dyn e) (e_stat e) (e_int e) (e_done e)) d)
    end.
  Fixpoint populate (d : edb) (xs : list xrel) : option edb :=
    match xs with [] => Some d | x :: xs => match populate_rel d x with Some d' => populate d' xs | None => None end end.

  (** extensional/database.rs 248-260 [need_update_relations]. *)
  Definition need_update (done : bool) (d : edb) : list nat :=
    if done then map fst (filter (fun x => negb (e_done (snd x))) d) else [].
  (** extensional/database.rs 113-115 [tap_relation], incremental.rs 157-162. *)
  Definition tap (r : nat) (d : edb) : edb := if ahas r d then d else aset r e_new d.
  Definition tap_imm (p : xprog) (d : edb) : edb :=
    fold_left (fun d x => if x_imm x then tap (x_name x) d else d) (xrels p) d.

  (** ** One stratum *)
  (** Collections by name: the intentional database, and the internalized facts of
      the extensional one. *)
  Definition idb := list (nat * list elem).
  Definition ecols (d : edb) : idb := map (fun x => (fst x, e_int (snd x))) d.

  (** incremental.rs 240-272: the input collections.  In incremental mode every
      immutable relation of the database and everything computed so far, otherwise
      the immutable relations of the stratum and its inputs.  [None] stands for a
      missing entry; [unwrap] on a missing entry panics, see [inputs_ok]. *)
  Definition in_cols (inc : bool) (p : xprog) (s : xstratum) (d : idb) (i : idb) (r : nat) : option (list elem) :=
    if inc then
      match aget r i with
      | Some c => Some c
      | None => if ximm p r then aget r d else None
      end
    else if memb r (xs_deps s) then (if ximm p r then aget r d else aget r i)
    else if existsb (fun x => Nat.eqb (x_name x) r && x_imm x) (xs_rels s) then aget r d
    else None.
  (** incremental.rs 257, 265 and 269: the [unwrap]s. *)
  Definition inputs_ok (inc : bool) (p : xprog) (s : xstratum) (d : idb) (i : idb) : bool :=
    inc || (forallb (fun x => negb (x_imm x) || ahas (x_name x) d) (xs_rels s)
            && forallb (fun r => if ximm p r then ahas r d else ahas r i) (xs_deps s)).

  (** dynamic/iteration.rs 354-358, 289-303, 409-417: a dataflow may read the
      collections and the relations being computed; a [Reduce] or an indexed join
      reads collections only.  Anything else panics when the loop body is first
      reached; here before the loop. *)
  Fixpoint reads_ok (col : nat -> option (list elem)) (rels : list nat) (d : rdf) : bool :=
    let has r := match col r with Some _ => true | None => false end in
    match d with
    | RUnit _ | RVec _ | RGround _ _ => true
    | RRel r => has r || memb r rels
    | ROverwrite d | RFilter d _ | RProject d _ | RFind d _ | RSorted d | RConstraint d _ _ | RFpJoin d _ _ =>
        reads_ok col rels d
    | RInter a b | RJoin a b | RProd a b | RUnion a b | RDiff a b | RAnti a b => reads_ok col rels a && reads_ok col rels b
    | RJoinIV d r => reads_ok col rels d && has r
    | RReduce _ p grp => has p && match grp with GJoin g => has g | _ => true end
    end.
  (** The runtime dataflow: names stand for what is read. *)
  Definition low (col : nat -> option (list elem)) (d : rdf) : dflow P :=
    lower (c_lenv E (map (fun r => (r, col r)) (collect d))) d.

  (** incremental.rs 225-327 [execute_stratum]. *)
  Definition stratum_iter (inc : bool) (p : xprog) (s : xstratum) (d : idb) (i : idb) : iteration P :=
    let dyn := filter (fun r => negb (ahas r i)) (xs_names s) in
    let rels := filter (fun r => negb (ximm p r)) dyn in
    let col := in_cols inc p s d i in
    mkIter rels col
      (map (fun u => (fst u, low col (snd u))) (filter (fun u => memb (fst u) dyn) (xs_updates s)))
      (fun r => match xfind p r with
                | Some x => match x_sched x with Some c => c | None => c_default E end
                | None => c_default E
                end)
      (filter (fun r => inc || needed_outside p r || match xfind p r with Some x => negb (x_hidden x) | None => false end) rels)
      (filter (fun r => match xfind p r with Some x => x_goal x | None => false end) rels)
      (c_early E) (c_limit E) (c_goalstop E).
  Definition stratum_facts (d : idb) (rels : list nat) (r : nat) : list (list elem) :=
    if memb r rels then match aget r d with Some c => [c] | None => [] end else [].
  Fixpoint outs (st : nat -> relation P) (rs : list nat) : option idb :=
    match rs with
    | [] => Some []
    | r :: rs => match output st r, outs st rs with
                 | Some c, Some l => Some ((r, from_vec c) :: l)
                 | _, _ => None
                 end
    end.
  Definition exec_stratum (inc : bool) (fuel : nat) (p : xprog) (s : xstratum) (d : idb) (i : idb) : option idb :=
    let dyn := filter (fun r => negb (ahas r i)) (xs_names s) in
    match dyn with
    | [] => Some []
    | _ :: _ =>
        let it := stratum_iter inc p s d i in
        if inputs_ok inc p s d i
           && forallb (fun u => negb (memb (fst u) dyn)
                                || (memb (fst u) (i_rels it) && reads_ok (i_cols it) (i_rels it) (snd u))) (xs_updates s)
        then match loop it fuel (init_state it (stratum_facts d (i_rels it))) 0 with
             | Some (st, _, _) => outs st (i_outputs it)
             | None => None
             end
        else None
    end.

  (** incremental.rs 164-183: all strata; [n] is the number of the first one. *)
  Definition kept (p : xprog) (n r : nat) : bool :=
    match xfind p r with
    | Some x => if x_hidden x then match lifespan p 0 r with Some j => n <? j | None => true end else true
    | None => true
    end.
  Fixpoint exec_strata (inc : bool) (fuel : nat) (p : xprog) (n : nat) (ss : list xstratum) (d : idb) (i : idb) : option idb :=
    match ss with
    | [] => Some i
    | s :: ss =>
        match exec_stratum inc fuel p s d i with
        | Some res => exec_strata inc fuel p (S n) ss d
            (fold_left (fun i x => aset (fst x) (snd x) i) (filter (fun x => kept p n (fst x)) res) i)
        | None => None
        end
    end.

  (** incremental.rs 188-205: extensional relations that are asked for. *)
  Fixpoint finish (inc : bool) (xs : list xrel) (d : edb) (i : idb) : edb * idb :=
    match xs with
    | [] => (d, i)
    | x :: xs =>
        if negb (x_hidden x) && negb (ahas (x_name x) i) then
          match aget (x_name x) d with
          | Some e => finish inc xs (if inc then d else adel (x_name x) d) (aset (x_name x) (e_int e) i)
          | None => finish inc xs d i
          end
        else finish inc xs d i
    end.

  (** ** The context *)
  (** incremental.rs 32-37, with the state of the provenance context. *)
  Record ctx := mkCtx { x_edb : edb; x_edbdone : bool; x_idb : idb; x_prog : xprog; x_tag : X }.

  (** incremental.rs 110-223 [incremental_execute_helper]; [None] is an error, a
      panic or exhausted fuel.  The program of the context is swapped out before
      [persistent_relations] is called on it (118-119, 130), so the comparison is
      with the empty program. *)
  Definition execute (inc : bool) (fuel : nat) (newp : option xprog) (c : ctx) : option ctx :=
    let p := match newp with Some p => p | None => x_prog c end in
    match populate (x_edb c) (xrels p) with
    | None => None
    | Some d1 =>
        match match newp with
              | None => Some (x_idb c)
              | Some p => match persistent fuel (mkRP [] []) (flat p) (need_update (x_edbdone c) d1) with
                          | Some keep => Some (filter (fun x => memb (fst x) keep) (x_idb c))
                          | None => None
                          end
              end with
        | None => None
        | Some i0 =>
            let '(d2, x2) := internalize (x_tag c) d1 in
            if deps_known p then
              let d3 := tap_imm p d2 in
              match exec_strata inc fuel p 0 p (ecols d3) i0 with
              | None => None
              | Some i1 => let '(d4, i2) := finish inc (xrels p) d3 i1 in Some (mkCtx d4 true i2 p x2)
              end
            else None
        end
    end.
End Exec.
Arguments mkRt {P IT X}.
Arguments mkXR {IT}.
Arguments mkXS {IT}.
Arguments mkE {P IT}.
Arguments mkCtx {P IT X}.
