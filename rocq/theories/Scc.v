(** Model of the dependency graph and stratification:
    /repo/core/src/compiler/back/scc.rs, and of the removal of unused
    relations: /repo/core/src/compiler/back/compile.rs 54-69. *)
From Coq Require Import List ZArith Bool Arith.
From Verif Require Import Back.
Import ListNotations.

(** scc.rs 15-19. *)
Inductive ekind := EPos | ENeg | EAgg.
(** scc.rs 33-38. *)
Definition needs_strat (k : ekind) : bool := match k with EPos => false | _ => true end.

(** scc.rs 43-47: a node is represented by its predicate
    ([predicate_to_node_id] is a bijection between the predicates and the
    petgraph nodes); edges in insertion order. *)
Definition edge := (pred * pred * ekind)%type.
Record graph := mkGraph { g_nodes : list pred; g_edges : list edge }.

Definition memb (x : nat) (l : list nat) : bool := existsb (Nat.eqb x) l.

(** scc.rs 60-68 [add_predicate]. *)
Definition add_predicate (p : pred) (g : graph) : graph :=
  if memb p (g_nodes g) then g else mkGraph (g_nodes g ++ [p]) (g_edges g).
(** scc.rs 76-80 [add_dependency]; indexing the map with an unknown predicate
    panics. *)
Definition add_dependency (s d : pred) (k : ekind) (g : graph) : option graph :=
  if memb s (g_nodes g) && memb d (g_nodes g)
  then Some (mkGraph (g_nodes g) (g_edges g ++ [(s, d, k)])) else None.
Fixpoint add_deps (l : list edge) (g : graph) : option graph :=
  match l with
  | [] => Some g
  | (s, d, k) :: r => match add_dependency s d k g with
                      | Some g' => add_deps r g' | None => None end
  end.

(** scc.rs 255-262: edges of a rule whose head is a goal relation. *)
Definition goal_edges (p : program) (r : rule) : list edge :=
  match find (fun b => Nat.eqb (b_pred b) (r_pred r)) (p_rels p) with
  | Some b => if b_goal b then
      flat_map (fun l => match l with
        | LAtom a => if g_foreign (p_reg p) (a_pred a) then []
                     else [(a_pred a, r_pred r, EPos)]
        | _ => [] end) (r_body r)
      else []
  | None => []
  end.
(** scc.rs 268-281. *)
Definition functor_preds (p : program) (r : rule) : list pred :=
  if needs_dyn_entity (p_reg p) r then g_adts (p_reg p) else new_functors r.
(** scc.rs 284-287. *)
Definition functor_edges (p : program) (r : rule) : list edge :=
  flat_map (fun f => [(f, r_pred r, EPos); (r_pred r, f, EPos)]) (functor_preds p r).
(** scc.rs 290-295 [record_dependency]. *)
Definition record_dep (p : program) (r : rule) (q : pred) (k : ekind) : list edge :=
  (r_pred r, q, k) :: map (fun f => (f, q, k)) (functor_preds p r).
(** scc.rs 297-315. *)
Definition lit_edges (p : program) (r : rule) (l : lit) : list edge :=
  match l with
  | LAtom a => if g_foreign (p_reg p) (a_pred a) then [] else record_dep p r (a_pred a) EPos
  | LNeg a => if g_foreign (p_reg p) (a_pred a) then [] else record_dep p r (a_pred a) ENeg
  | LReduce d => record_dep p r (a_pred (rd_body d)) EAgg ++
      match rd_groupby d with Some a => record_dep p r (a_pred a) EAgg | None => [] end
  | _ => []
  end.
Definition rule_edges (p : program) (r : rule) : list edge :=
  goal_edges p r ++ functor_edges p r ++ flat_map (lit_edges p r) (r_body r).
(** scc.rs 236-321 [dependency_graph]. *)
Definition dependency_graph (p : program) : option graph :=
  add_deps (flat_map (rule_edges p) (p_rules p))
    (fold_left (fun g b => add_predicate (b_pred b) g) (p_rels p) (mkGraph [] [])).

(** petgraph's [has_path_connecting]: a computation of the nodes reachable from
    [u] by adding the successors as many times as there are nodes.  petgraph is
    a dependency and is modelled from its documentation. *)
Definition succs (g : graph) (u : pred) : list pred :=
  flat_map (fun e => match e with (s, d, _) => if Nat.eqb s u then [d] else [] end) (g_edges g).
Definition expand (g : graph) (l : list pred) : list pred :=
  filter (fun v => memb v l || existsb (fun u => memb v (succs g u)) l) (g_nodes g).
Fixpoint reach_from (g : graph) (n : nat) (l : list pred) : list pred :=
  match n with 0 => l | S m => reach_from g m (expand g l) end.
Definition has_path (g : graph) (u v : pred) : bool :=
  memb v (reach_from g (length (g_nodes g)) [u]).

(** scc.rs 82-96 [unused_relations]; [predicate_node] panics on an unknown
    target. *)
Definition unused_relations (g : graph) (targets : list pred) : option (list pred) :=
  if forallb (fun t => memb t (g_nodes g)) targets then
    Some (filter (fun p => negb (memb p targets) &&
                           negb (existsb (fun o => has_path g o p) targets)) (g_nodes g))
  else None.

(** compile.rs 54-69 [remove_unused_relations], without the recomputed graph. *)
Definition remove_unused (p : program) : option program :=
  match dependency_graph p with
  | None => None
  | Some g =>
    match unused_relations g (p_outputs p) with
    | None => None
    | Some del => Some (mkProg
        (filter (fun b => negb (memb (b_pred b) del)) (p_rels p))
        (p_outputs p)
        (filter (fun f => negb (memb (f_pred f) del)) (p_facts p))
        (filter (fun r => negb (memb (r_pred r) del)) (p_rules p))
        (p_reg p))
    end
  end.

(** The strongly connected components are an input of [stratify] here:
    petgraph's [kosaraju_scc] is modelled by its contract ([scc_contract] in
    the properties file), [sccs_of] is one implementation. *)
Definition sccs := list (list pred).
Fixpoint sccs_loop (g : graph) (todo : list pred) (seen : list pred) : sccs :=
  match todo with
  | [] => []
  | u :: r => if memb u seen then sccs_loop g r seen
              else let c := filter (fun v => has_path g u v && has_path g v u) (g_nodes g) in
                   c :: sccs_loop g r (c ++ seen)
  end.
Definition sccs_of (g : graph) : sccs := sccs_loop g (g_nodes g) [].

(** scc.rs 104-116: the first edge that needs stratification and stays in its
    component. *)
Definition bad_edge (g : graph) (cs : sccs) : option edge :=
  find (fun _ => true)
    (flat_map (fun c => flat_map (fun u =>
       filter (fun e => match e with (s, d, k) => Nat.eqb s u && needs_strat k && memb d c end)
         (rev (g_edges g))) c) cs).

(** petgraph's [condensation(_, true)]: components are numbered by their
    position, edges inside a component are dropped, parallel edges merged. *)
Fixpoint comp_index (cs : sccs) (u : pred) : nat :=
  match cs with [] => 0 | c :: r => if memb u c then 0 else S (comp_index r u) end.
Definition cmem (e : nat * nat) (l : list (nat * nat)) : bool :=
  existsb (fun f => Nat.eqb (fst e) (fst f) && Nat.eqb (snd e) (snd f)) l.
Definition update_edge (l : list (nat * nat)) (e : nat * nat) : list (nat * nat) :=
  if cmem e l then l else l ++ [e].
Definition cond_edges (g : graph) (cs : sccs) : list (nat * nat) :=
  fold_left (fun acc e => match e with (s, d, _) =>
      let i := comp_index cs s in let j := comp_index cs d in
      if Nat.eqb i j then acc else update_edge acc (i, j) end) (g_edges g) [].
Definition cond_node (g : graph) (cs : sccs) (i : nat) : list pred :=
  filter (fun u => Nat.eqb (comp_index cs u) i) (g_nodes g).

(** Outgoing and incoming neighbours, latest edge first as in petgraph. *)
Definition outs (ce : list (nat * nat)) (i : nat) : list nat :=
  flat_map (fun e => if Nat.eqb (fst e) i then [snd e] else []) (rev ce).
Definition ins (ce : list (nat * nat)) (i : nat) : list nat :=
  flat_map (fun e => if Nat.eqb (snd e) i then [fst e] else []) (rev ce).

(** scc.rs 151-162. *)
Definition visit_in (ce : list (nat * nat)) (st : list nat * list nat) (n : nat) :=
  let '(visited, fringe) := st in
  if memb n visited then st
  else if forallb (fun t => memb t visited) (outs ce n)
       then (n :: visited, fringe ++ [n]) else st.
(** scc.rs 138-163; the strata are returned as component numbers.  [None]: the
    fuel ran out. *)
Fixpoint strata_loop (fuel : nat) (ce : list (nat * nat)) (visited fringe : list nat)
    : option (list nat) :=
  match fringe with
  | [] => Some []
  | c :: rest =>
    match fuel with
    | 0 => None
    | S fuel' =>
      let '(visited', fringe') := fold_left (visit_in ce) (ins ce c) (visited, rest) in
      match strata_loop fuel' ce visited' fringe' with
      | Some l => Some (c :: l)
      | None => None
      end
    end
  end.

(** scc.rs 168-177 [has_cycle]. *)
Definition has_cycle (g : graph) (dom : list pred) : bool :=
  match dom with
  | [] => false
  | [u] => memb u (succs g u)
  | _ => true
  end.

(** scc.rs 181-184. *)
Record stratum := mkStratum { st_preds : list pred; st_rec : bool }.

(** scc.rs 102-166 [stratify]: [inl] is [Err(CannotStratify)] with its edge.
    [None]: the fuel ran out (shown impossible). *)
Definition stratify (g : graph) (cs : sccs) : option (edge + list stratum) :=
  match bad_edge g cs with
  | Some e => Some (inl e)
  | None =>
    let ce := cond_edges g cs in
    let sources := filter (fun i => match outs ce i with [] => true | _ => false end)
                     (seq 0 (length cs)) in
    match strata_loop (length cs) ce sources sources with
    | None => None
    | Some l => Some (inr (map (fun i => let ps := cond_node g cs i in
                                         mkStratum ps (has_cycle g ps)) l))
    end
  end.
