(** Model of the comparison of two RAM programs:
    /repo/core/src/compiler/ram/incremental.rs and
    /repo/core/src/compiler/ram/dependency.rs. *)
From Coq Require Import List ZArith Bool Arith.
From Verif Require Import Order Value Back Eval Ram Scc Dedup.
Import ListNotations.

(** ram/ast.rs 196-225 [Relation]: the name and the facts; the derived order
    compares the name first.  Tags, types and the remaining fields are left out. *)
Record rrel := mkRR { rr_name : nat; rr_facts : list tuple }.
Definition rrel_cmp (a b : rrel) : comparison :=
  match Nat.compare (rr_name a) (rr_name b) with
  | Eq => lex tcmp (rr_facts a) (rr_facts b)
  | c => c
  end.
(** ram/ast.rs 183-194, 226: the strata flattened; [dependency_graph] goes
    through the relations of all strata, then through the updates of all
    strata. *)
Record rprog := mkRP { rp_rels : list rrel; rp_updates : list (nat * rdf) }.

(** dependency.rs 68-135 [collect_dependency]; the set is listed in the order of
    the dataflow. *)
Fixpoint collect (d : rdf) : list nat :=
  match d with
  | RUnit _ | RVec _ | RGround _ _ => []
  | RRel r => [r]
  | ROverwrite d | RFilter d _ | RProject d _ | RFind d _ | RSorted d | RConstraint d _ _ | RFpJoin d _ _ => collect d
  | RInter a b | RJoin a b | RProd a b | RUnion a b | RDiff a b | RAnti a b => collect a ++ collect b
  | RJoinIV d r => collect d ++ [r]
  | RReduce _ p grp => p :: match grp with GJoin g => [g] | _ => [] end
  end.
Definition deps (d : rdf) : list nat := nodup Nat.eq_dec (collect d).

(** dependency.rs 11-41.  One edge per pair of relations; its weight is the set
    of updates found for the pair.  An unknown relation panics. *)
Definition rp_names (p : rprog) : list nat := map rr_name (rp_rels p).
Definition known (p : rprog) : bool :=
  forallb (fun u => memb (fst u) (rp_names p) && forallb (fun s => memb s (rp_names p)) (deps (snd u))) (rp_updates p).
Definition rp_edges (p : rprog) : list edge :=
  fold_left (fun acc e => if existsb (fun f => Nat.eqb (fst (fst f)) (fst (fst e)) && Nat.eqb (snd (fst f)) (snd (fst e))) acc
                          then acc else acc ++ [e])
    (flat_map (fun u => map (fun s => (s, fst u, EPos)) (deps (snd u))) (rp_updates p)) [].
Definition rp_graph (p : rprog) : graph := mkGraph (rp_names p) (rp_edges p).
Definition eweight (p : rprog) (s t : nat) : list (nat * rdf) :=
  filter (fun u => Nat.eqb (fst u) t && memb s (deps (snd u))) (rp_updates p).

(** dependency.rs 43-46: petgraph's [condensation(g, true)].  An edge between two
    components overwrites the weight of an earlier one. *)
Definition cweight (p : rprog) (cs : sccs) (i j : nat) : list (nat * rdf) :=
  fold_left (fun acc e => match e with (s, t, _) =>
      if Nat.eqb (comp_index cs s) i && Nat.eqb (comp_index cs t) j then eweight p s t else acc end) (rp_edges p) [].
Definition rp_sccs (p : rprog) : sccs := sccs_of (rp_graph p).
Definition rp_cond (p : rprog) : list (nat * nat) := cond_edges (rp_graph p) (rp_sccs p).
(** The relations of a component, in node order. *)
Definition comp_rels (p : rprog) (i : nat) : list rrel :=
  filter (fun r => Nat.eqb (comp_index (rp_sccs p) (rr_name r)) i) (rp_rels p).

(** incremental.rs 171-176. *)
Definition incoming (p : rprog) (j : nat) : list (nat * rdf) :=
  flat_map (fun i => cweight p (rp_sccs p) i j) (ins (rp_cond p) j).
Definition upd_eq_dec : forall a b : nat * rdf, {a = b} + {a <> b}.
Proof. intros [x d] [y e]. dec_one x y Nat.eq_dec. dec_one d e rdf_eq_dec. left; congruence. Defined.
Definition upd_incl (l m : list (nat * rdf)) : bool :=
  forallb (fun u => if in_dec upd_eq_dec u m then true else false) l.
Definition same_updates (l m : list (nat * rdf)) : bool := upd_incl l m && upd_incl m l.

(** incremental.rs 154-167: a fringe is a set of components; the first one is the
    smallest by its relations (the node number never decides, names are unique). *)
Definition fringe0 (p : rprog) : list nat :=
  filter (fun i => match ins (rp_cond p) i with [] => true | _ => false end) (seq 0 (length (rp_sccs p))).
Fixpoint pop_first (p : rprog) (f : list nat) : option (nat * list nat) :=
  match f with
  | [] => None
  | n :: f => match pop_first p f with
              | None => Some (n, [])
              | Some (m, g) => match lex rrel_cmp (comp_rels p m) (comp_rels p n) with
                               | Lt => Some (m, n :: g)
                               | _ => Some (n, m :: g)
                               end
              end
  end.
Definition finsert (n : nat) (f : list nat) : list nat := if memb n f then f else n :: f.
(** incremental.rs 178-181. *)
Definition all_visited (p : rprog) (n : nat) (v : list nat) : bool := forallb (fun i => memb i v) (ins (rp_cond p) n).
Definition push_next (p : rprog) (n : nat) (v f : list nat) : list nat :=
  fold_left (fun f t => if all_visited p t v then finsert t f else f) (outs (rp_cond p) n) f.

(** incremental.rs 13-68 and 75-141: the second function with [need] the
    relations that need an update; the first one is the case [need = []].
    [None]: the fuel ran out. *)
Fixpoint persist_loop (fuel : nat) (p1 p2 : rprog) (need : list nat) (f1 v1 f2 v2 can : list nat) : option (list nat) :=
  match pop_first p1 f1, pop_first p2 f2 with
  | Some (n1, g1), Some (n2, g2) =>
    match fuel with
    | 0 => None
    | S fuel =>
      match lex rrel_cmp (comp_rels p1 n1) (comp_rels p2 n2) with
      | Eq =>
        if same_updates (incoming p1 n1) (incoming p2 n2) then
          if existsb (fun r => memb (rr_name r) need) (comp_rels p1 n1)
          then persist_loop fuel p1 p2 need (push_next p1 n1 v1 g1) v1 (push_next p2 n2 v2 g2) v2 can
          else persist_loop fuel p1 p2 need (push_next p1 n1 (n1 :: v1) g1) (n1 :: v1)
                 (push_next p2 n2 (n2 :: v2) g2) (n2 :: v2) (map rr_name (comp_rels p1 n1) ++ can)
        else persist_loop fuel p1 p2 need g1 v1 g2 v2 can
      | Gt => persist_loop fuel p1 p2 need g1 v1 (finsert n2 g2) v2 can
      | Lt => persist_loop fuel p1 p2 need (finsert n1 g1) v1 g2 v2 can
      end
    end
  | _, _ => Some can
  end.
Definition persistent (fuel : nat) (p1 p2 : rprog) (need : list nat) : option (list nat) :=
  if known p1 && known p2 then persist_loop fuel p1 p2 need (fringe0 p1) (fringe0 p1) (fringe0 p2) (fringe0 p2) [] else None.
