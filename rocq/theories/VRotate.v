(** Model of the mutations of a variable tree, /repo/lib/sdd/src/vtree.rs
    380-516.  Only the graph and the root change: the cached maps
    (in_order_positions, first/last_in_subtree_map) are not recomputed by the
    code. *)
From Coq Require Import List Arith Bool.
From Verif Require Import ListAux VTree.
Import ListNotations.
Set Implicit Arguments.

(** The edges of a [petgraph::Graph] with their indices, most recently added
    first, which is the order in which the incoming and outgoing lists of a
    node are walked.  petgraph itself is not part of /repo; the three
    operations below follow its documentation. *)
Definition iedges := list (nat * (nat * nat)).
(** the indices of a graph from which nothing was removed yet: [add_edge]
    counts up *)
Definition fresh (edges : list (nat * nat)) : iedges := combine (rev (seq 0 (length edges))) edges.
(** [find_edge]: the most recent edge from [a] to [b] *)
Definition find_edge (g : iedges) (a b : nat) : option nat :=
  option_map fst (find (fun e => (fst (snd e) =? a) && (snd (snd e) =? b)) g).
(** [remove_edge]: nothing happens if there is no such index; otherwise the
    edge with the last index takes over the index that became free *)
Definition remove_edge (g : iedges) (e : nat) : iedges :=
  if existsb (fun p => fst p =? e) g then
    map (fun p => if fst p =? length g - 1 then (e, snd p) else p) (filter (fun p => negb (fst p =? e)) g)
  else g.
(** [add_edge] *)
Definition ins_edge (g : iedges) (a b : nat) : iedges := (length g, (a, b)) :: g.

(** a variable tree together with its edge indices *)
Definition mvt := (vtree * iedges)%type.
Definition with_graph (t : vtree) (tree : list vnode) (g : iedges) (root : nat) : mvt :=
  (mkVT tree (map snd g) (vt_vars t) root (vt_var t) (vt_pos t) (vt_first t) (vt_last t), g).
Definition start (t : vtree) : mvt := (t, fresh (vt_edges t)).

(** [VTreeMutationError] and panics *)
Inductive mres := MOk (t : mvt) | MErr | MPanic.
Definition of_opt (o : option mvt) : mres := match o with Some t => MOk t | None => MPanic end.

(** the edges and the parent of the rotated node: [old] is the node rotated
    away from the top, [new] the one that takes its place, [b] the inner
    subtree that changes its parent (rotate_left 415-431, rotate_right
    472-487); the two edges are looked up before the first one is removed *)
Definition relink (t : vtree) (g : iedges) (tree : list vnode) (old new b : nat) : option mvt :=
  do e1 <- find_edge g new b;
  do e2 <- find_edge g old new;
  let g := remove_edge g e1 in
  let g := remove_edge g e2 in
  let g := ins_edge g new old in
  let g := ins_edge g old b in
  if vt_root t =? old then Some (with_graph t tree g new)
  else
    do p <- parent_of (map snd g) old;
    do e <- find_edge g p old;
    Some (with_graph t tree (ins_edge (remove_edge g e) p new) (vt_root t)).

(** [rotate_left] (390-434) *)
Definition rotate_left (m : mvt) (x : nat) : mres :=
  let (t, g) := m in
  match nth_error (vt_tree t) x with
  | Some (VBranch a y) =>
      match nth_error (vt_tree t) y with
      | Some (VBranch b c) => of_opt (relink t g (lset y (VBranch x c) (lset x (VBranch a b) (vt_tree t))) x y b)
      | Some (VLeaf _) => MErr
      | None => MPanic
      end
  | Some (VLeaf _) => MErr
  | None => MPanic
  end.
(** [rotate_right] (446-490) *)
Definition rotate_right (m : mvt) (y : nat) : mres :=
  let (t, g) := m in
  match nth_error (vt_tree t) y with
  | Some (VBranch x c) =>
      match nth_error (vt_tree t) x with
      | Some (VBranch a b) => of_opt (relink t g (lset x (VBranch a y) (lset y (VBranch b c) (vt_tree t))) y x b)
      | Some (VLeaf _) => MErr
      | None => MPanic
      end
  | Some (VLeaf _) => MErr
  | None => MPanic
  end.
(** [swap] (499-509) *)
Definition swap (m : mvt) (x : nat) : mres :=
  let (t, g) := m in
  match nth_error (vt_tree t) x with
  | Some (VBranch l r) => MOk (with_graph t (lset x (VBranch r l) (vt_tree t)) g (vt_root t))
  | Some (VLeaf _) => MErr
  | None => MPanic
  end.
