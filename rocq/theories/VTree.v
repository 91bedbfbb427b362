(** Model of /repo/lib/sdd/src/vtree.rs.

    The petgraph [Graph<VTreeNode, ()>] is a list of nodes (the node index is
    the position, petgraph allocates indices in order) and a list of edges, most
    recent first; [neighbors_directed(_, Incoming).next()] and [find_edge] look
    at the most recent edge first.  [HashMap]s are association lists, most
    recent binding first.  Indexing a missing key or node panics in Rust and is
    [None] here; recursion on a cyclic graph (which overflows the stack) runs
    out of fuel, also [None]. *)
From Coq Require Import List Arith Bool Lia.
Import ListNotations.
Set Implicit Arguments.

Definition obind (A B : Type) (o : option A) (f : A -> option B) : option B :=
  match o with None => None | Some x => f x end.
Notation "'do' x <- e ; k" := (obind e (fun x => k)) (at level 200, x pattern, e at level 100, k at level 200).

(** [HashMap<usize, _>]: [get] and [insert] *)
Definition fmap := list (nat * nat).
Fixpoint mget (m : fmap) (k : nat) : option nat :=
  match m with
  | [] => None
  | (a, b) :: r => if a =? k then Some b else mget r k
  end.
Definition mset (m : fmap) (k v : nat) : fmap := (k, v) :: m.

(** [VTreeNode] (5-13) *)
Inductive vnode := VLeaf (v : nat) | VBranch (l r : nat).
(** [VTree] (57-68) *)
Record vtree := mkVT {
  vt_tree : list vnode;
  vt_edges : list (nat * nat);
  vt_vars : list nat;
  vt_root : nat;
  vt_var : fmap;      (* var_to_node_id_map *)
  vt_pos : fmap;      (* in_order_positions *)
  vt_first : fmap;    (* first_in_subtree_map *)
  vt_last : fmap      (* last_in_subtree_map *)
}.
Inductive vtype := VTLeft | VTRight | VTBalanced.
Inductive atype := AEqual | ALeft | ARight | ADisjoint.

(** a graph under construction *)
Definition vgraph := (list vnode * list (nat * nat))%type.
Definition add_vnode (g : vgraph) (n : vnode) : vgraph * nat :=
  ((fst g ++ [n], snd g), length (fst g)).
Definition add_edge (g : vgraph) (a b : nat) : vgraph := (fst g, (a, b) :: snd g).
(** a branch with its two edges (115-120, 143-148, 184-189) *)
Definition add_branch (g : vgraph) (l r : nat) : vgraph * nat :=
  let (g, p) := add_vnode g (VBranch l r) in
  (add_edge (add_edge g p l) p r, p).

(** ** [post_process] (199-269) *)

(** [in_order_traversal] (201-216) with its closure (220-227): the state is
    (count, in_order_positions, var_to_node_id_map). *)
Definition ino_state := (nat * fmap * fmap)%type.
Definition ino_visit (s : ino_state) (id : nat) (n : vnode) : ino_state :=
  match s with
  | (c, pos, vm) =>
      (S c, mset pos id c, match n with VLeaf v => mset vm v id | VBranch _ _ => vm end)
  end.
Fixpoint in_order (tree : list vnode) (fuel id : nat) (s : ino_state) : option ino_state :=
  match fuel with
  | 0 => None
  | S f =>
      match nth_error tree id with
      | None => None
      | Some (VBranch l r) =>
          do s1 <- in_order tree f l s;
          in_order tree f r (ino_visit s1 id (VBranch l r))
      | Some (VLeaf v) => Some (ino_visit s id (VLeaf v))
      end
  end.
(** [cache_min_max_in_subtree] (230-250) *)
Fixpoint cache_min_max (tree : list vnode) (fuel id : nat) (s : fmap * fmap) : option (fmap * fmap) :=
  match fuel with
  | 0 => None
  | S f =>
      match nth_error tree id with
      | None => None
      | Some (VBranch l r) =>
          do s1 <- cache_min_max tree f l s;
          do s2 <- cache_min_max tree f r s1;
          do mn <- mget (fst s2) l;
          do mx <- mget (snd s2) r;
          Some (mset (fst s2) id mn, mset (snd s2) id mx)
      | Some (VLeaf v) => Some (mset (fst s) id id, mset (snd s) id id)
      end
  end.
Definition post_process (g : vgraph) (vars : list nat) (root : nat) : option vtree :=
  let tree := fst g in
  do s <- in_order tree (S (length tree)) root (0, [], []);
  do mm <- cache_min_max tree (S (length tree)) root ([], []);
  Some (mkVT tree (snd g) vars root (snd s) (snd (fst s)) (fst mm) (snd mm)).

(** ** constructors *)

(** [create_left_linear_from_vars] (107-126) *)
Fixpoint left_loop (g : vgraph) (curr : nat) (vars : list nat) : vgraph * nat :=
  match vars with
  | [] => (g, curr)
  | v :: r =>
      let (g, leaf) := add_vnode g (VLeaf v) in
      let (g, p) := add_branch g curr leaf in
      left_loop g p r
  end.
Definition create_left (vars : list nat) : option vtree :=
  match vars with
  | [] => None (* panic! *)
  | v :: r =>
      let (g, c) := add_vnode ([], []) (VLeaf v) in
      let (g, root) := left_loop g c r in
      post_process g vars root
  end.
(** [create_right_linear_from_vars] (132-155); the loop runs over the
    variables from the last but one to the first. *)
Fixpoint right_loop (g : vgraph) (curr : nat) (rvars : list nat) : vgraph * nat :=
  match rvars with
  | [] => (g, curr)
  | v :: r =>
      let (g, leaf) := add_vnode g (VLeaf v) in
      let (g, p) := add_branch g leaf curr in
      right_loop g p r
  end.
Definition create_right (vars : list nat) : option vtree :=
  match rev vars with
  | [] => None (* panic! *)
  | v :: r =>
      let (g, c) := add_vnode ([], []) (VLeaf v) in
      let (g, root) := right_loop g c r in
      post_process g vars root
  end.
(** [create_balanced_from_vars] (161-197); [recurse] (176-192) takes
    [low..high] as [low] and a fuel bounding [high - low]. *)
Fixpoint bal_recurse (fuel : nat) (g : vgraph) (vars : list nat) (low high : nat) : option (vgraph * nat) :=
  match fuel with
  | 0 => None
  | S f =>
      if low =? high - 1 then
        do v <- nth_error vars low;
        Some (add_vnode g (VLeaf v))
      else
        let mid := (high + low) / 2 in
        do (g, l) <- bal_recurse f g vars low mid;
        do (g, r) <- bal_recurse f g vars mid high;
        Some (add_branch g l r)
  end.
Definition create_balanced (vars : list nat) : option vtree :=
  match vars with
  | [] => Some (mkVT [] [] [] 0 [] [] [] [])
  | _ =>
      do (g, root) <- bal_recurse (length vars) ([], []) vars 0 (length vars);
      post_process g vars root
  end.
(** [new_with_type] (97-103) *)
Definition new_with_type (vars : list nat) (ty : vtype) : option vtree :=
  match ty with
  | VTLeft => create_left vars
  | VTRight => create_right vars
  | VTBalanced => create_balanced vars
  end.

(** ** queries *)

(** 318-328 *)
Definition position (t : vtree) (n : nat) : option nat := mget (vt_pos t) n.
Definition first_in_subtree (t : vtree) (n : nat) : option nat := mget (vt_first t) n.
Definition last_in_subtree (t : vtree) (n : nat) : option nat := mget (vt_last t) n.
(** [parent] (330-337) *)
Definition parent_of (edges : list (nat * nat)) (n : nat) : option nat :=
  option_map fst (find (fun e => snd e =? n) edges).
(** the loop of [lowest_common_ancestor] (353-356) *)
Fixpoint lca_loop (t : vtree) (fuel p2 lca : nat) : option nat :=
  match fuel with
  | 0 => None
  | S f =>
      do la <- last_in_subtree t lca;
      do pl <- position t la;
      if pl <? p2 then
        do p <- parent_of (vt_edges t) lca;
        lca_loop t f p2 p
      else Some lca
  end.
(** [lowest_common_ancestor] (339-359) *)
Definition lowest_common_ancestor (t : vtree) (n1 n2 : nat) : option (atype * nat) :=
  if n1 =? n2 then Some (AEqual, n1)
  else
    do p1 <- position t n1;
    do p2 <- position t n2;
    if p1 <? p2 then
      do f2 <- first_in_subtree t n2;
      do pf2 <- position t f2;
      if pf2 <=? p1 then Some (ALeft, n2)
      else
        do l1 <- last_in_subtree t n1;
        do pl1 <- position t l1;
        if p2 <=? pl1 then Some (ARight, n1)
        else
          do p <- parent_of (vt_edges t) n1;
          do l <- lca_loop t (S (length (vt_tree t))) p2 p;
          Some (ADisjoint, l)
    else None (* assert! *).
