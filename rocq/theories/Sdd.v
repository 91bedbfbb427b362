(** Model of /repo/lib/sdd/src/{formula,sdd,bottom_up,semiring}.rs and of
    /repo/core/src/runtime/provenance/common/as_boolean_formula.rs. *)
From Coq Require Import List Arith Bool Lia.
From Verif Require Import Order OSet VTree Formula.
Import ListNotations.
Set Implicit Arguments.

(** ** formula.rs *)

(** [BooleanFormula] (4-25) *)
Inductive bform :=
| BFalse | BTrue
| BPos (v : nat) | BNeg (v : nat)
| BNot (f : bform)
| BAnd (l r : bform)
| BOr (l r : bform).

(** [bf_conjunction], [bf_disjunction] (53-80) *)
Definition bf_conjunction (l : list bform) : bform :=
  match l with [] => BTrue | a :: r => fold_left BAnd r a end.
Definition bf_disjunction (l : list bform) : bform :=
  match l with [] => BFalse | a :: r => fold_left BOr r a end.

(** [collect_vars] (123-127, 161-185): the [BTreeSet] is a strictly increasing
    list. *)
Fixpoint collect_helper (f : bform) (s : list nat) : list nat :=
  match f with
  | BFalse | BTrue => s
  | BPos v | BNeg v => oins Nat.compare v s
  | BNot g => collect_helper g s
  | BAnd l r | BOr l r => collect_helper r (collect_helper l s)
  end.
Definition collect_vars (f : bform) : list nat := collect_helper f [].

(** ** sdd.rs *)

(** [SDDLiteral] (17-23), [SDDNode] (36-40), [SDDElement] (5-9) *)
Inductive slit := SPos (v : nat) | SNeg (v : nat) | STrue | SFalse.
Inductive snode := SOr (children : list (nat * nat)) | SLit (l : slit).
(** [SDDNodes] (61-65): indices are handed out in increasing order, so the map
    is a list; a removed node is [None]. [max_id] is the length. *)
Definition snodes := list (option snode).
(** [add_node] (75-80) *)
Definition add_node (ns : snodes) (n : snode) : snodes * nat := (ns ++ [Some n], length ns).
(** [Index] (98-104); a missing node panics *)
Definition get_node (ns : snodes) (i : nat) : option snode :=
  match nth_error ns i with Some (Some n) => Some n | _ => None end.

(** [eval_node] (128-150); the assignment is total.  [None] is a panic (missing
    node, "Mutual exclusion violated") or running out of fuel. *)
Section Eval.
  Variables (ns : snodes) (w : nat -> bool).
  Definition eval_lit (l : slit) : bool :=
    match l with SPos v => w v | SNeg v => negb (w v) | STrue => true | SFalse => false end.
  Section Children.
    Variable rec : nat -> option bool.
    Fixpoint eval_children (cs : list (nat * nat)) : option bool :=
      match cs with
      | [] => None
      | (p, s) :: r =>
          do b <- rec p;
          if b then rec s else eval_children r
      end.
  End Children.
  Fixpoint eval_node (fuel i : nat) : option bool :=
    match fuel with
    | 0 => None
    | S f =>
        match get_node ns i with
        | None => None
        | Some (SOr cs) => eval_children (eval_node f) cs
        | Some (SLit l) => Some (eval_lit l)
        end
    end.
End Eval.

(** semiring.rs [Semiring] (1-13) *)
Record semiring := mkSR {
  sr_t : Type;
  sr_zero : sr_t; sr_one : sr_t;
  sr_add : sr_t -> sr_t -> sr_t; sr_mult : sr_t -> sr_t -> sr_t; sr_negate : sr_t -> sr_t }.
(** [eval_node_t] (160-178) *)
Section EvalT.
  Variables (S : semiring) (ns : snodes) (v : nat -> sr_t S).
  Definition eval_lit_t (l : slit) : sr_t S :=
    match l with
    | SPos x => v x | SNeg x => sr_negate S (v x) | STrue => sr_one S | SFalse => sr_zero S end.
  Section Children.
    Variable rec : nat -> option (sr_t S).
    Fixpoint eval_children_t (acc : sr_t S) (cs : list (nat * nat)) : option (sr_t S) :=
      match cs with
      | [] => Some acc
      | (p, s) :: r =>
          do a <- rec p;
          do b <- rec s;
          eval_children_t (sr_add S acc (sr_mult S a b)) r
      end.
  End Children.
  Fixpoint eval_node_t (fuel i : nat) : option (sr_t S) :=
    match fuel with
    | 0 => None
    | Datatypes.S f =>
        match get_node ns i with
        | None => None
        | Some (SOr cs) => eval_children_t (eval_node_t f) (sr_zero S) cs
        | Some (SLit l) => Some (eval_lit_t l)
        end
    end.
End EvalT.

(** ** bottom_up.rs *)

Inductive aop := Conjoin | Disjoin.
Definition aop_eqb (a b : aop) : bool :=
  match a, b with Conjoin, Conjoin => true | Disjoin, Disjoin => true | _, _ => false end.

(** [apply_cache] *)
Definition acache := list ((nat * nat * aop) * nat).
Fixpoint cget (m : acache) (a b : nat) (o : aop) : option nat :=
  match m with
  | [] => None
  | ((x, y, p), v) :: r => if (x =? a) && (y =? b) && aop_eqb p o then Some v else cget r a b o
  end.

(** the mutable part of [SDDBuilder] (40-61); [roots] is handled by the
    callers, [apply_depth] and [apply_count] have no influence and are left
    out. *)
Record sstate := mkS { s_nodes : snodes; s_neg : fmap; s_vt : fmap; s_cache : acache }.

(** [with_config] (70-165).  The two constants get indices 0 and 1.  The
    [HashMap] of positive (negative) variable nodes is an association list; the
    iteration order of the maps it is copied into does not matter. *)
Definition false_node : nat := 0.
Definition true_node : nat := 1.
Fixpoint add_lits (ns : snodes) (mk : nat -> slit) (vars : list nat) : snodes * fmap :=
  match vars with
  | [] => (ns, [])
  | v :: r =>
      let (ns, i) := add_node ns (SLit (mk v)) in
      let (ns, m) := add_lits ns mk r in
      (ns, (v, i) :: m)
  end.
Record sbuilder := mkB { b_vt : vtree; b_pos : fmap; b_negv : fmap }.
(** [neg_var_nodes[var_id]] for every pair of [pos_var_nodes] (117-126) *)
Fixpoint negation_pairs (m other : fmap) : option fmap :=
  match m with
  | [] => Some []
  | (v, i) :: r =>
      do j <- mget other v;
      do l <- negation_pairs r other;
      Some ((i, j) :: l)
  end.
Fixpoint leaf_pairs (m vm : fmap) : option fmap :=
  match m with
  | [] => Some []
  | (v, i) :: r =>
      do j <- mget vm v;
      do l <- leaf_pairs r vm;
      Some ((i, j) :: l)
  end.
Definition with_config (vt : vtree) : option (sbuilder * sstate) :=
  let ns := [Some (SLit SFalse); Some (SLit STrue)] in
  let (ns, pos) := add_lits ns SPos (vt_vars vt) in
  let (ns, neg) := add_lits ns SNeg (vt_vars vt) in
  do np <- negation_pairs pos neg;
  do nn <- negation_pairs neg pos;
  do lp <- leaf_pairs pos (vt_var vt);
  do ln <- leaf_pairs neg (vt_var vt);
  Some (mkB vt pos neg,
        mkS ns (np ++ nn ++ [(false_node, true_node); (true_node, false_node)]) (lp ++ ln) []).

Section Builder.
  Variable B : sbuilder.
  Let vt := b_vt B.

  (** 248-286 *)
  Definition zero_of (op : aop) : nat := match op with Conjoin => false_node | Disjoin => true_node end.
  Definition one_of (op : aop) : nat := match op with Conjoin => true_node | Disjoin => false_node end.
  Definition negation_of (st : sstate) (n : nat) : option nat := mget (s_neg st) n.

  (** [add_or_node] (298-324) *)
  Definition onat_eqb (a b : option nat) : bool :=
    match a, b with Some x, Some y => x =? y | None, None => true | _, _ => false end.
  Definition shortcut (st : sstate) (cs : list (nat * nat)) : option nat :=
    match cs with
    | [(p0, s0); (p1, s1)] =>
        if onat_eqb (Some p0) (negation_of st p1) then
          if (s0 =? false_node) && (s1 =? true_node) then Some p1
          else if (s0 =? true_node) && (s1 =? false_node) then Some p0
          else if s0 =? s1 then Some s0
          else None
        else None
    | _ => None
    end.
  Definition add_or_node (st : sstate) (cs : list (nat * nat)) (v : nat) : sstate * nat :=
    match shortcut st cs with
    | Some n => (st, n)
    | None =>
        let (ns, i) := add_node (s_nodes st) (SOr cs) in
        (mkS ns (s_neg st) (mset (s_vt st) i v) (s_cache st), i)
    end.

  (** [negate_node] (334-358) *)
  Section NegChildren.
    Variable rec : sstate -> nat -> option (sstate * nat).
    Fixpoint neg_children (st : sstate) (cs : list (nat * nat)) : option (sstate * list (nat * nat)) :=
      match cs with
      | [] => Some (st, [])
      | (p, s) :: r =>
          do (st, s') <- rec st s;
          do (st, r') <- neg_children st r;
          Some (st, (p, s') :: r')
      end.
  End NegChildren.
  Fixpoint negate_node (fuel : nat) (st : sstate) (n : nat) : option (sstate * nat) :=
    match fuel with
    | 0 => None
    | S f =>
        match negation_of st n with
        | Some neg => Some (st, neg)
        | None =>
            do nd <- get_node (s_nodes st) n;
            do (st, cs) <- (match nd with
                            | SOr cs => neg_children (negate_node f) st cs
                            | SLit _ => Some (st, []) end);
            do v <- mget (s_vt st) n;
            let (st, neg) := add_or_node st cs v in
            Some (mkS (s_nodes st) (mset (mset (s_neg st) n neg) neg n) (s_vt st) (s_cache st), neg)
        end
    end.

  Section Apply.
    Variable rec : sstate -> nat -> nat -> aop -> option (sstate * nat).
    Variable fuel : nat. (* for [negate_node] *)

    (** the loops of [apply_equal] (372-390) *)
    Fixpoint eq_inner (st : sstate) (p1 s1 : nat) (c2 : list (nat * nat)) (op : aop)
      : option (sstate * list (nat * nat)) :=
      match c2 with
      | [] => Some (st, [])
      | (p2, s2) :: r =>
          do (st, np) <- rec st p1 p2 Conjoin;
          if np =? false_node then eq_inner st p1 s1 r op
          else
            do (st, nsub) <- rec st s1 s2 op;
            do (st, l) <- eq_inner st p1 s1 r op;
            Some (st, (np, nsub) :: l)
      end.
    Fixpoint eq_outer (st : sstate) (c1 c2 : list (nat * nat)) (op : aop)
      : option (sstate * list (nat * nat)) :=
      match c1 with
      | [] => Some (st, [])
      | (p1, s1) :: r =>
          do (st, l1) <- eq_inner st p1 s1 c2 op;
          do (st, l2) <- eq_outer st r c2 op;
          Some (st, l1 ++ l2)
      end.
    (** [apply_equal] (360-394) *)
    Definition apply_equal (st : sstate) (n1 n2 : nat) (op : aop) (lca : nat) : option (sstate * nat) :=
      match get_node (s_nodes st) n1, get_node (s_nodes st) n2 with
      | Some (SOr c1), Some (SOr c2) =>
          do (st, cs) <- eq_outer st c1 c2 op;
          Some (add_or_node st cs lca)
      | _, _ => None (* panic! *)
      end.
    (** [apply_left] (396-429) *)
    Fixpoint left_loop_c (st : sstate) (n : nat) (c2 : list (nat * nat)) : option (sstate * list (nat * nat)) :=
      match c2 with
      | [] => Some (st, [])
      | (p, s) :: r =>
          do (st, np) <- rec st p n Conjoin;
          if np =? false_node then left_loop_c st n r
          else
            do (st, l) <- left_loop_c st n r;
            Some (st, (np, s) :: l)
      end.
    Definition apply_left (st : sstate) (n1 n2 : nat) (op : aop) (lca : nat) : option (sstate * nat) :=
      do (st, n1_neg) <- negate_node fuel st n1;
      let n := match op with Conjoin => n1 | Disjoin => n1_neg end in
      do nn <- negation_of st n;
      match get_node (s_nodes st) n2 with
      | Some (SOr c2) =>
          do (st, l) <- left_loop_c st n c2;
          Some (add_or_node st ((nn, zero_of op) :: l) lca)
      | _ => None (* panic! *)
      end.
    (** [apply_right] (431-450) *)
    Fixpoint right_loop_c (st : sstate) (n2 : nat) (c1 : list (nat * nat)) (op : aop)
      : option (sstate * list (nat * nat)) :=
      match c1 with
      | [] => Some (st, [])
      | (p, s) :: r =>
          do (st, nsub) <- rec st s n2 op;
          do (st, l) <- right_loop_c st n2 r op;
          Some (st, (p, nsub) :: l)
      end.
    Definition apply_right (st : sstate) (n1 n2 : nat) (op : aop) (lca : nat) : option (sstate * nat) :=
      match get_node (s_nodes st) n1 with
      | Some (SOr c1) =>
          do (st, cs) <- right_loop_c st n2 c1 op;
          Some (add_or_node st cs lca)
      | _ => None (* panic! *)
      end.
    (** [apply_disjoint] (452-467) *)
    Definition apply_disjoint (st : sstate) (n1 n2 : nat) (op : aop) (lca : nat) : option (sstate * nat) :=
      do (st, n1_neg) <- negate_node fuel st n1;
      do (st, n1_sub) <- rec st n2 true_node op;
      do (st, n1_neg_sub) <- rec st n2 false_node op;
      Some (add_or_node st [(n1, n1_sub); (n1_neg, n1_neg_sub)] lca).
  End Apply.

  (** [apply] (469-532) *)
  Fixpoint apply (fuel : nat) (st : sstate) (lhs rhs : nat) (op : aop) : option (sstate * nat) :=
    match fuel with
    | 0 => None
    | S f =>
        if lhs =? rhs then Some (st, lhs)
        else if onat_eqb (Some lhs) (negation_of st rhs) then Some (st, zero_of op)
        else if (lhs =? zero_of op) || (rhs =? zero_of op) then Some (st, zero_of op)
        else if lhs =? one_of op then Some (st, rhs)
        else if rhs =? one_of op then Some (st, lhs)
        else
          match cget (s_cache st) lhs rhs op with
          | Some r => Some (st, r)
          | None =>
              do lv0 <- mget (s_vt st) lhs;
              do rv0 <- mget (s_vt st) rhs;
              do lp <- position vt lv0;
              do rp <- position vt rv0;
              let '((l, lv), (r, rv)) :=
                if rp <? lp then ((rhs, rv0), (lhs, lv0)) else ((lhs, lv0), (rhs, rv0)) in
              do (ty, lca) <- lowest_common_ancestor vt lv rv;
              do (st, res) <- (match ty with
                               | AEqual => apply_equal (apply f) st l r op lca
                               | ALeft => apply_left (apply f) f st l r op lca
                               | ARight => apply_right (apply f) st l r op lca
                               | ADisjoint => apply_disjoint (apply f) f st l r op lca
                               end);
              Some (mkS (s_nodes st) (s_neg st) (s_vt st) (((l, r, op), res) :: s_cache st), res)
          end
    end.

  (** [build_sdd] (221-244) *)
  Fixpoint build_sdd (fuel : nat) (st : sstate) (f : bform) : option (sstate * nat) :=
    match f with
    | BTrue => Some (st, true_node)
    | BFalse => Some (st, false_node)
    | BPos v => do i <- mget (b_pos B) v; Some (st, i)
    | BNeg v => do i <- mget (b_negv B) v; Some (st, i)
    | BNot g =>
        do (st, i) <- build_sdd fuel st g;
        negate_node fuel st i
    | BAnd l r =>
        do (st, i) <- build_sdd fuel st l;
        do (st, j) <- build_sdd fuel st r;
        apply fuel st i j Conjoin
    | BOr l r =>
        do (st, i) <- build_sdd fuel st l;
        do (st, j) <- build_sdd fuel st r;
        apply fuel st i j Disjoin
    end.
End Builder.

(** [mark_visited] (192-203); the [HashSet] is a list *)
Section Mark.
  Variable ns : snodes.
  Section Children.
    Variable rec : nat -> list nat -> option (list nat).
    Fixpoint mark_children (cs : list (nat * nat)) (vis : list nat) : option (list nat) :=
      match cs with
      | [] => Some vis
      | (p, s) :: r =>
          do vis <- rec p vis;
          do vis <- rec s vis;
          mark_children r vis
      end.
  End Children.
  Fixpoint mark_visited (fuel i : nat) (vis : list nat) : option (list nat) :=
    match fuel with
    | 0 => None
    | S f =>
        match get_node ns i with
        | None => None
        | Some (SLit _) => Some (i :: vis)
        | Some (SOr cs) => mark_children (mark_visited f) cs (i :: vis)
        end
    end.
  Fixpoint mark_roots (fuel : nat) (roots vis : list nat) : option (list nat) :=
    match roots with
    | [] => Some vis
    | r :: rs => do vis <- mark_visited fuel r vis; mark_roots fuel rs vis
    end.
End Mark.
(** [SDDNodes::retain] (90-95), from index [i] on *)
Fixpoint retain_from (i : nat) (ns : snodes) (keep : nat -> bool) : snodes :=
  match ns with
  | [] => []
  | n :: r => (if keep i then n else None) :: retain_from (S i) r keep
  end.
(** [garbage_collect] (209-217) *)
Definition garbage_collect (ns : snodes) (roots : list nat) : option snodes :=
  match roots with
  | [] => Some ns
  | _ =>
      do vis <- mark_roots ns (S (length ns)) roots [];
      Some (retain_from 0 ns (fun i => existsb (Nat.eqb i) vis))
  end.

(** [SDD] (114-118) *)
Definition sdd := (snodes * list nat)%type.
(** [build] (167-182); the fuel bounds the recursion depth of [apply] and
    [negate_node]. *)
Definition build (fuel : nat) (vt : vtree) (gc : bool) (f : bform) : option sdd :=
  do (B, st) <- with_config vt;
  do (st, root) <- build_sdd B fuel st f;
  let roots := [root] in
  do ns <- (if gc then garbage_collect (s_nodes st) roots else Some (s_nodes st));
  Some (ns, roots).
(** [eval], [eval_t] (120-126, 152-158) *)
Definition sdd_eval (d : sdd) (w : nat -> bool) : option bool :=
  match snd d with [] => None | r :: _ => eval_node (fst d) w (S (length (fst d))) r end.
Definition sdd_eval_t (S : semiring) (d : sdd) (v : nat -> sr_t S) : option (sr_t S) :=
  match snd d with [] => None | r :: _ => eval_node_t S (fst d) v (Datatypes.S (length (fst d))) r end.

(** [add_formula] (184-189) then [build_arena] (191-200): several roots in one
    store *)
Fixpoint add_formulas (B : sbuilder) (fuel : nat) (st : sstate) (fs : list bform) : option (sstate * list nat) :=
  match fs with
  | [] => Some (st, [])
  | f :: r =>
      do (st, i) <- build_sdd B fuel st f;
      do (st, l) <- add_formulas B fuel st r;
      Some (st, i :: l)
  end.
Definition build_arena (fuel : nat) (vt : vtree) (gc : bool) (fs : list bform) : option sdd :=
  do (B, st) <- with_config vt;
  do (st, roots) <- add_formulas B fuel st fs;
  do ns <- (if gc then garbage_collect (s_nodes st) roots else Some (s_nodes st));
  Some (ns, roots).

(** ** as_boolean_formula.rs *)

(** literal.rs 32-39, dnf_formula.rs 106-115, cnf_dnf_formula.rs 142-159 *)
Definition lit_bf (l : lit) : bform := match l with Pos i => BPos i | Neg i => BNeg i end.
Definition dnf_bf (f : list clause) : bform := bf_disjunction (map (fun c => bf_conjunction (map lit_bf c)) f).
Definition cnf_bf (f : list clause) : bform := bf_conjunction (map (fun c => bf_disjunction (map lit_bf c)) f).
Definition cd_bf (t : cform) : bform := match fkind t with CNF => cnf_bf (fcls t) | DNF => dnf_bf (fcls t) end.
(** probabilistic/prob_proofs.rs 22-26, 82-86 *)
Definition proofs_bf (t : list (list nat)) : bform := bf_disjunction (map (fun p => bf_conjunction (map BPos p)) t).

(** [wmc] (10-20): [with_formula] uses [collect_vars] and the default,
    balanced, variable tree with garbage collection. *)
Definition wmc_bf (fuel : nat) (S : semiring) (f : bform) (v : nat -> sr_t S) : option (sr_t S) :=
  do vt <- new_with_type (collect_vars f) VTBalanced;
  do d <- build fuel vt true f;
  sdd_eval_t S d v.
(** the formula of [wmc_with_disjunctions] (31-43) *)
Definition disj_bf (facts : list nat) : bform :=
  bf_conjunction (map (fun n => bf_disjunction (map (fun f => if f =? n then BNeg f else BPos f) facts)) facts).
Definition with_disj (f : bform) (ds : list (list nat)) : bform :=
  bf_disjunction (f :: map disj_bf ds).
