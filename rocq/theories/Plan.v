(** Model of the query planner of the back end:
    /repo/core/src/compiler/back/query_plan/{plan,state,arc,context}.rs. *)
From Coq Require Import List ZArith Bool Arith.
From Verif Require Import Value Back Eval Scc.
Import ListNotations.

(** ** Sets of variables *)
(** [HashSet<Variable>]: a list without repetitions. *)
Fixpoint dedup_from (seen l : list nat) : list nat :=
  match l with
  | [] => []
  | x :: l => if memb x seen then dedup_from seen l else x :: dedup_from (x :: seen) l
  end.
Definition dedup (l : list nat) : list nat := dedup_from [] l.
Definition vunion (a b : list nat) : list nat := dedup (a ++ b).
Definition subsetb (a b : list nat) : bool := forallb (fun x => memb x b) a.
Definition set_eqb (a b : list nat) : bool := subsetb a b && subsetb b a.
(** [iter().enumerate()]. *)
Definition enum {A} (l : list A) : list (nat * A) := combine (seq 0 (length l)) l.

(** ** Plans *)
(** ast.rs 591-595 [Constraint]. *)
Inductive con := KBin (c : cop) (t1 t2 : term) | KNot (t : term).
(** ast.rs 622-634 [Constraint::variable_args]. *)
Definition con_vars (c : con) : list var :=
  match c with KBin _ a b => tvar a ++ tvar b | KNot a => tvar a end.
(** ast.rs 422-427 [Atom::variable_args]. *)
Definition avars (a : atom) : list var := flat_map tvar (a_args a).

(** plan.rs 5-9 [Plan] with 76-88 [HighRamNode]: the bounded variables are the
    first argument of every node. *)
Inductive plan :=
| PUnit (bv : list var)
| PReduce (bv : list var) (r : reduce)
| PGround (bv : list var) (a : atom)
| PProject (bv : list var) (p : plan) (l : list (var * aexpr))
| PFilter (bv : list var) (p : plan) (cs : list con)
| PJoin (bv : list var) (p q : plan)
| PAnti (bv : list var) (p q : plan)
| PFpGround (bv : list var) (a : atom)
| PFpConstr (bv : list var) (p : plan) (a : atom)
| PFpJoin (bv : list var) (p : plan) (a : atom).
Definition bvars (p : plan) : list var :=
  match p with
  | PUnit b | PReduce b _ | PGround b _ | PProject b _ _ | PFilter b _ _ | PJoin b _ _ | PAnti b _ _
  | PFpGround b _ | PFpConstr b _ _ | PFpJoin b _ _ => b
  end.
(** plan.rs 116-122 [direct_atom]. *)
Fixpoint direct_atom (p : plan) : option atom :=
  match p with PGround _ a => Some a | PFilter _ p _ => direct_atom p | _ => None end.

(** ** What the planner takes from outside *)
(** The names it makes up: [c#p#i] for the constant [c] at position [i] of the
    foreign predicate [p] (context.rs 267, 328), and [v#k] (context.rs 309); the number
    of bounded arguments of a foreign predicate; whether a predicate is foreign. *)
Record penv := mkPenv {
  pe_const : pred -> nat -> value -> var;
  pe_ren : var -> nat -> var;
  pe_bounded : pred -> nat;
  pe_foreign : pred -> bool }.

(** context.rs 9-20 [QueryPlanContext]; head variables and the stratum only
    influence the weights of arcs. *)
Record qctx := mkQ {
  q_reduces : list reduce;
  q_pos : list atom;
  q_neg : list atom;
  q_assigns : list (var * aexpr);
  q_cons : list con;
  q_fp : list atom }.

Section Planner.
  Variable N : penv.

  (** context.rs 24-63 [from_rule]; [None] is the panic on a false literal. *)
  Fixpoint from_body (body : list lit) : option qctx :=
    match body with
    | [] => Some (mkQ [] [] [] [] [] [])
    | l :: body =>
        match from_body body with
        | None => None
        | Some q =>
            match l with
            | LReduce r => Some (mkQ (r :: q_reduces q) (q_pos q) (q_neg q) (q_assigns q) (q_cons q) (q_fp q))
            | LAtom a => if pe_foreign N (a_pred a)
                then Some (mkQ (q_reduces q) (q_pos q) (q_neg q) (q_assigns q) (q_cons q) (a :: q_fp q))
                else Some (mkQ (q_reduces q) (a :: q_pos q) (q_neg q) (q_assigns q) (q_cons q) (q_fp q))
            | LNeg a => Some (mkQ (q_reduces q) (q_pos q) (a :: q_neg q) (q_assigns q) (q_cons q) (q_fp q))
            | LAssign v e => Some (mkQ (q_reduces q) (q_pos q) (q_neg q) ((v, e) :: q_assigns q) (q_cons q) (q_fp q))
            | LBin c a b => Some (mkQ (q_reduces q) (q_pos q) (q_neg q) (q_assigns q) (KBin c a b :: q_cons q) (q_fp q))
            | LNot a => Some (mkQ (q_reduces q) (q_pos q) (q_neg q) (q_assigns q) (KNot a :: q_cons q) (q_fp q))
            | LTrue => Some q
            | LFalse => None
            end
        end
    end.

  (** ** The order of the atoms *)
  (** state.rs 7-12 [State] with arc.rs 5-12 [Arc]: the atoms visited so far and
      the arcs, an arc being the atoms on its left and the one on its right. *)
  Definition arc := (list nat * nat)%type.
  Record state := mkState { s_visited : list nat; s_arcs : list arc }.
  (** [BinaryHeap] and [sort_by_key] on [aggregated_weight] (state.rs 14-24, 69,
      arc.rs 14-20): any way of ordering states. *)
  Variable order : list state -> list state.

  (** itertools [powerset]: subsequences by increasing length. *)
  Fixpoint combinations {A} (k : nat) (l : list A) : list (list A) :=
    match k, l with
    | 0, _ => [[]]
    | S _, [] => []
    | S k, x :: l => map (cons x) (combinations k l) ++ combinations (S k) l
    end.
  Definition powerset {A} (l : list A) : list (list A) :=
    flat_map (fun k => combinations k l) (seq 0 (S (length l))).

  (** state.rs 39-74 [next_states]. *)
  Definition next_states (q : qctx) (beam : nat) (s : state) : list state :=
    if length (q_pos q) <=? length (s_visited s) then []
    else firstn beam (order
           (flat_map (fun id => map (fun set => mkState (s_visited s ++ [id]) (s_arcs s ++ [(set, id)]))
                                    (powerset (s_visited s)))
                     (filter (fun i => negb (memb i (s_visited s))) (seq 0 (length (q_pos q)))))).
  (** state.rs 76-78 [bounded_all]. *)
  Definition bounded_all (q : qctx) (s : state) : bool := length (s_visited s) =? length (q_pos q).

  (** context.rs 145-188 [pos_atom_arcs]; [None]: no final state, or out of fuel. *)
  Fixpoint search (fuel beam : nat) (q : qctx) (queue finals : list state) : option state :=
    match queue with
    | [] => hd_error (order finals)
    | _ :: _ =>
        match fuel with
        | 0 => None
        | S fuel =>
            let nexts := flat_map (next_states q beam) (order queue) in
            search fuel beam q (firstn beam (order (filter (fun s => negb (bounded_all q s)) nexts)))
              (finals ++ filter (bounded_all q) nexts)
        end
    end.
  Definition pos_atom_arcs (beam : nat) (q : qctx) : option state :=
    match q_pos q with
    | [] => Some (mkState [] [])
    | _ :: _ => search (S (length (q_pos q))) beam q [mkState [] []] []
    end.

  (** ** Applying literals *)
  (** Indices of the assigns, constraints and foreign atoms applied so far. *)
  Record applied := mkAp { ap_assigns : list nat; ap_cons : list nat; ap_fp : list nat }.

  (** context.rs 744-749 [term_is_bounded]. *)
  Definition term_bounded (bv : list var) (t : term) : bool :=
    match t with TVar v => memb v bv | TConst _ => true end.

  (** context.rs 190-213 [try_apply_constraint]. *)
  Definition try_constraint (q : qctx) (ap : list nat) (p : plan) : list nat * plan :=
    let todo := filter (fun x => negb (memb (fst x) ap) && subsetb (con_vars (snd x)) (bvars p)) (enum (q_cons q)) in
    match todo with
    | [] => (ap, p)
    | _ :: _ => (ap ++ map fst todo, PFilter (bvars p) p (map snd todo))
    end.

  (** ast.rs 545-552 [is_new_expr]. *)
  Definition is_new (e : aexpr) : bool := match e with ANew _ _ => true | _ => false end.

  (** context.rs 216-245 [try_apply_non_new_assigns]; [None]: out of fuel. *)
  Fixpoint try_assigns (fuel : nat) (q : qctx) (bv : list var) (ap : list nat) (p : plan) : option (list nat * plan) :=
    let todo := filter (fun x => negb (memb (fst x) ap) && negb (memb (fst (snd x)) bv)
                                 && negb (is_new (snd (snd x))) && subsetb (aexpr_vars (snd (snd x))) bv)
                       (enum (q_assigns q)) in
    match todo with
    | [] => Some (ap, p)
    | _ :: _ =>
        match fuel with
        | 0 => None
        | S fuel =>
            let bv' := vunion bv (map (fun x => fst (snd x)) todo) in
            try_assigns fuel q bv' (ap ++ map fst todo) (PProject bv' p (map snd todo))
        end
    end.

  (** context.rs 248-259 [foreign_predicate_atom_info]: the arguments with their
      positions, split at the number of bounded ones. *)
  Definition fp_bound (a : atom) : list term := firstn (pe_bounded N (a_pred a)) (a_args a).
  Definition fp_free (a : atom) : list (nat * term) := skipn (pe_bounded N (a_pred a)) (enum (a_args a)).

  (** context.rs 262-274 [foreign_predicate_constant_constraints]. *)
  Definition const_cons (p : pred) (args : list (nat * term)) : list con :=
    flat_map (fun x => match snd x with
                       | TConst c => [KBin CEq (TVar (pe_const N p (fst x) c)) (TConst c)]
                       | TVar _ => []
                       end) args.
  (** context.rs 276-281 [foreign_predicate_equality_constraints]. *)
  Definition eq_cons (es : list (var * var)) : list con :=
    map (fun x => KBin CEq (TVar (fst x)) (TVar (snd x))) es.

  (** context.rs 293-332 [rename_free_arguments].  The map goes from a variable to
      its latest copy and the number of copies; a variable stands for its name. *)
  Fixpoint mget (v : var) (m : list (var * (var * nat))) : option (var * nat) :=
    match m with [] => None | (w, x) :: m => if Nat.eqb v w then Some x else mget v m end.
  Fixpoint rename (p : pred) (m : list (var * (var * nat))) (args : list (nat * term)) : list var * list (var * var) :=
    match args with
    | [] => ([], [])
    | (i, TConst c) :: args => let '(vs, es) := rename p m args in (pe_const N p i c :: vs, es)
    | (i, TVar v) :: args =>
        match mget v m with
        | Some (old, k) =>
            let nv := pe_ren N v k in
            let '(vs, es) := rename p ((v, (nv, S k)) :: m) args in (nv :: vs, (old, nv) :: es)
        | None => let '(vs, es) := rename p ((v, (v, 1)) :: m) args in (v :: vs, es)
        end
    end.
  Definition rename_free (a : atom) (occurred : list var) : list var * list (var * var) :=
    rename (a_pred a) (map (fun v => (v, (v, 0))) occurred) (fp_free a).
  Definition fp_free_vars (a : atom) : list var := flat_map (fun x => tvar (snd x)) (fp_free a).

  (** context.rs 335-387 [compute_foreign_predicate_ground_atom]. *)
  Definition fp_ground (a : atom) : plan :=
    let '(vs, es) := rename_free a [] in
    let g := PFpGround (dedup vs) (mkAtom (a_pred a) (fp_bound a ++ map TVar vs)) in
    match const_cons (a_pred a) (fp_free a) ++ eq_cons es with
    | [] => g
    | cs => PFilter (dedup (fp_free_vars a)) g cs
    end.
  (** context.rs 389-455 [compute_foreign_predicate_join_atom]. *)
  Definition fp_join (left : plan) (a : atom) : plan :=
    let '(vs, es) := rename_free a (bvars left) in
    let j := PFpJoin (vunion (bvars left) vs) left (mkAtom (a_pred a) (fp_bound a ++ map TVar vs)) in
    match const_cons (a_pred a) (fp_free a) ++ eq_cons es with
    | [] => j
    | cs => PFilter (vunion (bvars left) (fp_free_vars a)) j cs
    end.

  Definition is_const (t : term) : bool := match t with TConst _ => true | TVar _ => false end.

  (** context.rs 462-521 [try_apply_foreign_predicate_atom].  [bv] is the set of
      bounded variables cloned before the loop (468); it is not updated. *)
  Definition apply_fp (bv : list var) (p : plan) (a : atom) : plan :=
    match fp_free a with
    | [] => PFpConstr bv p a
    | _ :: _ =>
        if forallb is_const (fp_bound a)
        then PJoin (vunion (bvars p) (bvars (fp_ground a))) p (fp_ground a)
        else fp_join p a
    end.
  Fixpoint fp_pass (bv : list var) (l : list (nat * atom)) (ap : list nat) (p : plan) (any : bool) : list nat * plan * bool :=
    match l with
    | [] => (ap, p, any)
    | (i, a) :: l =>
        if negb (memb i ap) && forallb (term_bounded bv) (fp_bound a)
        then fp_pass bv l (ap ++ [i]) (apply_fp bv p a) true
        else fp_pass bv l ap p any
    end.
  Fixpoint fp_loop (fuel : nat) (q : qctx) (bv : list var) (ap : list nat) (p : plan) : option (list nat * plan) :=
    let '(ap', p', any) := fp_pass bv (enum (q_fp q)) ap p false in
    if any then match fuel with 0 => None | S fuel => fp_loop fuel q bv ap' p' end
    else Some (ap', p').

  (** context.rs 523-553 [try_apply]; [None]: out of fuel. *)
  Definition n_lits (q : qctx) : nat := length (q_assigns q) + length (q_cons q) + length (q_fp q).
  Fixpoint try_apply (fuel : nat) (q : qctx) (ap : applied) (p : plan) : option (applied * plan) :=
    match try_assigns (S (n_lits q)) q (bvars p) (ap_assigns ap) p with
    | None => None
    | Some (aa, p1) =>
        let '(ac, p2) := try_constraint q (ap_cons ap) p1 in
        match fp_loop (S (n_lits q)) q (bvars p2) (ap_fp ap) p2 with
        | None => None
        | Some (af, p3) =>
            if negb (Nat.eqb (length aa) (length (ap_assigns ap)))
               || negb (Nat.eqb (length ac) (length (ap_cons ap)))
               || negb (Nat.eqb (length af) (length (ap_fp ap)))
            then match fuel with 0 => None | S fuel => try_apply fuel q (mkAp aa ac af) p3 end
            else Some (mkAp aa ac af, p3)
        end
    end.
  Definition apply_all (q : qctx) (ap : applied) (p : plan) : option (applied * plan) :=
    try_apply (S (n_lits q)) q ap p.

  (** ** The plan *)
  Definition ground (a : atom) : plan := PGround (dedup (avars a)) a.
  Definition red (r : reduce) : plan := PReduce (dedup (reduce_vars r)) r.
  Definition join (p r : plan) : plan := PJoin (vunion (bvars p) (bvars r)) p r.
  Definition no_ap := mkAp [] [] [].

  (** context.rs 555-558 [is_ground_foreign_atom]. *)
  Definition is_ground_fp (a : atom) : bool := forallb is_const (fp_bound a).

  (** context.rs 571-655: the first fringe; the number of arcs used is returned. *)
  Definition start_plan (q : qctx) (arcs : list arc) : option (applied * plan * nat) :=
    match q_reduces q with
    | [] =>
        match arcs with
        | [] =>
            match q_fp q with
            | [] => obnd (apply_all q no_ap (PUnit [])) (fun x => Some (x, 0))
            | _ :: _ =>
                match find (fun x => is_ground_fp (snd x)) (enum (q_fp q)) with
                | Some (i, a) => obnd (apply_all q (mkAp [] [] [i]) (fp_ground a)) (fun x => Some (x, 0))
                | None => None
                end
            end
        | (_, i) :: _ =>
            obnd (nth_error (q_pos q) i) (fun a => obnd (apply_all q no_ap (ground a)) (fun x => Some (x, 1)))
        end
    | r :: rs => obnd (apply_all q no_ap (fold_left (fun p r => join p (red r)) rs (red r))) (fun x => Some (x, 0))
    end.

  (** context.rs 657-700: both branches on [arc.left] build the same node. *)
  Fixpoint add_arcs (q : qctx) (arcs : list arc) (ap : applied) (p : plan) : option (applied * plan) :=
    match arcs with
    | [] => Some (ap, p)
    | (_, i) :: arcs =>
        match nth_error (q_pos q) i with
        | None => None
        | Some a => match apply_all q ap (join p (ground a)) with
                    | Some (ap', p') => add_arcs q arcs ap' p'
                    | None => None
                    end
        end
    end.

  (** context.rs 702-712. *)
  Definition add_negs (q : qctx) (p : plan) : plan :=
    fold_left (fun p a => PAnti (bvars p) p (ground a)) (q_neg q) p.
  (** context.rs 714-732. *)
  Definition news (q : qctx) : list (var * aexpr) := filter (fun x => is_new (snd x)) (q_assigns q).
  Definition add_news (q : qctx) (p : plan) : plan :=
    match news q with
    | [] => p
    | l => PProject (vunion (map fst l) (bvars p)) p l
    end.

  (** context.rs 561-735 [get_query_plan]. *)
  Definition get_query_plan (q : qctx) (arcs : list arc) : option plan :=
    match start_plan q arcs with
    | None => None
    | Some (ap, p, n) =>
        match add_arcs q (skipn n arcs) ap p with
        | None => None
        | Some (_, p) => Some (add_news q (add_negs q p))
        end
    end.

  (** context.rs 737-741 [query_plan], from the body of a rule. *)
  Definition query_plan (body : list lit) : option plan :=
    match from_body body with
    | None => None
    | Some q => match pos_atom_arcs 5 q with
                | None => None
                | Some s => get_query_plan q (s_arcs s)
                end
    end.
End Planner.
