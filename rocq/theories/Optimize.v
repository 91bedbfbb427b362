(** Model of the rule optimizations of the back IR:
    /repo/core/src/compiler/back/optimizations/*.rs (without the demand
    transform) and their driver /repo/core/src/compiler/back/compile.rs 16-49. *)
From Coq Require Import List ZArith Bool Arith.
From Verif Require Import Order Value Back Eval Scc.
Import ListNotations.

(** Outcome of a compiler pass. *)
Inductive outcome (A : Type) := Fine (a : A) | Panicked | OutOfFuel.
Arguments Fine {A}. Arguments Panicked {A}. Arguments OutOfFuel {A}.
Definition obindo {A B} (x : outcome A) (f : A -> outcome B) : outcome B :=
  match x with Fine a => f a | Panicked => Panicked | OutOfFuel => OutOfFuel end.

(** [PartialEq] of values, terms and rules. *)
Definition value_eq_dec : forall a b : value, {a = b} + {a <> b} := to_eq_dec vcmp_TOrder.
Definition term_eq_dec : forall a b : term, {a = b} + {a <> b}.
Proof. decide equality; [apply Nat.eq_dec|apply value_eq_dec]. Defined.
Definition atom_eq_dec : forall a b : atom, {a = b} + {a <> b}.
Proof. decide equality; [apply (list_eq_dec term_eq_dec)|apply Nat.eq_dec]. Defined.
Definition binop_eq_dec : forall a b : binop, {a = b} + {a <> b}.
Proof. decide equality. Defined.
Definition unop_eq_dec : forall a b : unop, {a = b} + {a <> b}.
Proof. decide equality. apply Nat.eq_dec. Defined.
Definition cop_eq_dec : forall a b : cop, {a = b} + {a <> b}.
Proof. decide equality. Defined.
Definition aexpr_eq_dec : forall a b : aexpr, {a = b} + {a <> b}.
Proof.
  decide equality; try apply term_eq_dec; try apply (list_eq_dec term_eq_dec); try apply Nat.eq_dec;
    first [apply binop_eq_dec|apply unop_eq_dec].
Defined.
Definition reduce_eq_dec : forall a b : reduce, {a = b} + {a <> b}.
Proof.
  decide equality; try apply (list_eq_dec Nat.eq_dec); try apply Nat.eq_dec; try apply atom_eq_dec.
  decide equality. apply atom_eq_dec.
Defined.
Definition lit_eq_dec : forall a b : lit, {a = b} + {a <> b}.
Proof.
  decide equality; try apply atom_eq_dec; try apply term_eq_dec; try apply aexpr_eq_dec;
    try apply reduce_eq_dec; try apply cop_eq_dec; apply Nat.eq_dec.
Defined.
Definition head_eq_dec : forall a b : head, {a = b} + {a <> b}.
Proof. decide equality; try apply (list_eq_dec atom_eq_dec); apply atom_eq_dec. Defined.
Definition rule_eq_dec : forall a b : rule, {a = b} + {a <> b}.
Proof. decide equality; [apply (list_eq_dec lit_eq_dec)|apply head_eq_dec]. Defined.

(** *** constant_folding.rs *)
(** Lines 23-32, 42-51: an assignment becomes an equality with the value, or
    false. *)
Definition fold_value (x : var) (r : ev value) : ev lit :=
  match r with
  | EOk v => EOk (LBin CEq (TVar x) (TConst v))
  | ENone => EOk LFalse
  | EPanic => EPanic
  end.
(** Lines 112-121, 137-146. *)
Definition fold_bool (r : ev value) : ev lit :=
  match r with
  | EOk (VBool true) => EOk LTrue
  | EOk (VBool false) => EOk LFalse
  | EOk _ => EPanic
  | ENone => EOk LFalse
  | EPanic => EPanic
  end.
Fixpoint consts (l : list term) : option (list value) :=
  match l with
  | [] => Some []
  | TConst c :: r => match consts r with Some cs => Some (c :: cs) | None => None end
  | TVar _ :: _ => None
  end.
(** Lines 13-153. *)
Definition fold_lit (E : renv) (l : lit) : ev lit :=
  match l with
  | LAssign x (ABin op (TConst a) (TConst b)) => fold_value x (bin_value E op a b)
  | LAssign x (AUn op (TConst a)) => fold_value x (un_value E op a)
  | LAssign x (AIte (TConst (VBool true)) t _) => EOk (LBin CEq (TVar x) t)
  | LAssign x (AIte (TConst (VBool false)) _ e) => EOk (LBin CEq (TVar x) e)
  | LAssign x (ANew f args) =>
      match consts args with
      | Some cs => EOk (LBin CEq (TVar x) (TConst (VEntity (e_entity E f cs))))
      | None => EOk l
      end
  | LBin c (TConst a) (TConst b) => fold_bool (bin_value E (binop_of_cop c) a b)
  | LBin CNeq (TVar v) (TVar w) => if Nat.eqb v w then EOk LFalse else EOk l
  | LBin CEq (TVar v) (TVar w) => if Nat.eqb v w then EOk LTrue else EOk l
  | LNot (TConst a) => fold_bool (un_value E UNot a)
  | _ => EOk l
  end.
Definition constant_fold (E : renv) (r : rule) : outcome rule :=
  match emap (fold_lit E) (r_body r) with
  | EOk b => Fine (mkRule (r_head r) b)
  | _ => Panicked
  end.

(** *** constant_propagation.rs *)
(** Sets as lists without duplicates. *)
Definition insert (x : nat) (l : list nat) : list nat := if memb x l then l else x :: l.
Definition extend (xs l : list nat) : list nat := fold_left (fun a x => insert x a) xs l.
(** Lines 17-39: one pass over the literals, [i] the index of the first. *)
Fixpoint cs_pass (i : nat) (body : list lit) (vis cs : list nat) : list nat * list nat :=
  match body with
  | [] => (vis, cs)
  | l :: r =>
      if memb i vis then cs_pass (S i) r vis cs else
      match l with
      | LReduce d => cs_pass (S i) r (insert i vis) (extend (reduce_vars d) cs)
      | LAssign x e =>
          let '(vis', cs') := fold_left (fun st a =>
             if memb a (snd st) then (insert i (fst st), insert x (snd st)) else st)
             (aexpr_vars e) (vis, cs) in
          cs_pass (S i) r vis' cs'
      | _ => cs_pass (S i) r vis cs
      end
  end.
(** Lines 13-45. *)
Fixpoint cs_loop (fuel : nat) (body : list lit) (vis cs : list nat) : outcome (list nat) :=
  match fuel with
  | 0 => OutOfFuel
  | S f => let '(vis', cs') := cs_pass 0 body vis cs in
           if length cs' <=? length cs then Fine cs' else cs_loop f body vis' cs'
  end.
Definition cannot_substitute (body : list lit) : outcome (list nat) :=
  cs_loop (S (length body)) body [] [].

(** Lines 50-58: a literal [v == c] that is removed. *)
Definition prop_dropped (cs : list nat) (l : lit) : option (var * value) :=
  match l with
  | LBin CEq (TVar v) (TConst c) | LBin CEq (TConst c) (TVar v) =>
      if memb v cs then None else Some (v, c)
  | _ => None
  end.
Fixpoint lookup {A} (v : var) (m : list (var * A)) : option A :=
  match m with [] => None | (w, a) :: r => if Nat.eqb v w then Some a else lookup v r end.
(** Lines 48-77: the substitutions, and whether two of them disagree. *)
Fixpoint prop_collect (cs : list nat) (body : list lit) (m : list (var * value)) (bad : bool)
  : list (var * value) * bool :=
  match body with
  | [] => (m, bad)
  | l :: r =>
      match prop_dropped cs l with
      | Some (v, c) =>
          match lookup v m with
          | Some c' => prop_collect cs r m (if value_eq_dec c' c then bad else true)
          | None => prop_collect cs r ((v, c) :: m) bad
          end
      | None => prop_collect cs r m bad
      end
  end.
(** Lines 80-92. *)
Definition psub (m : list (var * value)) (t : term) : term :=
  match t with
  | TVar v => match lookup v m with Some c => TConst c | None => TVar v end
  | TConst c => TConst c
  end.
Definition map_atom (f : term -> term) (a : atom) : atom := mkAtom (a_pred a) (map f (a_args a)).
Definition map_aexpr (f : term -> term) (e : aexpr) : aexpr :=
  match e with
  | ABin op a b => ABin op (f a) (f b)
  | AUn op a => AUn op (f a)
  | AIte c a b => AIte (f c) (f a) (f b)
  | ACall g l => ACall g (map f l)
  | ANew g l => ANew g (map f l)
  end.
(** ast.rs 194-200 [Head::substitute]. *)
Definition map_head (f : term -> term) (h : head) : head :=
  match h with HAtom a => HAtom (map_atom f a) | HDisj a r => HDisj (map_atom f a) (map (map_atom f) r) end.
(** Lines 104-158. *)
Definition prop_lit (m : list (var * value)) (l : lit) : lit :=
  match l with
  | LAtom a => LAtom (map_atom (psub m) a)
  | LNeg a => LNeg (map_atom (psub m) a)
  | LAssign x e => match lookup x m with
                   | None => LAssign x (map_aexpr (psub m) e)
                   | Some _ => LTrue end
  | LBin c a b => LBin c (psub m a) (psub m b)
  | LNot t => LNot (psub m t)
  | _ => l
  end.
Definition is_none {A} (o : option A) : bool := match o with None => true | _ => false end.
(** Lines 5-172. *)
Definition constant_prop (r : rule) : outcome rule :=
  obindo (cannot_substitute (r_body r)) (fun cs =>
    let '(m, bad) := prop_collect cs (r_body r) [] false in
    if bad then Fine (mkRule (r_head r) [LFalse])
    else Fine (mkRule (map_head (psub m) (r_head r))
                 (map (prop_lit m) (filter (fun l => is_none (prop_dropped cs l)) (r_body r))))).

(** *** equality_propagation.rs *)
(** Lines 12-20. *)
Definition eq_cannot (body : list lit) : list nat :=
  fold_left (fun cs l => match l with LReduce d => extend (reduce_vars d) cs | _ => cs end) body [].
(** Lines 145-163; [nb p] is the number of bounded arguments of a foreign
    predicate. *)
Definition atom_bound (g : registry) (nb : pred -> nat) (l : lit) : list var :=
  match l with
  | LAtom a => if g_foreign g (a_pred a) then flat_map tvar (skipn (nb (a_pred a)) (a_args a))
               else flat_map tvar (a_args a)
  | _ => []
  end.
(** Lines 166-177. *)
Definition bound_pass (body : list lit) (b : list nat) : list nat :=
  fold_left (fun b l => match l with
    | LAssign x e => if memb x b then b
                     else if forallb (fun v => memb v b) (aexpr_vars e) then x :: b else b
    | _ => b end) body b.
(** Lines 164-181; the sets are compared by size as the set only grows. *)
Fixpoint bound_loop (fuel : nat) (body : list lit) (b : list nat) : outcome (list nat) :=
  match fuel with
  | 0 => OutOfFuel
  | S f => let b' := bound_pass body b in
           if length b' =? length b then Fine b' else bound_loop f body b'
  end.
Definition bounded (g : registry) (nb : pred -> nat) (body : list lit) : outcome (list nat) :=
  bound_loop (S (length body)) body (extend (flat_map (atom_bound g nb) body) []).
(** Lines 28-40: an equality between variables that is removed. *)
Definition eq_dropped (cs bd : list nat) (l : lit) : option (var * var) :=
  match l with
  | LBin CEq (TVar v) (TVar w) =>
      if memb v cs || memb w cs then None
      else if memb v bd && memb w bd then None
      else Some (v, w)
  | _ => None
  end.
(** Lines 43-49. *)
Definition eq_step (m : list (var * var)) (p : var * var) : list (var * var) :=
  match lookup (fst p) m with
  | Some x => (snd p, x) :: m
  | None => match lookup (snd p) m with
            | Some x => (fst p, x) :: m
            | None => (fst p, snd p) :: m
            end
  end.
Definition pairs_dropped (cs bd : list nat) (body : list lit) : list (var * var) :=
  flat_map (fun l => match eq_dropped cs bd l with Some p => [p] | None => [] end) body.
Definition eq_collect (cs bd : list nat) (body : list lit) : list (var * var) :=
  fold_left eq_step (pairs_dropped cs bd body) [].
(** Lines 59-71. *)
Definition vsub (m : list (var * var)) (v : var) : var :=
  match lookup v m with Some w => w | None => v end.
Definition tsub (m : list (var * var)) (t : term) : term :=
  match t with TVar v => TVar (vsub m v) | TConst c => TConst c end.
(** Lines 78-126. *)
Definition eq_lit (m : list (var * var)) (l : lit) : lit :=
  match l with
  | LAtom a => LAtom (map_atom (tsub m) a)
  | LNeg a => LNeg (map_atom (tsub m) a)
  | LAssign x e => LAssign (vsub m x) (map_aexpr (tsub m) e)
  | LBin c a b => LBin c (tsub m a) (tsub m b)
  | LNot t => LNot (tsub m t)
  | _ => l
  end.
Definition eq_apply (m : list (var * var)) (cs bd : list nat) (r : rule) : rule :=
  mkRule (map_head (tsub m) (r_head r))
    (map (eq_lit m) (filter (fun l => is_none (eq_dropped cs bd l)) (r_body r))).
(** Lines 7-142. *)
Definition propagate_equality (g : registry) (nb : pred -> nat) (r : rule) : outcome rule :=
  obindo (bounded g nb (r_body r)) (fun bd =>
    let cs := eq_cannot (r_body r) in
    Fine (eq_apply (eq_collect cs bd (r_body r)) cs bd r)).

(** *** remove_true_literals.rs, remove_false_rules.rs, empty_rule_to_fact.rs *)
Definition remove_true (r : rule) : rule :=
  mkRule (r_head r) (filter (fun l => match l with LTrue => false | _ => true end) (r_body r)).
Definition has_false (r : rule) : bool :=
  existsb (fun l => match l with LFalse => true | _ => false end) (r_body r).
Definition remove_false_rules (rs : list rule) : list rule := filter (fun r => negb (has_false r)) rs.
(** [None] is the panic on a head variable. *)
Fixpoint empty_to_fact (rs : list rule) : option (list rule * list fact) :=
  match rs with
  | [] => Some ([], [])
  | r :: rest =>
      match empty_to_fact rest with
      | None => None
      | Some (ks, fs) =>
          match r_body r, r_head r with
          | [], HAtom a => match consts (a_args a) with
                           | Some cs => Some (ks, mkFact (a_pred a) cs :: fs)
                           | None => None end
          | _, _ => Some (r :: ks, fs)
          end
      end
  end.

(** *** compile.rs 18-34, 36-37, 44-45 *)
Definition opt_round (E : renv) (r : rule) : outcome rule :=
  obindo (constant_fold E r) constant_prop.
Fixpoint opt_loop (E : renv) (fuel : nat) (r : rule) : outcome rule :=
  match fuel with
  | 0 => OutOfFuel
  | S f => obindo (opt_round E r) (fun r' => if rule_eq_dec r r' then Fine r' else opt_loop E f r')
  end.
(** The fuel is justified by [C48_terminates]. *)
Definition lit_weight (l : lit) : nat :=
  match l with LAssign _ _ => 2 | LBin _ _ _ | LNot _ => 1 | _ => 0 end.
Definition weight (body : list lit) : nat := fold_right (fun l n => lit_weight l + n) 0 body.
Definition opt_rule (E : renv) (g : registry) (nb : pred -> nat) (r : rule) : outcome rule :=
  obindo (propagate_equality g nb r) (fun r1 =>
  obindo (opt_loop E (S (weight (r_body r1))) r1) (fun r2 => Fine (remove_true r2))).
Fixpoint opt_rules (E : renv) (g : registry) (nb : pred -> nat) (rs : list rule) : outcome (list rule) :=
  match rs with
  | [] => Fine []
  | r :: rest => obindo (opt_rule E g nb r) (fun r' => obindo (opt_rules E g nb rest) (fun rs' => Fine (r' :: rs')))
  end.
(** [apply_optimizations] with [do_not_demand_transform]. *)
Definition apply_optimizations (E : renv) (nb : pred -> nat) (p : program) : outcome program :=
  obindo (opt_rules E (p_reg p) nb (p_rules p)) (fun rs =>
    match empty_to_fact (remove_false_rules rs) with
    | None => Panicked
    | Some (ks, fs) => Fine (mkProg (p_rels p) (p_outputs p) (p_facts p ++ fs) ks (p_reg p))
    end).
