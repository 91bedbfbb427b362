(** Models of the Boolean-formula tags of
    /repo/core/src/runtime/provenance/common: mutual exclusion, literals,
    clauses, DNF formulas, CNF/DNF formulas and their contexts. *)
From Coq Require Import List Arith Bool ZArith QArith Qcanon Lia.
From Verif Require Import Order OSet Prov ProvInst.
Import ListNotations.
Open Scope nat_scope.
Set Implicit Arguments.

(** ** disjunction.rs *)

(** [Disjunction] (5-7): the [BTreeSet] of facts, strictly increasing. *)
Definition disj := list nat.
(** the loop of [has_conflict] (32-55); [same] is [has_same]. *)
Fixpoint disj_loop (j : list nat) : list nat -> bool -> bool :=
  match j with
  | [] => fun _ _ => false
  | je :: j' =>
      fix go (f : list nat) (same : bool) : bool :=
        match f with
        | [] => false
        | fe :: f' =>
            if je =? fe then (if same then true else disj_loop j' f' true)
            else if je <? fe then disj_loop j' f same
            else go f' same
        end
  end.
(** [Disjunction::has_conflict] (15-57).  [first]/[last] of an empty set panic
    in Rust; [Disjunctions::has_conflict] never calls it with fewer than two
    facts, and here the defaults are 0. *)
Definition disj_conflict (d : disj) (facts : list nat) : bool :=
  if length d <? 2 then false
  else if (last d 0 <? hd 0 facts) || (last facts 0 <? hd 0 d) then false
  else disj_loop d facts false.

(** [Disjunctions] (71-75): [id_map] is an association list. *)
Record disjs := mkDisjs { dj_map : list (nat * nat); dj_list : list disj }.
Definition disjs_new : disjs := mkDisjs [] [].
Fixpoint nfind (m : list (nat * nat)) (k : nat) : option nat :=
  match m with
  | [] => None
  | (a, b) :: r => if a =? k then Some b else nfind r k
  end.
(** [Disjunctions::has_conflict] (93-106) *)
Definition has_conflict (d : disjs) (facts : list nat) : bool :=
  if length facts <? 2 then false else existsb (fun dj => disj_conflict dj facts) (dj_list d).
(** update position [i] (indexing past the end panics in Rust; here no change) *)
Fixpoint upd (l : list disj) (i : nat) (f : disj -> disj) : list disj :=
  match l, i with
  | [], _ => []
  | x :: r, 0 => f x :: r
  | x :: r, S j => x :: upd r j f
  end.
(** [add_disjunction] (108-117) *)
Definition add_disjunction (d : disjs) (disj_id fact_id : nat) : disjs :=
  match nfind (dj_map d) disj_id with
  | Some i => mkDisjs (dj_map d) (upd (dj_list d) i (oins Nat.compare fact_id))
  | None => mkDisjs ((disj_id, length (dj_list d)) :: dj_map d) (dj_list d ++ [[fact_id]])
  end.
(** a context after a sequence of declarations (group, fact) *)
Definition declare (h : list (nat * nat)) : disjs :=
  fold_left (fun d gf => add_disjunction d (fst gf) (snd gf)) h disjs_new.

(** ** literal.rs, clause.rs *)

Inductive lit := Pos (n : nat) | Neg (n : nat).
Definition fact_id (l : lit) : nat := match l with Pos n => n | Neg n => n end.
Definition lsign (l : lit) : bool := match l with Pos _ => true | Neg _ => false end.
(** [Literal::negate] (23-28) *)
Definition lnegate (l : lit) : lit := match l with Pos n => Neg n | Neg n => Pos n end.
Definition lit_eqb (a b : lit) : bool := Bool.eqb (lsign a) (lsign b) && (fact_id a =? fact_id b).

(** [Clause] (5-8): a vector of literals. *)
Definition clause := list lit.
Fixpoint list_eqb (A : Type) (eqb : A -> A -> bool) (l m : list A) : bool :=
  match l, m with
  | [], [] => true
  | a :: l', b :: m' => eqb a b && list_eqb eqb l' m'
  | _, _ => false
  end.
Definition clause_eqb : clause -> clause -> bool := list_eqb lit_eqb.

(** [is_valid] (59-77) *)
Fixpoint is_valid (c : clause) : bool :=
  match c with
  | a :: ((b :: _) as r) =>
      if (fact_id a =? fact_id b) && negb (Bool.eqb (lsign a) (lsign b)) then false else is_valid r
  | _ => true
  end.
(** [pos_fact_ids] (99-108), a [BTreeSet]. *)
Definition pos_fact_ids (c : clause) : list nat :=
  oof Nat.compare (flat_map (fun l => match l with Pos v => [v] | Neg _ => [] end) c).

(** [merge_unchecked] (119-165); the two indices are the list suffixes. *)
Fixpoint merge_unchecked (a : clause) : clause -> clause :=
  match a with
  | [] => fun b => b
  | x :: a' =>
      fix go (b : clause) : clause :=
        match b with
        | [] => x :: merge_unchecked a' []
        | y :: b' =>
            match Nat.compare (fact_id x) (fact_id y) with
            | Eq => match lsign x, lsign y with
                    | true, true => Pos (fact_id x) :: merge_unchecked a' b'
                    | false, false => Neg (fact_id x) :: merge_unchecked a' b'
                    | _, _ => Pos (fact_id x) :: Neg (fact_id x) :: merge_unchecked a' b'
                    end
            | Lt => x :: merge_unchecked a' b
            | Gt => y :: go b'
            end
        end
  end.
(** [merge] (176-218): [None] when a fact occurs with both signs. *)
Definition ocons (A : Type) (x : A) (o : option (list A)) : option (list A) :=
  match o with None => None | Some l => Some (x :: l) end.
Fixpoint merge (a : clause) : clause -> option clause :=
  match a with
  | [] => fun b => Some b
  | x :: a' =>
      fix go (b : clause) : option clause :=
        match b with
        | [] => ocons x (merge a' [])
        | y :: b' =>
            match Nat.compare (fact_id x) (fact_id y) with
            | Eq => match lsign x, lsign y with
                    | true, true => ocons (Pos (fact_id x)) (merge a' b')
                    | false, false => ocons (Neg (fact_id x)) (merge a' b')
                    | _, _ => None
                    end
            | Lt => ocons x (merge a' b)
            | Gt => ocons y (go b')
            end
        end
  end.

(** ** dnf_formula.rs *)
Definition dnf := list clause.
Definition dnf_zero : dnf := [].
Definition dnf_one : dnf := [[]].
Definition dnf_singleton (f : nat) : dnf := [[Pos f]].
(** [or] (54-58) *)
Definition dnf_or (a b : dnf) : dnf := a ++ b.
(** [and] (60-67): [iproduct!] then [filter_map]. *)
Definition dnf_and (a b : dnf) : dnf :=
  flat_map (fun c1 => flat_map (fun c2 => match merge c1 c2 with Some c => [c] | None => [] end) b) a.
(** [dedup] (69-84), keeping first occurrences. *)
Definition dedup_step (acc : dnf) (c : clause) : dnf :=
  if existsb (fun r => clause_eqb c r) acc then acc else acc ++ [c].
Definition dnf_dedup (a : dnf) : dnf := fold_left dedup_step a [].

(** ** dnf_context.rs *)

(** Stable sort ([slice::sort_by], itertools' [sorted_by]): [le x y] is
    "[x] does not compare greater than [y]". *)
Section Sort.
  Variable (A : Type) (le : A -> A -> bool).
  Fixpoint sinsert (x : A) (l : list A) : list A :=
    match l with
    | [] => [x]
    | y :: r => if le x y then x :: l else y :: sinsert x r
    end.
  Fixpoint ssort (l : list A) : list A :=
    match l with [] => [] | x :: r => sinsert x (ssort r) end.
End Sort.

(** [Vec::dedup]: drop consecutive duplicates. *)
Fixpoint vdedup (l : list lit) : list lit :=
  match l with
  | a :: ((b :: _) as r) => if lit_eqb a b then vdedup r else a :: vdedup r
  | _ => l
  end.

(** The priority queue [BinaryHeap] as a multiset: a pop strategy takes the
    priority of an entry and the entries.  Which of several greatest entries
    is popped is not specified by [BinaryHeap], so it is a parameter. *)
Definition popper := (list nat -> Qc) -> list (list nat) -> option (list nat * list (list nat)).

Section Context.
  (** [fact_probability]; indexing an unknown fact panics in Rust. *)
  Variable prob : nat -> Qc.
  (** [has_disjunction_conflict] *)
  Variable conflict : list nat -> bool.
  Variable pop : popper.

  (** 13-18, 20-25 *)
  Definition literal_prob (l : lit) : Qc :=
    match l with Pos i => prob i | Neg i => (1 - prob i)%Qc end.
  Definition clause_prob (c : clause) : Qc :=
    fold_left (fun acc l => (acc * literal_prob l)%Qc) c 1%Qc.
  (** 27-29 *)
  Definition retain_no_conflict (cs : dnf) : dnf :=
    filter (fun c => negb (conflict (pos_fact_ids c))) cs.
  (** 31-41: descending by probability, then [truncate]. *)
  Definition retain_top_k (cs : dnf) (k : nat) : dnf :=
    firstn k (ssort (fun a b => qc_leb (clause_prob b) (clause_prob a)) cs).

  (** The best-first search shared by [cnf2dnf_k] (dnf_context.rs 153-199 and
      cnf_dnf_context.rs 389-437), [dnf2cnf_k] (cnf_dnf_context.rs 514-560),
      [mult_formula_top_k] (180-222) and [mult_formula_bottom_k] (268-306).
      An entry is an index vector (the two-formula products use vectors of
      length two); its clause and priority are functions of it, as
      [create_element] computes them. [None]: out of fuel. *)
  Section Search.
    Variable lens : list nat.
    Variable key : list nat -> Qc.
    Variable clause_of : list nat -> clause.
    Variable accept : clause -> bool.

    Fixpoint in_bounds (v lens : list nat) : bool :=
      match v, lens with
      | [], [] => true
      | i :: v', n :: lens' => (i <? n) && in_bounds v' lens'
      | _, _ => false
      end.
    Fixpoint incr (i : nat) (v : list nat) : list nat :=
      match v, i with
      | [], _ => []
      | x :: r, 0 => (x + 1) :: r
      | x :: r, S j => x :: incr j r
      end.
    (** [next_elements] (dnf_context.rs 125-142): entries out of bounds are not
        created. *)
    Definition next (v : list nat) : list (list nat) :=
      filter (fun w => in_bounds w lens) (map (fun i => incr i v) (seq 0 (length v))).
    Fixpoint search (fuel k : nat) (heap visited : list (list nat)) (res : list clause)
      : option (list clause) :=
      if k <=? length res then Some res
      else match fuel with
           | 0 => None
           | S f =>
               match pop key heap with
               | None => Some res
               | Some (v, heap') =>
                   if existsb (list_eqb Nat.eqb v) visited then search f k heap' visited res
                   else search f k (heap' ++ next v) (v :: visited)
                          (if accept (clause_of v) then res ++ [clause_of v] else res)
               end
           end.
  End Search.

  (** the literals chosen by an index vector, [create_element] (100-122) *)
  Definition chosen (cls : list (list lit)) (v : list nat) : clause :=
    map (fun ci => nth (snd ci) (fst ci) (Pos 0)) (combine cls v).
  Definition lit_key (l : lit) : nat := fact_id l * 2 + (if lsign l then 0 else 1).
  Definition chosen_clause (cls : list (list lit)) (v : list nat) : clause :=
    vdedup (ssort (fun a b => lit_key a <=? lit_key b) (chosen cls v)).
  Definition valid_clause (c : clause) : bool := is_valid c && negb (conflict (pos_fact_ids c)).

  (** [cnf2dnf_k] (69-205) *)
  Definition cnf2dnf_k (fuel : nat) (f : list clause) (k : nat) : option dnf :=
    let cls := map (ssort (fun x y => qc_leb (literal_prob y) (literal_prob x))) f in
    match cls with
    | [] => Some dnf_one
    | _ => if existsb (fun c => length c =? 0) cls then Some dnf_zero
           else search (map (@length lit) cls) (fun v => clause_prob (chosen_clause cls v))
                  (chosen_clause cls) valid_clause fuel k [repeat 0 (length cls)] [] []
    end.
  (** [top_k_add] (215-220), [top_k_mult] (222-228) *)
  Definition top_k_add (a b : dnf) (k : nat) : dnf := retain_top_k (dnf_dedup (dnf_or a b)) k.
  Definition top_k_mult (a b : dnf) (k : nat) : dnf :=
    retain_top_k (retain_no_conflict (dnf_dedup (dnf_and a b))) k.
  (** [top_k_negate] (230-240) *)
  Definition top_k_negate (fuel : nat) (t : dnf) (k : nat) : option dnf :=
    cnf2dnf_k fuel (map (map lnegate) t) k.
  (** [top_k_tag_of_chosen_set] (242-253) *)
  Fixpoint chosen_set_from (fuel k i : nat) (ids : list nat) (all : list dnf) (acc : dnf) : option dnf :=
    match all with
    | [] => Some acc
    | f :: r =>
        match (if existsb (Nat.eqb i) ids then Some f else top_k_negate fuel f k) with
        | None => None
        | Some t => chosen_set_from fuel k (S i) ids r (top_k_mult acc t k)
        end
    end.
  Definition top_k_tag_of_chosen_set (fuel : nat) (all : list dnf) (ids : list nat) (k : nat) : option dnf :=
    chosen_set_from fuel k 0 ids all dnf_one.

  (** ** cnf_dnf_formula.rs, cnf_dnf_context.rs *)
  Inductive kind := CNF | DNF.
  (** [CNFDNFFormula] *)
  Record cform := mkF { fkind : kind; fcls : list clause }.
  Definition cnf_zero := mkF CNF [[]].
  Definition cnf_one := mkF CNF [].
  Definition cd_dnf_zero := mkF DNF [].
  Definition cd_dnf_one := mkF DNF [[]].
  (** [is_zero] (116-121) *)
  Definition is_zero (f : cform) : bool :=
    match fkind f with
    | CNF => existsb (fun c => length c =? 0) (fcls f)
    | DNF => length (fcls f) =? 0
    end.
  (** [negate] (123-137) *)
  Definition counterpart (k : kind) : kind := match k with CNF => DNF | DNF => CNF end.
  Definition cd_negate (f : cform) : cform :=
    match fcls f with
    | [[l]] => mkF (fkind f) [[lnegate l]]
    | cs => mkF (counterpart (fkind f)) (map (map lnegate) cs)
    end.

  (** [disjunction_probability] (23-30) *)
  Definition disjunction_prob (c : clause) : Qc :=
    (1 - fold_left (fun acc l => (acc * literal_prob (lnegate l))%Qc) c 1)%Qc.

  (** the loop of [add_formula_top_k] (53-76) and [add_formula_bottom_k]
      (103-126); [better i j] is [prob_i > prob_j], respectively [<].  The loop
      pushes one clause per iteration and stops at [k]. *)
  Section AddLoop.
    Variable better : clause -> clause -> bool.
    Fixpoint add_loop (k : nat) (f1 f2 : list clause) : list clause :=
      match k with
      | 0 => []
      | S k' =>
          match f1, f2 with
          | ci :: r1, cj :: r2 =>
              if clause_eqb ci cj then ci :: add_loop k' r1 r2
              else if better ci cj then ci :: add_loop k' r1 f2
              else cj :: add_loop k' f1 r2
          | ci :: r1, [] => ci :: add_loop k' r1 []
          | [], cj :: r2 => cj :: add_loop k' [] r2
          | [], [] => []
          end
      end.
  End AddLoop.
  Definition add_formula_top_k (f1 f2 : list clause) (k : nat) : cform :=
    mkF DNF (add_loop (fun a b => qc_ltb (clause_prob b) (clause_prob a)) k f1 f2).
  Definition add_formula_bottom_k (f1 f2 : list clause) (k : nat) : cform :=
    mkF CNF (add_loop (fun a b => qc_ltb (disjunction_prob a) (disjunction_prob b)) k f1 f2).

  (** [create_element] of the products (170-178, 258-266) *)
  Definition pair_clause (f1 f2 : list clause) (v : list nat) : clause :=
    match v with
    | [i; j] => merge_unchecked (nth i f1 []) (nth j f2 [])
    | _ => []
    end.
  Definition omap (A B : Type) (f : A -> B) (o : option A) : option B :=
    match o with None => None | Some x => Some (f x) end.
  (** [mult_formula_top_k] (135-226) *)
  Definition mult_formula_top_k (fuel : nat) (f1 f2 : list clause) (k : nat) : option cform :=
    if (length f1 =? 0) || (length f2 =? 0) then Some cd_dnf_zero
    else if list_eqb clause_eqb f1 f2 then Some (mkF DNF f1)
    else omap (mkF DNF)
           (search [length f1; length f2] (fun v => clause_prob (pair_clause f1 f2 v))
              (pair_clause f1 f2) valid_clause fuel k [[0; 0]] [] []).
  (** [mult_formula_bottom_k] (228-310): a min-heap, no exclusion check. *)
  Definition mult_formula_bottom_k (fuel : nat) (f1 f2 : list clause) (k : nat) : option cform :=
    if (length f1 =? 0) || (length f2 =? 0) then Some cnf_zero
    else if list_eqb clause_eqb f1 f2 then Some (mkF CNF f1)
    else omap (mkF CNF)
           (search [length f1; length f2] (fun v => (- disjunction_prob (pair_clause f1 f2 v))%Qc)
              (pair_clause f1 f2) is_valid fuel k [[0; 0]] [] []).
  (** [cnf2dnf_k] (312-442) is textually the one of dnf_context.rs. *)
  (** [dnf2cnf_k] (444-566): literals ascending, min-heap, no exclusion check. *)
  Definition dnf2cnf_k (fuel : nat) (f : list clause) (k : nat) : option (list clause) :=
    let cls := map (ssort (fun x y => qc_leb (literal_prob x) (literal_prob y))) f in
    match cls with
    | [] => Some (fcls cnf_zero)
    | _ => if existsb (fun c => length c =? 0) cls then Some (fcls cnf_one)
           else search (map (@length lit) cls) (fun v => (- disjunction_prob (chosen_clause cls v))%Qc)
                  (chosen_clause cls) is_valid fuel k [repeat 0 (length cls)] [] []
    end.
  (** [top_bottom_k_add] (568-576), [top_bottom_k_mult] (578-586) *)
  Definition obind (A B : Type) (o : option A) (f : A -> option B) : option B :=
    match o with None => None | Some x => f x end.
  Definition top_bottom_k_add (fuel : nat) (t1 t2 : cform) (k : nat) : option cform :=
    match fkind t1, fkind t2 with
    | CNF, CNF => mult_formula_bottom_k fuel (fcls t1) (fcls t2) k
    | DNF, DNF => Some (add_formula_top_k (fcls t1) (fcls t2) k)
    | CNF, DNF => omap (fun c => add_formula_top_k c (fcls t2) k) (cnf2dnf_k fuel (fcls t1) k)
    | DNF, CNF => omap (fun c => add_formula_top_k (fcls t1) c k) (cnf2dnf_k fuel (fcls t2) k)
    end.
  Definition top_bottom_k_mult (fuel : nat) (t1 t2 : cform) (k : nat) : option cform :=
    match fkind t1, fkind t2 with
    | CNF, CNF => Some (add_formula_bottom_k (fcls t1) (fcls t2) k)
    | DNF, DNF => mult_formula_top_k fuel (fcls t1) (fcls t2) k
    | CNF, DNF => omap (fun c => add_formula_bottom_k (fcls t1) c k) (dnf2cnf_k fuel (fcls t2) k)
    | DNF, CNF => omap (fun c => add_formula_bottom_k c (fcls t2) k) (dnf2cnf_k fuel (fcls t1) k)
    end.
  (** [top_bottom_k_tag_of_chosen_set] (592-607) *)
  Fixpoint cd_chosen_from (fuel k i : nat) (ids : list nat) (all : list cform) (acc : cform) : option cform :=
    match all with
    | [] => Some acc
    | f :: r =>
        obind (top_bottom_k_mult fuel acc (if existsb (Nat.eqb i) ids then f else cd_negate f) k)
          (cd_chosen_from fuel k (S i) ids r)
    end.
End Context.

(** A concrete pop strategy: the first greatest entry. *)
Fixpoint best (key : list nat -> Qc) (b : list nat) (h : list (list nat)) : list nat :=
  match h with
  | [] => b
  | x :: r => best key (if qc_ltb (key b) (key x) then x else b) r
  end.
Fixpoint remove1 (v : list nat) (h : list (list nat)) : list (list nat) :=
  match h with
  | [] => []
  | x :: r => if list_eqb Nat.eqb v x then r else x :: remove1 v r
  end.
Definition pop_first : popper := fun key h =>
  match h with
  | [] => None
  | x :: r => let b := best key x r in Some (b, remove1 b h)
  end.
