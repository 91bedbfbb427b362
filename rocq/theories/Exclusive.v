(** Model of mutual exclusion, from declarations to conflicts: common/input_tag.rs 5-42,
    runtime/provenance/common/input_tags/input_exclusive_prob.rs, compiler/back/b2r.rs 262-294, 330-344,
    runtime/database/extensional/database.rs 318-356, runtime/env/environment.rs 177-179,
    runtime/dynamic/dataflow/dynamic_exclusion.rs and the [tagging_fn] of
    runtime/provenance/probabilistic/{top_k_proofs,prob_proofs}.rs.

    Simplifications.
    - Tensors are left out of the input tags.
    - Probabilities are elements of a type [F] with a [one]; nothing is computed with them here.
    - A provenance context is the list of its probabilities and the history of its calls to
      [Disjunctions::add_disjunction]; the table itself is [Formula.declare] of the history.
    - [usize] is [nat]: allocators do not wrap.
    - The [HashMap] from left tuples to exclusion numbers is an association list. *)
From Coq Require Import List Bool Arith Lia.
From Verif Require Import Value Order Prov Formula ProvInst.
Import ListNotations.
Set Implicit Arguments.

Section Tags.
  Variable F : Type.
  Variable one : F.

  (** common/input_tag.rs 5-17 *)
  Inductive itag :=
  | INone
  | INewVar
  | IExcl (i : nat)
  | IBool (b : bool)
  | INat (n : nat)
  | IFloat (f : F)
  | IExclFloat (f : F) (i : nat)
  | IFloatId (id : nat) (f : F)
  | IExclFloatId (id : nat) (f : F) (i : nat).

  (** common/input_tag.rs 34-41 *)
  Definition with_exclusivity (t : itag) (i : nat) : itag :=
    match t with
    | INone => IExcl i
    | IFloat f => IExclFloat f i
    | IExclFloat f _ => IExclFloat f i
    | _ => t
    end.

  (** [InputExclusiveProb]: probability and exclusion number *)
  Definition stag := (F * option nat)%type.
  (** input_exclusive_prob.rs [from_dynamic_input_tag]; anything else is [None] *)
  Definition static_tag (t : itag) : option stag :=
    match t with
    | IExcl i => Some (one, Some i)
    | IFloat f => Some (f, None)
    | IExclFloat f i => Some (f, Some i)
    | _ => None
    end.

  (** the context of a provenance of proofs *)
  Record pctx := mkPctx { px_probs : list F; px_hist : list (nat * nat) }.
  Definition px_new : pctx := mkPctx [] [].
  Definition px_conflict (x : pctx) (facts : list nat) : bool := has_conflict (declare (px_hist x)) facts.

  (** top_k_proofs.rs 77-89, prob_proofs.rs 136-148: the number of the new fact *)
  Definition tagging (x : pctx) (t : stag) : nat * pctx :=
    let id := length (px_probs x) in
    (id, mkPctx (px_probs x ++ [fst t])
           (match snd t with Some g => px_hist x ++ [(g, id)] | None => px_hist x end)).
  (** provenance.rs 27-32 [tagging_optional_fn]: no fact for no tag *)
  Definition tagging_opt (x : pctx) (t : option stag) : option nat * pctx :=
    match t with
    | Some t => let '(i, y) := tagging x t in (Some i, y)
    | None => (None, x)
    end.
  (** the tag: one, or the proof of the fact ([Tag::singleton]) *)
  Definition fact_tag (o : option nat) : list proof :=
    match o with Some i => [[i]] | None => [[]] end.

  (** facts tagged one after the other (extensional/relation.rs 162-196) *)
  Fixpoint tag_all (x : pctx) (l : list (option stag)) : list (option nat) * pctx :=
    match l with
    | [] => ([], x)
    | t :: r => let '(o, y) := tagging_opt x t in let '(os, z) := tag_all y r in (o :: os, z)
    end.

  (** ** Facts of a program (back/ast.rs [Fact]; its predicate, tag and arguments) *)
  Record bfact := mkBfact { bf_pred : nat; bf_tag : itag; bf_args : list value }.
  Record bprog := mkBprog { bp_facts : list bfact; bp_disj : list (list bfact) }.

  (** b2r.rs 276-294 from disjunction number [k]; [None] is the failed assertion *)
  Fixpoint disj_facts (k : nat) (ds : list (list bfact)) (pred : nat) : option (list (itag * list value)) :=
    match ds with
    | [] => Some []
    | d :: r =>
      if length d <=? 1 then None else
      match disj_facts (S k) r pred with
      | None => None
      | Some fs =>
        match d with
        | f :: _ =>
          if Nat.eqb (bf_pred f) pred
          then Some (map (fun f => (with_exclusivity (bf_tag f) k, bf_args f)) d ++ fs)
          else Some fs
        | [] => None
        end
      end
    end.
  (** b2r.rs 262-274, 318: the facts of a relation *)
  Definition ram_facts (p : bprog) (pred : nat) : option (list (itag * list value)) :=
    match disj_facts 0 (bp_disj p) pred with
    | None => None
    | Some ds => Some (map (fun f => (bf_tag f, bf_args f)) (filter (fun f => Nat.eqb (bf_pred f) pred) (bp_facts p)) ++ ds)
    end.
  (** the facts of the relations of a program, in the order they are tagged
      (extensional/database.rs 262-267: any order of the relations) *)
  Fixpoint all_ram_facts (p : bprog) (rels : list nat) : option (list (itag * list value)) :=
    match rels with
    | [] => Some []
    | r :: rs =>
      match ram_facts p r, all_ram_facts p rs with
      | Some a, Some b => Some (a ++ b)
      | _, _ => None
      end
    end.
  Definition program_tags (x : pctx) (p : bprog) (rels : list nat) : option (list (option nat) * pctx) :=
    match all_ram_facts p rels with
    | None => None
    | Some fs => Some (tag_all x (map (fun tf => static_tag (fst tf)) fs))
    end.

  (** ** Facts added to the database *)
  (** extensional/database.rs 318-339, 341-356: a call, with its probabilities; the type check of
      the tuples is not modelled *)
  Inductive dcall := AddExclusive (ps : list F) | AddIndependent (ps : list F).
  Definition db_add (count : nat) (c : dcall) : list (option stag) * nat :=
    match c with
    | AddExclusive ps => (map (fun f => Some (f, Some count)) ps, S count)
    | AddIndependent ps => (map (fun f => Some (f, None)) ps, count)
    end.
  Fixpoint db_adds (count : nat) (cs : list dcall) : list (option stag) :=
    match cs with
    | [] => []
    | c :: r => let '(ts, n) := db_add count c in ts ++ db_adds n r
    end.

  (** ** Disjunctive heads: the exclusion dataflow *)
  (** the state an evaluation threads: visited left tuples, the allocator of the environment, and
      the context *)
  Record xst := mkXst { xs_visited : list (tuple * nat); xs_next : nat; xs_ctx : pctx }.
  Definition visited_id (m : list (tuple * nat)) (t : tuple) : option nat :=
    match find (fun e => match tcmp (fst e) t with Eq => true | _ => false end) m with
    | Some (_, i) => Some i
    | None => None
    end.
  (** an output: left and right tuple, tag of the left element, exclusion number, new fact *)
  Record xout := mkXout { xo_left : tuple; xo_right : tuple; xo_ltag : list proof; xo_excl : nat; xo_fact : option nat }.

  (** dynamic_exclusion.rs 148-156: the right tuples for one left element *)
  Fixpoint excl_right (x : pctx) (l : tuple) (lt : list proof) (i : nat) (right : list tuple) : list xout * pctx :=
    match right with
    | [] => ([], x)
    | r :: rs =>
      let '(o, y) := tagging_opt x (static_tag (IExcl i)) in
      let '(outs, z) := excl_right y l lt i rs in
      (mkXout l r lt i o :: outs, z)
    end.
  (** dynamic_exclusion.rs 132-168: [curr_exclusion_id] is never set, so the second branch of the
      choice of the number is never taken. A number is allocated also if [right] is empty. *)
  Definition excl_one (s : xst) (e : tuple * list proof) (right : list tuple) : list xout * xst :=
    let '(i, m, n) :=
      match visited_id (xs_visited s) (fst e) with
      | Some i => (i, xs_visited s, xs_next s)
      | None => (xs_next s, (fst e, xs_next s) :: xs_visited s, S (xs_next s))
      end in
    let '(outs, x) := excl_right (xs_ctx s) (fst e) (snd e) i right in
    (outs, mkXst m n x).
  Fixpoint excl_all (s : xst) (left : list (tuple * list proof)) (right : list tuple) : list xout * xst :=
    match left with
    | [] => ([], s)
    | e :: r =>
      let '(o, s1) := excl_one s e right in
      let '(os, s2) := excl_all s1 r right in (o ++ os, s2)
    end.
  (** one evaluation, in one iteration: the dataflow is built anew (iteration.rs 311-321, 379), so
      nothing is visited (dynamic_exclusion.rs 31-45) *)
  Definition excl_eval (next : nat) (x : pctx) (left : list (tuple * list proof)) (right : list tuple) : list xout * nat * pctx :=
    let '(outs, s) := excl_all (mkXst [] next x) left right in (outs, xs_next s, xs_ctx s).
  (** the recent left elements of one iteration after the other *)
  Fixpoint excl_rounds (next : nat) (x : pctx) (lefts : list (list (tuple * list proof))) (right : list tuple) : list xout * nat * pctx :=
    match lefts with
    | [] => ([], next, x)
    | l :: ls =>
      let '(o, n, y) := excl_eval next x l right in
      let '(os, n', z) := excl_rounds n y ls right in (o ++ os, n', z)
    end.
  (** dynamic_exclusion.rs 154: the tag of the output, in the context [x] at that moment *)
  Definition out_tag (x : pctx) (o : xout) : list proof :=
    proofs_mult (px_conflict x) (xo_ltag o) (fact_tag (xo_fact o)).
End Tags.
Arguments INone {F}.
Arguments INewVar {F}.
Arguments IExcl {F} i.
Arguments IBool {F} b.
Arguments INat {F} n.
Arguments px_new {F}.
