(** Model of reading the results of a context: runtime/database/intentional/relation.rs 7-145,
    intentional/database.rs 40-160, dynamic/incremental.rs 626-660, integrate/context.rs 546-557 and
    698-730, with the shared output collections of utils/pointer_family.rs.

    Simplifications.
    - Tensors are left out, so every tuple can be shown unless a symbol is unknown, which panics.
    - The internal facts of a relation and those of an input relation are lists of a tuple and a tag; other
      kinds of storage (and their [drain]) are not modelled.
    - Output collections are cells with reference counts (Loading.v). *)
From Coq Require Import List ZArith Bool String.
From Verif Require Import Value Back Eval Cast Entity Utils Boundary Exec Loading.
Import ListNotations.
Set Implicit Arguments.

Section Results.
  Variable tag otag : Type.
  (** [Provenance::recover_fn] *)
  Variable rec_fn : tag -> otag.
  (** the symbols of the runtime environment *)
  Variable syms : registry.

  Definition facts := list (tuple * tag).
  Definition outcol := list (otag * tuple).
  Definition oheap := Loading.heap outcol.
  Notation oread := (hread ([] : outcol)).
  Notation ocount := (hcount ([] : outcol)).

  (** relation.rs 8-20 *)
  Record orel := mkOrel { o_done : bool; o_int : facts; o_ptr : nat }.
  (** incremental.rs 32-37: results by relation, and the internalized facts of the input relations *)
  Record rctx := mkRctx { rc_idb : list (nat * orel); rc_edb : list (nat * facts) }.

  (** relation.rs 67-74, database.rs 40-51: the results of a run *)
  Fixpoint store_results (h : oheap) (i : list (nat * facts)) : oheap * list (nat * orel) :=
    match i with
    | [] => (h, [])
    | (r, es) :: i => let '(h', l) := store_results (h ++ [([], 1)]) i in (h', (r, mkOrel false es (List.length h)) :: l)
    end.

  (** the closures of relation.rs 97-101 and 105-109 *)
  Definition show_fact (e : tuple * tag) : ev (otag * tuple) :=
    ebind (externalize_tuple syms (fst e)) (fun t => EOk (rec_fn (snd e), t)).
  Definition show_facts : facts -> ev outcol := emap show_fact.

  (** relation.rs 88-115; [Rc::get_mut] is [None] unless the count is one (pointer_family.rs 104-106, 172-174) *)
  Definition recover_rel (drain : bool) (h : oheap) (o : orel) : ev (oheap * orel) :=
    if o_done o then EOk (h, o)
    else match o_int o with
         | [] => EOk (h, mkOrel true [] (o_ptr o))
         | es => if Nat.eqb (ocount h (o_ptr o)) 1 then
                   ebind (show_facts es) (fun l =>
                     EOk (hwrite h (o_ptr o) (oread h (o_ptr o) ++ l), mkOrel true (if drain then [] else es) (o_ptr o)))
                 else EPanic
         end.
  (** relation.rs 117-144, with what the monitor sees *)
  Definition event := (tuple * tag * otag)%type.
  Definition observed (es : facts) (l : outcol) : list event :=
    map (fun x => (snd (snd x), snd (fst x), fst (snd x))) (combine es l).
  Definition recover_rel_mon (drain : bool) (h : oheap) (o : orel) : ev (oheap * orel * list event) :=
    if o_done o then EOk (h, o, [])
    else match o_int o with
         | [] => EOk (h, o, [])
         | es => if Nat.eqb (ocount h (o_ptr o)) 1 then
                   ebind (show_facts es) (fun l =>
                     EOk (hwrite h (o_ptr o) (oread h (o_ptr o) ++ l), mkOrel true (if drain then [] else es) (o_ptr o), observed es l))
                 else EPanic
         end.

  (** incremental.rs 630-640, database.rs 79-110 *)
  Definition recover (drain : bool) (h : oheap) (c : rctx) (r : nat) : ev (oheap * rctx) :=
    match aget r (rc_idb c) with
    | Some o => ebind (recover_rel drain h o) (fun x => EOk (fst x, mkRctx (aset r (snd x) (rc_idb c)) (rc_edb c)))
    | None =>
        match aget r (rc_edb c) with
        | Some es => ebind (show_facts es) (fun l =>
            EOk (h ++ [(l, 1)], mkRctx (aset r (mkOrel true [] (List.length h)) (rc_idb c)) (rc_edb c)))
        | None => EOk (h, c)
        end
    end.
  (** incremental.rs 642-646, database.rs 112-128 *)
  Definition recover_mon (drain : bool) (h : oheap) (c : rctx) (r : nat) : ev (oheap * rctx * list event) :=
    match aget r (rc_idb c) with
    | Some o => ebind (recover_rel_mon drain h o) (fun x =>
        EOk (fst (fst x), mkRctx (aset r (snd (fst x)) (rc_idb c)) (rc_edb c), snd x))
    | None => EOk (h, c, [])
    end.
  (** database.rs 146-154: the collection is shared with the caller *)
  Definition output (h : oheap) (c : rctx) (r : nat) : option nat * oheap :=
    match aget r (rc_idb c) with
    | Some o => if o_done o then (Some (o_ptr o), hincr h (o_ptr o)) else (None, h)
    | None => (None, h)
    end.
  (** context.rs 715-718 and 721-730 [computed_relation] *)
  Definition read (drain : bool) (h : oheap) (c : rctx) (r : nat) : ev (option nat * oheap * rctx) :=
    ebind (recover drain h c r) (fun x => EOk (output (fst x) (snd x) r, snd x)).
  Definition read_mon (drain : bool) (h : oheap) (c : rctx) (r : nat) : ev (option nat * oheap * rctx * list event) :=
    ebind (recover_mon drain h c r) (fun x => EOk (output (fst (fst x)) (snd (fst x)) r, snd (fst x), snd x)).
  Fixpoint reads (drain : bool) (h : oheap) (c : rctx) (rs : list nat) : ev (list (option nat) * oheap * rctx) :=
    match rs with
    | [] => EOk ([], h, c)
    | r :: rs => ebind (read drain h c r) (fun x =>
        ebind (reads drain (snd (fst x)) (snd x) rs) (fun y => EOk (fst (fst x) :: fst (fst y), snd (fst y), snd y)))
    end.

  (** relation.rs 28-37, incremental.rs 39-48: the clone of a context shares the collections of the original *)
  Definition clone_ctx (h : oheap) (c : rctx) : oheap := fold_left (fun h x => hincr h (o_ptr (snd x))) (rc_idb c) h.

  (** what a later run sees of the results *)
  Definition internal (c : rctx) : list (nat * facts) := map (fun x => (fst x, o_int (snd x))) (rc_idb c).
End Results.
