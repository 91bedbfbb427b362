(** Model of the translation of front-end programs to the back IR
    (/repo/core/src/compiler/front/f2b/f2b.rs 16-54 [to_back_program], 74-94
    [to_back_relations], 96-146 [to_back_facts], 180-189 [to_back_rules]) and the
    meaning of front-end programs.
    Simplifications: the relation types found by type inference are not modelled, so
    relations are declared and facts are given as values; tags, attributes and
    disjunctive facts are left out (Back.v); outputs are given; aggregations, which
    add temporary relations, are left out (Front.v). *)
From Coq Require Import List ZArith Bool Arith.
From Verif Require Import Value Back Eval BackSem Front FrontSem.
Import ListNotations.

(** The items of a front-end program after its transformations: declared
    relations, queried relations, facts with constant arguments, rules. *)
Record fprogram := mkFprog {
  fp_rels : list brel; fp_outputs : list pred; fp_facts : list fact;
  fp_rules : list frule; fp_reg : registry }.
Definition compile_front (fr : nat -> var) (F : fprogram) : option program :=
  obnd (oall (map (compile_rule fr) (fp_rules F))) (fun rss =>
    Some (mkProg (fp_rels F) (fp_outputs F) (fp_facts F) (concat rss) (fp_reg F))).

(** *** Specification *)
(** A set of facts that has the facts of the program and of the context and is
    closed under its rules, whose negations are read off [M]. *)
Definition fclosed (B : benv) (F : fprogram) (extra : list fact) (M X : interp) : Prop :=
  (forall f, In f (fp_facts F ++ extra) -> X (f_pred f) (f_args f)) /\
  (forall r p t, In r (fp_rules F) -> front_consequence B (fp_reg F) X M r p t -> X p t).
(** A stable model is the least such set when its own facts are negated. *)
Definition front_stable (B : benv) (F : fprogram) (extra : list fact) (M : interp) : Prop :=
  forall p t, M p t <-> forall X, fclosed B F extra M X -> X p t.
