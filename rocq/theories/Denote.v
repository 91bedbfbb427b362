(** Specification side: what a dataflow means over a set of tagged tuples, and
    which dataflows the compiler is expected to emit.  Nothing here computes
    batches, stable or recent parts; it models no code. *)
From Coq Require Import List Bool Sorted.
From Verif Require Import Order Value Prov SortedCol SortedColFacts Dataflow View.
Import ListNotations.
Set Implicit Arguments.

Section Den.
  Variable P : Prov.
  Notation elem := (elem P).
  (** Completed input collections of the stratum. *)
  Variable col : nat -> option (list elem).

  (** [den st I d e]: dataflow [d] yields the tagged tuple [e] when the relations
      being computed contain [I].  With [st = true] this is plain relational
      algebra.  With [st = false] the completed collections and constant sources
      count as empty; this is what "already seen" means before the first iteration. *)
  Fixpoint den (st : bool) (I : nat -> elem -> Prop) (d : dflow P) (e : elem) {struct d} : Prop :=
    match d with
    | DUnit u => st = true /\ e = (u, pone P)
    | DVec ts => st = true /\ In (fst e) ts /\ snd e = pone P
    | DRel r => match col r with Some c => st = true /\ In e c | None => I r e end
    | DOverwrite d => (exists g, den st I d (fst e, g)) /\ snd e = pone P
    | DFilter d p => den st I d e /\ p (fst e) = true
    | DProject d f => exists t, den st I d (t, snd e) /\ f t = Some (fst e)
    | DFind d k => den st I d e /\ tnth (fst e) 0 = Some k
    | DSorted d => den st I d e
    | DInter d1 d2 => exists a b, den st I d1 (fst e, a) /\ den st I d2 (fst e, b) /\ snd e = pmult P a b
    | DJoin d1 d2 => exists t1 t2 a b k x y, den st I d1 (t1, a) /\ den st I d2 (t2, b) /\
        tnth t1 0 = Some k /\ tnth t2 0 = Some k /\ tnth t1 1 = Some x /\ tnth t2 1 = Some y /\
        e = (TTup [k; x; y], pmult P a b)
    | DProd d1 d2 => exists t1 t2 a b, den st I d1 (t1, a) /\ den st I d2 (t2, b) /\
        e = (TTup [t1; t2], pmult P a b)
    | DUnion d1 d2 => den st I d1 e \/ den st I d2 e
    | DDiff d1 d2 =>
        (den st I d1 e /\ forall g, ~ den true I d2 (fst e, g)) \/
        exists a b, den st I d1 (fst e, a) /\ den true I d2 (fst e, b) /\ pminus P a b = Some (snd e)
    | DAnti d1 d2 =>
        (den st I d1 e /\ forall k g, tnth (fst e) 0 = Some k -> ~ den true I d2 (k, g)) \/
        exists k a b, tnth (fst e) 0 = Some k /\ den st I d1 (fst e, a) /\ den true I d2 (k, b) /\
          pminus P a b = Some (snd e)
    | DJoinIV d get => exists t a k x y g, den st I d (t, a) /\ tnth t 0 = Some k /\ tnth t 1 = Some x /\
        get k = Some (y, g) /\ e = (TTup [k; x; y], pmult P a g)
    | DGround es => st = true /\ In e es
    | DConstraint d fp => exists a g, den st I d (fst e, a) /\ fp (fst e) = Some g /\ snd e = pmult P a g
    | DFpJoin d fp => exists t a u g, den st I d (t, a) /\ In (u, g) (fp t) /\ e = (TTup [t; u], pmult P a g)
    | DReduce es => st = true /\ In e es
    end.

  (** A dataflow reading completed collections only, in one batch. *)
  Fixpoint is_static (d : dflow P) : Prop :=
    match d with
    | DUnit _ | DGround _ => True
    | DRel r => col r <> None
    | DOverwrite d | DFilter d _ | DProject d _ | DFind d _ | DSorted d
    | DJoinIV d _ | DConstraint d _ | DFpJoin d _ => is_static d
    | DInter d1 d2 | DJoin d1 d2 | DProd d1 d2 => is_static d1 /\ is_static d2
    | DVec _ | DUnion _ _ | DDiff _ _ | DAnti _ _ | DReduce _ => False
    end.

  (** Order-preserving projections (weakly; strictly on the tuples in [Q]). *)
  Definition mono (f : tuple -> option tuple) : Prop :=
    forall t t' u u', tcmp t t' <> Gt -> f t = Some u -> f t' = Some u' -> tcmp u u' <> Gt.
  Definition smono (Q : tuple -> Prop) (f : tuple -> option tuple) : Prop :=
    forall t t' u u', Q t -> Q t' -> tcmp t t' = Lt -> f t = Some u -> f t' = Some u' -> tcmp u u' = Lt.

  (** The tuples that relations may hold, for example those of the right type. *)
  Variable Sh : nat -> tuple -> Prop.
  (** The tuples a dataflow may yield, as far as this is needed. *)
  Fixpoint dom (d : dflow P) : tuple -> Prop :=
    match d with
    | DRel r => Sh r
    | DOverwrite d | DFind d _ | DSorted d | DConstraint d _ | DDiff d _ | DAnti d _ | DInter d _ => dom d
    | DFilter d p => fun t => dom d t /\ p t = true
    | DProject d f => fun u => exists t, dom d t /\ f t = Some u
    | _ => fun _ => True
    end.

  (** Every batch is strictly sorted by tuple. *)
  Fixpoint is_strict (d : dflow P) : Prop :=
    match d with
    | DUnit _ | DRel _ => True
    | DOverwrite d | DFilter d _ | DFind d _ | DSorted d | DConstraint d _ | DDiff d _ | DAnti d _ => is_strict d
    | DInter d1 d2 => is_strict d1 /\ is_strict d2
    | DGround es | DReduce es => ssorted es
    | DProject d f => is_strict d /\ smono (dom d) f
    | _ => False
    end.
  (** Every batch is sorted, possibly with equal tuples. *)
  Fixpoint is_sorted (d : dflow P) : Prop :=
    match d with
    | DUnit _ | DRel _ | DSorted _ => True
    | DOverwrite d | DFilter d _ | DFind d _ | DConstraint d _ | DAnti d _ => is_sorted d
    | DGround es | DReduce es => wsorted es
    | DProject d f => is_sorted d /\ mono f
    | DInter d1 d2 => is_strict d1 /\ is_strict d2
    | DDiff d _ => is_strict d
    | _ => False
    end.

  (** Well-formed dataflows.  [nested] is set below join, intersection and
      product, where operators that only produce fresh results are not allowed. *)
  Fixpoint wf (nested : bool) (d : dflow P) : Prop :=
    match d with
    | DUnit _ | DVec _ | DRel _ | DGround _ => True
    | DReduce _ => nested = false
    | DOverwrite d | DFilter d _ | DProject d _ | DSorted d | DJoinIV d _ | DConstraint d _ | DFpJoin d _ =>
        wf nested d
    | DFind d _ => wf nested d /\ is_sorted d
    | DInter d1 d2 => wf true d1 /\ wf true d2 /\ is_strict d1 /\ is_strict d2
    | DJoin d1 d2 => wf true d1 /\ wf true d2 /\ is_sorted d1 /\ is_sorted d2
    | DProd d1 d2 => wf true d1 /\ wf true d2
    | DUnion d1 d2 => wf nested d1 /\ wf nested d2
    | DDiff d1 d2 => nested = false /\ wf false d1 /\ wf true d2 /\ is_static d2 /\ is_strict d1 /\ is_strict d2
    | DAnti d1 d2 => nested = false /\ wf false d1 /\ wf true d2 /\ is_static d2 /\ is_sorted d1 /\ is_strict d2
    end.

  (** Tag conditions relative to a view.  [minus_ok]: subtracting a fixed tag is
      either always undefined or a multiplication.  [ow_ok]: no worthless tag is
      overwritten by a valuable one. *)
  Definition minus_ok (V : view P) : Prop := forall b,
    (forall a, pminus P a b = None) \/
    exists c, forall a, exists g, pminus P a b = Some g /\
      vle V (vh V g) (vmul V (vh V a) c) /\ vle V (vmul V (vh V a) c) (vh V g).
  Definition ow_ok (V : view P) : Prop :=
    forall a, vle V (vh V a) (vzero V) -> vle V (vh V (pone P)) (vzero V).

  Fixpoint tag_wf (V : view P) (d : dflow P) : Prop :=
    match d with
    | DUnit _ | DVec _ | DRel _ | DGround _ | DReduce _ => True
    | DOverwrite d => ow_ok V /\ tag_wf V d
    | DFilter d _ | DProject d _ | DFind d _ | DSorted d | DJoinIV d _ | DConstraint d _ | DFpJoin d _ => tag_wf V d
    | DInter d1 d2 | DJoin d1 d2 | DProd d1 d2 | DUnion d1 d2 => tag_wf V d1 /\ tag_wf V d2
    | DDiff d1 d2 | DAnti d1 d2 => minus_ok V /\ is_static d2 /\ tag_wf V d1
    end.
End Den.

(** ** Derivability *)
Section Deriv.
  Variable P : Prov.
  Notation elem := (elem P).
  Variable col : nat -> option (list elem).
  (** The rules: target relation and body. *)
  Variable rules : list (nat * dflow P).
  Variable facts : nat -> elem -> Prop.

  (** What is derivable with at most [n] rounds of rule applications. *)
  Fixpoint stage (n : nat) (r : nat) (e : elem) : Prop :=
    match n with
    | 0 => facts r e
    | S n => stage n r e \/ exists d, In (r, d) rules /\ den col true (stage n) d e
    end.
  Definition derivable (r : nat) (e : elem) : Prop := exists n, stage n r e.

  (** [I] contains the facts and is closed under the rules. *)
  Definition closed (I : nat -> elem -> Prop) : Prop :=
    (forall r e, facts r e -> I r e) /\
    (forall r d e, In (r, d) rules -> den col true I d e -> I r e).
End Deriv.
