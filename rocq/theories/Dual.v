(** Differentiable tags: core/src/runtime/provenance/common/dual_number.rs,
    dual_number_2.rs, diff_prob_storage.rs and the differentiable provenances in
    core/src/runtime/provenance/differentiable.

    Numbers are those of an arbitrary structure with exact operations instead of
    [f64]; the theorems use the real numbers. *)
From Coq Require Import List Arith Bool.
From Verif Require Import ListAux Formula Sdd.
Import ListNotations.
Set Implicit Arguments.

Record num := mkNum {
  k_t : Type;
  k_0 : k_t; k_1 : k_t;
  k_add : k_t -> k_t -> k_t; k_sub : k_t -> k_t -> k_t; k_mul : k_t -> k_t -> k_t; k_opp : k_t -> k_t;
  k_lt : k_t -> k_t -> bool }.

Section Dual.
  Variable K : num.
  Notation k := (k_t K).

  (** ** Gradients *)
  (** dual_number_2.rs 118-138 [Gradient], [empty], [singleton]: the two vectors of
      the same length are one list of pairs. *)
  Definition gradient := list (nat * k).
  Definition g_empty : gradient := [].
  Definition g_single (i : nat) : gradient := [(i, k_1 K)].
  (** 140-149 multiplication by a number, 202-211 negation *)
  Definition g_scale (g : gradient) (c : k) : gradient := map (fun x => (fst x, k_mul K (snd x) c)) g.
  Definition g_neg (g : gradient) : gradient := map (fun x => (fst x, k_opp K (snd x))) g.
  (** 151-200 addition: the loop over both index vectors. *)
  Fixpoint g_add (a : gradient) : gradient -> gradient :=
    fix inner (b : gradient) : gradient :=
      match a, b with
      | [], _ => b
      | _, [] => a
      | (i, v) :: a', (j, w) :: b' =>
          if i =? j then (i, k_add K v w) :: g_add a' b'
          else if i <? j then (i, v) :: g_add a' b
          else (j, w) :: inner b'
      end.

  (** ** Dual numbers with a gradient of any size *)
  (** dual_number_2.rs 12-68 *)
  Record dn := mkDn { d_real : k; d_grad : gradient }.
  Definition dn_new (id : nat) (p : k) : dn := mkDn p (g_single id).
  Definition dn_one : dn := mkDn (k_1 K) g_empty.
  Definition dn_zero : dn := mkDn (k_0 K) g_empty.
  Definition dn_const (p : k) : dn := mkDn p g_empty.
  (** 49-51: [f64::clamp] of the number, the gradient stays. *)
  Definition k_clamp (x : k) : k := if k_lt K x (k_0 K) then k_0 K else if k_lt K (k_1 K) x then k_1 K else x.
  Definition dn_clamp (d : dn) : dn := mkDn (k_clamp (d_real d)) (d_grad d).
  Definition dn_max (a b : dn) : dn := if k_lt K (d_real b) (d_real a) then a else b.
  Definition dn_min (a b : dn) : dn := if k_lt K (d_real a) (d_real b) then a else b.
  (** 70-79, 96-116 *)
  Definition dn_neg (a : dn) : dn := mkDn (k_sub K (k_1 K) (d_real a)) (g_neg (d_grad a)).
  Definition dn_mul (a b : dn) : dn :=
    mkDn (k_mul K (d_real a) (d_real b)) (g_add (g_scale (d_grad a) (d_real b)) (g_scale (d_grad b) (d_real a))).
  Definition dn_add (a b : dn) : dn := mkDn (k_add K (d_real a) (d_real b)) (g_add (d_grad a) (d_grad b)).

  (** ** Provenances whose tags are dual numbers *)
  Record dprov := mkDP { dp_add : dn -> dn -> dn; dp_mult : dn -> dn -> dn; dp_neg : dn -> dn }.
  (** diff_add_mult_prob.rs 98-110 *)
  Definition diff_add_mult : dprov := mkDP (fun a b => dn_clamp (dn_add a b)) dn_mul dn_neg.
  (** diff_max_mult_prob.rs 98-108 *)
  Definition diff_max_mult : dprov := mkDP dn_max dn_mul dn_neg.
  (** diff_nand_mult_prob.rs 97-107 *)
  Definition diff_nand_mult : dprov := mkDP (fun a b => dn_neg (dn_mul (dn_neg a) (dn_neg b))) dn_mul dn_neg.
  (** diff_nand_min_prob.rs 97-107 *)
  Definition diff_nand_min : dprov := mkDP (fun a b => dn_neg (dn_mul (dn_neg a) (dn_neg b))) dn_min dn_neg.

  (** diff_min_max_prob.rs 12-32, 151-188: the tag names at most one fact. *)
  Inductive mder := MPos (i : nat) | MZero | MNeg (i : nat).
  Definition mder_neg (d : mder) : mder := match d with MPos i => MNeg i | MZero => MZero | MNeg i => MPos i end.
  Record mtag := mkM { m_real : k; m_der : mder }.
  Definition m_zero : mtag := mkM (k_0 K) MZero.
  Definition m_one : mtag := mkM (k_1 K) MZero.
  Definition m_add (a b : mtag) : mtag := if k_lt K (m_real b) (m_real a) then a else b.
  Definition m_mult (a b : mtag) : mtag := if k_lt K (m_real b) (m_real a) then b else a.
  Definition m_neg (a : mtag) : mtag := mkM (k_sub K (k_1 K) (m_real a)) (mder_neg (m_der a)).

  (** ** Input facts *)
  Section Tagging.
    (** external tags *)
    Variable T : Type.
    (** diff_add_mult_prob.rs 63-72 [tagging_fn], the same in the other three: only
        facts with an external tag are stored. *)
    Definition dn_tagging (st : list T) (p : k) (t : option T) : dn * list T :=
      match t with
      | Some t => (dn_new (length st) p, st ++ [t])
      | None => (dn_const p, st)
      end.
    (** The same, from an initial store, for a sequence of facts. *)
    Fixpoint dn_tag_all (st : list T) (fs : list (k * option T)) : list dn * list T :=
      match fs with
      | [] => ([], st)
      | (p, t) :: fs =>
          let (d, st) := dn_tagging st p t in
          let (ds, st) := dn_tag_all st fs in (d :: ds, st)
      end.

    (** diff_prob_storage.rs 38-53 [add_prob]: every fact is stored, its position is
        its identifier; 77-83 [input_tags], [num_input_tags]. *)
    Definition storage := list (k * option T).
    Definition add_prob (st : storage) (p : k) (t : option T) : nat * storage := (length st, st ++ [(p, t)]).
    Definition has_tag (x : k * option T) : bool := match snd x with Some _ => true | None => false end.
    Definition num_input_tags (st : storage) : nat := length (filter has_tag st).
    Definition input_tags (st : storage) : list T :=
      flat_map (fun x => match snd x with Some t => [t] | None => [] end) st.

    (** ** Dual numbers with a gradient of fixed size *)
    (** dual_number.rs 14-72, as a semiring.  [CsVec] of the sprs crate is modelled
        from its documentation: sorted sparse vectors, addition merges them, and
        [CsVec::new] panics on an index out of range; a panic is [None] and makes
        the whole computation panic. *)
    Definition cs_single (dim : nat) (p : k) (id : nat) : option dn := if id <? dim then Some (dn_new id p) else None.
    Definition olift1 (f : dn -> dn) (a : option dn) : option dn := match a with Some a => Some (f a) | None => None end.
    Definition olift2 (f : dn -> dn -> dn) (a b : option dn) : option dn :=
      match a, b with Some a, Some b => Some (f a b) | _, _ => None end.
    Definition dual_sr : semiring :=
      mkSR (Some dn_zero) (Some dn_one) (olift2 dn_add) (olift2 dn_mul) (olift1 dn_neg).
    (** diff_top_k_proofs.rs 83-98 [recover_fn]: the weight of a fact; also
        diff_sample_k_proofs.rs 90-103 and diff_top_bottom_k_clauses.rs 85-99.
        [s[id]] out of range panics. *)
    Definition grad_weight (st : storage) (i : nat) : option dn :=
      match nth_error st i with
      | Some (p, Some _) => cs_single (num_input_tags st) p i
      | Some (p, None) => Some (dn_const p)
      | None => None
      end.
    (** 99-111: probability and gradient of the formula of a tag; [None] is a panic
        (or exhausted fuel). *)
    Definition recover (fuel : nat) (st : storage) (f : bform) : option dn :=
      match wmc_bf fuel dual_sr f (grad_weight st) with Some r => r | None => None end.
  End Tagging.
End Dual.
Arguments mkDn {K} _ _.
Arguments mkM {K} _ _.
