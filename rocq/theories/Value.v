(** Model of values and tuples: /repo/core/src/common/value.rs,
    /repo/core/src/common/generic_tuple.rs, /repo/core/src/common/tuple.rs. *)
From Coq Require Import List ZArith Lia String Ascii.
From Verif Require Import Order.
Import ListNotations.
Set Implicit Arguments.

(** value.rs 10-38 [enum Value].  Integer payloads are [Z] (the Rust types
    bound them), [char]/[DateTime]/[Duration]/[Entity] payloads are [Z] indices of
    their ordered value sets, strings are Coq strings compared bytewise.  The
    float payload type [F] is a parameter.  [Tensor] and [TensorValue] are
    not modelled. *)
Inductive gvalue (F : Type) : Type :=
| I8 (z : Z) | I16 (z : Z) | I32 (z : Z) | I64 (z : Z) | I128 (z : Z) | ISize (z : Z)
| U8 (z : Z) | U16 (z : Z) | U32 (z : Z) | U64 (z : Z) | U128 (z : Z) | USize (z : Z)
| F32 (f : F) | F64 (f : F)
| VChar (c : Z) | VBool (b : bool)
| VStr (s : string) | VString (s : string)
| VSymbol (z : Z) | VSymbolString (s : string)
| VDateTime (z : Z) | VDuration (z : Z)
| VEntity (z : Z) | VEntityString (s : string).

Arguments I8 {F}. Arguments I16 {F}. Arguments I32 {F}. Arguments I64 {F}.
Arguments I128 {F}. Arguments ISize {F}. Arguments U8 {F}. Arguments U16 {F}.
Arguments U32 {F}. Arguments U64 {F}. Arguments U128 {F}. Arguments USize {F}.
Arguments F32 {F}. Arguments F64 {F}. Arguments VChar {F}. Arguments VBool {F}.
Arguments VStr {F}. Arguments VString {F}. Arguments VSymbol {F}.
Arguments VSymbolString {F}. Arguments VDateTime {F}. Arguments VDuration {F}.
Arguments VEntity {F}. Arguments VEntityString {F}.

(** value.rs 9 [derive(PartialOrd)]: the discriminant, i.e. the position of the
    variant in the declaration. *)
Definition vrank {F} (v : gvalue F) : nat :=
  match v with
  | I8 _ => 0 | I16 _ => 1 | I32 _ => 2 | I64 _ => 3 | I128 _ => 4 | ISize _ => 5
  | U8 _ => 6 | U16 _ => 7 | U32 _ => 8 | U64 _ => 9 | U128 _ => 10 | USize _ => 11
  | F32 _ => 12 | F64 _ => 13 | VChar _ => 14 | VBool _ => 15
  | VStr _ => 16 | VString _ => 17 | VSymbol _ => 18 | VSymbolString _ => 19
  | VDateTime _ => 20 | VDuration _ => 21 | VEntity _ => 22 | VEntityString _ => 23
  end.

(** Bytewise comparison of strings ([str: Ord]). *)
Definition ascii_cmp (a b : ascii) : comparison :=
  Nat.compare (nat_of_ascii a) (nat_of_ascii b).

Fixpoint string_cmp (s t : string) : comparison :=
  match s, t with
  | EmptyString, EmptyString => Eq
  | EmptyString, String _ _ => Lt
  | String _ _, EmptyString => Gt
  | String a s', String b t' =>
      match ascii_cmp a b with Eq => string_cmp s' t' | c => c end
  end.

Definition bool_cmp (a b : bool) : comparison :=
  match a, b with
  | false, true => Lt | true, false => Gt | _, _ => Eq
  end.

Section Cmp.
  Variable F : Type.
  (** [f32]/[f64] [PartialOrd::partial_cmp]. *)
  Variable fpcmp : F -> F -> option comparison.

  (** value.rs 9 [derive(PartialOrd)]: same variant compares payloads, else
      discriminants. *)
  Definition value_partial_cmp (v w : gvalue F) : option comparison :=
    match v, w with
    | I8 a, I8 b | I16 a, I16 b | I32 a, I32 b | I64 a, I64 b | I128 a, I128 b
    | ISize a, ISize b | U8 a, U8 b | U16 a, U16 b | U32 a, U32 b | U64 a, U64 b
    | U128 a, U128 b | USize a, USize b | VChar a, VChar b | VSymbol a, VSymbol b
    | VDateTime a, VDateTime b | VDuration a, VDuration b | VEntity a, VEntity b => Some (Z.compare a b)
    | F32 a, F32 b | F64 a, F64 b => fpcmp a b
    | VBool a, VBool b => Some (bool_cmp a b)
    | VStr a, VStr b | VString a, VString b | VSymbolString a, VSymbolString b
    | VEntityString a, VEntityString b => Some (string_cmp a b)
    | _, _ => Some (Nat.compare (vrank v) (vrank w))
    end.

  (** value.rs 102-109 [Ord::cmp]: incomparable is [Equal]. *)
  Definition value_cmp (v w : gvalue F) : comparison :=
    match value_partial_cmp v w with Some o => o | None => Eq end.
End Cmp.

(** generic_tuple.rs 3-7 [enum GenericTuple], tuple.rs 8 [type Tuple]. *)
Inductive gtuple (F : Type) : Type :=
| TVal (v : gvalue F)
| TTup (ts : list (gtuple F)).
Arguments TVal {F}. Arguments TTup {F}.

Section TupleInd.
  Variable F : Type.
  Variable P : gtuple F -> Prop.
  Hypothesis HV : forall v, P (TVal v).
  Hypothesis HT : forall ts, Forall P ts -> P (TTup ts).
  Fixpoint gtuple_ind' (t : gtuple F) : P t :=
    match t with
    | TVal v => HV v
    | TTup ts => HT ((fix go l : Forall P l :=
        match l with [] => Forall_nil P | x :: r => Forall_cons x (gtuple_ind' x) (go r) end) ts)
    end.
End TupleInd.

(** generic_tuple.rs 3 [derive(Ord)]: [Value] before [Tuple]; slices compare
    lexicographically. *)
Section TCmp.
  Variable F : Type.
  Variable fpcmp : F -> F -> option comparison.
  Fixpoint gtuple_cmp (t u : gtuple F) {struct t} : comparison :=
    match t, u with
    | TVal a, TVal b => value_cmp fpcmp a b
    | TVal _, TTup _ => Lt
    | TTup _, TVal _ => Gt
    | TTup l, TTup m =>
        (fix go (l m : list (gtuple F)) {struct l} : comparison :=
           match l, m with
           | [], [] => Eq
           | [], _ :: _ => Lt
           | _ :: _, [] => Gt
           | a :: r, b :: s => match gtuple_cmp a b with Eq => go r s | c => c end
           end) l m
    end.

  Lemma gtuple_cmp_tup : forall l m,
    gtuple_cmp (TTup l) (TTup m) = lex gtuple_cmp l m.
  Proof.
    reflexivity.
  Qed.
End TCmp.

(** Floats without NaN: their numeric values are totally ordered; [Z] indexes
    them ([-0.0] and [0.0] are one index, as [==] identifies them). *)
Definition value := gvalue Z.
Definition tuple := gtuple Z.
Definition zpcmp (a b : Z) : option comparison := Some (Z.compare a b).
Definition vcmp : value -> value -> comparison := value_cmp zpcmp.
Definition tcmp : tuple -> tuple -> comparison := gtuple_cmp zpcmp.

Lemma ascii_TOrder : TOrder ascii_cmp.
Proof.
  unfold ascii_cmp; constructor; intros.
  - rewrite Nat.compare_eq_iff; split; [|intros; subst; auto].
    intros H; rewrite <- (ascii_nat_embedding a), <- (ascii_nat_embedding b), H; auto.
  - apply Nat.compare_antisym.
  - rewrite Nat.compare_lt_iff in *; lia.
Qed.

Lemma string_TOrder : TOrder string_cmp.
Proof.
  pose proof ascii_TOrder as O. constructor.
  - induction a; destruct b; simpl; try (split; congruence).
    destruct (ascii_cmp a a1) eqn:E.
    + apply (to_eq O) in E; subst. rewrite IHa. split; congruence.
    + split; [congruence|]. intros H; inversion H; subst. rewrite (to_refl O) in E; congruence.
    + split; [congruence|]. intros H; inversion H; subst. rewrite (to_refl O) in E; congruence.
  - induction a; destruct b; simpl; auto.
    rewrite (to_opp O a a1). destruct (ascii_cmp a a1); simpl; auto.
  - induction a; destruct b, c; simpl; try congruence.
    destruct (ascii_cmp a a1) eqn:E1; try congruence.
    + apply (to_eq O) in E1; subst. destruct (ascii_cmp a1 a2); auto. eauto.
    + destruct (ascii_cmp a1 a2) eqn:E2; try congruence.
      * apply (to_eq O) in E2; subst. rewrite E1; auto.
      * rewrite (to_trans O _ _ _ E1 E2); auto.
Qed.

Lemma bool_TOrder : TOrder bool_cmp.
Proof.
  constructor.
  - intros [] []; simpl; split; congruence.
  - intros [] []; reflexivity.
  - intros [] [] []; simpl; congruence.
Qed.

Lemma vcmp_rank : forall v w, vrank v <> vrank w -> vcmp v w = Nat.compare (vrank v) (vrank w).
Proof. intros v w H. destruct v, w; simpl in *; try congruence; reflexivity. Qed.

Lemma vcmp_lt_rank : forall v w, vcmp v w = Lt -> vrank v <= vrank w.
Proof.
  intros v w H. destruct (Nat.eq_dec (vrank v) (vrank w)) as [->|N]; auto.
  rewrite vcmp_rank in H by auto. apply Nat.compare_lt_iff in H. lia.
Qed.

Lemma vcmp_TOrder : TOrder vcmp.
Proof.
  pose proof string_TOrder as S. pose proof bool_TOrder as B. pose proof Z_TOrder as Z0.
  constructor.
  - intros a b. destruct (Nat.eq_dec (vrank a) (vrank b)) as [E|N].
    + destruct a, b; simpl in E; try discriminate; unfold vcmp, value_cmp; simpl;
        first [rewrite (to_eq Z0) | rewrite (to_eq S) | rewrite (to_eq B)]; split; congruence.
    + rewrite vcmp_rank by auto. rewrite Nat.compare_eq_iff. split; [congruence|].
      intros; subst; congruence.
  - intros a b. destruct (Nat.eq_dec (vrank a) (vrank b)) as [E|N].
    + destruct a, b; simpl in E; try discriminate; unfold vcmp, value_cmp; simpl;
        first [apply (to_opp Z0) | apply (to_opp S) | apply (to_opp B)].
    + rewrite !vcmp_rank by auto. apply Nat.compare_antisym.
  - intros a b c H1 H2.
    pose proof (vcmp_lt_rank _ _ H1). pose proof (vcmp_lt_rank _ _ H2).
    destruct (Nat.eq_dec (vrank a) (vrank c)) as [E|N].
    + assert (vrank a = vrank b) by lia. assert (vrank b = vrank c) by lia.
      destruct a, b; simpl in H3; try discriminate; destruct c; simpl in H4; try discriminate;
        unfold vcmp, value_cmp in *; simpl in *;
        first [eapply (to_trans Z0); eassumption | eapply (to_trans S); eassumption
              | eapply (to_trans B); eassumption].
    + rewrite vcmp_rank by auto. apply Nat.compare_lt_iff. lia.
Qed.

Lemma tcmp_tup : forall l m, tcmp (TTup l) (TTup m) = lex tcmp l m.
Proof. intros; apply gtuple_cmp_tup. Qed.

Lemma tcmp_TOrder : TOrder tcmp.
Proof.
  pose proof vcmp_TOrder as V.
  assert (HE : forall a b, tcmp a b = Eq <-> a = b).
  { induction a using gtuple_ind'; destruct b; try (simpl; split; congruence).
    - change (tcmp (TVal v) (TVal v0)) with (vcmp v v0). rewrite (to_eq V). split; congruence.
    - rewrite tcmp_tup. revert ts0. induction H; intros [|y m]; simpl; try (split; congruence).
      destruct (tcmp x y) eqn:E.
      + apply H in E; subst. rewrite IHForall. split; congruence.
      + split; [congruence|]. intros E'; inversion E'; subst.
        assert (tcmp y y = Eq) by (apply H; auto). congruence.
      + split; [congruence|]. intros E'; inversion E'; subst.
        assert (tcmp y y = Eq) by (apply H; auto). congruence. }
  constructor; [exact HE| |].
  - induction a using gtuple_ind'; destruct b; auto.
    + apply (to_opp V).
    + rewrite !tcmp_tup. revert ts0. induction H; intros [|y m]; simpl; auto.
      rewrite (H y). destruct (tcmp x y); simpl; auto.
  - induction a using gtuple_ind'; destruct b, c; try (simpl; congruence).
    + change (vcmp v v0 = Lt -> vcmp v0 v1 = Lt -> vcmp v v1 = Lt). apply (to_trans V).
    + rewrite !tcmp_tup. revert ts0 ts1. induction H; intros [|y m] [|z n]; simpl; try congruence.
      destruct (tcmp x y) eqn:E1; try congruence.
      * apply HE in E1; subst. destruct (tcmp y z); auto. apply IHForall.
      * intros _. destruct (tcmp y z) eqn:E2; try congruence.
        -- apply HE in E2; subst. rewrite E1; auto.
        -- rewrite (H _ _ E1 E2); auto.
Qed.

Definition teqb (a b : tuple) : bool := cmp_eqb (cmp:=tcmp) a b.
Definition tltb (a b : tuple) : bool := cmp_ltb (cmp:=tcmp) a b.

Lemma teqb_true : forall a b, teqb a b = true <-> a = b.
Proof. apply (cmp_eqb_true tcmp_TOrder). Qed.
Lemma teqb_false : forall a b, teqb a b = false <-> a <> b.
Proof. apply (cmp_eqb_false tcmp_TOrder). Qed.
Lemma tltb_true : forall a b, tltb a b = true <-> tcmp a b = Lt.
Proof. apply cmp_ltb_true. Qed.
Definition tuple_eq_dec : forall a b : tuple, {a = b} + {a <> b} := to_eq_dec tcmp_TOrder.

(** generic_tuple.rs 49-58 [Index<usize>]: [t[i]]; out of range and
    non-tuple accesses panic, here [None]. *)
Definition tnth (t : tuple) (i : nat) : option tuple :=
  match t with TVal _ => None | TTup l => nth_error l i end.
