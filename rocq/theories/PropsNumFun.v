(** C79: built-in functions on numbers. *)
From Coq Require Import List ZArith Bool Arith Lia.
From Verif Require Import Aggregate Builtin.
Import ListNotations.

Section C79.
  Variables (F : Type) (fabs : F -> F) (fsign : F -> Z) (flt : F -> F -> bool).
  Notation abs := (ff_abs F fabs).
  Notation sign := (ff_sign F fsign).

  (** The absolute value, of the type of the argument. *)
  Theorem C79_abs : forall ty z, in_range ty z = true -> forall n, abs (NInt ty z) = Some n <-> n = NInt ty (Z.abs z) /\ in_range ty (Z.abs z) = true.
  Proof.
    intros ty z R n. cbn. destruct (signed ty) eqn:S.
    - destruct (in_range ty (Z.abs z)); split; intros E; try (inversion E; auto; fail); destruct E; subst; congruence.
    - assert (Z.abs z = z) as ->.
      { apply Z.abs_eq. unfold in_range in R. rewrite S in R. apply andb_true_iff in R as [R _]. apply Z.leb_le in R. auto. }
      split; [intros E; inversion E; auto|]. intros (-> & _). auto.
  Qed.
  (** It overflows at the least number of a signed type and nowhere else. *)
  Theorem C79_abs_overflow : forall ty z, in_range ty z = true ->
    (abs (NInt ty z) = None <-> signed ty = true /\ z = (- 2 ^ (bits ty - 1))%Z).
  Proof.
    intros ty z R. cbn. destruct (signed ty) eqn:S; [|split; [discriminate|intros [E _]; discriminate]].
    unfold in_range in *. rewrite S in *. apply andb_true_iff in R as [R1 R2]. apply Z.leb_le in R1. apply Z.ltb_lt in R2.
    assert (0 < 2 ^ (bits ty - 1))%Z by (destruct ty; reflexivity).
    destruct (Z.leb_spec (- 2 ^ (bits ty - 1)) (Z.abs z)); [|lia]. destruct (Z.ltb_spec (Z.abs z) (2 ^ (bits ty - 1))); cbn [andb]; split; try discriminate.
    - intros [_ ->]. lia.
    - intros _. split; auto. lia.
    - auto.
  Qed.
  Example C79_abs_ex : abs (NInt TI8 (-5)) = Some (NInt TI8 5) /\ abs (NInt TI8 (-128)) = None.
  Proof. split; reflexivity. Qed.

  Theorem C79_sign_partial : forall ty z, in_range ty z = true -> signed ty = true \/ z <> 0%Z -> sign (NInt ty z) = NInt ty (Z.sgn z).
  Proof.
    intros ty z R H. cbn. destruct (signed ty) eqn:S; auto. f_equal. destruct H as [H|H]; [discriminate|].
    unfold in_range in R. rewrite S in R. apply andb_true_iff in R as [R _]. apply Z.leb_le in R. symmetry. apply Z.sgn_pos. lia.
  Qed.
  (** The sign of an unsigned zero is one. *)
  Theorem C79_sign_refuted : exists ty, in_range ty 0 = true /\ sign (NInt ty 0) <> NInt ty (Z.sgn 0).
  Proof. exists TU8. split; [reflexivity|discriminate]. Qed.
  (** The sign of a float is not of the declared type, which is that of the argument. *)
  Theorem C79_sign_type_refuted : forall f, nty_of (sign (NF32 f)) <> nty_of (NF32 f) /\ nty_of (sign (NF64 f)) <> nty_of (NF64 f).
  Proof. split; discriminate. Qed.

  Lemma best_int : forall max ty l z, (forall n, In n l -> nty_of n = YInt ty) ->
    exists m, best F flt max (NInt ty z) l = Some (NInt ty m) /\ In (NInt ty m) (NInt ty z :: l) /\
      forall k, In (NInt ty k) (NInt ty z :: l) -> if max then (k <= m)%Z else (m <= k)%Z.
  Proof.
    intros max ty. induction l as [|n l IH]; intros z H.
    - exists z. split; auto. split; [left; auto|]. intros k [E|[]]. inversion E. destruct max; lia.
    - assert (N := H n (or_introl eq_refl)). destruct n as [t y| |]; cbn in N; try discriminate. inversion N; subst t. clear N.
      cbn [best]. assert (C : (if max then ngt F flt (NInt ty y) (NInt ty z) else ngt F flt (NInt ty z) (NInt ty y)) = Some (if max then Z.ltb z y else Z.ltb y z)).
      { destruct max; cbn; destruct (ity_eq_dec ty ty); congruence. }
      rewrite C. clear C. set (b := if max then Z.ltb z y else Z.ltb y z).
      destruct (IH (if b then y else z) (fun n I => H n (or_intror I))) as (m & E & I & B).
      exists m. replace (if b then NInt ty y else NInt ty z) with (@NInt F ty (if b then y else z)) by (destruct b; auto). split; auto. split.
      + destruct I as [I|I]; [|right; right; auto]. rewrite <- I. destruct b; [right; left|left]; auto.
      + intros k [K|[K|K]].
        * inversion K; subst k. specialize (B (if b then y else z) (or_introl eq_refl)). subst b. destruct max.
          -- destruct (Z.ltb_spec z y); lia.
          -- destruct (Z.ltb_spec y z); lia.
        * inversion K; subst k. specialize (B (if b then y else z) (or_introl eq_refl)). subst b. destruct max.
          -- destruct (Z.ltb_spec z y); lia.
          -- destruct (Z.ltb_spec y z); lia.
        * apply B. right. auto.
  Qed.
  (** Of integers of one type, the greatest and the least. *)
  Theorem C79_max : forall ty l, l <> [] -> (forall n, In n l -> nty_of n = YInt ty) ->
    exists m, ff_max F flt l = Some (NInt ty m) /\ In (NInt ty m) l /\ forall k, In (NInt ty k) l -> (k <= m)%Z.
  Proof.
    intros ty l N H. destruct l as [|n l]; [easy|]. assert (E := H n (or_introl eq_refl)). destruct n as [t z| |]; cbn in E; try discriminate. inversion E; subst t.
    apply (best_int true ty l z). intros n I. apply H. right. auto.
  Qed.
  Theorem C79_min : forall ty l, l <> [] -> (forall n, In n l -> nty_of n = YInt ty) ->
    exists m, ff_min F flt l = Some (NInt ty m) /\ In (NInt ty m) l /\ forall k, In (NInt ty k) l -> (m <= k)%Z.
  Proof.
    intros ty l N H. destruct l as [|n l]; [easy|]. assert (E := H n (or_introl eq_refl)). destruct n as [t z| |]; cbn in E; try discriminate. inversion E; subst t.
    apply (best_int false ty l z). intros n I. apply H. right. auto.
  Qed.
  Example C79_max_ex : ff_max F flt [NInt TI8 3; NInt TI8 7; NInt TI8 5] = Some (NInt TI8 7).
  Proof. reflexivity. Qed.
End C79.
Print Assumptions C79_abs.
Print Assumptions C79_abs_overflow.
Print Assumptions C79_sign_partial.
Print Assumptions C79_sign_refuted.
Print Assumptions C79_sign_type_refuted.
Print Assumptions C79_max.
Print Assumptions C79_min.
