(** C80: soft comparisons are probabilities that agree with the comparisons. *)
From Coq Require Import Reals ZArith Lra Lia Bool Psatz.
From Verif Require Import Aggregate Soft.
Local Open Scope R_scope.

Lemma recip_lt : forall a b, 0 <= a < b -> a / (1 + 2 * a) < b / (1 + 2 * b).
Proof.
  intros a b [A B]. apply Rmult_lt_reg_r with ((1 + 2 * a) * (1 + 2 * b)); [nra|].
  replace (a / (1 + 2 * a) * ((1 + 2 * a) * (1 + 2 * b))) with (a * (1 + 2 * b)) by (field; lra).
  replace (b / (1 + 2 * b) * ((1 + 2 * a) * (1 + 2 * b))) with (b * (1 + 2 * a)) by (field; lra). nra.
Qed.
Lemma recip_bound : forall a, 0 <= a -> 0 <= a / (1 + 2 * a) < 1 / 2.
Proof.
  intros a A. split; [apply Rmult_le_pos; auto; left; apply Rinv_0_lt_compat; lra|].
  apply Rmult_lt_reg_r with (1 + 2 * a); [lra|]. replace (a / (1 + 2 * a) * (1 + 2 * a)) with a by (field; lra). lra.
Qed.
(** The reciprocal sigmoid on both sides. *)
Lemma recip_pos : forall beta x, 0 <= x -> soft_eval (Reciprocal beta) x = beta * x / (1 + 2 * (beta * x)) + 1 / 2.
Proof. intros. cbn. rewrite Rabs_pos_eq by auto. f_equal. f_equal. lra. Qed.
Lemma recip_neg : forall beta x, x <= 0 -> soft_eval (Reciprocal beta) x = 1 / 2 - beta * (- x) / (1 + 2 * (beta * (- x))).
Proof.
  intros. cbn. rewrite Rabs_left1 by auto. replace (1 + 2 * beta * - x) with (1 + 2 * (beta * - x)) by lra.
  replace (beta * x) with (- (beta * - x)) by lra. unfold Rdiv. lra.
Qed.

Lemma inv16 : forall x, 1 / 4 < x -> 0 < 1 / (16 * x) < 1 / 4.
Proof.
  intros x H. split.
  - apply Rmult_lt_0_compat; [lra|]. apply Rinv_0_lt_compat. lra.
  - apply Rmult_lt_reg_r with (16 * x); [lra|]. replace (1 / (16 * x) * (16 * x)) with 1 by (field; lra). lra.
Qed.
Lemma neg16 : forall x, x <> 0 -> - 1 / (16 * x) = 1 / (16 * - x).
Proof. intros. field. auto. Qed.
Lemma inv16_lt : forall x y, 1 / 4 < x < y -> 1 / (16 * y) < 1 / (16 * x).
Proof.
  intros x y H. unfold Rdiv. rewrite !Rmult_1_l. apply Rinv_lt_contravar; [nra|lra].
Qed.

(** Values are strictly between 0 and 1. *)
Theorem C80_probability : forall s x, 0 < scale s -> 0 < soft_eval s x < 1.
Proof.
  intros s x B. destruct s as [b|b|b|b]; cbn [scale] in B.
  - cbn. pose proof (exp_pos (- b * x)). split.
    + apply Rmult_lt_0_compat; [lra|]. apply Rinv_0_lt_compat. lra.
    + apply Rmult_lt_reg_r with (1 + exp (- b * x)); [lra|]. replace (1 / (1 + exp (- b * x)) * (1 + exp (- b * x))) with 1 by (field; lra). lra.
  - destruct (Rle_lt_dec 0 x) as [P|P].
    + rewrite recip_pos by auto. pose proof (recip_bound (b * x) ltac:(nra)). lra.
    + rewrite recip_neg by lra. pose proof (recip_bound (b * - x) ltac:(nra)). lra.
  - cbn. pose proof (atan_bound (b * x)) as [L U]. pose proof PI_RGT_0 as P.
    assert (- (1 / 2) < / PI * atan (b * x) < 1 / 2); [|lra]. split; apply Rmult_lt_reg_l with PI; auto;
    replace (PI * (/ PI * atan (b * x))) with (atan (b * x)) by (field; lra); lra.
  - cbn. destruct (Rlt_dec (b * x) (- (1 / 4))) as [L|L].
    + pose proof (inv16 (- (b * x)) ltac:(lra)). rewrite (neg16 (b * x)) by lra. lra.
    + apply Rnot_lt_le in L. destruct (Rlt_dec (1 / 4) (b * x)) as [G|G]; [pose proof (inv16 (b * x) G); split; lra|]. apply Rnot_lt_le in G. split; lra.
Qed.
(** Equal operands: one half. *)
Theorem C80_half : forall s, soft_eval s 0 = 1 / 2.
Proof.
  intros [b|b|b|b]; cbn.
  - rewrite Rmult_0_r, exp_0. lra.
  - rewrite Rmult_0_r. unfold Rdiv. rewrite Rmult_0_l. lra.
  - rewrite Rmult_0_r, atan_0. lra.
  - rewrite Rmult_0_r. destruct (Rlt_dec 0 (- (1 / 4))); [lra|]. destruct (Rlt_dec (1 / 4) 0); lra.
Qed.
(** The greater difference has the greater value. *)
Theorem C80_monotone : forall s x y, 0 < scale s -> x < y -> soft_eval s x < soft_eval s y.
Proof.
  intros s x y B L. destruct s as [b|b|b|b]; cbn [scale] in B.
  - cbn. unfold Rdiv. rewrite !Rmult_1_l. pose proof (exp_pos (- b * x)). pose proof (exp_pos (- b * y)).
    apply Rinv_lt_contravar; [nra|]. apply Rplus_lt_compat_l, exp_increasing. nra.
  - destruct (Rle_lt_dec 0 x) as [P|P].
    + rewrite !recip_pos by lra. pose proof (recip_lt (b * x) (b * y) ltac:(nra)). lra.
    + rewrite recip_neg by lra. pose proof (recip_lt 0 (b * - x) ltac:(nra)). replace (0 / (1 + 2 * 0)) with 0 in H by lra.
      destruct (Rle_lt_dec 0 y) as [Q|Q].
      * rewrite recip_pos by auto. pose proof (recip_bound (b * y) ltac:(nra)). lra.
      * rewrite recip_neg by lra. pose proof (recip_lt (b * - y) (b * - x) ltac:(nra)). lra.
  - cbn. apply Rplus_lt_compat_r, Rmult_lt_compat_l; [apply Rinv_0_lt_compat, PI_RGT_0|]. apply atan_increasing. nra.
  - cbn. assert (b * x < b * y) by nra. revert H. generalize (b * x) (b * y). clear. intros x y L.
    destruct (Rlt_dec x (- (1 / 4))) as [X|X].
    + rewrite (neg16 x) by lra. pose proof (inv16 (- x) ltac:(lra)).
      destruct (Rlt_dec y (- (1 / 4))) as [Y|Y].
      * rewrite (neg16 y) by lra. apply inv16_lt. lra.
      * destruct (Rlt_dec (1 / 4) y) as [Z|Z]; [pose proof (inv16 y Z)|]; lra.
    + destruct (Rlt_dec y (- (1 / 4))) as [Y|Y]; [lra|]. destruct (Rlt_dec (1 / 4) x) as [Z|Z].
      * destruct (Rlt_dec (1 / 4) y); [|lra]. pose proof (inv16_lt x y ltac:(lra)). lra.
      * destruct (Rlt_dec (1 / 4) y) as [W|W]; [pose proof (inv16 y W)|]; lra.
Qed.
Theorem C80_symmetric : forall s x, 0 < scale s -> soft_eval s (- x) = 1 - soft_eval s x.
Proof.
  intros s x B. destruct s as [b|b|b|b]; cbn [scale] in B.
  - cbn. replace (- b * - x) with (b * x) by lra. replace (- b * x) with (- (b * x)) by lra. rewrite exp_Ropp.
    pose proof (exp_pos (b * x)). field. split; lra.
  - destruct (Rle_lt_dec 0 x) as [P|P].
    + rewrite recip_neg, recip_pos by lra. rewrite Ropp_involutive. lra.
    + rewrite recip_pos, recip_neg by lra. lra.
  - cbn. replace (b * - x) with (- (b * x)) by lra. rewrite atan_opp. lra.
  - cbn. replace (b * - x) with (- (b * x)) by lra. generalize (b * x). clear. intros x.
    destruct (Rlt_dec (- x) (- (1 / 4))), (Rlt_dec x (- (1 / 4))); try lra.
    + destruct (Rlt_dec (1 / 4) x); [|lra]. field. lra.
    + destruct (Rlt_dec (1 / 4) (- x)); [|lra]. field. lra.
    + destruct (Rlt_dec (1 / 4) x), (Rlt_dec (1 / 4) (- x)); lra.
Qed.

(** Of integers: greater than and less than are complementary, are above one half exactly
    if the comparison holds, and the probabilities are given exactly if the difference is a
    number of the type. *)
Theorem C80_gt_partial : forall s ty x y, 0 < scale s -> in_range ty (x - y) = true ->
  exists p, soft_gt s ty x y = Some p /\ 0 < p < 1 /\ (1 / 2 < p <-> (y < x)%Z) /\ (p = 1 / 2 <-> x = y).
Proof.
  intros s ty x y B R. unfold soft_gt, int_diff. rewrite R. cbn. eexists. split; eauto. split; [apply C80_probability; auto|].
  rewrite <- (C80_half s) at 1. rewrite <- (C80_half s).
  assert (M := fun a b => C80_monotone s a b B).
  destruct (Z_lt_le_dec y x) as [L|L].
  - assert (0 < IZR (x - y)) by (apply IZR_lt; lia). specialize (M _ _ H). split; split; intros; auto; try lra; try lia.
  - destruct (Z.eq_dec x y) as [->|N].
    + rewrite Z.sub_diag. split; split; intros; auto; try lra; try lia.
    + assert (IZR (x - y) < 0) by (apply IZR_lt; lia). specialize (M _ _ H). split; split; intros; try lra; try lia.
Qed.
Theorem C80_gt_lt : forall s ty x y p q, 0 < scale s -> soft_gt s ty x y = Some p -> soft_lt s ty x y = Some q -> p + q = 1.
Proof.
  intros s ty x y p q B P Q. unfold soft_gt, soft_lt, int_diff in *. destruct (in_range ty (x - y)); [|discriminate]. destruct (in_range ty (y - x)); [|discriminate].
  cbn in *. inversion P; inversion Q; subst. replace (y - x)%Z with (- (x - y))%Z by lia. rewrite opp_IZR, C80_symmetric by auto. lra.
Qed.
Theorem C80_float : forall s x y, 0 < scale s -> 0 < fsoft_gt s x y < 1 /\ fsoft_gt s x y + fsoft_lt s x y = 1 /\ (1 / 2 < fsoft_gt s x y <-> y < x).
Proof.
  intros s x y B. unfold fsoft_gt, fsoft_lt. split; [apply C80_probability; auto|]. split.
  - replace (y - x) with (- (x - y)) by lra. rewrite C80_symmetric by auto. lra.
  - rewrite <- (C80_half s). split; intros H.
    + destruct (Rlt_le_dec y x) as [|L]; auto. exfalso. destruct (Req_dec x y) as [->|N].
      * replace (y - y) with 0 in H by lra. lra.
      * pose proof (C80_monotone s (x - y) 0 B ltac:(lra)). lra.
    + apply C80_monotone; auto. lra.
Qed.
(** The difference of unsigned numbers overflows: 1 > 2 panics. *)
Theorem C80_unsigned_refuted : forall s, exists ty x y, in_range ty x = true /\ in_range ty y = true /\ soft_gt s ty x y = None.
Proof. intros s. exists TU8, 1%Z, 2%Z. repeat split. Qed.
Theorem C80_unsigned : forall s ty x y, signed ty = false -> in_range ty x = true -> in_range ty y = true ->
  (soft_gt s ty x y = None <-> (x < y)%Z).
Proof.
  intros s ty x y S X Y. unfold soft_gt, int_diff, in_range in *. rewrite S in *. apply andb_true_iff in X, Y. destruct X as [X1 X2], Y as [Y1 Y2].
  apply Z.leb_le in X1, Y1. apply Z.ltb_lt in X2, Y2. destruct (Z.leb_spec 0 (x - y)); cbn [andb on_some].
  - replace (Z.ltb (x - y) (2 ^ bits ty)) with true by (symmetry; apply Z.ltb_lt; lia). cbn. split; [discriminate|lia].
  - split; auto. lia.
Qed.

(** Soft equality: one for equal operands and less otherwise, symmetric; not equal is the
    complement. *)
Lemma deriv_le : forall e, 0 < e -> 0 < 2 * e / (e * e + 1) <= 1 /\ (2 * e / (e * e + 1) = 1 <-> e = 1).
Proof.
  intros e E. assert (0 < e * e + 1) by nra. split; [split|].
  - apply Rmult_lt_0_compat; [lra|]. apply Rinv_0_lt_compat. auto.
  - apply Rmult_le_reg_r with (e * e + 1); auto. replace (2 * e / (e * e + 1) * (e * e + 1)) with (2 * e) by (field; lra). pose proof (Rle_0_sqr (e - 1)) as Sq. unfold Rsqr in Sq. nra.
  - split.
    + intros Q. apply (f_equal (fun z => z * (e * e + 1))) in Q. replace (2 * e / (e * e + 1) * (e * e + 1)) with (2 * e) in Q by (field; lra). assert (Sq : Rsqr (e - 1) = 0) by (unfold Rsqr; lra). apply Rsqr_0_uniq in Sq. lra.
    + intros ->. lra.
Qed.
Theorem C80_eq : forall beta x y, 0 < beta -> exists p, fsoft_eq (Logistic beta) x y = Some p /\ 0 < p <= 1 /\ (p = 1 <-> x = y) /\ fsoft_eq (Logistic beta) y x = Some p.
Proof.
  intros b x y B. unfold fsoft_eq. cbn. set (v := 1 / 2 * b * (x - y)). pose proof (deriv_le (exp v) (exp_pos v)) as [P Q].
  eexists. split; eauto. split; auto. split.
  - rewrite Q. split; intros H.
    + rewrite <- exp_0 in H. apply exp_inv in H. subst v. assert (x - y = 0) by nra. lra.
    + subst v. rewrite H. replace (1 / 2 * b * (y - y)) with 0 by lra. apply exp_0.
  - replace (1 / 2 * b * (y - x)) with (- v) by (subst v; lra). rewrite exp_Ropp. pose proof (exp_pos v) as E. f_equal. assert (exp v * exp v + 1 <> 0) by (apply Rgt_not_eq; nra). assert (1 + exp v * exp v <> 0) by (apply Rgt_not_eq; nra). field. repeat split; auto; apply Rgt_not_eq; nra.
Qed.
Theorem C80_neq : forall s ty x y p, soft_eq s ty x y = Some p -> soft_neq s ty x y = Some (1 - p).
Proof. intros s ty x y p H. unfold soft_eq, soft_neq in *. destruct (int_diff ty x y); [|discriminate]. cbn in *. rewrite H. auto. Qed.

(** [eval_deriv] is said to be the derivative divided by its value at 0; it is not. *)
Lemma logistic_deriv : forall x, derivable_pt_lim (soft_eval (Logistic 1)) x (exp (- x) / ((1 + exp (- x)) * (1 + exp (- x)))).
Proof.
  intros x. pose proof (exp_pos (- x)) as P.
  assert (D : derivable_pt_lim (fun x => 1 + exp (- 1 * x)) x (0 + exp (- 1 * x) * (- 1 * 1))).
  { apply (derivable_pt_lim_plus (fct_cte 1) (fun x => exp (- 1 * x))).
    - apply derivable_pt_lim_const.
    - apply (derivable_pt_lim_comp (fun x => - 1 * x) exp); [|apply derivable_pt_lim_exp].
      apply (derivable_pt_lim_scal id (- 1)). apply derivable_pt_lim_id. }
  assert (N : 1 + exp (- 1 * x) <> 0) by (replace (- 1 * x) with (- x) by lra; lra).
  pose proof (derivable_pt_lim_div (fct_cte 1) (fun x => 1 + exp (- 1 * x)) x 0 _ (derivable_pt_lim_const 1 x) D N) as Q.
  replace (exp (- x) / ((1 + exp (- x)) * (1 + exp (- x)))) with ((0 * (1 + exp (- 1 * x)) - (0 + exp (- 1 * x) * (- 1 * 1)) * fct_cte 1 x) / Rsqr (1 + exp (- 1 * x))); [exact Q|].
  replace (- 1 * x) with (- x) by lra. unfold fct_cte, Rsqr. field. lra.
Qed.
Theorem C80_deriv_refuted : exists x d d0, derivable_pt_lim (soft_eval (Logistic 1)) x d /\ derivable_pt_lim (soft_eval (Logistic 1)) 0 d0 /\
  soft_deriv (Logistic 1) x <> Some (d / d0).
Proof.
  exists (2 * ln 2). do 2 eexists. split; [apply logistic_deriv|]. split; [apply logistic_deriv|].
  cbn. replace (1 / 2 * 1 * (2 * ln 2)) with (ln 2) by lra. rewrite exp_ln by lra.
  replace (- (2 * ln 2)) with (- ln 2 + - ln 2) by lra. rewrite exp_plus, exp_Ropp, exp_ln by lra. rewrite Ropp_0, exp_0.
  intros E. inversion E as [E']. field_simplify in E'. lra.
Qed.
Example C80_gt_ex : soft_gt (Reciprocal 1) TI8 3 2 = Some (1 / 3 + 1 / 2).
Proof.
  unfold soft_gt, int_diff. change (in_range TI8 (3 - 2)) with true. simpl. f_equal.
  rewrite Rabs_right by lra. field.
Qed.
Print Assumptions C80_probability.
Print Assumptions C80_half.
Print Assumptions C80_monotone.
Print Assumptions C80_symmetric.
Print Assumptions C80_gt_partial.
Print Assumptions C80_gt_lt.
Print Assumptions C80_float.
Print Assumptions C80_unsigned.
Print Assumptions C80_unsigned_refuted.
Print Assumptions C80_eq.
Print Assumptions C80_neq.
Print Assumptions C80_deriv_refuted.
