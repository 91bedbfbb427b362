(** C16: the algebra of the concrete provenances. *)
From Coq Require Import List Arith Bool ZArith QArith Qcanon Lia.
From Coq Require Import Sorting.Sorted.
From Verif Require Import Order OSet Prov ProvInst Views Formula PropsFormula.
Import ListNotations.
Open Scope nat_scope.
Set Implicit Arguments.

(** A commutative semiring on the tags satisfying [wf]. *)
Record csemiring (A : Type) (wf : A -> Prop) (z o : A) (add mul : A -> A -> A) : Prop := {
  sr_wf0 : wf z;
  sr_wf1 : wf o;
  sr_wfa : forall a b, wf a -> wf b -> wf (add a b);
  sr_wfm : forall a b, wf a -> wf b -> wf (mul a b);
  sr_addA : forall a b c, wf a -> wf b -> wf c -> add a (add b c) = add (add a b) c;
  sr_addC : forall a b, wf a -> wf b -> add a b = add b a;
  sr_add0 : forall a, wf a -> add z a = a;
  sr_mulA : forall a b c, wf a -> wf b -> wf c -> mul a (mul b c) = mul (mul a b) c;
  sr_mulC : forall a b, wf a -> wf b -> mul a b = mul b a;
  sr_mul1 : forall a, wf a -> mul o a = a;
  sr_mul0 : forall a, wf a -> mul z a = z;
  sr_dist : forall a b c, wf a -> wf b -> wf c -> mul a (add b c) = add (mul a b) (mul a c)
}.

(** What the evaluator uses of a provenance: a commutative semiring in which
    exactly the zero tag is discarded. *)
Record prov_ok (P : Prov) (wf : ptag P -> Prop) : Prop := {
  po_sr : csemiring wf (pzero P) (pone P) (padd P) (pmult P);
  po_discard : forall t, wf t -> (pdiscard P t = true <-> t = pzero P)
}.
(** [saturated] is an equality test. *)
Definition sat_exact (P : Prov) (wf : ptag P -> Prop) : Prop :=
  forall a b, wf a -> wf b -> (psat P a b = true <-> a = b).
Definition add_idem (P : Prov) (wf : ptag P -> Prop) : Prop :=
  forall a, wf a -> padd P a a = a.
Definition any (A : Type) : A -> Prop := fun _ => True.

Theorem C16_bool : prov_ok bool_prov (@any bool) /\ sat_exact bool_prov (@any bool) /\ add_idem bool_prov (@any bool) /\
  (forall a b : bool, pminus bool_prov a b = Some (a && negb b)).
Proof.
  split; [split; [split|]|split; [|split]]; unfold add_idem, sat_exact; cbn [ptag pzero pone padd pmult psat pdiscard pminus bool_prov];
    try (exact I); try (intros; exact I);
    try solve [intros; repeat match goal with b : bool |- _ => destruct b end; simpl; intuition congruence].
Qed.

(** The unit provenance has a single tag: it is a semiring with 0 = 1, and it
    never discards anything. *)
Theorem C16_unit : csemiring (@any unit) (pzero unit_prov) (pone unit_prov) (padd unit_prov) (pmult unit_prov) /\
  sat_exact unit_prov (@any unit) /\ (forall t, pdiscard unit_prov t = false).
Proof.
  split; [split; simpl; try (exact I); try (intros; exact I); repeat (intros []); auto|].
  split; [|auto]. intros [] [] _ _. simpl. tauto.
Qed.

Theorem C16_nat : prov_ok nat_prov (@any nat) /\
  (forall a, pneg nat_prov a = None).
Proof.
  split; [|auto]. split; [split; simpl; try (exact I); try (intros; exact I); intros; lia|].
  intros t _. apply Nat.eqb_eq.
Qed.
(** It is not idempotent, and its [saturated] is not an equality test. *)
Theorem C16_nat_refuted : ~ add_idem nat_prov (@any nat) /\ ~ sat_exact nat_prov (@any nat).
Proof.
  split.
  - intros H. specialize (H 1 I). discriminate.
  - intros H. destruct (H 0 1 I I) as [G _]. discriminate (G eq_refl).
Qed.

Lemma trop_add_some : forall n m, trop_add (Some n) (Some m) = Some (Nat.min n m).
Proof.
  intros. unfold trop_add. simpl. destruct (n ?= m) eqn:E.
  - apply Nat.compare_eq in E. subst. rewrite Nat.min_id; auto.
  - apply Nat.compare_lt_iff in E. f_equal. lia.
  - apply Nat.compare_gt_iff in E. f_equal. lia.
Qed.
Lemma trop_add_none_l : forall a, trop_add None a = a.
Proof. intros [n|]; auto. Qed.
Lemma trop_add_none_r : forall a, trop_add a None = a.
Proof. intros [n|]; auto. Qed.

Ltac trop := cbn [trop_mult]; repeat (rewrite trop_add_none_l || rewrite trop_add_none_r || rewrite trop_add_some; cbn [trop_mult]);
  first [reflexivity | f_equal; lia].
Theorem C16_tropical : prov_ok trop_prov (@any (option nat)) /\ sat_exact trop_prov (@any (option nat)) /\
  add_idem trop_prov (@any (option nat)).
Proof.
  split; [split; [split|]|split]; cbn [ptag pzero pone padd pmult psat pdiscard trop_prov]; try (exact I); try (intros; exact I).
  - intros [n|] [m|] [k|] _ _ _; trop.
  - intros [n|] [m|] _ _; trop.
  - intros a _. apply trop_add_none_l.
  - intros [n|] [m|] [k|] _ _ _; simpl; auto. f_equal; lia.
  - intros [n|] [m|] _ _; simpl; auto. f_equal; lia.
  - intros [n|] _; simpl; auto.
  - intros [n|] _; simpl; auto.
  - intros [n|] [m|] [k|] _ _ _; trop.
  - intros [n|] _; simpl; split; auto; discriminate.
  - intros [n|] [m|] _ _; cbn; rewrite ?Nat.eqb_eq; intuition congruence.
  - intros [n|] _; cbn [padd trop_prov]; rewrite ?trop_add_some, ?Nat.min_id; auto.
Qed.

(** ** rationals *)
Lemma qle_total : forall a b : Qc, (a <= b \/ b <= a)%Qc.
Proof. intros. destruct (Qclt_le_dec a b); auto. left. apply Qclt_le_weak; auto. Qed.
Lemma qmax_r : forall a b, (a <= b)%Qc -> qc_max a b = b.
Proof. intros. destruct (qc_max_spec a b) as [[_ E]|[L E]]; rewrite E; auto. apply Qcle_antisym; auto. Qed.
Lemma qmax_l : forall a b, (b <= a)%Qc -> qc_max a b = a.
Proof.
  intros a b H. destruct (qc_max_spec a b) as [[L E]|[L E]]; rewrite E; auto.
  apply Qcle_antisym; auto. apply Qclt_le_weak; auto.
Qed.
Lemma qmin_r : forall a b, (b <= a)%Qc -> qc_min a b = b.
Proof. intros. destruct (qc_min_spec a b) as [[_ E]|[L E]]; rewrite E; auto. apply Qcle_antisym; auto. Qed.
Lemma qmin_l : forall a b, (a <= b)%Qc -> qc_min a b = a.
Proof.
  intros a b H. destruct (qc_min_spec a b) as [[L E]|[L E]]; rewrite E; auto.
  apply Qcle_antisym; auto. apply Qclt_le_weak; auto.
Qed.
Lemma qmax_C : forall a b, qc_max a b = qc_max b a.
Proof. intros. destruct (qle_total a b); [rewrite qmax_r, qmax_l|rewrite qmax_l, qmax_r]; auto. Qed.
Lemma qmin_C : forall a b, qc_min a b = qc_min b a.
Proof. intros. destruct (qle_total a b); [rewrite qmin_l, qmin_r|rewrite qmin_r, qmin_l]; auto. Qed.
Local Hint Resolve qc_max_l qc_max_r qc_max_lub qc_min_l qc_min_r qc_min_glb Qcle_refl Qcle_antisym : qc.
Lemma qmax_A : forall a b c, qc_max a (qc_max b c) = qc_max (qc_max a b) c.
Proof.
  intros. apply Qcle_antisym.
  - apply qc_max_lub; [|apply qc_max_lub]; [eapply Qcle_trans; [|apply qc_max_l]|eapply Qcle_trans; [|apply qc_max_l]|]; auto with qc.
  - apply qc_max_lub; [apply qc_max_lub|]; [|eapply Qcle_trans; [|apply qc_max_r]|eapply Qcle_trans; [|apply qc_max_r]]; auto with qc.
Qed.
Lemma qmin_A : forall a b c, qc_min a (qc_min b c) = qc_min (qc_min a b) c.
Proof.
  intros. apply Qcle_antisym.
  - apply qc_min_glb; [apply qc_min_glb|]; [|eapply Qcle_trans; [apply qc_min_r|]|eapply Qcle_trans; [apply qc_min_r|]]; auto with qc.
  - apply qc_min_glb; [|apply qc_min_glb]; [eapply Qcle_trans; [apply qc_min_l|]|eapply Qcle_trans; [apply qc_min_l|]|]; auto with qc.
Qed.
Lemma qmin_mono : forall a b c, (b <= c)%Qc -> (qc_min a b <= qc_min a c)%Qc.
Proof. intros. apply qc_min_glb; auto with qc. eapply Qcle_trans; [apply qc_min_r|auto]. Qed.
Lemma qminmax_dist : forall a b c, qc_min a (qc_max b c) = qc_max (qc_min a b) (qc_min a c).
Proof.
  intros. destruct (qle_total b c) as [H|H].
  - rewrite (qmax_r H), qmax_r; auto. apply qmin_mono; auto.
  - rewrite (qmax_l H), qmax_l; auto. apply qmin_mono; auto.
Qed.

Definition prob01 (p : Qc) : Prop := (0 <= p)%Qc /\ (p <= 1)%Qc.

Theorem C16_minmax : prov_ok minmax_prov prob01 /\ sat_exact minmax_prov prob01 /\ add_idem minmax_prov prob01 /\
  (forall p, prob01 p -> exists q, pneg minmax_prov p = Some q /\ prob01 q /\ pneg minmax_prov q = Some p) /\
  (* De Morgan *)
  (forall a b : Qc, pneg minmax_prov (padd minmax_prov a b) =
     match pneg minmax_prov a, pneg minmax_prov b with
     | Some x, Some y => Some (pmult minmax_prov x y) | _, _ => None end).
Proof.
  split; [split; [split|]|split; [|split; [|split]]]; cbn [ptag pzero pone padd pmult psat pdiscard pneg minmax_prov].
  - split; discriminate.
  - split; discriminate.
  - intros a b [A1 A2] [B1 B2]. split; [eapply Qcle_trans; [exact A1|apply qc_max_l]|apply qc_max_lub; auto].
  - intros a b [A1 A2] [B1 B2]. split; [apply qc_min_glb; auto|eapply Qcle_trans; [apply qc_min_l|auto]].
  - intros. apply qmax_A.
  - intros. apply qmax_C.
  - intros a [A _]. apply qmax_r; auto.
  - intros. apply qmin_A.
  - intros. apply qmin_C.
  - intros a [_ A]. apply qmin_r; auto.
  - intros a [A _]. apply qmin_l; auto.
  - intros. apply qminmax_dist.
  - intros t [T _]. rewrite qc_leb_le. split; [intros; apply Qcle_antisym; auto|intros ->; apply Qcle_refl].
  - intros a b _ _. apply qc_eqb_eq.
  - intros a _. cbn. apply qmax_l, Qcle_refl.
  - intros p [A B]. exists (1 - p)%Qc. split; [auto|]. split; [split|].
    + apply Qcle_minus_iff in B. exact B.
    + apply Qcle_minus_iff. replace (1 + - (1 - p))%Qc with p by ring. auto.
    + unfold minmax_neg. f_equal. ring.
  - intros a b. unfold minmax_neg. f_equal.
    assert (M : forall x y : Qc, (x <= y)%Qc -> (1 - y <= 1 - x)%Qc).
    { intros x y H. apply Qcle_minus_iff. apply Qcle_minus_iff in H.
      replace (1 - x + - (1 - y))%Qc with (y + - x)%Qc by ring. auto. }
    destruct (qle_total a b) as [H|H].
    + rewrite (qmax_r H), qmin_r; auto.
    + rewrite (qmax_l H), qmin_l; auto.
Qed.

(** Clamped addition: associative and commutative on [0,1], but multiplication
    does not distribute over it. *)
Theorem C16_addmult_refuted : exists a b c, prob01 a /\ prob01 b /\ prob01 c /\
  pmult addmult_prov a (padd addmult_prov b c) <>
  padd addmult_prov (pmult addmult_prov a b) (pmult addmult_prov a c).
Proof.
  exists (Q2Qc (1#2)), (Q2Qc (3#4)), (Q2Qc (3#4)).
  repeat split; try discriminate.
Qed.
Theorem C16_addmult_partial :
  (forall a b c, prob01 a -> prob01 b -> prob01 c ->
    padd addmult_prov a (padd addmult_prov b c) = padd addmult_prov (padd addmult_prov a b) c) /\
  (forall a b, padd addmult_prov a b = padd addmult_prov b a) /\
  (forall a, prob01 a -> padd addmult_prov (pzero addmult_prov) a = a) /\
  (forall a b, prob01 a -> prob01 b -> prob01 (padd addmult_prov a b) /\ prob01 (pmult addmult_prov a b)) /\
  (forall a b c, prob01 a -> prob01 b -> prob01 c -> (b + c <= 1)%Qc ->
    pmult addmult_prov a (padd addmult_prov b c) =
    padd addmult_prov (pmult addmult_prov a b) (pmult addmult_prov a c)).
Proof.
  assert (NN : forall a b, (0 <= a)%Qc -> (0 <= b)%Qc -> (0 <= a + b)%Qc).
  { intros a b A B. replace 0%Qc with (0 + 0)%Qc by ring. apply Qcplus_le_compat; auto. }
  assert (UP : forall a b, (0 <= a)%Qc -> (b <= a + b)%Qc).
  { intros a b A. replace b with (0 + b)%Qc at 1 by ring. apply Qcplus_le_compat; auto with qc. }
  assert (K : forall a b c, (0 <= a)%Qc -> (0 <= b)%Qc -> (0 <= c)%Qc ->
             qc_min (a + qc_min (b + c) 1) 1 = qc_min (a + b + c) 1).
  { intros a b c A B C. destruct (qle_total (b + c) 1) as [H|H].
    - rewrite (qmin_l H). f_equal. ring.
    - rewrite (qmin_r H). rewrite !qmin_r; auto. replace (a + b + c)%Qc with (a + (b + c))%Qc by ring.
      eapply Qcle_trans; [exact H|]. apply UP; auto. }
  cbn [padd pmult pzero addmult_prov].
  split; [|split; [|split; [|split]]].
  - intros a b c [A _] [B _] [C _]. rewrite K; auto.
    rewrite (Qcplus_comm (qc_min _ _) c), K; auto. f_equal. ring.
  - intros. rewrite Qcplus_comm. auto.
  - intros a [_ A]. rewrite Qcplus_0_l. apply qmin_l; auto.
  - intros a b [A A'] [B B']. split; split.
    + apply qc_min_glb; auto. discriminate.
    + apply qc_min_r.
    + replace 0%Qc with (0 * b)%Qc by ring. apply Qcmult_le_compat_r; auto.
    + eapply Qcle_trans; [apply Qcmult_le_compat_r; eauto|]. rewrite Qcmult_1_l; auto.
  - intros a b c [A A'] [B B'] [C C'] H. rewrite (qmin_l H), Qcmult_plus_distr_r, qmin_l; auto.
    rewrite <- Qcmult_plus_distr_r. eapply Qcle_trans; [apply Qcmult_le_compat_r; [exact A'|auto]|].
    rewrite Qcmult_1_l; auto.
Qed.

(** Real tropical: a semiring; [saturated] only up to 1/1000. *)
Theorem C16_real_tropical : prov_ok rtrop_prov (@any (option Qc)) /\ add_idem rtrop_prov (@any (option Qc)).
Proof.
  split; [split; [split|]|]; cbn [ptag pzero pone padd pmult psat pdiscard rtrop_prov]; try (exact I); try (intros; exact I).
  - intros [n|] [m|] [k|] _ _ _; simpl; auto. f_equal. apply qmin_A.
  - intros [n|] [m|] _ _; simpl; auto. f_equal. apply qmin_C.
  - intros a _. destruct a; auto.
  - intros [n|] [m|] [k|] _ _ _; simpl; auto. f_equal; ring.
  - intros [n|] [m|] _ _; simpl; auto. f_equal; ring.
  - intros [n|] _; simpl; auto. f_equal; ring.
  - intros [n|] _; simpl; auto.
  - intros [n|] [m|] [k|] _ _ _; simpl; auto. f_equal.
    destruct (qle_total m k) as [H|H].
    + rewrite (qmin_l H), qmin_l; auto. apply Qcplus_le_compat; auto with qc.
    + rewrite (qmin_r H), qmin_r; auto. apply Qcplus_le_compat; auto with qc.
  - intros [n|] _; simpl; split; auto; discriminate.
  - intros [n|] _; cbn; auto. f_equal. apply qmin_l, Qcle_refl.
Qed.
Theorem C16_real_tropical_saturation_refuted : ~ sat_exact rtrop_prov (@any (option Qc)).
Proof.
  intros H. destruct (H None None I I) as [_ G]. discriminate (G eq_refl).
Qed.

(** ** proof sets *)
Lemma proof_TOrder : TOrder proof_cmp.
Proof. apply lex_TOrder, nat_cmp_TOrder. Qed.

Section Proofs.
  Variable conflict : proof -> bool.
  (** sets of facts, no conflicts reported *)
  Definition proof_wf (p : proof) : Prop := nsorted p /\ conflict p = false.
  Definition proofs_wf (t : list proof) : Prop := osorted proof_cmp t /\ forall p, In p t -> proof_wf p.
  Hypothesis C0 : conflict [] = false.
  Hypothesis Cmono : forall p q, nsorted p -> nsorted q -> (forall x, In x p -> In x q) ->
    conflict q = false -> conflict p = false.

  Lemma merge_In : forall p q x, In x (proof_merge p q) <-> In x p \/ In x q.
  Proof. intros. unfold proof_merge. rewrite (oof_In nat_cmp_TOrder). apply in_app_iff. Qed.
  Lemma merge_sorted : forall p q, nsorted (proof_merge p q).
  Proof. intros. apply oof_sorted, nat_cmp_TOrder. Qed.
  Lemma nset_ext : forall p q, nsorted p -> nsorted q -> (forall x, In x p <-> In x q) -> p = q.
  Proof. intros. apply (osorted_ext nat_cmp_TOrder); auto. Qed.
  Lemma merge_A : forall p q r, proof_merge p (proof_merge q r) = proof_merge (proof_merge p q) r.
  Proof. intros. apply nset_ext; try apply merge_sorted. intros. rewrite !merge_In. tauto. Qed.
  Lemma merge_C : forall p q, proof_merge p q = proof_merge q p.
  Proof. intros. apply nset_ext; try apply merge_sorted. intros. rewrite !merge_In. tauto. Qed.
  Lemma merge_0 : forall p, nsorted p -> proof_merge [] p = p.
  Proof. intros. apply nset_ext; auto; try apply merge_sorted. intros. rewrite merge_In. simpl. tauto. Qed.

  Lemma add_In : forall a b p, In p (proofs_add a b) <-> In p a \/ In p b.
  Proof. intros. unfold proofs_add. rewrite (oof_In proof_TOrder). apply in_app_iff. Qed.
  Lemma mult_In : forall a b p, In p (proofs_mult conflict a b) <->
    conflict p = false /\ exists q r, In q a /\ In r b /\ p = proof_merge q r.
  Proof.
    intros. unfold proofs_mult. rewrite filter_In, (oof_In proof_TOrder), in_flat_map, negb_true_iff.
    split.
    - intros [(q & Q & R) C]. apply in_map_iff in R as (r & E & R). split; auto. exists q, r. auto.
    - intros (C & q & r & Q & R & E). split; auto. exists q. split; auto. apply in_map_iff. exists r; auto.
  Qed.
  Lemma add_sorted : forall a b, osorted proof_cmp (proofs_add a b).
  Proof. intros. apply oof_sorted, proof_TOrder. Qed.
  Lemma mult_sorted : forall a b, osorted proof_cmp (proofs_mult conflict a b).
  Proof. intros. apply osorted_filter, oof_sorted, proof_TOrder. Qed.
  Lemma pset_ext : forall a b, osorted proof_cmp a -> osorted proof_cmp b -> (forall x, In x a <-> In x b) -> a = b.
  Proof. intros. apply (osorted_ext proof_TOrder); auto. Qed.
  Lemma merge_conf_l : forall p q, nsorted p -> conflict (proof_merge p q) = false -> conflict p = false.
  Proof.
    intros p q S. apply Cmono; auto; [apply merge_sorted|]. intros. apply merge_In; auto.
  Qed.
  Lemma merge_conf_r : forall p q, nsorted q -> conflict (proof_merge p q) = false -> conflict q = false.
  Proof.
    intros p q S. apply Cmono; auto; [apply merge_sorted|]. intros. apply merge_In; auto.
  Qed.

  Theorem C16_proofs : prov_ok (proofs_prov conflict) proofs_wf /\ sat_exact (proofs_prov conflict) proofs_wf /\
    add_idem (proofs_prov conflict) proofs_wf.
  Proof.
    split; [split; [split|]|split]; cbn [ptag pzero pone padd pmult psat pdiscard proofs_prov].
    - split; [constructor|intros ? []].
    - split; [repeat constructor|]. intros p [<-|[]]. split; [constructor|auto].
    - intros a b [A A'] [B B']. split; [apply add_sorted|]. intros p. rewrite add_In. intros [H|H]; auto.
    - intros a b [A A'] [B B']. split; [apply mult_sorted|]. intros p. rewrite mult_In.
      intros (C & q & r & _ & _ & ->). split; auto. apply merge_sorted.
    - intros. apply pset_ext; try apply add_sorted. intros. rewrite !add_In. tauto.
    - intros. apply pset_ext; try apply add_sorted. intros. rewrite !add_In. tauto.
    - intros a [A _]. apply pset_ext; auto; try apply add_sorted. intros. rewrite add_In. simpl. tauto.
    - intros a b c [A A'] [B B'] [D D']. apply pset_ext; try apply mult_sorted. intros p. rewrite !mult_In. split.
      + intros (C & q & r & Q & R & ->). apply mult_In in R as (Cr & r1 & r2 & R1 & R2 & ->).
        split; auto. rewrite merge_A in C |- *. exists (proof_merge q r1), r2. split; [|split; auto].
        apply mult_In. split; eauto. eapply merge_conf_l; [apply merge_sorted|exact C].
      + intros (C & q & r & Q & R & ->). apply mult_In in Q as (Cq & q1 & q2 & Q1 & Q2 & ->).
        split; auto. rewrite <- merge_A in C |- *. exists q1, (proof_merge q2 r). split; auto. split; auto.
        apply mult_In. split; eauto. eapply merge_conf_r; [apply merge_sorted|exact C].
    - intros. apply pset_ext; try apply mult_sorted. intros p. rewrite !mult_In.
      split; intros (C & q & r & Q & R & ->); (split; auto); exists r, q; rewrite merge_C; auto.
    - intros a [A A']. apply pset_ext; auto; try apply mult_sorted. intros p. rewrite mult_In. split.
      + intros (C & q & r & [<-|[]] & R & ->). rewrite (merge_0 (proj1 (A' r R))). auto.
      + intros H. destruct (A' p H). split; auto. exists [], p. simpl. rewrite merge_0; auto.
    - intros a [A A']. apply pset_ext; auto; try apply mult_sorted; [constructor|]. intros p. rewrite mult_In.
      simpl. split; [intros (_ & q & r & [] & _)|intros []].
    - intros a b c [A A'] [B B'] [D D']. apply pset_ext; try apply mult_sorted; [apply add_sorted|].
      intros p. rewrite add_In, !mult_In. split.
      + intros (C & q & r & Q & R & ->). apply add_In in R as [R|R]; [left|right]; split; auto; exists q, r; auto.
      + intros [(C & q & r & Q & R & ->)|(C & q & r & Q & R & ->)]; split; auto; exists q, r; rewrite add_In; auto.
    - intros [|p t] _; split; auto; discriminate.
    - intros a b _ _. cbn [psat proofs_prov]. unfold proofs_eqb. pose proof (lex_TOrder proof_TOrder) as O. split.
      + intros E. match type of E with (match ?x with _ => _ end) = true => destruct x eqn:X end; try discriminate E. exact (proj1 (to_eq O a b) X).
      + intros ->. pose proof (proj2 (to_eq O b b) eq_refl) as X. change (match lex proof_cmp b b with Eq => true | _ => false end = true). rewrite X. auto.
    - intros a [A _]. cbn. apply pset_ext; auto; [apply add_sorted|]. intros. rewrite add_In. tauto.
  Qed.
End Proofs.

(** The actual exclusion check satisfies the two requirements, so the law holds
    in every context reachable by declarations. *)
Theorem C16_proofs_context : forall h, let P := proofs_prov (has_conflict (declare h)) in
  prov_ok P (proofs_wf (has_conflict (declare h))) /\ sat_exact P (proofs_wf (has_conflict (declare h))) /\
  add_idem P (proofs_wf (has_conflict (declare h))).
Proof.
  intros h. apply C16_proofs; auto.
  intros p q Sp Sq I C. destruct (has_conflict (declare h) p) eqn:E; auto.
  apply C20_exclusion in E; auto. destruct E as (g & a & b & N & A & B & X & Y).
  rewrite <- C. symmetry. apply C20_exclusion; auto. exists g, a, b. auto 10.
Qed.

(** Fresh tags are well formed. *)
Theorem C16_proofs_input : forall h f, proofs_wf (has_conflict (declare h)) [[f]].
Proof.
  intros. split; [repeat constructor|]. intros p [<-|[]]. split; [repeat constructor|auto].
Qed.

(** Well-formedness is needed: a tag made before its facts were declared
    exclusive is not preserved by multiplication with one. *)
Theorem C16_proofs_late_exclusion_refuted : exists h t, proofs_wf (has_conflict (declare [])) t /\
  pmult (proofs_prov (has_conflict (declare h))) (pone (proofs_prov (has_conflict (declare h)))) t <> t.
Proof.
  exists [(0, 1); (0, 2)], [[1; 2]]. split.
  - split; [repeat constructor|]. intros p [<-|[]]. split; [|auto].
    constructor; [repeat constructor|repeat constructor].
  - discriminate.
Qed.

Example C16_example :
  let P := proofs_prov (has_conflict (declare [(0, 1); (0, 2)])) in
  proofs_wf (has_conflict (declare [(0, 1); (0, 2)])) [[1]; [3]] /\
  pmult P [[1]; [3]] [[2]; [3]] = [[1; 3]; [2; 3]; [3]] /\
  padd P [[1]; [3]] [[2]; [3]] = [[1]; [2]; [3]] /\
  prob01 (Q2Qc (1#3)) /\ padd minmax_prov (Q2Qc (1#3)) (Q2Qc (1#2)) = Q2Qc (1#2).
Proof.
  split; [split; [repeat constructor|]|].
  { intros p [<-|[<-|[]]]; (split; [repeat constructor|auto]). }
  repeat split; vm_compute; auto; discriminate.
Qed.
Print Assumptions C16_bool.
Print Assumptions C16_unit.
Print Assumptions C16_nat.
Print Assumptions C16_tropical.
Print Assumptions C16_minmax.
Print Assumptions C16_addmult_refuted.
Print Assumptions C16_addmult_partial.
Print Assumptions C16_real_tropical.
Print Assumptions C16_proofs.
Print Assumptions C16_proofs_context.
