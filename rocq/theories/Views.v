(** Views of the lattice provenances (see View.v): tags themselves, ordered by
    "is at most as good as".  Specification side. *)
From Coq Require Import List ZArith QArith Qcanon Bool Lia.
From Verif Require Import Order Value Prov ProvInst View.
Import ListNotations.
Set Implicit Arguments.

(** ** Booleans *)
Definition bool_view : view bool_prov.
Proof.
  refine {| vS := bool; vle := fun a b => a = true -> b = true; vadd := orb; vzero := false;
            vmul := andb; vh := fun b : ptag bool_prov => b |}; simpl; repeat intros [|]; simpl; auto; try congruence.
Defined.
Lemma bool_view_sat : sat_sound bool_view.
Proof. intros [|] [|]; simpl; auto; discriminate. Qed.
Lemma bool_view_dom : unsat_dom bool_view.
Proof. intros [|] [|]; simpl; auto; discriminate. Qed.
Lemma bool_view_discard : discard_sound bool_view.
Proof. intros [|]; simpl; auto; discriminate. Qed.

(** ** Rational maximum and minimum *)
Lemma qc_ltb_lt : forall a b : Qc, qc_ltb a b = true <-> (a < b)%Qc.
Proof. intros. unfold qc_ltb. rewrite Qclt_alt. destruct (a ?= b)%Qc; split; congruence. Qed.
Lemma qc_ltb_ge : forall a b : Qc, qc_ltb a b = false <-> (b <= a)%Qc.
Proof.
  intros. rewrite <- not_true_iff_false, qc_ltb_lt. split; [apply Qcnot_lt_le|].
  intros L1 L2. exact (Qclt_not_le _ _ L2 L1).
Qed.
Lemma qc_leb_le : forall a b : Qc, qc_leb a b = true <-> (a <= b)%Qc.
Proof.
  intros. unfold qc_leb. rewrite Qcle_alt. destruct (a ?= b)%Qc; split; congruence.
Qed.
Lemma qc_eqb_eq : forall a b : Qc, qc_eqb a b = true <-> a = b.
Proof. intros. unfold qc_eqb. rewrite Qceq_alt. destruct (a ?= b)%Qc; split; congruence. Qed.

Lemma qc_max_spec : forall a b : Qc, (a < b)%Qc /\ qc_max a b = b \/ (b <= a)%Qc /\ qc_max a b = a.
Proof.
  intros. unfold qc_max. destruct (qc_ltb a b) eqn:E; [apply qc_ltb_lt in E|apply qc_ltb_ge in E]; auto.
Qed.
Lemma qc_min_spec : forall a b : Qc, (b < a)%Qc /\ qc_min a b = b \/ (a <= b)%Qc /\ qc_min a b = a.
Proof.
  intros. unfold qc_min. destruct (qc_ltb b a) eqn:E; [apply qc_ltb_lt in E|apply qc_ltb_ge in E]; auto.
Qed.
Lemma qc_max_l : forall a b, (a <= qc_max a b)%Qc.
Proof. intros. destruct (qc_max_spec a b) as [[L ->]|[L ->]]; [apply Qclt_le_weak; auto|apply Qcle_refl]. Qed.
Lemma qc_max_r : forall a b, (b <= qc_max a b)%Qc.
Proof. intros. destruct (qc_max_spec a b) as [[L ->]|[L ->]]; [apply Qcle_refl|auto]. Qed.
Lemma qc_max_lub : forall a b c, (a <= c)%Qc -> (b <= c)%Qc -> (qc_max a b <= c)%Qc.
Proof. intros. destruct (qc_max_spec a b) as [[L ->]|[L ->]]; auto. Qed.
Lemma qc_min_l : forall a b, (qc_min a b <= a)%Qc.
Proof. intros. destruct (qc_min_spec a b) as [[L ->]|[L ->]]; [apply Qclt_le_weak; auto|apply Qcle_refl]. Qed.
Lemma qc_min_r : forall a b, (qc_min a b <= b)%Qc.
Proof. intros. destruct (qc_min_spec a b) as [[L ->]|[L ->]]; [apply Qcle_refl|auto]. Qed.
Lemma qc_min_glb : forall a b c, (c <= a)%Qc -> (c <= b)%Qc -> (c <= qc_min a b)%Qc.
Proof. intros. destruct (qc_min_spec a b) as [[L ->]|[L ->]]; auto. Qed.

Definition clamp (a : Qc) : Qc := qc_max 0 a.
Definition mm_le (a b : Qc) : Prop := (clamp a <= clamp b)%Qc.
Lemma clamp_mono : forall a b, (a <= b)%Qc -> mm_le a b.
Proof.
  intros a b L. unfold mm_le, clamp. apply qc_max_lub; [apply qc_max_l|].
  eapply Qcle_trans; [exact L|apply qc_max_r].
Qed.
Lemma mm_le_iff : forall a b, mm_le a b <-> (a <= b)%Qc \/ (a <= 0)%Qc.
Proof.
  intros a b. unfold mm_le, clamp. split.
  - intros L. destruct (Qclt_le_dec 0 a) as [H|H]; auto. left.
    destruct (qc_max_spec 0 a) as [[_ E]|[X _]]; [rewrite E in L|exfalso; exact (Qclt_not_le _ _ H X)].
    destruct (qc_max_spec 0 b) as [[_ E']|[X E']]; rewrite E' in L; auto.
    exfalso. exact (Qclt_not_le _ _ H L).
  - intros [L|L]; [apply clamp_mono; auto|]. apply qc_max_lub; [apply qc_max_l|].
    eapply Qcle_trans; [exact L|apply qc_max_l].
Qed.

(** Negative tags count as zero. *)
Definition minmax_view : view minmax_prov.
Proof.
  refine {| vS := Qc; vle := mm_le; vadd := qc_max; vzero := 0%Qc; vmul := qc_min;
            vh := fun q : ptag minmax_prov => q |}; simpl.
  - intros. apply Qcle_refl.
  - unfold mm_le. intros. eapply Qcle_trans; eauto.
  - intros. apply clamp_mono, qc_max_l.
  - intros. apply clamp_mono, qc_max_r.
  - intros a b c A B. apply mm_le_iff. apply mm_le_iff in A, B.
    destruct (qc_max_spec a b) as [[L ->]|[L ->]]; auto.
  - intros. apply mm_le_iff. right. apply Qcle_refl.
  - intros a a' b b' A B. apply mm_le_iff. apply mm_le_iff in A, B.
    destruct A as [A|A]; [|right; eapply Qcle_trans; [apply qc_min_l|auto]].
    destruct B as [B|B]; [|right; eapply Qcle_trans; [apply qc_min_r|auto]].
    left. apply qc_min_glb; [eapply Qcle_trans; [apply qc_min_l|auto]|eapply Qcle_trans; [apply qc_min_r|auto]].
  - intros a b c. apply clamp_mono. destruct (qc_max_spec a b) as [[L ->]|[L ->]]; [apply qc_max_r|apply qc_max_l].
  - intros a b c. apply clamp_mono. destruct (qc_max_spec b c) as [[L ->]|[L ->]]; [apply qc_max_r|apply qc_max_l].
  - intros. apply clamp_mono, qc_min_l.
  - intros. apply clamp_mono, qc_min_r.
  - intros. apply Qcle_refl.
  - intros. apply Qcle_refl.
  - intros. apply Qcle_refl.
  - intros. apply Qcle_refl.
Defined.
Lemma minmax_view_sat : sat_sound minmax_view.
Proof.
  intros o t S. simpl in *. apply qc_eqb_eq in S. apply clamp_mono. rewrite S. apply qc_max_r.
Qed.
Lemma minmax_view_dom : unsat_dom minmax_view.
Proof.
  intros o t S. simpl in *. apply clamp_mono. destruct (qc_max_spec o t) as [[L E]|[L E]].
  - apply Qclt_le_weak; auto.
  - rewrite E in S. rewrite <- not_true_iff_false, qc_eqb_eq in S. tauto.
Qed.
Lemma minmax_view_discard : discard_sound minmax_view.
Proof. intros t D. simpl in *. apply qc_leb_le in D. apply clamp_mono. auto. Qed.

(** ** Shortest paths: less is better *)
Definition tr_le (a b : option nat) : Prop :=
  match a, b with None, _ => True | Some _, None => False | Some n, Some m => (m <= n)%nat end.
Lemma trop_add_spec : forall a b : option nat, trop_add a b =
  match a, b with Some n, Some m => Some (Nat.min n m) | Some n, None => Some n | None, _ => b end.
Proof.
  intros [n|] [m|]; unfold trop_add; simpl; auto. destruct (Nat.compare n m) eqn:E.
  - apply Nat.compare_eq in E. subst. rewrite Nat.min_id. auto.
  - apply Nat.compare_lt_iff in E. rewrite Nat.min_l by lia. auto.
  - apply Nat.compare_gt_iff in E. rewrite Nat.min_r by lia. auto.
Qed.
Definition trop_view : view trop_prov.
Proof.
  refine {| vS := option nat; vle := tr_le; vadd := trop_add; vzero := None; vmul := trop_mult;
            vh := fun t : ptag trop_prov => t |}; simpl;
    repeat intros [?|]; rewrite ?trop_add_spec; simpl; try lia; auto;
    rewrite ?trop_add_spec; simpl; lia.
Defined.
Lemma trop_view_sat : sat_sound trop_view.
Proof.
  intros [o|] [t|]; cbn [psat padd trop_prov ptag]; rewrite trop_add_spec; simpl; intros E; auto; try discriminate.
  apply Nat.eqb_eq in E. lia.
Qed.
Lemma trop_view_dom : unsat_dom trop_view.
Proof.
  intros [o|] [t|]; cbn [psat padd trop_prov ptag]; rewrite trop_add_spec; simpl; intros E; auto; try discriminate.
  - apply Nat.eqb_neq in E. lia.
  - rewrite Nat.eqb_refl in E. discriminate.
Qed.
Lemma trop_view_discard : discard_sound trop_view.
Proof. intros [t|]; simpl; auto; discriminate. Qed.
