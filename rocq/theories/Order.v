(** Comparison functions that are total orders, and their lexicographic
    extension to lists.  Pure mathematics, used by the models of Rust's
    derived [Ord] instances. *)
From Coq Require Import List ZArith Lia.
Import ListNotations.
Set Implicit Arguments.

(** A [comparison]-valued function is a total order whose [Eq] is equality. *)
Record TOrder (A : Type) (cmp : A -> A -> comparison) : Prop := {
  to_eq : forall a b, cmp a b = Eq <-> a = b;
  to_opp : forall a b, cmp b a = CompOpp (cmp a b);
  to_trans : forall a b c, cmp a b = Lt -> cmp b c = Lt -> cmp a c = Lt
}.

Section Facts.
  Context {A : Type} {cmp : A -> A -> comparison} (O : TOrder cmp).

  Lemma to_refl : forall a, cmp a a = Eq.
  Proof. intros; apply (to_eq O); reflexivity. Qed.

  Lemma to_gt_lt : forall a b, cmp a b = Gt <-> cmp b a = Lt.
  Proof.
    intros; rewrite (to_opp O a b); destruct (cmp a b); simpl; split; congruence.
  Qed.

  Lemma to_lt_irrefl : forall a, cmp a a <> Lt.
  Proof. intros a; rewrite to_refl; discriminate. Qed.

  Lemma to_lt_asym : forall a b, cmp a b = Lt -> cmp b a <> Lt.
  Proof. intros a b H; rewrite (to_opp O a b), H; discriminate. Qed.

  Lemma to_lt_neq : forall a b, cmp a b = Lt -> a <> b.
  Proof. intros a b H E; subst; apply (to_lt_irrefl H). Qed.

  Lemma to_le_lt_trans : forall a b c, cmp a b <> Gt -> cmp b c = Lt -> cmp a c = Lt.
  Proof.
    intros a b c H1 H2. destruct (cmp a b) eqn:E.
    - apply (to_eq O) in E; subst; assumption.
    - eapply (to_trans O); eassumption.
    - congruence.
  Qed.

  Lemma to_lt_le_trans : forall a b c, cmp a b = Lt -> cmp b c <> Gt -> cmp a c = Lt.
  Proof.
    intros a b c H1 H2. destruct (cmp b c) eqn:E.
    - apply (to_eq O) in E; subst; assumption.
    - eapply (to_trans O); eassumption.
    - congruence.
  Qed.

  Lemma to_le_trans : forall a b c, cmp a b <> Gt -> cmp b c <> Gt -> cmp a c <> Gt.
  Proof.
    intros a b c H1 H2. destruct (cmp b c) eqn:E.
    - apply (to_eq O) in E; subst; assumption.
    - rewrite (to_le_lt_trans H1 E); discriminate.
    - congruence.
  Qed.

  Definition cmp_eqb (a b : A) : bool := match cmp a b with Eq => true | _ => false end.
  Definition cmp_ltb (a b : A) : bool := match cmp a b with Lt => true | _ => false end.

  Lemma cmp_eqb_true : forall a b, cmp_eqb a b = true <-> a = b.
  Proof.
    intros; unfold cmp_eqb; rewrite <- (to_eq O).
    destruct (cmp a b); split; congruence.
  Qed.

  Lemma cmp_eqb_false : forall a b, cmp_eqb a b = false <-> a <> b.
  Proof.
    intros a b. rewrite <- cmp_eqb_true. destruct (cmp_eqb a b); split; congruence.
  Qed.

  Lemma cmp_ltb_true : forall a b, cmp_ltb a b = true <-> cmp a b = Lt.
  Proof. intros; unfold cmp_ltb; destruct (cmp a b); split; congruence. Qed.

  Lemma to_eq_dec : forall a b : A, {a = b} + {a <> b}.
  Proof.
    intros a b. destruct (cmp_eqb a b) eqn:E.
    - left; apply cmp_eqb_true; assumption.
    - right; apply cmp_eqb_false; assumption.
  Defined.
End Facts.

(** Lexicographic comparison of lists, shorter prefix first. *)
Section Lex.
  Context {A : Type} (cmp : A -> A -> comparison).

  Fixpoint lex (l1 l2 : list A) : comparison :=
    match l1, l2 with
    | [], [] => Eq
    | [], _ :: _ => Lt
    | _ :: _, [] => Gt
    | a :: r, b :: s => match cmp a b with Eq => lex r s | c => c end
    end.

  Lemma lex_TOrder_on : forall (P : A -> Prop),
    (forall a b, P a -> P b -> (cmp a b = Eq <-> a = b)) ->
    (forall a b, P a -> P b -> cmp b a = CompOpp (cmp a b)) ->
    (forall a b c, P a -> P b -> P c -> cmp a b = Lt -> cmp b c = Lt -> cmp a c = Lt) ->
    (forall l m, Forall P l -> Forall P m -> (lex l m = Eq <-> l = m)) /\
    (forall l m, Forall P l -> Forall P m -> lex m l = CompOpp (lex l m)) /\
    (forall l m n, Forall P l -> Forall P m -> Forall P n ->
       lex l m = Lt -> lex m n = Lt -> lex l n = Lt).
  Proof.
    intros P He Ho Ht. repeat split.
    - revert m H0. induction H; intros m Hm; destruct Hm; simpl; try congruence.
      destruct (cmp x x0) eqn:E; try congruence.
      apply He in E; auto. intros HE; f_equal; auto.
    - revert m H0. induction H; intros m Hm; destruct Hm; simpl; try congruence.
      intros HE; inversion HE; subst.
      replace (cmp x0 x0) with Eq by (symmetry; apply He; auto). auto.
    - intros l m Hl. revert m. induction Hl; intros m Hm; destruct Hm; simpl; auto.
      rewrite (Ho x x0 H H0). destruct (cmp x x0); simpl; auto.
    - intros l m n Hl. revert m n. induction Hl; intros m n Hm Hn; destruct Hm, Hn; simpl; try congruence.
      destruct (cmp x x0) eqn:E1; try congruence.
      + apply He in E1; auto; subst. destruct (cmp x0 x1); auto. eauto.
      + intros _. destruct (cmp x0 x1) eqn:E2; try congruence.
        * apply He in E2; auto; subst. rewrite E1; auto.
        * intros _. rewrite (Ht _ _ _ H H0 H1 E1 E2); auto.
  Qed.

  Lemma lex_TOrder : TOrder cmp -> TOrder lex.
  Proof.
    intros O.
    assert (F : forall l : list A, Forall (fun _ => True) l)
      by (induction l; constructor; auto).
    destruct (@lex_TOrder_on (fun _ => True)) as (H1 & H2 & H3).
    - intros; apply (to_eq O).
    - intros; apply (to_opp O).
    - intros; eapply (to_trans O); eauto.
    - constructor; intros; [apply H1 | apply H2 | eapply H3]; eauto.
  Qed.
End Lex.

Lemma Z_TOrder : TOrder Z.compare.
Proof.
  constructor; intros.
  - apply Z.compare_eq_iff.
  - apply Z.compare_antisym.
  - rewrite Z.compare_lt_iff in *; lia.
Qed.

Lemma nat_TOrder : TOrder Nat.compare.
Proof.
  constructor; intros.
  - apply Nat.compare_eq_iff.
  - apply Nat.compare_antisym.
  - rewrite Nat.compare_lt_iff in *; lia.
Qed.
