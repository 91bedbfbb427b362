(** Ordered sets as strictly sorted lists: the model of Rust's [BTreeSet]. *)
From Coq Require Import List Bool Sorting.Sorted Lia.
From Verif Require Import Order.
Import ListNotations.
Set Implicit Arguments.

Section OSet.
  Context {A : Type} (cmp : A -> A -> comparison).

  (** [BTreeSet::insert] *)
  Fixpoint oins (x : A) (l : list A) : list A :=
    match l with
    | [] => [x]
    | y :: r => match cmp x y with
                | Lt => x :: l
                | Eq => l
                | Gt => y :: oins x r
                end
    end.
  (** [BTreeSet::from_iter] *)
  Fixpoint oof (l : list A) : list A :=
    match l with [] => [] | x :: r => oins x (oof r) end.
  (** [BTreeSet::contains] *)
  Definition omem (x : A) (l : list A) : bool := existsb (fun y => cmp_eqb (cmp:=cmp) x y) l.

  Definition osorted (l : list A) : Prop := StronglySorted (fun a b => cmp a b = Lt) l.

  Hypothesis O : TOrder cmp.

  Lemma oins_In : forall x l y, In y (oins x l) <-> y = x \/ In y l.
  Proof.
    induction l as [|z l IH]; simpl; intros y; [intuition|].
    destruct (cmp x z) eqn:E; simpl.
    - apply (to_eq O) in E; subst. intuition.
    - intuition.
    - rewrite IH. intuition.
  Qed.

  Lemma oof_In : forall l x, In x (oof l) <-> In x l.
  Proof. induction l; simpl; intros; [tauto|]. rewrite oins_In, IHl. intuition. Qed.

  Lemma oins_sorted : forall x l, osorted l -> osorted (oins x l).
  Proof.
    induction 1 as [|y l S IH F]; simpl; [repeat constructor|].
    destruct (cmp x y) eqn:E.
    - constructor; auto.
    - constructor; [constructor; auto|]. constructor; auto.
      eapply Forall_impl; [|eauto]. intros; eapply (to_trans O); eauto.
    - constructor; auto. apply Forall_forall. intros z I. apply oins_In in I as [->|I].
      + apply (to_gt_lt O); auto.
      + rewrite Forall_forall in F; auto.
  Qed.

  Lemma oof_sorted : forall l, osorted (oof l).
  Proof. induction l; simpl; [constructor|apply oins_sorted; auto]. Qed.

  Lemma osorted_ext : forall l m, osorted l -> osorted m -> (forall x, In x l <-> In x m) -> l = m.
  Proof.
    intros l m S. revert m. induction S as [|x l S IH F]; intros m T E.
    - destruct m as [|y m]; auto. exfalso. apply (E y). left; auto.
    - destruct T as [|y m T G].
      + exfalso. apply (E x). left; auto.
      + rewrite Forall_forall in F, G.
        assert (x = y).
        { destruct (proj1 (E x) (or_introl eq_refl)) as [->|I]; auto.
          destruct (proj2 (E y) (or_introl eq_refl)) as [->|J]; auto.
          apply F in J. apply G in I. exfalso. apply (to_lt_asym O _ _ I J). }
        subst y. f_equal. apply IH; auto. intros z. split; intros I.
        * destruct (proj1 (E z) (or_intror I)) as [<-|]; auto. apply F in I.
          exfalso; apply (to_lt_irrefl O _ I).
        * destruct (proj2 (E z) (or_intror I)) as [<-|]; auto. apply G in I.
          exfalso; apply (to_lt_irrefl O _ I).
  Qed.

  Lemma omem_In : forall x l, omem x l = true <-> In x l.
  Proof.
    intros. unfold omem. rewrite existsb_exists. split.
    - intros (y & I & H). apply (cmp_eqb_true O) in H; subst; auto.
    - intros I; exists x; split; auto. apply (cmp_eqb_true O); auto.
  Qed.

  Lemma osorted_filter : forall (f : A -> bool) l, osorted l -> osorted (filter f l).
  Proof.
    intros f. induction 1 as [|x l S IH F]; simpl; [constructor|]. destruct (f x); auto.
    constructor; auto. apply Forall_forall. intros y I. apply filter_In in I as [I _].
    rewrite Forall_forall in F; auto.
  Qed.

  Lemma oof_id : forall l, osorted l -> oof l = l.
  Proof.
    intros l S. apply osorted_ext; auto; [apply oof_sorted|apply oof_In].
  Qed.

  Lemma osorted_NoDup : forall l, osorted l -> NoDup l.
  Proof.
    induction 1 as [|x l S IH F]; constructor; auto. intros I. rewrite Forall_forall in F.
    apply F in I. apply (to_lt_irrefl O _ I).
  Qed.
End OSet.
