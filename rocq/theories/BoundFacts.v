(** Lemmas about the boundness analysis (Bound.v).  Used by C60. *)
From Coq Require Import List ZArith Bool Arith Lia.
From Verif Require Import Value ListAux Back Eval BackSem Scc SccFacts Plan PlanSem PlanFacts Front FrontSem FrontFacts Bound BoundSem.
Import ListNotations.
Set Implicit Arguments.

(** ** The fixpoint *)
Lemma has_In : forall s l, has s l = true <-> In l s.
Proof. intros. apply SccFacts.memb_In. Qed.
Lemma has_not : forall s l, has s l = false <-> ~ In l s.
Proof. intros. rewrite <- has_In. destruct (has s l); split; congruence. Qed.
Lemma add_In : forall s l x, In x (add s l) <-> x = l \/ In x s.
Proof.
  intros s l x. unfold add. destruct (memb l s) eqn:E; cbn; [|split; intros [H|H]; auto].
  apply SccFacts.memb_In in E. split; auto. intros [->|H]; auto.
Qed.
Lemma addif_In : forall b s l x, In x (addif b l s) <-> (b = true /\ x = l) \/ In x s.
Proof. intros [|] s l x; cbn [addif]; [rewrite add_In; tauto|]. split; auto. intros [[H _]|H]; [discriminate|auto]. Qed.
Lemma fold_add_In : forall f s x, In x (fold_left add f s) <-> In x f \/ In x s.
Proof. induction f as [|l f IH]; intros s x; cbn [fold_left In]; [tauto|]. rewrite IH, add_In. split; intros H; decompose [or] H; auto. Qed.
Lemma add_NoDup : forall s l, NoDup s -> NoDup (add s l).
Proof. intros s l H. unfold add. destruct (memb l s) eqn:E; auto. constructor; auto. intros I. apply SccFacts.memb_In in I. congruence. Qed.
Lemma fold_add_NoDup : forall f s, NoDup s -> NoDup (fold_left add f s).
Proof. induction f; intros s H; cbn [fold_left]; auto. apply IHf, add_NoDup, H. Qed.
Lemma dep_step_In : forall s d x, In x (dep_step s d) -> In x s \/
  match d with
  | DArg l | DConst l => x = l
  | DForeign b f => (forall y, In y b -> In y s) /\ In x f
  | DBin a b e => In a s /\ In b s /\ x = e
  | DEq a b => (In a s /\ x = b) \/ (In b s /\ x = a)
  | DAddSub a b e => (In a s /\ In b s /\ x = e) \/ (In a s /\ In e s /\ x = b) \/ (In b s /\ In e s /\ x = a)
  | DUn a e => In a s /\ x = e
  | DIte c a b e => In c s /\ In a s /\ In b s /\ x = e
  | DCall l e => (forall y, In y l -> In y s) /\ x = e
  end.
Proof.
  intros s [l|b f|l|a b e|a b|a b e|a e|c a b e|l e] x H; cbn [dep_step] in H.
  - apply add_In in H. tauto.
  - destruct (forallb (has s) b) eqn:E; [|auto]. apply fold_add_In in H. destruct H as [H|H]; auto. right. split; auto. intros y I. apply has_In. rewrite forallb_forall in E. auto.
  - apply add_In in H. tauto.
  - apply addif_In in H. destruct H as [[E ->]|H]; auto. apply andb_true_iff in E. rewrite !has_In in E. tauto.
  - destruct (has s a) eqn:Ea; destruct (has s b) eqn:Eb; cbn in H; auto; apply add_In in H; rewrite has_In in *; tauto.
  - destruct (has s a) eqn:Ea; destruct (has s b) eqn:Eb; destruct (has s e) eqn:Ee; cbn in H; auto; apply add_In in H; rewrite has_In in *; tauto.
  - apply addif_In in H. rewrite has_In in H. tauto.
  - apply addif_In in H. destruct H as [[E ->]|H]; auto. apply andb_true_iff in E. destruct E as [E E3]. apply andb_true_iff in E. rewrite !has_In in *. tauto.
  - apply addif_In in H. destruct H as [[E ->]|H]; auto. right. split; auto. intros y I. apply has_In. rewrite forallb_forall in E. auto.
Qed.
Lemma dep_step_incl : forall s d, incl s (dep_step s d).
Proof.
  intros s d x H. destruct d as [l|b f|l|a b e|a b|a b e|a e|c a b e|l e]; cbn [dep_step]; rewrite ?add_In, ?addif_In; auto.
  - destruct (forallb (has s) b); auto. apply fold_add_In. auto.
  - destruct (has s a && negb (has s b)); [apply add_In; auto|]. destruct (negb (has s a) && has s b); [apply add_In; auto|auto].
  - destruct (has s a && has s b && negb (has s e)); [apply add_In; auto|]. destruct (has s a && negb (has s b) && has s e); [apply add_In; auto|].
    destruct (negb (has s a) && has s b && has s e); [apply add_In; auto|auto].
Qed.
Lemma dep_step_NoDup : forall s d, NoDup s -> NoDup (dep_step s d).
Proof.
  intros s d H. destruct d as [l|b f|l|a b e|a b|a b e|a e|c a b e|l e]; cbn [dep_step]; unfold addif;
    repeat (match goal with |- context [if ?b then _ else _] => destruct b end); auto using add_NoDup, fold_add_NoDup.
Qed.
Lemma deps_incl : forall ds s, incl s (fold_left dep_step ds s).
Proof. induction ds; intros s; cbn [fold_left]; [apply incl_refl|]. eapply incl_tran; [apply dep_step_incl|apply IHds]. Qed.
Lemma deps_NoDup : forall ds s, NoDup s -> NoDup (fold_left dep_step ds s).
Proof. induction ds; intros s H; cbn [fold_left]; auto. apply IHds, dep_step_NoDup, H. Qed.
Lemma locs_In : forall vl v l, In l (locs_of vl v) <-> In (v, l) vl.
Proof.
  intros vl v l. unfold locs_of. rewrite in_map_iff. split.
  - intros ([w k] & <- & H). apply filter_In in H. destruct H as [H E]. apply Nat.eqb_eq in E. cbn in E. subst. auto.
  - intros H. exists (v, l). split; auto. apply filter_In. split; auto. apply Nat.eqb_refl.
Qed.
Lemma var_step_In : forall vl s v x, In x (var_step vl s v) -> In x s \/ exists l, In (v, l) vl /\ In (v, x) vl /\ In l s.
Proof.
  intros vl s v x H. unfold var_step in H. destruct (existsb (has s) (locs_of vl v)) eqn:E; [|auto]. apply fold_add_In in H. destruct H as [H|H]; auto.
  apply existsb_exists in E. destruct E as (l & I & J). right. exists l. rewrite <- !locs_In. apply has_In in J. auto.
Qed.
Lemma var_step_incl : forall vl s v, incl s (var_step vl s v).
Proof. intros vl s v x H. unfold var_step. destruct (existsb (has s) (locs_of vl v)); auto. apply fold_add_In. auto. Qed.
Lemma var_step_NoDup : forall vl s v, NoDup s -> NoDup (var_step vl s v).
Proof. intros vl s v H. unfold var_step. destruct (existsb (has s) (locs_of vl v)); auto. apply fold_add_NoDup, H. Qed.
Lemma vars_incl : forall vl vs s, incl s (fold_left (var_step vl) vs s).
Proof. intros vl. induction vs; intros s; cbn [fold_left]; [apply incl_refl|]. eapply incl_tran; [apply var_step_incl|apply IHvs]. Qed.
Lemma vars_NoDup : forall vl vs s, NoDup s -> NoDup (fold_left (var_step vl) vs s).
Proof. intros vl. induction vs; intros s H; cbn [fold_left]; auto. apply IHvs, var_step_NoDup, H. Qed.
Lemma round_incl : forall c s, incl s (round c s).
Proof. intros c s. eapply incl_tran; [apply deps_incl|apply vars_incl]. Qed.
Lemma round_NoDup : forall c s, NoDup s -> NoDup (round c s).
Proof. intros c s H. apply vars_NoDup, deps_NoDup, H. Qed.

Section Least.
  Variables (c : lctx) (init : list loc).
  Let D := derivable (lc_deps c) (lc_vars c) init.
  Lemma deps_sound : forall ds s, incl ds (lc_deps c) -> (forall x, In x s -> D x) -> forall x, In x (fold_left dep_step ds s) -> D x.
  Proof.
    induction ds as [|d ds IH]; intros s I H x J; cbn [fold_left] in J; auto. refine (IH _ _ _ x J).
    - eapply incl_tran; [|exact I]. intros z Z. right; auto.
    - clear x J. intros x J. apply dep_step_In in J. destruct J as [J|J]; auto. assert (Id : In d (lc_deps c)) by (apply I; left; auto).
      destruct d; [subst; apply dv_arg; auto|destruct J; eapply dv_foreign; eauto; intros; apply H; auto|subst; apply dv_const; auto| | | | | |].
      + destruct J as (J1 & J2 & ->). eapply dv_bin; eauto; apply H; auto.
      + destruct J as [[J ->]|[J ->]]; [eapply dv_eq1; eauto; apply H; auto|eapply dv_eq2; eauto; apply H; auto].
      + destruct J as [(J1 & J2 & ->)|[(J1 & J2 & ->)|(J1 & J2 & ->)]].
        * eapply dv_as1; eauto; apply H; auto.
        * eapply dv_as2; eauto; apply H; auto.
        * eapply dv_as3; eauto; apply H; auto.
      + destruct J as [J ->]. eapply dv_un; eauto; apply H; auto.
      + destruct J as (J1 & J2 & J3 & ->). eapply dv_ite; eauto; apply H; auto.
      + destruct J as [J ->]. eapply dv_call; eauto. intros; apply H; auto.
  Qed.
  Lemma vars_sound : forall vs s, (forall x, In x s -> D x) -> forall x, In x (fold_left (var_step (lc_vars c)) vs s) -> D x.
  Proof.
    induction vs as [|v vs IH]; intros s H x J; cbn [fold_left] in J; auto. refine (IH _ _ x J). clear x J. intros x J.
    apply var_step_In in J. destruct J as [J|(l & J1 & J2 & J3)]; [auto|]. exact (@dv_var (lc_deps c) (lc_vars c) init v l x J1 J2 (H l J3)).
  Qed.
  Lemma round_sound : forall s, (forall x, In x s -> D x) -> forall x, In x (round c s) -> D x.
  Proof. intros s H x J. unfold round in J. eapply vars_sound; [|exact J]. intros y Y. eapply deps_sound; [| |exact Y]; auto. apply incl_refl. Qed.
  Lemma fix_sound : forall k s r, bound_fix k c s = Some r -> (forall x, In x s -> D x) -> forall x, In x r -> D x.
  Proof.
    induction k as [|k IH]; intros s r H K x J; [discriminate|]. cbn [bound_fix] in H. destruct (length (round c s) =? length s).
    - injection H as <-. eapply round_sound; eauto.
    - eapply IH; eauto. apply round_sound; auto.
  Qed.
  (** A set that a round leaves as it is is closed. *)
  Definition fixed (s : list loc) : Prop := forall x, In x (round c s) -> In x s.
  Lemma fix_fixed : forall k s r, NoDup s -> bound_fix k c s = Some r -> fixed r /\ incl s r /\ NoDup r.
  Proof.
    induction k as [|k IH]; intros s r N H; [discriminate|]. cbn [bound_fix] in H. destruct (length (round c s) =? length s) eqn:E.
    - injection H as <-. apply Nat.eqb_eq in E.
      assert (Q : incl (round c s) s) by (apply NoDup_length_incl; [auto|lia|apply round_incl]).
      split; [|split; [apply round_incl|apply round_NoDup, N]].
      assert (M : forall ds a b, (forall x : loc, In x a <-> In x b) -> forall x, In x (fold_left dep_step ds a) <-> In x (fold_left dep_step ds b)).
      { clear. assert (S1 : forall d a b, (forall x : loc, In x a <-> In x b) -> forall x, In x (dep_step a d) <-> In x (dep_step b d)).
        { intros d a b H. assert (Hh : forall l, has a l = has b l).
          { intros l. destruct (has a l) eqn:Q1, (has b l) eqn:Q2; auto; rewrite ?has_In, ?has_not in *; exfalso; [apply Q2, H, Q1|apply Q1, H, Q2]. }
          assert (Hf : forall l, forallb (has a) l = forallb (has b) l) by (induction l; cbn; congruence).
          intros x. destruct d; cbn [dep_step]; rewrite ?add_In, ?addif_In, ?Hh, ?Hf, ?H; try tauto.
          - destruct (forallb (has b) bounded); rewrite ?fold_add_In, ?H; tauto.
          - destruct (has b a0 && negb (has b b0)); rewrite ?add_In, ?H; [tauto|]. destruct (negb (has b a0) && has b b0); rewrite ?add_In, ?H; tauto.
          - destruct (has b a0 && has b b0 && negb (has b e)); rewrite ?add_In, ?H; [tauto|].
            destruct (has b a0 && negb (has b b0) && has b e); rewrite ?add_In, ?H; [tauto|].
            destruct (negb (has b a0) && has b b0 && has b e); rewrite ?add_In, ?H; tauto. }
        induction ds as [|d ds IH]; intros a b H x; cbn [fold_left]; auto. }
      assert (M2 : forall vs a b, (forall x : loc, In x a <-> In x b) -> forall x, In x (fold_left (var_step (lc_vars c)) vs a) <-> In x (fold_left (var_step (lc_vars c)) vs b)).
      { clear. induction vs as [|v vs IH]; intros a b H x; cbn [fold_left]; auto. apply IH. clear x. intros x. unfold var_step.
        assert (Hh : forall l, has a l = has b l).
        { intros l. destruct (has a l) eqn:Q1, (has b l) eqn:Q2; auto; rewrite ?has_In, ?has_not in *; exfalso; [apply Q2, H, Q1|apply Q1, H, Q2]. }
        assert (Hf : forall l, existsb (has a) l = existsb (has b) l) by (induction l; cbn; congruence). rewrite Hf.
        destruct (existsb (has b) (locs_of (lc_vars c) v)); rewrite ?fold_add_In, ?H; tauto. }
      intros x J. unfold round in J at 1. apply (M2 _ _ (fold_left dep_step (lc_deps c) s)) in J.
      + exact J.
      + apply M. intros z. split; [apply Q|apply round_incl].
    - apply IH in H; [|apply round_NoDup, N]. destruct H as (H1 & H2 & H3). split; auto. split; auto. eapply incl_tran; [apply round_incl|exact H2].
  Qed.
  Lemma deps_keep : forall ds d s, In d ds -> (forall x, In x (fold_left dep_step ds s) -> In x s) -> forall x, In x (dep_step s d) -> In x s.
  Proof.
    induction ds as [|e ds IH]; intros d s I0 H x J; cbn [fold_left] in H; [destruct I0|destruct I0 as [<-|I]].
    - apply H. apply deps_incl, J.
    - assert (K : forall y, In y (dep_step s e) <-> In y s) by (intros y; split; [intros Y; apply H, deps_incl, Y|apply dep_step_incl]).
      assert (Hh : forall l, has (dep_step s e) l = has s l).
      { intros l. destruct (has (dep_step s e) l) eqn:Q1, (has s l) eqn:Q2; auto; rewrite ?has_In, ?has_not in *; exfalso; [apply Q2, K, Q1|apply Q1, K, Q2]. }
      apply K. apply (IH d); auto.
      + intros y Y. apply K. auto.
      + assert (Hf : forall l, forallb (has (dep_step s e)) l = forallb (has s) l) by (induction l; cbn; congruence).
        revert J. set (s' := dep_step s e) in *. destruct d; cbn [dep_step]; rewrite ?add_In, ?addif_In, ?Hh, ?Hf, ?K; try tauto.
        * destruct (forallb (has s) bounded); rewrite ?fold_add_In, ?K; tauto.
        * destruct (has s a && negb (has s b)); rewrite ?add_In, ?K; [tauto|]. destruct (negb (has s a) && has s b); rewrite ?add_In, ?K; tauto.
        * destruct (has s a && has s b && negb (has s e0)); rewrite ?add_In, ?K; [tauto|].
          destruct (has s a && negb (has s b) && has s e0); rewrite ?add_In, ?K; [tauto|].
          destruct (negb (has s a) && has s b && has s e0); rewrite ?add_In, ?K; tauto.
  Qed.
  Lemma vars_keep : forall vl vs v s, In v vs -> (forall x, In x (fold_left (var_step vl) vs s) -> In x s) -> forall x, In x (var_step vl s v) -> In x s.
  Proof.
    intros vl. induction vs as [|e vs IH]; intros v s I0 H x J; cbn [fold_left] in H; [destruct I0|destruct I0 as [<-|I]].
    - apply H. apply vars_incl, J.
    - assert (K : forall y, In y (var_step vl s e) <-> In y s) by (intros y; split; [intros Y; apply H, vars_incl, Y|apply var_step_incl]).
      assert (Hh : forall l, has (var_step vl s e) l = has s l).
      { intros l. destruct (has (var_step vl s e) l) eqn:Q1, (has s l) eqn:Q2; auto; rewrite ?has_In, ?has_not in *; exfalso; [apply Q2, K, Q1|apply Q1, K, Q2]. }
      apply K. apply (IH v); auto.
      + intros y Y. apply K. auto.
      + assert (Hf : forall l, existsb (has (var_step vl s e)) l = existsb (has s) l) by (induction l; cbn; congruence).
        revert J. set (s' := var_step vl s e) in *. unfold var_step. rewrite Hf. destruct (existsb (has s) (locs_of vl v)); rewrite ?fold_add_In, ?K; tauto.
  Qed.
  Lemma fixed_closed : forall s, fixed s -> incl init s -> forall x, D x -> In x s.
  Proof.
    intros s F I x H.
    assert (F1 : forall y, In y (fold_left dep_step (lc_deps c) s) -> In y s) by (intros y Y; apply F; apply vars_incl, Y).
    assert (Fd : forall d, In d (lc_deps c) -> forall y, In y (dep_step s d) -> In y s) by (intros d J; apply (deps_keep (lc_deps c)); auto).
    assert (Eq : forall y, In y (fold_left dep_step (lc_deps c) s) <-> In y s) by (intros y; split; [apply F1|apply deps_incl]).
    assert (Fv : forall v, In v (variables c) -> forall y, In y (var_step (lc_vars c) (fold_left dep_step (lc_deps c) s) v) -> In y (fold_left dep_step (lc_deps c) s)).
    { intros v J. apply (vars_keep _ (variables c)); auto. intros y Y. apply Eq. apply F. exact Y. }
    induction H.
    - auto.
    - apply (Fd _ H). cbn. apply add_In. auto.
    - apply (Fd _ H). cbn. apply add_In. auto.
    - apply (Fd _ H). cbn. replace (forallb (has s) b) with true by (symmetry; apply forallb_forall; intros y Y; apply has_In; auto). apply fold_add_In. auto.
    - apply (Fd _ H). cbn. apply addif_In. left. rewrite andb_true_iff, !has_In. auto.
    - pose proof (Fd _ H) as K. cbn in K. destruct (has s b) eqn:E; [apply has_In; auto|]. rewrite (proj2 (has_In s a) IHderivable) in K. cbn in K. apply K, add_In. auto.
    - pose proof (Fd _ H) as K. cbn in K. destruct (has s a) eqn:E; [apply has_In; auto|]. rewrite (proj2 (has_In s b) IHderivable) in K. cbn in K. apply K, add_In. auto.
    - pose proof (Fd _ H) as K. cbn in K. destruct (has s e) eqn:E; [apply has_In; auto|]. rewrite (proj2 (has_In s a) IHderivable1), (proj2 (has_In s b) IHderivable2) in K. cbn in K. apply K, add_In. auto.
    - pose proof (Fd _ H) as K. cbn in K. destruct (has s b) eqn:E; [apply has_In; auto|]. rewrite (proj2 (has_In s a) IHderivable1), (proj2 (has_In s e) IHderivable2) in K. cbn in K. apply K, add_In. auto.
    - pose proof (Fd _ H) as K. cbn in K. destruct (has s a) eqn:E; [apply has_In; auto|]. rewrite (proj2 (has_In s b) IHderivable1), (proj2 (has_In s e) IHderivable2) in K. cbn in K. apply K, add_In. auto.
    - apply (Fd _ H). cbn. apply addif_In. left. rewrite has_In. auto.
    - apply (Fd _ H). cbn. apply addif_In. left. rewrite !andb_true_iff, !has_In. auto.
    - apply (Fd _ H). cbn. apply addif_In. left. split; auto. apply forallb_forall. intros y Y. apply has_In. auto.
    - apply Eq. apply (Fv v).
      + unfold variables. apply nodup_In. apply in_map_iff. exists (v, l). auto.
      + unfold var_step. replace (existsb (has (fold_left dep_step (lc_deps c) s)) (locs_of (lc_vars c) v)) with true.
        * apply fold_add_In. left. apply locs_In. auto.
        * symmetry. apply existsb_exists. exists l. split; [apply locs_In; auto|]. apply has_In, Eq. auto.
  Qed.
  Lemma fix_least : forall k r, NoDup init -> bound_fix k c init = Some r -> forall x, In x r <-> D x.
  Proof.
    intros k r N H x. destruct (fix_fixed _ N H) as (F & I & _). split; [|apply fixed_closed; auto].
    eapply fix_sound; eauto. intros y Y. apply dv_init. auto.
  Qed.
End Least.

(** Rounds are bounded by the number of locations. *)
Definition dep_locs (d : dep) : list loc :=
  match d with
  | DArg l | DConst l => [l]
  | DForeign b f => b ++ f
  | DBin a b e | DAddSub a b e => [a; b; e]
  | DEq a b => [a; b]
  | DUn a e => [a; e]
  | DIte c a b e => [c; a; b; e]
  | DCall l e => e :: l
  end.
Definition below (n : nat) (c : lctx) : Prop := (forall d l, In d (lc_deps c) -> In l (dep_locs d) -> l < n) /\ (forall v l, In (v, l) (lc_vars c) -> l < n) /\ (forall l, In l (lc_cons c) -> l < n).
Lemma derivable_below : forall n c init, below n c -> (forall l, In l init -> l < n) -> forall l, derivable (lc_deps c) (lc_vars c) init l -> l < n.
Proof.
  intros n c init (B1 & B2 & _) I l H. induction H; try (eapply B1; [exact H|]; cbn; auto 10; fail); eauto.
  eapply B1; [exact H|]. cbn. apply in_or_app; auto.
Qed.
Lemma bounded_list : forall n l, NoDup l -> (forall x, In x l -> x < n) -> length l <= n.
Proof.
  intros n l N H. assert (K : incl l (seq 0 n)) by (intros x I; apply in_seq; specialize (H x I); lia).
  apply NoDup_incl_length in K; auto. rewrite seq_length in K. auto.
Qed.
Lemma fix_total : forall n c init, below n c -> (forall l, In l init -> l < n) -> forall k s, NoDup s -> (forall x, In x s -> derivable (lc_deps c) (lc_vars c) init x) ->
  n < k + length s -> exists r, bound_fix k c s = Some r.
Proof.
  intros n c init B I. induction k as [|k IH]; intros s N H L.
  - exfalso. pose proof (@bounded_list n s N (fun x J => derivable_below B I (H x J))). unfold loc in *. lia.
  - cbn [bound_fix]. destruct (length (round c s) =? length s) eqn:E; [eauto|]. apply Nat.eqb_neq in E.
    assert (length s <= length (round c s)) by (apply NoDup_incl_length; [auto|apply round_incl]). apply IH; [apply round_NoDup, N| |unfold loc in *; lia].
    apply round_sound. auto.
Qed.

(** ** Nodes *)
(** The nodes of expressions with their locations and the terms that flattening
    gives them: both the dependencies and the literals are read off the nodes. *)
Definition cref := (loc * term * expr)%type.
Definition cloc (c : cref) : loc := fst (fst c).
Definition cterm (c : cref) : term := snd (fst c).
Definition cexpr (c : cref) : expr := snd c.
Record node := mkNode { nd_loc : loc; nd_num : nat; nd_expr : expr; nd_kids : list cref }.
Section Nodes.
  Variable fr : nat -> var.
  Definition leaf (e : expr) : bool := match e with EVar _ | EConst _ => true | _ => false end.
  Definition term_of (e : expr) (k : nat) : term := match e with EVar v => TVar v | EConst c => TConst c | _ => TVar (fr k) end.
  Definition nd_term (x : node) : term := term_of (nd_expr x) (nd_num x).
  Definition node_deps (x : node) : list dep :=
    match nd_expr x, nd_kids x with
    | EConst _, _ => [DConst (nd_loc x)]
    | EBin op _ _, [a; b] => [if is_add_sub op then DAddSub (cloc a) (cloc b) (nd_loc x) else DBin (cloc a) (cloc b) (nd_loc x)]
    | EUn _ _, [a] => [DUn (cloc a) (nd_loc x)]
    | EIte _ _ _, [c; a; b] => [DIte (cloc c) (cloc a) (cloc b) (nd_loc x)]
    | ECall _ _, l => [DCall (map cloc l) (nd_loc x)]
    | _, _ => []
    end.
  Definition node_vars (x : node) : list (var * loc) := match nd_expr x with EVar v => [(v, nd_loc x)] | _ => [] end.
  Definition node_lits (x : node) : list lit :=
    match nd_expr x, nd_kids x with
    | EBin op _ _, [a; b] => LAssign (fr (nd_num x)) (ABin op (cterm a) (cterm b)) :: inverses (fr (nd_num x)) op (cterm a) (cterm b)
    | EUn op _, [a] => [LAssign (fr (nd_num x)) (AUn op (cterm a))]
    | EIte _ _ _, [c; a; b] => [LAssign (fr (nd_num x)) (AIte (cterm c) (cterm a) (cterm b))]
    | ECall f _, l => [LAssign (fr (nd_num x)) (ACall f (map cterm l))]
    | ENew f _, l => [LAssign (fr (nd_num x)) (ANew f (map cterm l))]
    | _, _ => []
    end.
  Fixpoint nodes (e : expr) (n : loc) (k : nat) : list node * loc * nat :=
    match e with
    | EVar _ | EConst _ => ([mkNode n k e []], S n, k)
    | EWild => ([mkNode n k e []], S n, S k)
    | EBin _ a b =>
        let '(na, n1, k1) := nodes a (S n) (S k) in
        let '(nb, n2, k2) := nodes b n1 k1 in
        (mkNode n k e [(S n, term_of a (S k), a); (n1, term_of b k1, b)] :: na ++ nb, n2, k2)
    | EUn _ a => let '(na, n1, k1) := nodes a (S n) (S k) in (mkNode n k e [(S n, term_of a (S k), a)] :: na, n1, k1)
    | EIte c a b =>
        let '(nc, n1, k1) := nodes c (S n) (S k) in
        let '(na, n2, k2) := nodes a n1 k1 in
        let '(nb, n3, k3) := nodes b n2 k2 in
        (mkNode n k e [(S n, term_of c (S k), c); (n1, term_of a k1, a); (n2, term_of b k2, b)] :: nc ++ na ++ nb, n3, k3)
    | ECall _ l | ENew _ l =>
        let '(cs, ns, n1, k1) :=
          (fix args (l : list expr) (n : loc) (k : nat) : list cref * list node * loc * nat :=
             match l with
             | [] => ([], [], n, k)
             | e :: l => let '(ne, n1, k1) := nodes e n k in let '(cs, ns, n2, k2) := args l n1 k1 in ((n, term_of e k, e) :: cs, ne ++ ns, n2, k2)
             end) l (S n) (S k) in
        (mkNode n k e cs :: ns, n1, k1)
    end.
  Fixpoint args_nodes (l : list expr) (n : loc) (k : nat) : list cref * list node * loc * nat :=
    match l with
    | [] => ([], [], n, k)
    | e :: l => let '(ne, n1, k1) := nodes e n k in let '(cs, ns, n2, k2) := args_nodes l n1 k1 in ((n, term_of e k, e) :: cs, ne ++ ns, n2, k2)
    end.
  Lemma nodes_call : forall f l n k, nodes (ECall f l) n k = let '(cs, ns, n1, k1) := args_nodes l (S n) (S k) in (mkNode n k (ECall f l) cs :: ns, n1, k1).
  Proof. reflexivity. Qed.
  Lemma nodes_new : forall f l n k, nodes (ENew f l) n k = let '(cs, ns, n1, k1) := args_nodes l (S n) (S k) in (mkNode n k (ENew f l) cs :: ns, n1, k1).
  Proof. reflexivity. Qed.
  Lemma walk_call : forall f l n, walk_expr (ECall f l) n = let '(c, ls, n1) := walk_args l (S n) in (lc_app (mkLctx [DCall ls n] [] []) c, n1).
  Proof. reflexivity. Qed.
  Lemma walk_new : forall f l n, walk_expr (ENew f l) n = let '(c, _, n1) := walk_args l (S n) in (c, n1).
  Proof. reflexivity. Qed.
End Nodes.
Definition kids (e : expr) : list expr :=
  match e with
  | EVar _ | EConst _ | EWild => []
  | EBin _ a b => [a; b]
  | EUn _ a => [a]
  | EIte c a b => [c; a; b]
  | ECall _ l | ENew _ l => l
  end.
Section Segments.
  Variable fr : nat -> var.
  Definition at_node (ns : list node) (c : cref) : Prop := exists y, In y ns /\ nd_loc y = cloc c /\ nd_term fr y = cterm c /\ nd_expr y = cexpr c.
  Record seg (ns : list node) (n n1 : loc) (k k1 : nat) : Prop := mkSeg {
    sg_n : n <= n1; sg_k : k <= k1;
    sg_loc : forall x, In x ns -> n <= nd_loc x < n1;
    sg_uniq : forall x y, In x ns -> In y ns -> nd_loc x = nd_loc y -> x = y;
    sg_num : forall x, In x ns -> leaf (nd_expr x) = false -> k <= nd_num x < k1;
    sg_nums : forall x y, In x ns -> In y ns -> leaf (nd_expr x) = false -> leaf (nd_expr y) = false -> nd_num x = nd_num y -> x = y;
    sg_kids : forall x c, In x ns -> In c (nd_kids x) -> at_node ns c;
    sg_shape : forall x, In x ns -> map cexpr (nd_kids x) = kids (nd_expr x) }.
  Lemma at_app : forall a b c, at_node a c \/ at_node b c -> at_node (a ++ b) c.
  Proof. intros a b c [(y & I & H)|(y & I & H)]; exists y; split; auto; apply in_or_app; auto. Qed.
  Lemma at_cons : forall x b c, at_node b c -> at_node (x :: b) c.
  Proof. intros x b c (y & I & H); exists y; split; auto; right; auto. Qed.
  Lemma seg_nil : forall n k, seg [] n n k k.
  Proof. intros. constructor; auto; intros; match goal with H : In _ [] |- _ => destruct H end. Qed.
  Lemma seg_app : forall a b n n1 n2 k k1 k2, seg a n n1 k k1 -> seg b n1 n2 k1 k2 -> seg (a ++ b) n n2 k k2.
  Proof.
    intros a b n n1 n2 k k1 k2 A B. destruct A as [A1 A2 A3 A4 A5 A6 A7 A8]. destruct B as [B1 B2 B3 B4 B5 B6 B7 B8]. constructor.
    - lia.
    - lia.
    - intros x I. apply in_app_or in I. destruct I as [I|I]; [apply A3 in I|apply B3 in I]; lia.
    - intros x y I J E. apply in_app_or in I. apply in_app_or in J. destruct I as [I|I], J as [J|J]; auto.
      + apply A3 in I. apply B3 in J. lia.
      + apply B3 in I. apply A3 in J. lia.
    - intros x I L. apply in_app_or in I. destruct I as [I|I]; [apply A5 in I|apply B5 in I]; auto; lia.
    - intros x y I J Lx Ly E. apply in_app_or in I. apply in_app_or in J. destruct I as [I|I], J as [J|J]; auto.
      + apply A5 in I; auto. apply B5 in J; auto. lia.
      + apply B5 in I; auto. apply A5 in J; auto. lia.
    - intros x c I J. apply at_app. apply in_app_or in I. destruct I as [I|I]; eauto.
    - intros x I. apply in_app_or in I. destruct I; auto.
  Qed.
  Lemma seg_cons : forall e cs a n n1 k k1, leaf e = false -> seg a (S n) n1 (S k) k1 -> (forall c, In c cs -> at_node a c) -> map cexpr cs = kids e ->
    seg (mkNode n k e cs :: a) n n1 k k1.
  Proof.
    intros e cs a n n1 k k1 L A C Q. destruct A as [A1 A2 A3 A4 A5 A6 A7 A8]. constructor.
    - lia.
    - lia.
    - intros x [<-|I]; cbn; [lia|]. apply A3 in I. lia.
    - intros x y [<-|I] [<-|J] E; auto; cbn in E; [apply A3 in J|apply A3 in I]; lia.
    - intros x [<-|I] H; cbn; [lia|]. apply A5 in I; auto. lia.
    - intros x y [<-|I] [<-|J] Lx Ly E; auto; cbn in E; [apply A5 in J; auto|apply A5 in I; auto]; lia.
    - intros x c [<-|I] J; apply at_cons; cbn in J; eauto.
    - intros x [<-|I]; auto.
  Qed.
  Definition nodes_ok (e : expr) : Prop := forall n k, exists ns n1 k1, nodes fr e n k = (ns, n1, k1) /\ seg ns n n1 k k1 /\ at_node ns (n, term_of fr e k, e) /\
    walk_expr e n = (mkLctx (flat_map node_deps ns) (flat_map node_vars ns) [], n1) /\
    flat fr e k = (term_of fr e k, flat_map (node_lits fr) ns, k1).
  Lemma lc_app_mk : forall a b c a' b' c', lc_app (mkLctx a b c) (mkLctx a' b' c') = mkLctx (a ++ a') (b ++ b') (c ++ c').
  Proof. reflexivity. Qed.
  Lemma args_ok : forall l, Forall nodes_ok l -> forall n k, exists cs ns n1 k1, args_nodes fr l n k = (cs, ns, n1, k1) /\ seg ns n n1 k k1 /\
    (forall c, In c cs -> at_node ns c) /\ map cexpr cs = l /\
    walk_args l n = (mkLctx (flat_map node_deps ns) (flat_map node_vars ns) [], map cloc cs, n1) /\
    flat_args fr l k = (map cterm cs, flat_map (node_lits fr) ns, k1).
  Proof.
    intros l H. induction H as [|e l He Hl IH]; intros n k.
    - exists [], [], n, k. split; [reflexivity|]. split; [apply seg_nil|]. split; [intros c []|]. repeat split.
    - destruct (He n k) as (ne & n1 & k1 & E1 & S1 & R1 & W1 & F1). destruct (IH n1 k1) as (cs & ns & n2 & k2 & E2 & S2 & C2 & M2 & W2 & F2).
      cbn [args_nodes walk_args flat_args]. rewrite E1, E2, W1, W2, F1, F2. exists ((n, term_of fr e k, e) :: cs), (ne ++ ns), n2, k2.
      split; [reflexivity|]. split; [eapply seg_app; eauto|]. split; [|split; [|split]].
      + intros c [<-|I]; apply at_app; auto.
      + cbn. rewrite M2. reflexivity.
      + rewrite lc_app_mk, !flat_map_app. reflexivity.
      + rewrite !flat_map_app. reflexivity.
  Qed.
  Lemma seg_leaf : forall e n k k', k <= k' -> (leaf e = true \/ (kids e = [] /\ k < k')) -> kids e = [] -> seg [mkNode n k e []] n (S n) k k'.
  Proof.
    intros e n k k' L H K. constructor; auto; try lia.
    - intros x [<-|[]]. cbn. lia.
    - intros x y [<-|[]] [<-|[]] E. auto.
    - intros x [<-|[]] Lf. cbn in *. destruct H as [H|[_ H]]; [congruence|lia].
    - intros x y [<-|[]] [<-|[]] _ _ _. auto.
    - intros x c [<-|[]] [].
    - intros x [<-|[]]. cbn. auto.
  Qed.
  Lemma nodes_all : forall e, nodes_ok e.
  Proof.
    induction e using expr_ind2; intros n k.
    - exists [mkNode n k (EVar v) []], (S n), k. split; [reflexivity|]. split; [apply seg_leaf; auto|]. split; [|split; reflexivity]. eexists. split; [left; reflexivity|]. repeat split.
    - exists [mkNode n k EWild []], (S n), (S k). split; [reflexivity|]. split; [apply seg_leaf; auto|]. split; [|split; reflexivity]. eexists. split; [left; reflexivity|]. repeat split.
    - exists [mkNode n k (EConst c) []], (S n), k. split; [reflexivity|]. split; [apply seg_leaf; auto|]. split; [|split; reflexivity]. eexists. split; [left; reflexivity|]. repeat split.
    - destruct (IHe1 (S n) (S k)) as (na & n1 & k1 & E1 & S1 & R1 & W1 & F1). destruct (IHe2 n1 k1) as (nb & n2 & k2 & E2 & S2 & R2 & W2 & F2).
      cbn [nodes walk_expr flat]. rewrite E1, E2, W1, W2, F1, F2. eexists. exists n2, k2. split; [reflexivity|]. split; [|split; [|split]].
      + apply seg_cons; [reflexivity|eapply seg_app; eauto| |reflexivity]. intros c [<-|[<-|[]]]; apply at_app; auto.
      + eexists. split; [left; reflexivity|]. repeat split.
      + rewrite !lc_app_mk. cbn [flat_map]. rewrite !flat_map_app. reflexivity.
      + cbn [flat_map]. rewrite !flat_map_app. reflexivity.
    - destruct (IHe (S n) (S k)) as (na & n1 & k1 & E1 & S1 & R1 & W1 & F1).
      cbn [nodes walk_expr flat]. rewrite E1, W1, F1. eexists. exists n1, k1. split; [reflexivity|]. split; [|split; [|split]].
      + apply seg_cons; [reflexivity|auto| |reflexivity]. intros c [<-|[]]; auto.
      + eexists. split; [left; reflexivity|]. repeat split.
      + rewrite !lc_app_mk. reflexivity.
      + reflexivity.
    - destruct (IHe1 (S n) (S k)) as (na & n1 & k1 & E1 & S1 & R1 & W1 & F1). destruct (IHe2 n1 k1) as (nb & n2 & k2 & E2 & S2 & R2 & W2 & F2).
      destruct (IHe3 n2 k2) as (nc & n3 & k3 & E3 & S3 & R3 & W3 & F3).
      cbn [nodes walk_expr flat]. rewrite E1, E2, E3, W1, W2, W3, F1, F2, F3. eexists. exists n3, k3. split; [reflexivity|]. split; [|split; [|split]].
      + apply seg_cons; [reflexivity|eapply seg_app; [eauto|eapply seg_app; eauto]| |reflexivity]. intros c [<-|[<-|[<-|[]]]]; apply at_app; auto; right; apply at_app; auto.
      + eexists. split; [left; reflexivity|]. repeat split.
      + rewrite !lc_app_mk. cbn [flat_map]. rewrite !flat_map_app. reflexivity.
      + cbn [flat_map]. rewrite !flat_map_app. reflexivity.
    - destruct (args_ok H (S n) (S k)) as (cs & ns & n1 & k1 & E & S0 & C & M & W & F). rewrite nodes_call, walk_call. 
      assert (FC : flat fr (ECall f l) k = let '(ts, ls, n1) := flat_args fr l (S k) in (TVar (fr k), LAssign (fr k) (ACall f ts) :: ls, n1)) by reflexivity.
      rewrite FC, E, W, F. eexists. exists n1, k1. split; [reflexivity|]. split; [|split; [|split]].
      + apply seg_cons; auto.
      + eexists. split; [left; reflexivity|]. repeat split.
      + rewrite !lc_app_mk. reflexivity.
      + reflexivity.
    - destruct (args_ok H (S n) (S k)) as (cs & ns & n1 & k1 & E & S0 & C & M & W & F). rewrite nodes_new, walk_new. 
      assert (FC : flat fr (ENew f l) k = let '(ts, ls, n1) := flat_args fr l (S k) in (TVar (fr k), LAssign (fr k) (ANew f ts) :: ls, n1)) by reflexivity.
      rewrite FC, E, W, F. eexists. exists n1, k1. split; [reflexivity|]. split; [|split; [|split]].
      + apply seg_cons; auto.
      + eexists. split; [left; reflexivity|]. repeat split.
      + reflexivity.
      + reflexivity.
  Qed.
  (** What is inherited by the operands holds of all nodes. *)
  Definition inherited (P : expr -> Prop) : Prop := forall e c, P e -> In c (kids e) -> P c.
  Lemma args_sub : forall (P : expr -> Prop) l, Forall (fun e => forall n k, P e -> forall x, In x (fst (fst (nodes fr e n k))) -> P (nd_expr x)) l ->
    forall n k, (forall e, In e l -> P e) -> forall x, In x (snd (fst (fst (args_nodes fr l n k)))) -> P (nd_expr x).
  Proof.
    intros P l H. induction H as [|e l He Hl IH]; intros n k K x J; [destruct J|]. cbn [args_nodes] in J.
    destruct (nodes fr e n k) as [[ne n1] k1] eqn:E1. destruct (args_nodes fr l n1 k1) as [[[cs ns] n2] k2] eqn:E2. cbn [fst snd] in J.
    apply in_app_or in J. destruct J as [J|J].
    - refine (He n k (K e (or_introl eq_refl)) x _). rewrite E1. exact J.
    - refine (IH n1 k1 (fun e0 I0 => K e0 (or_intror I0)) x _). rewrite E2. exact J.
  Qed.
  Lemma nodes_sub : forall P, inherited P -> forall e n k, P e -> forall x, In x (fst (fst (nodes fr e n k))) -> P (nd_expr x).
  Proof.
    intros P Q. induction e using expr_ind2; intros n k He x J.
    - destruct J as [<-|[]]. exact He.
    - destruct J as [<-|[]]. exact He.
    - destruct J as [<-|[]]. exact He.
    - cbn [nodes] in J. destruct (nodes fr e1 (S n) (S k)) as [[na n1] k1] eqn:E1. destruct (nodes fr e2 n1 k1) as [[nb n2] k2] eqn:E2. cbn [fst] in J.
      destruct J as [<-|J]; [exact He|]. apply in_app_or in J. destruct J as [J|J].
      + refine (IHe1 (S n) (S k) _ x _); [apply (Q _ _ He); left; auto|]. rewrite E1. exact J.
      + refine (IHe2 n1 k1 _ x _); [apply (Q _ _ He); right; left; auto|]. rewrite E2. exact J.
    - cbn [nodes] in J. destruct (nodes fr e (S n) (S k)) as [[na n1] k1] eqn:E1. cbn [fst] in J.
      destruct J as [<-|J]; [exact He|]. refine (IHe (S n) (S k) _ x _); [apply (Q _ _ He); left; auto|]. rewrite E1. exact J.
    - cbn [nodes] in J. destruct (nodes fr e1 (S n) (S k)) as [[na n1] k1] eqn:E1. destruct (nodes fr e2 n1 k1) as [[nb n2] k2] eqn:E2.
      destruct (nodes fr e3 n2 k2) as [[nc n3] k3] eqn:E3. cbn [fst] in J.
      destruct J as [<-|J]; [exact He|]. apply in_app_or in J. destruct J as [J|J]; [|apply in_app_or in J; destruct J as [J|J]].
      + refine (IHe1 (S n) (S k) _ x _); [apply (Q _ _ He); left; auto|]. rewrite E1. exact J.
      + refine (IHe2 n1 k1 _ x _); [apply (Q _ _ He); right; left; auto|]. rewrite E2. exact J.
      + refine (IHe3 n2 k2 _ x _); [apply (Q _ _ He); right; right; left; auto|]. rewrite E3. exact J.
    - rewrite nodes_call in J. pose proof (@args_sub P l H (S n) (S k) (fun e I => Q _ e He I)) as K.
      destruct (args_nodes fr l (S n) (S k)) as [[[cs ns] n1] k1]. cbn [fst snd] in *. destruct J as [<-|J]; [exact He|]. auto.
    - rewrite nodes_new in J. pose proof (@args_sub P l H (S n) (S k) (fun e I => Q _ e He I)) as K.
      destruct (args_nodes fr l (S n) (S k)) as [[[cs ns] n1] k1]. cbn [fst snd] in *. destruct J as [<-|J]; [exact He|]. auto.
  Qed.
End Segments.

(** ** Formulas *)
Inductive top :=
| PAtom (p : pred) (cs : list cref)
| PCmp (op : binop) (c : cop) (a b : cref) (l : loc)
| PNot (a : cref) (l : loc).
Section Forms.
  Variables (foreign : pred -> bool) (nb ar : pred -> nat) (fr : nat -> var).
  Definition top_kids (t : top) : list cref := match t with PAtom _ cs => cs | PCmp _ _ a b _ => [a; b] | PNot a _ => [a] end.
  Definition top_form (t : top) : formula :=
    match t with PAtom p cs => FAtom p (map cexpr cs) | PCmp op _ a b _ => FCons (EBin op (cexpr a) (cexpr b)) | PNot a _ => FCons (EUn UNot (cexpr a)) end.
  Definition top_ok (t : top) : Prop := match t with PCmp op c _ _ _ => cop_of op = Some c | _ => True end.
  Definition top_locs (t : top) : list loc := match t with PAtom _ _ => [] | PCmp _ _ _ _ l | PNot _ l => [l] end.
  Definition top_deps (t : top) : list dep :=
    match t with
    | PAtom p cs => atom_deps foreign nb ar p (map cloc cs)
    | PCmp op _ a b l => (match op with OEq => [DEq (cloc a) (cloc b)] | _ => [] end) ++ [DBin (cloc a) (cloc b) l]
    | PNot a l => [DUn (cloc a) l]
    end.
  Definition top_lit (t : top) : lit :=
    match t with
    | PAtom p cs => LAtom (mkAtom p (map cterm cs))
    | PCmp _ c a b _ => LBin c (cterm a) (cterm b)
    | PNot a _ => LNot (cterm a)
    end.
  Record forms (fs : list formula) (c : lctx) (lits : list lit) (ts : list top) (ns : list node) (n n1 : loc) (k k1 : nat) : Prop := mkForms {
    fm_seg : seg fr ns n n1 k k1;
    fm_top : map top_form ts = fs;
    fm_ok : forall t, In t ts -> top_ok t;
    fm_kids : forall t x, In t ts -> In x (top_kids t) -> at_node fr ns x;
    fm_sub : forall P, inherited P -> (forall t x, In t ts -> In x (top_kids t) -> P (cexpr x)) -> forall x, In x ns -> P (nd_expr x);
    fm_own : forall t l, In t ts -> In l (top_locs t) -> n <= l < n1 /\ forall x, In x ns -> nd_loc x <> l;
    fm_deps : forall d, In d (lc_deps c) <-> (exists t, In t ts /\ In d (top_deps t)) \/ exists x, In x ns /\ In d (node_deps x);
    fm_vars : forall v l, In (v, l) (lc_vars c) <-> exists x, In x ns /\ nd_expr x = EVar v /\ nd_loc x = l;
    fm_cons : forall l, In l (lc_cons c) <-> exists t, In t ts /\ In l (top_locs t);
    fm_lits : forall l, In l lits <-> (exists t, In t ts /\ l = top_lit t) \/ exists x, In x ns /\ In l (node_lits fr x) }.
  Lemma seg_weak : forall a n n' n1 k k1, n' <= n -> seg fr a n n1 k k1 -> seg fr a n' n1 k k1.
  Proof. intros a n n' n1 k k1 L [A1 A2 A3 A4 A5 A6 A7 A8]. constructor; auto; [lia|]. intros x I. apply A3 in I. lia. Qed.
  Lemma node_vars_In : forall ns v l, In (v, l) (flat_map node_vars ns) <-> exists x, In x ns /\ nd_expr x = EVar v /\ nd_loc x = l.
  Proof.
    intros ns v l. rewrite in_flat_map. split.
    - intros (x & I & J). exists x. split; auto. unfold node_vars in J. destruct (nd_expr x); try destruct J; try contradiction. injection H as <- <-. auto.
    - intros (x & I & E & <-). exists x. split; auto. unfold node_vars. rewrite E. left. auto.
  Qed.
  Lemma form_ok : forall f n k, (forall p l, f <> FNeg p l) -> forall lits k1, flat_lit fr f k = Some (lits, k1) ->
    exists t ns c n1, walk_formula foreign nb ar f n = (c, n1) /\ forms [f] c lits [t] ns n n1 k k1.
  Proof.
    intros f n k NN lits k1 H. destruct f as [p l|p l|e| | |]; try discriminate H.
    - cbn [flat_lit] in H. destruct (@args_ok fr l (proj2 (Forall_forall _ _) (fun e _ => nodes_all fr e)) n k) as (cs & ns & n1 & k1' & E & S0 & C & M & W & F).
      rewrite F in H. injection H as <- <-. cbn [walk_formula]. rewrite W. exists (PAtom p cs), ns. eexists. exists n1. split; [reflexivity|]. rewrite lc_app_mk. constructor.
      + exact S0.
      + cbn [map top_form]. rewrite M. reflexivity.
      + intros t [<-|[]]. exact I.
      + intros t x [<-|[]]. apply C.
      + intros P Q K x J. apply (@args_sub fr P l (proj2 (Forall_forall _ _) (fun e _ => @nodes_sub fr P Q e)) n k); [|rewrite E; exact J].
        intros e Je. rewrite <- M in Je. apply in_map_iff in Je. destruct Je as (x' & <- & Jx'). apply (K (PAtom p cs)); [left; auto|exact Jx'].
      + intros t l0 [<-|[]] [].
      + intros d. cbn [lc_deps]. rewrite in_app_iff, in_flat_map. split; intros [H|H]; auto; [left; exists (PAtom p cs); split; [left|]; auto|]. destruct H as (t & [<-|[]] & H). auto.
      + intros v l0. cbn [lc_vars app]. apply node_vars_In.
      + intros l0. cbn [lc_cons app]. split; [intros []|]. intros (t & [<-|[]] & []).
      + intros l0. cbn [In]. rewrite in_flat_map. split; intros [H|H]; auto; [left; exists (PAtom p cs); split; [left|]; auto|]. destruct H as (t & [<-|[]] & ->). auto.
    - exfalso. eapply NN. reflexivity.
    - cbn [flat_lit] in H. destruct e as [| | |op a b|op a| | |]; try discriminate H.
      + destruct (cop_of op) as [cc|] eqn:Ec; [|discriminate H]. cbn [obnd] in H.
        destruct (nodes_all fr a (S n) k) as (na & n1 & k1' & E1 & S1 & R1 & W1 & F1). destruct (nodes_all fr b n1 k1') as (nb' & n2 & k2 & E2 & S2 & R2 & W2 & F2).
        rewrite F1, F2 in H. injection H as <- <-. cbn [walk_formula walk_expr]. rewrite W1, W2. cbn [snd].
        exists (PCmp op cc (S n, term_of fr a k, a) (n1, term_of fr b k1', b) n), (na ++ nb'). eexists. exists n2. split; [reflexivity|]. rewrite !lc_app_mk.
        assert (AS : is_add_sub op = false) by (destruct op; try discriminate Ec; reflexivity). rewrite AS.
        pose proof (seg_app S1 S2) as SA. constructor.
        * eapply seg_weak; [|exact SA]. lia.
        * reflexivity.
        * intros t [<-|[]]. exact Ec.
        * intros t x [<-|[]] [<-|[<-|[]]]; apply at_app; auto.
        * intros P Q K x J. apply in_app_or in J. pose proof (K _ (S n, term_of fr a k, a) (or_introl eq_refl) (or_introl eq_refl)) as Ka. pose proof (K _ (n1, term_of fr b k1', b) (or_introl eq_refl) (or_intror (or_introl eq_refl))) as Kb.
          destruct J as [J|J]; [apply (@nodes_sub fr P Q a (S n) k Ka); rewrite E1; exact J|apply (@nodes_sub fr P Q b n1 k1' Kb); rewrite E2; exact J].
        * intros t l [<-|[]] [<-|[]]. pose proof (sg_n SA). split; [lia|]. intros x J. apply (sg_loc SA) in J. lia.
        * intros d. cbn [lc_deps]. rewrite !in_app_iff. split.
          -- intros [H|[H|H]].
             ++ left. eexists. split; [left; reflexivity|]. cbn [top_deps cloc fst]. apply in_or_app. left. destruct op; auto.
             ++ destruct H as [<-|[]]. left. eexists. split; [left; reflexivity|]. cbn [top_deps cloc fst]. apply in_or_app. right. left. auto.
             ++ right. rewrite <- in_app_iff, <- flat_map_app, in_flat_map in H. exact H.
          -- intros [(t & [<-|[]] & H)|H].
             ++ cbn [top_deps cloc fst] in H. apply in_app_or in H. destruct H as [H|H]; [left; destruct op; auto|]. right. left. auto.
             ++ right. right. rewrite <- in_app_iff, <- flat_map_app, in_flat_map. exact H.
        * intros v l. cbn [lc_vars app]. rewrite <- flat_map_app. apply node_vars_In.
        * intros l. cbn [lc_cons app]. split; [intros [<-|[]]; eexists; split; [left; reflexivity|left; auto]|]. intros (t & [<-|[]] & H). exact H.
        * intros l. cbn [In]. rewrite <- flat_map_app, in_flat_map. split; intros [H|H]; auto; [left; eexists; split; [left; reflexivity|auto]|]. destruct H as (t & [<-|[]] & ->). auto.
      + destruct op; try discriminate H. destruct (nodes_all fr a (S n) k) as (na & n1 & k1' & E1 & S1 & R1 & W1 & F1).
        rewrite F1 in H. injection H as <- <-. cbn [walk_formula walk_expr]. rewrite W1.
        exists (PNot (S n, term_of fr a k, a) n), na. eexists. exists n1. split; [reflexivity|]. rewrite !lc_app_mk. constructor.
        * eapply seg_weak; [|exact S1]. lia.
        * reflexivity.
        * intros t [<-|[]]. exact I.
        * intros t x [<-|[]] [<-|[]]; auto.
        * intros P Q K x J. pose proof (K _ (S n, term_of fr a k, a) (or_introl eq_refl) (or_introl eq_refl)) as Ka.
          apply (@nodes_sub fr P Q a (S n) k Ka). rewrite E1. exact J.
        * intros t l [<-|[]] [<-|[]]. pose proof (sg_n S1). split; [lia|]. intros x J. apply (sg_loc S1) in J. lia.
        * intros d. cbn [lc_deps app In]. rewrite in_flat_map. split; intros [H|H]; auto; [left; eexists; split; [left; reflexivity|left; auto]|].
          destruct H as (t & [<-|[]] & [H|[]]). auto.
        * intros v l. cbn [lc_vars app]. apply node_vars_In.
        * intros l. cbn [lc_cons app]. split; [intros [<-|[]]; eexists; split; [left; reflexivity|left; auto]|]. intros (t & [<-|[]] & H). exact H.
        * intros l. cbn [In]. rewrite in_flat_map. split; intros [H|H]; auto; [left; eexists; split; [left; reflexivity|auto]|]. destruct H as (t & [<-|[]] & ->). auto.
  Qed.
  Lemma forms_app : forall fs c lits ts ns n n1 k k1 fs' c' lits' ts' ns' n2 k2, forms fs c lits ts ns n n1 k k1 -> forms fs' c' lits' ts' ns' n1 n2 k1 k2 ->
    forms (fs ++ fs') (lc_app c c') (lits ++ lits') (ts ++ ts') (ns ++ ns') n n2 k k2.
  Proof.
    intros fs c lits ts ns n n1 k k1 fs' c' lits' ts' ns' n2 k2 [A1 A2 A3 A4 A0 A5 A6 A7 A8 A9] [B1 B2 B3 B4 B0 B5 B6 B7 B8 B9]. pose proof (sg_n A1). pose proof (sg_n B1). constructor.
    - eapply seg_app; eauto.
    - rewrite map_app. congruence.
    - intros t J. apply in_app_or in J. destruct J; auto.
    - intros t x J Jx. apply at_app. apply in_app_or in J. destruct J; eauto.
    - intros P Q K x J. apply in_app_or in J. destruct J as [J|J]; [refine (A0 P Q _ x J)|refine (B0 P Q _ x J)]; intros t y It Iy; refine (K t y _ Iy); apply in_or_app; auto.
    - intros t l J Jl. apply in_app_or in J. destruct J as [J|J].
      + destruct (A5 t l J Jl) as [R Q]. split; [lia|]. intros x Jx. apply in_app_or in Jx. destruct Jx as [Jx|Jx]; auto. apply (sg_loc B1) in Jx. lia.
      + destruct (B5 t l J Jl) as [R Q]. split; [lia|]. intros x Jx. apply in_app_or in Jx. destruct Jx as [Jx|Jx]; auto. apply (sg_loc A1) in Jx. lia.
    - intros d. cbn [lc_app lc_deps]. rewrite in_app_iff, A6, B6. split.
      + intros [[(t & I & J)|(t & I & J)]|[(t & I & J)|(t & I & J)]]; [left|right|left|right]; exists t; split; auto; apply in_or_app; auto.
      + intros [(t & I & J)|(t & I & J)]; apply in_app_or in I; destruct I; eauto 6.
    - intros v l. cbn [lc_app lc_vars]. rewrite in_app_iff, A7, B7. split.
      + intros [(x & I & J)|(x & I & J)]; exists x; split; auto; apply in_or_app; auto.
      + intros (x & I & J). apply in_app_or in I. destruct I; eauto.
    - intros l. cbn [lc_app lc_cons]. rewrite in_app_iff, A8, B8. split.
      + intros [(x & I & J)|(x & I & J)]; exists x; split; auto; apply in_or_app; auto.
      + intros (x & I & J). apply in_app_or in I. destruct I; eauto.
    - intros l. rewrite in_app_iff, A9, B9. split.
      + intros [[(t & I & J)|(t & I & J)]|[(t & I & J)|(t & I & J)]]; [left|right|left|right]; exists t; split; auto; apply in_or_app; auto.
      + intros [(t & I & J)|(t & I & J)]; apply in_app_or in I; destruct I; eauto 6.
  Qed.
  Lemma forms_ok : forall fs n k, (forall f, In f fs -> forall p l, f <> FNeg p l) -> forall lits k1, flat_lits fr fs k = Some (lits, k1) ->
    exists ts ns c n1, walk_formulas foreign nb ar fs n = (c, n1) /\ forms fs c lits ts ns n n1 k k1.
  Proof.
    induction fs as [|f fs IH]; intros n k NN lits k1 H.
    - injection H as <- <-. exists [], [], lc_empty, n. split; [reflexivity|]. constructor; try (intros t x []; fail); try (intros t []; fail).
      + apply seg_nil.
      + reflexivity.
      + intros P _ _ x [].
      + intros d. cbn. split; [intros []|]. intros [(t & [] & _)|(t & [] & _)].
      + intros v l. cbn. split; [intros []|]. intros (t & [] & _).
      + intros l. cbn. split; [intros []|]. intros (t & [] & _).
      + intros l. cbn. split; [intros []|]. intros [(t & [] & _)|(t & [] & _)].
    - cbn [flat_lits] in H. destruct (flat_lit fr f k) as [[l1 k']|] eqn:E1; [|discriminate H]. cbn [obnd fst snd] in H.
      destruct (flat_lits fr fs k') as [[l2 k2]|] eqn:E2; [|discriminate H]. cbn [obnd fst snd] in H. injection H as <- <-.
      destruct (@form_ok f n k (NN f (or_introl eq_refl)) _ _ E1) as (t & ns & c & n1 & W1 & F1).
      destruct (IH n1 k' (fun g J => NN g (or_intror J)) _ _ E2) as (ts & ns' & c' & n2 & W2 & F2).
      exists (t :: ts), (ns ++ ns'), (lc_app c c'), n2. cbn [walk_formulas]. rewrite W1, W2. split; auto. exact (forms_app F1 F2).
  Qed.
End Forms.
