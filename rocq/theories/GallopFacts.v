(** Facts about the galloping searches. *)
From Coq Require Import List Arith Bool Lia Sorting.Sorted.
From Verif Require Import Order Value Prov ListAux SortedCol.
Import ListNotations.
Set Implicit Arguments.

(** Specification: [p] holds on a prefix of [s] and nowhere after it. *)
Definition monotone {A} (p : A -> bool) (s : list A) : Prop :=
  forall i j x y, i <= j -> nth_error s i = Some x -> nth_error s j = Some y -> p y = true -> p x = true.

Lemma monotone_at_gen : forall A (p : A -> bool) s, monotone p s ->
  forall i x, nth_error s i = Some x -> p x = true <-> i < prefix_len p s.
Proof.
  unfold monotone. induction s as [|a s IH]; intros M i x H.
  - destruct i; discriminate.
  - simpl. destruct (p a) eqn:Ea.
    + destruct i; simpl in H.
      * injection H as <-. split; [lia|auto].
      * rewrite (IH) with (x := x) (i := i); auto; try lia.
        intros i' j x' y' L X Y. apply (M (S i') (S j)); simpl; auto; lia.
    + split; [|lia]. intros Hx.
      rewrite (M 0 i a x) in Ea; auto; [discriminate|lia].
Qed.

Lemma gallop_index_nth : forall A (p : A -> bool) s b,
  gallop_index s b p = match nth_error s 0 with
                       | Some x => if p x then S (gallop_core p s b) else b | None => b end.
Proof. intros; destruct s; reflexivity. Qed.

Section G.
  Context {A : Type} (p : A -> bool) (s : list A).
  Hypothesis M : monotone p s.

  Lemma monotone_at : forall i x, nth_error s i = Some x -> p x = true <-> i < prefix_len p s.
  Proof. exact (monotone_at_gen M). Qed.

  Lemma at_lt : forall i, i < prefix_len p s <-> exists x, nth_error s i = Some x /\ p x = true.
  Proof.
    intros i. split.
    - intros H. pose proof (prefix_len_le p s).
      destruct (nth_error s i) eqn:E.
      + exists a; split; auto. apply (monotone_at i E); auto.
      + apply nth_error_None in E; lia.
    - intros (x & H1 & H2). apply (monotone_at i H1); auto.
  Qed.

  Lemma at_ge : forall i, prefix_len p s <= i ->
    match nth_error s i with Some x => p x = false | None => True end.
  Proof.
    intros i H. destruct (nth_error s i) eqn:E; auto.
    destruct (p a) eqn:Ea; auto. apply (monotone_at i E) in Ea. lia.
  Qed.

  Let pp := prefix_len p s.

  Fixpoint pow2 (k : nat) : nat := match k with 0 => 1 | S j => 2 * pow2 j end.
  Lemma pow2_pos : forall k, 1 <= pow2 k.
  Proof. induction k; simpl; lia. Qed.
  Lemma pow2_gt : forall k, k < pow2 k.
  Proof. induction k; simpl; lia. Qed.

  (** the doubling phase: afterwards the boundary is within [step]. *)
  Lemma gallop_up_spec : forall fuel b k b' st,
    gallop_up fuel p s b (pow2 k) = (b', st) ->
    length s <= b + fuel \/ (exists x, nth_error s (b + pow2 k) = Some x /\ p x = true) \/ pp <= b + pow2 k ->
    b < pp ->
    pp - b <= fuel ->
    exists k', st = pow2 k' /\ b <= b' /\ b' < pp /\ pp <= b' + st.
  Proof.
    induction fuel; simpl; intros b k b' st H _ Hb Hf.
    - injection H as <- <-. lia.
    - destruct (nth_error s (b + pow2 k)) eqn:E.
      + destruct (p a) eqn:Ea.
        * assert (b + pow2 k < pp) by (apply (monotone_at _ E); auto).
          pose proof (pow2_pos k).
          change (pow2 k + (pow2 k + 0)) with (pow2 (S k)) in H.
          apply IHfuel in H as (k' & -> & ? & ? & ?); auto; try lia.
          -- exists k'; repeat split; lia.
          -- destruct (nth_error s (b + pow2 k + pow2 (S k))) eqn:E2.
             ++ destruct (p a0) eqn:E3; [right; left; eauto|].
                right; right. destruct (Nat.le_gt_cases pp (b + pow2 k + pow2 (S k))) as [|L]; auto.
                apply (proj2 (monotone_at _ E2)) in L. congruence.
             ++ right; right. apply nth_error_None in E2. unfold pp.
                pose proof (prefix_len_le p s). lia.
        * injection H as <- <-. exists k. repeat split; auto.
          destruct (Nat.le_gt_cases pp (b + pow2 k)) as [|L]; auto.
          apply (proj2 (monotone_at _ E)) in L. congruence.
      + injection H as <- <-. exists k. repeat split; auto.
        apply nth_error_None in E. pose proof (prefix_len_le p s). unfold pp; lia.
  Qed.

  Lemma gallop_down_zero : forall fuel b, gallop_down fuel p s b 0 = b.
  Proof. destruct fuel; simpl; auto. Qed.

  (** the halving phase: the boundary is within [2*step]. *)
  Lemma gallop_down_spec : forall k fuel b,
    k < fuel -> b < pp -> pp <= b + 2 * pow2 k ->
    gallop_down fuel p s b (pow2 k) = pp - 1.
  Proof.
    induction k; intros fuel b Hf Hb Hp; (destruct fuel; [lia|]); cbn [gallop_down].
    - simpl pow2 in *. replace (1 =? 0) with false by reflexivity. simpl Nat.div2.
      rewrite gallop_down_zero.
      destruct (nth_error s (b + 1)) eqn:E.
      + destruct (p a) eqn:Ea.
        * apply (monotone_at _ E) in Ea. unfold pp in *. lia.
        * assert (~ b + 1 < pp). { intros L. apply (proj2 (monotone_at _ E)) in L. congruence. }
          lia.
      + apply nth_error_None in E. pose proof (prefix_len_le p s). unfold pp in *; lia.
    - pose proof (pow2_pos (S k)). replace (pow2 (S k) =? 0) with false by (symmetry; apply Nat.eqb_neq; lia).
      replace (Nat.div2 (pow2 (S k))) with (pow2 k)
        by (change (pow2 (S k)) with (2 * pow2 k); rewrite Nat.div2_double; auto).
      apply IHk; try lia.
      + destruct (nth_error s (b + pow2 (S k))) eqn:E; auto.
        destruct (p a) eqn:Ea; auto. apply (monotone_at _ E) in Ea; auto.
      + destruct (nth_error s (b + pow2 (S k))) eqn:E.
        * destruct (p a) eqn:Ea.
          -- simpl in *. lia.
          -- assert (~ b + pow2 (S k) < pp). { intros L. apply (proj2 (monotone_at _ E)) in L. congruence. }
             simpl in *; lia.
        * apply nth_error_None in E. pose proof (prefix_len_le p s). unfold pp in *; simpl in *; lia.
  Qed.

  Lemma gallop_core_lt : forall b, b < pp -> gallop_core p s b = pp - 1.
  Proof.
    intros b Hb. unfold gallop_core.
    destruct (gallop_up (length s) p s b 1) as [b' st] eqn:E.
    pose proof (prefix_len_le p s) as PL. fold pp in PL.
    destruct (@gallop_up_spec (length s) b 0 b' st E) as (k & -> & H1 & H2 & H3); auto; try lia.
    destruct k.
    - simpl. rewrite ?gallop_down_zero. simpl in *. lia.
    - change (pow2 (S k)) with (2 * pow2 k). rewrite Nat.div2_double.
      pose proof (pow2_gt (S k)). apply gallop_down_spec; simpl in *; lia.
  Qed.

  Lemma gallop_core_ge : forall b, pp <= S b -> gallop_core p s b = b.
  Proof.
    intros b Hb. unfold gallop_core.
    assert (E : gallop_up (length s) p s b 1 = (b, 1)).
    { destruct (length s); simpl; auto. pose proof (@at_ge (b + 1)) as G.
      destruct (nth_error s (b + 1)); auto. rewrite G; auto. unfold pp in Hb. lia. }
    rewrite E. reflexivity.
  Qed.

  (** Exact result of [gallop_index] on a monotone predicate. *)
  Lemma gallop_index_exact : forall b,
    gallop_index s b p = if 0 <? pp then Nat.max (S b) pp else b.
  Proof.
    intros b. rewrite gallop_index_nth. destruct (nth_error s 0) eqn:E.
    - pose proof (monotone_at 0 E) as M1. fold pp in M1. destruct (p a) eqn:Ea.
      + assert (0 < pp) by (apply M1; auto).
        replace (0 <? pp) with true by (symmetry; apply Nat.ltb_lt; lia).
        destruct (Nat.le_gt_cases pp (S b)).
        * rewrite gallop_core_ge by auto. lia.
        * rewrite gallop_core_lt by lia. lia.
      + replace (0 <? pp) with false; auto. symmetry. apply Nat.ltb_ge.
        destruct (Nat.le_gt_cases pp 0); auto.
        assert (false = true) by (apply M1; lia). discriminate.
    - apply nth_error_None in E. pose proof (prefix_len_le p s). fold pp in H.
      replace pp with 0 by lia. reflexivity.
  Qed.

  Lemma gallop_index_zero : gallop_index s 0 p = prefix_len p s.
  Proof.
    rewrite gallop_index_exact. fold pp. destruct (0 <? pp) eqn:E.
    - apply Nat.ltb_lt in E. lia.
    - apply Nat.ltb_ge in E. lia.
  Qed.

  Lemma search_ahead_exact : forall id, 0 < id ->
    search_ahead s id p = if id <=? pp then Some pp else None.
  Proof.
    intros id Hid. unfold search_ahead. destruct (nth_error s (id - 1)) eqn:E.
    - pose proof (monotone_at _ E) as M1. fold pp in M1. destruct (p a) eqn:Ea.
      + assert (id - 1 < pp) by (apply M1; auto).
        rewrite gallop_core_lt by auto.
        replace (id <=? pp) with true by (symmetry; apply Nat.leb_le; lia). f_equal; lia.
      + replace (id <=? pp) with false; auto. symmetry; apply Nat.leb_gt.
        destruct (Nat.le_gt_cases id pp); auto.
        assert (false = true) by (apply M1; lia). discriminate.
    - apply nth_error_None in E. pose proof (prefix_len_le p s). fold pp in H.
      replace (id <=? pp) with false; auto. symmetry; apply Nat.leb_gt. lia.
  Qed.
End G.

(** Without monotonicity the result is still bounded when starting in range. *)
Lemma gallop_up_le : forall A fuel (p : A -> bool) s b k b' st,
  gallop_up fuel p s b k = (b', st) -> b' = b \/ b' < length s.
Proof.
  induction fuel; simpl; intros.
  - left; congruence.
  - destruct (nth_error s (b + k)) eqn:E; [destruct (p a)|].
    + apply IHfuel in H as [->|]; auto. right. apply nth_error_Some. congruence.
    + left; congruence.
    + left; congruence.
Qed.

Lemma gallop_down_le : forall A fuel (p : A -> bool) s b k,
  gallop_down fuel p s b k = b \/ gallop_down fuel p s b k < length s.
Proof.
  induction fuel; simpl; intros; auto.
  destruct (k =? 0); auto.
  destruct (nth_error s (b + k)) eqn:E; [destruct (p a)|]; auto.
  destruct (IHfuel p s (b + k) (Nat.div2 k)) as [->|]; auto.
  right. apply nth_error_Some. congruence.
Qed.

Lemma gallop_index_le : forall A (p : A -> bool) s, gallop_index s 0 p <= length s.
Proof.
  intros. unfold gallop_index. destruct s eqn:E; auto. destruct (p a); [|simpl; lia].
  rewrite <- E. unfold gallop_core. destruct (gallop_up (length s) p s 0 1) as [b st] eqn:U.
  apply gallop_up_le in U. pose proof (gallop_down_le st p s b (Nat.div2 st)) as D.
  assert (0 < length s) by (subst; simpl; lia). lia.
Qed.

(** A sorted list makes [x < key] monotone, for any projection that is
    monotone. *)
Lemma prefix_len_sorted_monotone : forall A (lt : A -> A -> Prop) (p : A -> bool) s,
  StronglySorted lt s ->
  (forall x y, lt x y -> p y = true -> p x = true) ->
  monotone p s.
Proof.
  intros A lt p s S H. unfold monotone. induction S; intros i j x y L X Y PY.
  - destruct i; discriminate.
  - destruct i, j; simpl in *; try lia.
    + congruence.
    + injection X as <-. rewrite Forall_forall in H0. apply (H a y); auto.
      apply H0. eapply nth_error_In; eauto.
    + eapply (IHS i j); eauto; lia.
Qed.
