(** Coverage and sortedness facts about the schedulers and [changed]. *)
From Coq Require Import List Arith Bool Sorted Permutation Lia.
From Verif Require Import Order Value Prov ListAux SortedCol GallopFacts SortedColFacts
  Schedulers Relation View.
Import ListNotations.
Set Implicit Arguments.

Section Facts.
  Variable P : Prov.
  Notation elem := (elem P).
  Implicit Types (b ta wl rw l m : list elem) (st : list (list elem)).

  Definition inB (st : list (list elem)) (e : elem) : Prop := exists b, In b st /\ In e b.

  Lemma inB_cons : forall b st e, inB (b :: st) e <-> In e b \/ inB st e.
  Proof.
    intros. unfold inB. simpl. split.
    - intros (c & [->|I] & J); eauto.
    - intros [I|(c & I & J)]; eauto.
  Qed.
  Lemma inB_nil : forall e, ~ inB [] e.
  Proof. intros e (c & [] & _). Qed.
  Lemma inB_app : forall s1 s2 e, inB (s1 ++ s2) e <-> inB s1 e \/ inB s2 e.
  Proof.
    induction s1; simpl; intros.
    - split; [auto|]. intros [I|I]; auto. destruct (inB_nil I).
    - rewrite !inB_cons, IHs1. tauto.
  Qed.
  Lemma inB_rev : forall s e, inB (rev s) e <-> inB s e.
  Proof.
    intros. unfold inB. split; intros (c & I & J); exists c; split; auto.
    - apply in_rev; auto.
    - apply in_rev in I; auto.
  Qed.

  (** ** Shape of phase 1 *)

  Lemma lset_map_fst_same : forall i ta x g, nth_error ta i = Some x ->
    map fst (lset i (fst x, g) ta) = map fst ta.
  Proof. intros. apply map_fst_lset; auto. Qed.

  Lemma p1_batch_shape : forall gal b index ta rm b' ta' rm',
    p1_batch gal b index ta rm = (b', ta', rm') ->
    map fst ta' = map fst ta /\
    (forall x, In x b' -> exists y, In y b /\ fst y = fst x) /\
    (ssorted b -> ssorted b').
  Proof.
    induction b as [|s r IH]; cbn [p1_batch]; intros index ta rm b' ta' rm' E.
    - injection E as <- <- <-. split; [auto|]. split; [intros x []|auto].
    - set (i := next_index gal ta index (fst s)) in *; clearbody i.
      assert (K : forall g (r' : list elem),
        (forall x, In x r' -> exists y, In y r /\ fst y = fst x) -> (ssorted r -> ssorted r') ->
        (forall x, In x ((fst s, g) :: r') -> exists y, In y (s :: r) /\ fst y = fst x) /\
        (ssorted (s :: r) -> ssorted ((fst s, g) :: r' : list elem))).
      { intros g r' A B. split.
        - intros x [<-|I]; [exists s; simpl; auto|]. destruct (A x I) as (y & Y & Z). exists y; simpl; auto.
        - intros S. apply ssorted_cons_inv in S as [S F]. constructor; [apply B; auto|].
          apply Forall_forall. intros x I. destruct (A x I) as (y & Y & Z).
          rewrite Forall_forall in F. specialize (F y Y). unfold elt in *. simpl. rewrite <- Z; auto. }
      destruct (nth_error ta i) as [x|] eqn:N.
      + destruct (teqb (fst x) (fst s)) eqn:T.
        * destruct (psat P (snd s) (padd P (snd s) (snd x))) eqn:Q.
          -- destruct (p1_batch gal r i ta (i :: rm)) as [[r' ta1] rm1] eqn:R.
             injection E as <- <- <-. apply IH in R as (A & B & C). split; [assumption|].
             destruct (K (padd P (snd s) (snd x)) r' B C) as (K1 & K2). auto.
          -- apply IH in E as (A & B & C). split; [rewrite A; apply lset_map_fst_same; auto|].
             split; [intros y I; destruct (B y I) as (z & Z & W); exists z; simpl; auto|].
             intros S. apply C. apply ssorted_cons_inv in S as [S _]; auto.
        * destruct (p1_batch gal r i ta rm) as [[r' ta1] rm1] eqn:R.
          injection E as <- <- <-. apply IH in R as (A & B & C). split; [assumption|].
          destruct (K (snd s) r' B C) as (K1 & K2). destruct s; auto.
      + destruct (p1_batch gal r i ta rm) as [[r' ta1] rm1] eqn:R.
        injection E as <- <- <-. apply IH in R as (A & B & C). split; [assumption|].
        destruct (K (snd s) r' B C) as (K1 & K2). destruct s; auto.
  Qed.

  Lemma p1_batches_shape : forall st ta rm st' ta' rm',
    p1_batches st ta rm = (st', ta', rm') ->
    map fst ta' = map fst ta /\ (Forall (@ssorted P) st -> Forall (@ssorted P) st').
  Proof.
    induction st as [|b r IH]; cbn [p1_batches]; intros ta rm st' ta' rm' E.
    - injection E as <- <- <-; auto.
    - destruct (p1_batch (4 * length b <? length ta) b 0 ta rm) as [[b1 ta1] rm1] eqn:E1.
      destruct (p1_batches r ta1 rm1) as [[r' ta2] rm2] eqn:E2. injection E as <- <- <-.
      apply p1_batch_shape in E1 as (A & _ & C). apply IH in E2 as (A2 & C2).
      split; [congruence|]. intros F; inversion F; subst. constructor; auto.
  Qed.

  Lemma phase1_ssorted : forall ta st st' ta', phase1 ta st = (st', ta') ->
    ssorted ta -> Forall (@ssorted P) st -> ssorted ta' /\ Forall (@ssorted P) st'.
  Proof.
    intros ta st st' ta' E S F. unfold phase1 in E. destruct ta as [|x r].
    - injection E as <- <-; auto.
    - destruct (p1_batches st (x :: r) []) as [[st1 ta1] rm1] eqn:E1. injection E as <- <-.
      apply p1_batches_shape in E1 as (A & C). split; auto.
      rewrite retain_ifilter. apply ifilter_sublist_ssorted. eapply ssorted_map_fst; [symmetry; eauto|auto].
  Qed.

  (** ** Coverage *)
  Variable V : view P.
  Notation covE := (covE V).
  Notation h := (vh V).
  Notation le := (vle V).

  Lemma covE_tuple : forall X t t' (g : ptag P), t = t' -> covE X (t, g) -> covE X (t', g).
  Proof. intros; subst; auto. Qed.

  (** Elements of [l] all covered. *)
  Definition covL (X : elem -> Prop) (l : list elem) : Prop := forall e, In e l -> covE X e.
  Definition covB (X : elem -> Prop) (st : list (list elem)) : Prop := forall e, inB st e -> covE X e.

  Lemma covL_cons : forall X e l, covL X (e :: l) <-> covE X e /\ covL X l.
  Proof.
    intros. unfold covL. simpl. split; [intros H; split; auto|].
    intros [A B] x [<-|I]; auto.
  Qed.
  Lemma covL_nil : forall X, covL X [].
  Proof. intros X e []. Qed.
  Lemma covL_app : forall X l m, covL X (l ++ m) <-> covL X l /\ covL X m.
  Proof.
    intros. unfold covL. split.
    - intros H; split; intros; apply H, in_or_app; auto.
    - intros [A B] e I. apply in_app_or in I as [I|I]; auto.
  Qed.
  Lemma covL_rev : forall X l, covL X (rev l) <-> covL X l.
  Proof.
    intros. unfold covL. setoid_rewrite <- in_rev. tauto.
  Qed.
  Lemma covB_cons : forall X b st, covB X (b :: st) <-> covL X b /\ covB X st.
  Proof.
    intros. unfold covB, covL. split.
    - intros H; split; intros; apply H, inB_cons; auto.
    - intros [A B] e I. apply inB_cons in I as [I|I]; auto.
  Qed.
  Lemma covB_nil : forall X, covB X [].
  Proof. intros X e I. destruct (inB_nil I). Qed.
  Lemma covB_rev : forall X st, covB X (rev st) <-> covB X st.
  Proof.
    intros. unfold covB. setoid_rewrite inB_rev. tauto.
  Qed.
  Lemma covB_app : forall X s1 s2, covB X (s1 ++ s2) <-> covB X s1 /\ covB X s2.
  Proof.
    intros. unfold covB. split.
    - intros H; split; intros; apply H, inB_app; auto.
    - intros [A B] e I. apply inB_app in I as [I|I]; auto.
  Qed.

  Lemma In_lset : forall A i (x : A) (l : list A) y, In y (lset i x l) -> y = x \/ In y l.
  Proof.
    induction i; destruct l; simpl; intros; try tauto.
    - destruct H; auto.
    - destruct H; auto. apply IHi in H; tauto.
  Qed.

  Lemma covL_lset : forall X i ta e, covL X ta -> covE X e -> covL X (lset i e ta).
  Proof. intros X i ta e A B y I. apply In_lset in I as [->|I]; auto. Qed.

  (** A covered updated list covers the element it replaced. *)
  Lemma In_lset_self : forall A i (x y : A) (l : list A), nth_error l i = Some y -> In x (lset i x l).
  Proof. induction i; destruct l; simpl; intros; try discriminate; auto. right; eauto. Qed.
  Lemma In_lset_other : forall A i (x y z : A) (l : list A), nth_error l i = Some y -> In z l -> z = y \/ In z (lset i x l).
  Proof.
    induction i; destruct l; simpl; intros; try discriminate.
    - injection H as ->. destruct H0; auto.
    - destruct H0; auto. destruct (IHi x _ _ _ H H0); auto.
  Qed.

  Lemma covL_lset_inv : forall X i ta x g, nth_error ta i = Some x ->
    le (h (snd x)) (h g) -> covL X (lset i (fst x, g) ta) -> covL X ta.
  Proof.
    intros X i ta x g N L C e I. destruct (In_lset_other i (fst x, g) _ _ N I) as [->|J]; auto.
    destruct x as [t k]. eapply covE_le; [apply L|]. apply C. eapply In_lset_self; eauto.
  Qed.

  (** *** Soundness of phase 1: everything comes from the inputs. *)
  Lemma p1_batch_sound : forall X gal b index ta rm b' ta' rm',
    p1_batch gal b index ta rm = (b', ta', rm') ->
    covL X b -> covL X ta -> covL X b' /\ covL X ta'.
  Proof.
    induction b as [|s r IH]; cbn [p1_batch]; intros index ta rm b' ta' rm' E CB CT.
    - injection E as <- <- <-. auto.
    - apply covL_cons in CB as [CS CB]. set (i := next_index gal ta index (fst s)) in *; clearbody i.
      destruct (nth_error ta i) as [x|] eqn:N.
      + destruct (teqb (fst x) (fst s)) eqn:T.
        * apply teqb_true in T.
          assert (CX : covE X (fst s, padd P (snd s) (snd x))).
          { apply covE_padd; [destruct s; auto|]. eapply covE_tuple; [apply T|].
            apply nth_error_In in N. apply CT in N. destruct x; auto. }
          destruct (psat P (snd s) (padd P (snd s) (snd x))) eqn:Q.
          -- destruct (p1_batch gal r i ta (i :: rm)) as [[r' ta1] rm1] eqn:R.
             injection E as <- <- <-. apply IH in R as [A B]; auto. split; auto.
             apply covL_cons; auto.
          -- apply IH in E; auto. apply covL_lset; auto. rewrite T; auto.
        * destruct (p1_batch gal r i ta rm) as [[r' ta1] rm1] eqn:R.
          injection E as <- <- <-. apply IH in R as [A B]; auto. split; auto. apply covL_cons; auto.
      + destruct (p1_batch gal r i ta rm) as [[r' ta1] rm1] eqn:R.
        injection E as <- <- <-. apply IH in R as [A B]; auto. split; auto. apply covL_cons; auto.
  Qed.

  Lemma p1_batches_sound : forall X st ta rm st' ta' rm',
    p1_batches st ta rm = (st', ta', rm') ->
    covB X st -> covL X ta -> covB X st' /\ covL X ta'.
  Proof.
    induction st as [|b r IH]; cbn [p1_batches]; intros ta rm st' ta' rm' E CB CT.
    - injection E as <- <- <-; auto.
    - apply covB_cons in CB as [C1 C2].
      destruct (p1_batch (4 * length b <? length ta) b 0 ta rm) as [[b1 ta1] rm1] eqn:E1.
      destruct (p1_batches r ta1 rm1) as [[r' ta2] rm2] eqn:E2. injection E as <- <- <-.
      apply (@p1_batch_sound X) in E1 as [A B]; auto. apply IH in E2 as [A2 B2]; auto.
      split; auto. apply covB_cons; auto.
  Qed.

  Lemma retain_In : forall f l e, In e (retain f l) -> In e l.
  Proof.
    intros f l e I. rewrite retain_ifilter in I. apply ifilter_In in I as (k & N & _).
    eapply nth_error_In; eauto.
  Qed.

  Lemma phase1_sound : forall X ta st st' ta', phase1 ta st = (st', ta') ->
    covB X st -> covL X ta -> covB X st' /\ covL X ta'.
  Proof.
    intros X ta st st' ta' E CB CT. unfold phase1 in E. destruct ta as [|x r].
    - injection E as <- <-; auto.
    - destruct (p1_batches st (x :: r) []) as [[st1 ta1] rm1] eqn:E1. injection E as <- <-.
      apply (@p1_batches_sound X) in E1 as [A B]; auto. split; auto.
      intros e I. apply retain_In in I; auto.
  Qed.

  (** *** Established tags only grow by saturated amounts. *)
  Lemma p1_batch_stable : sat_sound V -> forall X gal b index ta rm b' ta' rm',
    p1_batch gal b index ta rm = (b', ta', rm') -> covL X b -> covL X b'.
  Proof.
    intros SS X. induction b as [|s r IH]; cbn [p1_batch]; intros index ta rm b' ta' rm' E CB.
    - injection E as <- <- <-. auto.
    - apply covL_cons in CB as [CS CB]. set (i := next_index gal ta index (fst s)) in *; clearbody i.
      destruct (nth_error ta i) as [x|] eqn:N.
      + destruct (teqb (fst x) (fst s)) eqn:T.
        * destruct (psat P (snd s) (padd P (snd s) (snd x))) eqn:Q.
          -- destruct (p1_batch gal r i ta (i :: rm)) as [[r' ta1] rm1] eqn:R.
             injection E as <- <- <-. apply IH in R; auto. apply covL_cons; split; auto.
             apply SS in Q. destruct s as [t k]. simpl in *. eapply cov_le; [|apply CS]. simpl.
             eapply vle_trans; [apply vh_add_le|]. apply vadd_lub; [apply vle_refl|auto].
          -- apply IH in E; auto.
        * destruct (p1_batch gal r i ta rm) as [[r' ta1] rm1] eqn:R.
          injection E as <- <- <-. apply IH in R; auto. apply covL_cons; auto.
      + destruct (p1_batch gal r i ta rm) as [[r' ta1] rm1] eqn:R.
        injection E as <- <- <-. apply IH in R; auto. apply covL_cons; auto.
  Qed.

  Lemma phase1_stable : sat_sound V -> forall X ta st st' ta', phase1 ta st = (st', ta') ->
    covB X st -> covB X st'.
  Proof.
    intros SS X ta st st' ta' E CB. unfold phase1 in E. destruct ta as [|x r].
    - injection E as <- <-; auto.
    - destruct (p1_batches st (x :: r) []) as [[st1 ta1] rm1] eqn:E1. injection E as <- <-.
      revert E1. generalize (x :: r) (@nil nat) st1 ta1 rm1. clear - SS CB. revert CB.
      induction st as [|b s IH]; cbn [p1_batches]; intros CB ta rm st' ta' rm' E.
      + injection E as <- <- <-; auto.
      + apply covB_cons in CB as [C1 C2].
        destruct (p1_batch (4 * length b <? length ta) b 0 ta rm) as [[b1 ta1] rm1] eqn:E1.
        destruct (p1_batches s ta1 rm1) as [[r' ta2] rm2] eqn:E2. injection E as <- <- <-.
        apply covB_cons. split; [eapply p1_batch_stable; eauto | eapply IH; eauto].
  Qed.

  (** *** Completeness of phase 1: nothing is lost. *)

  (** Going backwards, what covers the outputs (all of [ta'], removed or not)
      covers the inputs. *)
  Lemma p1_batch_back : forall X gal b index ta rm b' ta' rm',
    p1_batch gal b index ta rm = (b', ta', rm') ->
    covL X b' -> covL X ta' -> covL X b /\ covL X ta.
  Proof.
    induction b as [|s r IH]; cbn [p1_batch]; intros index ta rm b' ta' rm' E CB CT.
    - injection E as <- <- <-. auto.
    - set (i := next_index gal ta index (fst s)) in *; clearbody i.
      destruct (nth_error ta i) as [x|] eqn:N.
      + destruct (teqb (fst x) (fst s)) eqn:T.
        * apply teqb_true in T.
          destruct (psat P (snd s) (padd P (snd s) (snd x))) eqn:Q.
          -- destruct (p1_batch gal r i ta (i :: rm)) as [[r' ta1] rm1] eqn:R.
             injection E as <- <- <-. apply covL_cons in CB as [CS CB].
             apply IH in R as [A B]; auto. split; auto. apply covL_cons; split; auto.
             apply covE_padd_l in CS. destruct s; auto.
          -- apply IH in E as [A B]; auto. split.
             ++ apply covL_cons; split; auto.
                assert (covE X (fst x, padd P (snd s) (snd x))) as C by (apply B; eapply In_lset_self; eauto).
                apply covE_padd_l in C. rewrite T in C. destruct s; auto.
             ++ eapply covL_lset_inv; eauto. eapply vle_trans; [|apply vh_add_ge]. apply vadd_r.
        * destruct (p1_batch gal r i ta rm) as [[r' ta1] rm1] eqn:R.
          injection E as <- <- <-. apply covL_cons in CB as [CS CB].
          apply IH in R as [A B]; auto. split; auto. apply covL_cons; auto.
      + destruct (p1_batch gal r i ta rm) as [[r' ta1] rm1] eqn:R.
        injection E as <- <- <-. apply covL_cons in CB as [CS CB].
        apply IH in R as [A B]; auto. split; auto. apply covL_cons; auto.
  Qed.

  Lemma p1_batches_back : forall X st ta rm st' ta' rm',
    p1_batches st ta rm = (st', ta', rm') ->
    covB X st' -> covL X ta' -> covB X st /\ covL X ta.
  Proof.
    induction st as [|b r IH]; cbn [p1_batches]; intros ta rm st' ta' rm' E CB CT.
    - injection E as <- <- <-; auto.
    - destruct (p1_batch (4 * length b <? length ta) b 0 ta rm) as [[b1 ta1] rm1] eqn:E1.
      destruct (p1_batches r ta1 rm1) as [[r' ta2] rm2] eqn:E2. injection E as <- <- <-.
      apply covB_cons in CB as [C1 C2]. apply IH in E2 as [A2 B2]; auto.
      apply (@p1_batch_back X) in E1 as [A B]; auto. split; auto. apply covB_cons; auto.
  Qed.

  (** Pending tags do not grow past what covers them, position by position. *)
  Definition tale (ta' ta : list elem) : Prop :=
    forall i x, nth_error ta' i = Some x -> exists y, nth_error ta i = Some y /\ fst y = fst x /\ le (h (snd x)) (h (snd y)).

  Lemma tale_refl : forall ta, tale ta ta.
  Proof. intros ta i x N. exists x. repeat split; auto. apply vle_refl. Qed.
  Lemma tale_trans : forall a b c, tale a b -> tale b c -> tale a c.
  Proof.
    intros a b c H1 H2 i x N. destruct (H1 _ _ N) as (y & N2 & E & L).
    destruct (H2 _ _ N2) as (z & N3 & E2 & L2). exists z. repeat split; try congruence.
    eapply vle_trans; eauto.
  Qed.

  Lemma p1_batch_tale : unsat_dom V -> forall gal b index ta rm b' ta' rm',
    p1_batch gal b index ta rm = (b', ta', rm') -> tale ta' ta.
  Proof.
    intros UD gal. induction b as [|s r IH]; cbn [p1_batch]; intros index ta rm b' ta' rm' E.
    - injection E as <- <- <-. apply tale_refl.
    - set (i := next_index gal ta index (fst s)) in *; clearbody i.
      destruct (nth_error ta i) as [x|] eqn:N.
      + destruct (teqb (fst x) (fst s)) eqn:T.
        * destruct (psat P (snd s) (padd P (snd s) (snd x))) eqn:Q.
          -- destruct (p1_batch gal r i ta (i :: rm)) as [[r' ta1] rm1] eqn:R.
             injection E as <- <- <-. eauto.
          -- apply IH in E. eapply tale_trans; [apply E|]. intros j y M.
             rewrite nth_error_lset in M. destruct (i =? j) eqn:J.
             ++ apply Nat.eqb_eq in J; subst j. unfold Prov.elem in N, M; rewrite N in M. injection M as <-. exists x.
                split; [auto|split; [auto|]]. simpl. apply UD in Q.
                eapply vle_trans; [apply vh_add_le|]. apply vadd_lub; [auto|apply vle_refl].
             ++ exists y. repeat split; auto. apply vle_refl.
        * destruct (p1_batch gal r i ta rm) as [[r' ta1] rm1] eqn:R.
          injection E as <- <- <-. eauto.
      + destruct (p1_batch gal r i ta rm) as [[r' ta1] rm1] eqn:R.
        injection E as <- <- <-. eauto.
  Qed.

  Lemma p1_batches_tale : unsat_dom V -> forall st ta rm st' ta' rm',
    p1_batches st ta rm = (st', ta', rm') -> tale ta' ta.
  Proof.
    intros UD. induction st as [|b r IH]; cbn [p1_batches]; intros ta rm st' ta' rm' E.
    - injection E as <- <- <-. apply tale_refl.
    - destruct (p1_batch (4 * length b <? length ta) b 0 ta rm) as [[b1 ta1] rm1] eqn:E1.
      destruct (p1_batches r ta1 rm1) as [[r' ta2] rm2] eqn:E2. injection E as <- <- <-.
      eapply tale_trans; [eapply IH; eauto | eapply p1_batch_tale; eauto].
  Qed.

  (** A removed pending element is below an established one. *)
  Lemma p1_batch_rm : forall gal b index ta rm b' ta' rm' i x,
    p1_batch gal b index ta rm = (b', ta', rm') -> In i rm' -> nth_error ta i = Some x ->
    In i rm \/ exists e, In e b' /\ fst e = fst x /\ le (h (snd x)) (h (snd e)).
  Proof.
    intros gal. induction b as [|s r IH]; cbn [p1_batch]; intros index ta rm b' ta' rm' j y E J M.
    - injection E as <- <- <-. auto.
    - set (i := next_index gal ta index (fst s)) in *; clearbody i.
      destruct (nth_error ta i) as [x|] eqn:N.
      + destruct (teqb (fst x) (fst s)) eqn:T.
        * apply teqb_true in T.
          destruct (psat P (snd s) (padd P (snd s) (snd x))) eqn:Q.
          -- destruct (p1_batch gal r i ta (i :: rm)) as [[r' ta1] rm1] eqn:R.
             injection E as <- <- <-. destruct (IH _ _ _ _ _ _ _ _ R J M) as [[<-|I]|(e & I & A & B)]; auto.
             ++ rewrite N in M. injection M as <-. right. exists (fst s, padd P (snd s) (snd x)).
                split; [left; auto|]. split; [auto|]. simpl. eapply vle_trans; [|apply vh_add_ge]. apply vadd_r.
             ++ right. exists e. split; [right; auto|auto].
          -- destruct (Nat.eq_dec i j) as [<-|D].
             ++ rewrite N in M. injection M as <-.
                assert (M : nth_error (lset i (fst x, padd P (snd s) (snd x)) ta) i = Some (fst x, padd P (snd s) (snd x))).
                { rewrite nth_error_lset, Nat.eqb_refl. unfold Prov.elem in N. rewrite N; auto. }
                destruct (IH _ _ _ _ _ _ _ _ E J M) as [I|(e & I & A & B)]; auto. right. exists e.
                split; [auto|]. split; [auto|]. simpl in B. eapply vle_trans; [|apply B].
                eapply vle_trans; [|apply vh_add_ge]. apply vadd_r.
             ++ eapply IH; eauto. rewrite nth_error_lset. apply Nat.eqb_neq in D. rewrite D; auto.
        * destruct (p1_batch gal r i ta rm) as [[r' ta1] rm1] eqn:R.
          injection E as <- <- <-. destruct (IH _ _ _ _ _ _ _ _ R J M) as [I|(e & I & A & B)]; auto.
          right. exists e. split; [right; auto|auto].
      + destruct (p1_batch gal r i ta rm) as [[r' ta1] rm1] eqn:R.
        injection E as <- <- <-. destruct (IH _ _ _ _ _ _ _ _ R J M) as [I|(e & I & A & B)]; auto.
        right. exists e. split; [right; auto|auto].
  Qed.

  Lemma p1_batches_rm : unsat_dom V -> forall st ta rm st' ta' rm' i x,
    p1_batches st ta rm = (st', ta', rm') -> In i rm' -> nth_error ta' i = Some x ->
    In i rm \/ exists e, inB st' e /\ fst e = fst x /\ le (h (snd x)) (h (snd e)).
  Proof.
    intros UD. induction st as [|b r IH]; cbn [p1_batches]; intros ta rm st' ta' rm' i x E J M.
    - injection E as <- <- <-. auto.
    - destruct (p1_batch (4 * length b <? length ta) b 0 ta rm) as [[b1 ta1] rm1] eqn:E1.
      destruct (p1_batches r ta1 rm1) as [[r' ta2] rm2] eqn:E2. injection E as <- <- <-.
      destruct (IH _ _ _ _ _ _ _ E2 J M) as [I|(e & I & A & B)].
      + destruct (p1_batches_tale UD _ _ _ E2 _ M) as (y & N & F1 & L1).
        destruct (p1_batch_tale UD _ _ _ _ _ E1 _ N) as (z & N2 & F2 & L2).
        eapply p1_batch_rm in E1 as [K|(e & K & A & B)]; [| |exact I|exact N2]; auto.
        right. exists e. split; [apply inB_cons; auto|]. split; [congruence|].
        eapply vle_trans; [|apply B]. eapply vle_trans; eauto.
      + right. exists e. split; [apply inB_cons; auto|auto].
  Qed.

  Lemma covE_dom : forall X (e x : elem), covE X e -> fst e = fst x -> le (h (snd x)) (h (snd e)) -> covE X x.
  Proof. intros X [t g] [u k] C E L. simpl in *; subst. eapply covE_le; eauto. Qed.

  Lemma phase1_back : unsat_dom V -> forall X ta st st' ta', phase1 ta st = (st', ta') ->
    covB X st' -> covL X ta' -> covB X st /\ covL X ta.
  Proof.
    intros UD X ta st st' ta' E CB CT. unfold phase1 in E. destruct ta as [|x r].
    - injection E as <- <-; auto.
    - destruct (p1_batches st (x :: r) []) as [[st1 ta1] rm1] eqn:E1. injection E as <- <-.
      eapply p1_batches_back; eauto. intros e I.
      apply In_nth_error in I as (i & N).
      destruct (existsb (Nat.eqb i) rm1) eqn:Q.
      + apply existsb_exists in Q as (j & J & Q). apply Nat.eqb_eq in Q; subst j.
        destruct (p1_batches_rm UD _ _ _ _ E1 J N) as [[]|(e' & K & A & B)].
        eapply covE_dom; [apply CB; eauto|auto|auto].
      + apply CT. rewrite retain_ifilter. apply ifilter_In. exists i. split; auto.
        simpl. rewrite Q; auto.
  Qed.

  (** *** Probing for a waiting element *)
  Lemma probe_sound : forall X w st, covE X w -> covB X st ->
    match probe w st with
    | PNot _ => True
    | PSat st' => covB X st'
    | PUnsat e st' => covE X e /\ covB X st'
    end.
  Proof.
    intros X w st CW. induction st as [|b r IH]; cbn [probe]; intros CB; auto.
    apply covB_cons in CB as [C1 C2]. specialize (IH C2).
    assert (SK : match match probe w r with PNot _ => PNot _ | PSat r' => PSat (b :: r') | PUnsat e r' => PUnsat e (b :: r') end
                 with PNot _ => True | PSat st' => covB X st' | PUnsat e st' => covE X e /\ covB X st' end).
    { destruct (probe w r); auto; [apply covB_cons; auto|]. destruct IH; split; auto. apply covB_cons; auto. }
    set (i := gallop_index b 0 _); clearbody i. destruct (nth_error b i) as [s|] eqn:N; auto.
    destruct (teqb (fst s) (fst w)) eqn:T; auto. apply teqb_true in T.
    assert (CS : covE X (fst s, padd P (snd s) (snd w))).
    { apply covE_padd; [apply nth_error_In in N; apply C1 in N; destruct s; auto|].
      eapply covE_tuple; [symmetry; apply T|]. destruct w; auto. }
    destruct (psat P (snd s) (padd P (snd s) (snd w))) eqn:Q.
    - apply covB_cons. split; auto. apply covL_lset; auto.
    - split; [rewrite <- T; auto|]. apply covB_cons. split; auto. intros e I. apply retain_In in I; auto.
  Qed.

  Lemma probe_stable : sat_sound V -> forall X w st, covB X st ->
    match probe w st with
    | PNot _ => True
    | PSat st' => covB X st'
    | PUnsat _ st' => covB X st'
    end.
  Proof.
    intros SS X w. induction st as [|b r IH]; cbn [probe]; intros CB; auto.
    apply covB_cons in CB as [C1 C2]. specialize (IH C2).
    assert (SK : match match probe w r with PNot _ => PNot _ | PSat r' => PSat (b :: r') | PUnsat e r' => PUnsat e (b :: r') end
                 with PNot _ => True | PSat st' => covB X st' | PUnsat _ st' => covB X st' end).
    { destruct (probe w r); auto; apply covB_cons; auto. }
    set (i := gallop_index b 0 _); clearbody i. destruct (nth_error b i) as [s|] eqn:N; auto.
    destruct (teqb (fst s) (fst w)) eqn:T; auto.
    destruct (psat P (snd s) (padd P (snd s) (snd w))) eqn:Q.
    - apply covB_cons. split; auto. apply covL_lset; auto. apply SS in Q.
      apply nth_error_In in N. apply C1 in N. eapply covE_dom; eauto. simpl.
      eapply vle_trans; [apply vh_add_le|]. apply vadd_lub; [apply vle_refl|auto].
    - apply covB_cons. split; auto. intros e I. apply retain_In in I; auto.
  Qed.

  Lemma probe_back : forall X w st,
    match probe w st with
    | PNot _ => True
    | PSat st' => covB X st' -> covE X w /\ covB X st
    | PUnsat e st' => covE X e -> covB X st' -> covE X w /\ covB X st
    end.
  Proof.
    intros X w. induction st as [|b r IH]; cbn [probe]; auto.
    assert (SK : match match probe w r with PNot _ => PNot _ | PSat r' => PSat (b :: r') | PUnsat e r' => PUnsat e (b :: r') end
                 with PNot _ => True | PSat st' => covB X st' -> covE X w /\ covB X (b :: r)
                 | PUnsat e st' => covE X e -> covB X st' -> covE X w /\ covB X (b :: r) end).
    { destruct (probe w r); auto; intros; rewrite covB_cons in *; tauto. }
    set (i := gallop_index b 0 _); clearbody i. destruct (nth_error b i) as [s|] eqn:N; auto.
    destruct (teqb (fst s) (fst w)) eqn:T; auto. apply teqb_true in T.
    destruct (psat P (snd s) (padd P (snd s) (snd w))) eqn:Q.
    - intros CB. apply covB_cons in CB as [C1 C2].
      assert (C : covE X (fst s, padd P (snd s) (snd w))) by (apply C1; eapply In_lset_self; eauto).
      split.
      + apply covE_padd_r in C. rewrite T in C. destruct w; auto.
      + apply covB_cons. split; auto. eapply covL_lset_inv; eauto.
        eapply vle_trans; [|apply vh_add_ge]. apply vadd_l.
    - intros C CB. apply covB_cons in CB as [C1 C2]. split.
      + apply covE_padd_r in C. destruct w; auto.
      + apply covB_cons. split; auto. intros e I. apply In_nth_error in I as (k & M).
        destruct (Nat.eq_dec k i) as [->|D].
        * rewrite N in M. injection M as <-. rewrite <- T in C. apply covE_padd_l in C. destruct s; auto.
        * apply C1. rewrite retain_ifilter. apply ifilter_In. exists k. split; auto.
          simpl. apply Nat.eqb_neq in D. rewrite D; auto.
  Qed.

  Lemma probe_ssorted : forall w st, Forall (@ssorted P) st ->
    match probe w st with
    | PNot _ => True
    | PSat st' => Forall (@ssorted P) st'
    | PUnsat _ st' => Forall (@ssorted P) st'
    end.
  Proof.
    intros w. induction st as [|b r IH]; cbn [probe]; intros F; auto. inversion F; subst.
    specialize (IH H2).
    assert (SK : match match probe w r with PNot _ => PNot _ | PSat r' => PSat (b :: r') | PUnsat e r' => PUnsat e (b :: r') end
                 with PNot _ => True | PSat st' => Forall (@ssorted P) st' | PUnsat _ st' => Forall (@ssorted P) st' end).
    { destruct (probe w r); auto. }
    set (i := gallop_index b 0 _); clearbody i. destruct (nth_error b i) as [s|] eqn:N; auto.
    destruct (teqb (fst s) (fst w)) eqn:T; auto.
    destruct (psat P (snd s) (padd P (snd s) (snd w))) eqn:Q; constructor; auto.
    - eapply ssorted_map_fst; [|eauto]. symmetry. apply map_fst_lset; auto.
    - rewrite retain_ifilter. apply ifilter_sublist_ssorted; auto.
  Qed.

  (** *** The waiting-list loop *)
  Lemma col_insert_unchecked_nil : forall e : elem, col_insert_unchecked e [] = [e].
  Proof. reflexivity. Qed.

  Lemma wait_loop_sound : forall X rw st, covL X rw -> covB X st ->
    forall ta rw' st', wait_loop rw st = (ta, rw', st') -> covL X ta /\ covL X rw' /\ covB X st'.
  Proof.
    intros X. induction rw as [|w r IH]; cbn [wait_loop]; intros st CW CB ta rw' st' E.
    - injection E as <- <- <-. auto using covL_nil.
    - apply covL_cons in CW as [CW CR]. pose proof (probe_sound CW CB) as PS.
      destruct (probe w st).
      + injection E as <- <- <-. rewrite col_insert_unchecked_nil, covL_cons. auto using covL_nil.
      + eapply IH; eauto.
      + injection E as <- <- <-. rewrite col_insert_unchecked_nil, covL_cons.
        destruct PS. auto using covL_nil.
  Qed.

  Lemma wait_loop_stable : sat_sound V -> forall X rw st, covB X st ->
    forall ta rw' st', wait_loop rw st = (ta, rw', st') -> covB X st'.
  Proof.
    intros SS X. induction rw as [|w r IH]; cbn [wait_loop]; intros st CB ta rw' st' E.
    - injection E as <- <- <-; auto.
    - pose proof (probe_stable SS w CB) as PS. destruct (probe w st).
      + injection E as <- <- <-; auto.
      + eapply IH; eauto.
      + injection E as <- <- <-; auto.
  Qed.

  Lemma wait_loop_back : forall X rw st ta rw' st', wait_loop rw st = (ta, rw', st') ->
    covL X ta -> covL X rw' -> covB X st' -> covL X rw /\ covB X st.
  Proof.
    intros X. induction rw as [|w r IH]; cbn [wait_loop]; intros st ta rw' st' E CT CR CB.
    - injection E as <- <- <-. auto.
    - pose proof (probe_back X w st) as PB. destruct (probe w st).
      + injection E as <- <- <-. rewrite col_insert_unchecked_nil, covL_cons in CT.
        rewrite covL_cons. tauto.
      + apply IH in E as [A B]; auto. rewrite covL_cons. tauto.
      + injection E as <- <- <-. rewrite col_insert_unchecked_nil, covL_cons in CT.
        rewrite covL_cons. tauto.
  Qed.

  Lemma wait_loop_ssorted : forall rw st ta rw' st', wait_loop rw st = (ta, rw', st') ->
    Forall (@ssorted P) st -> ssorted ta /\ Forall (@ssorted P) st'.
  Proof.
    induction rw as [|w r IH]; cbn [wait_loop]; intros st ta rw' st' E F.
    - injection E as <- <- <-. split; auto. constructor.
    - pose proof (probe_ssorted w F) as PS. destruct (probe w st).
      + injection E as <- <- <-. split; auto. rewrite col_insert_unchecked_nil. repeat constructor.
      + eapply IH; eauto.
      + injection E as <- <- <-. split; auto. rewrite col_insert_unchecked_nil. repeat constructor.
  Qed.

  Lemma wait_loop_empty : forall rw st ta rw' st', wait_loop rw st = (ta, rw', st') ->
    ta = [] -> rw' = [].
  Proof.
    induction rw as [|w r IH]; cbn [wait_loop]; intros st ta rw' st' E N.
    - injection E as <- <- <-; auto.
    - destruct (probe w st); try (injection E as <- <- <-; rewrite col_insert_unchecked_nil in N; discriminate).
      eapply IH; eauto.
  Qed.

  (** *** A* insertion *)
  Lemma astar_insert_cov : forall X wl e, covL X (astar_insert wl e) <-> covL X wl /\ covE X e.
  Proof.
    intros. unfold astar_insert. set (i := gallop_index _ _ _); clearbody i.
    destruct (nth_error wl i) as [x|] eqn:N.
    - destruct (teqb (fst x) (fst e)) eqn:T.
      + apply teqb_true in T. split.
        * intros C. split.
          -- eapply covL_lset_inv; eauto. eapply vle_trans; [|apply vh_add_ge]. apply vadd_l.
          -- assert (covE X (fst x, padd P (snd x) (snd e))) as D by (apply C; eapply In_lset_self; eauto).
             apply covE_padd_r in D. rewrite T in D. destruct e; auto.
        * intros [A B]. apply covL_lset; auto. apply nth_error_In in N. apply A in N.
          apply covE_padd; [destruct x; auto|]. rewrite T. destruct e; auto.
      + unfold covL. setoid_rewrite linsert_In. intuition (subst; auto).
    - rewrite covL_app, covL_cons. pose proof (covL_nil X). tauto.
  Qed.

  Lemma astar_fold_cov : forall X ta wl, covL X (fold_left (@astar_insert P) ta wl) <-> covL X wl /\ covL X ta.
  Proof.
    induction ta; cbn [fold_left]; intros.
    - pose proof (covL_nil X). tauto.
    - rewrite IHta, astar_insert_cov, covL_cons. tauto.
  Qed.

  (** *** Beam *)
  Lemma beam_fold_In : forall ta sd x, In x (fold_left (@beam_insert P) ta sd) <-> In x sd \/ In x ta.
  Proof.
    induction ta; cbn [fold_left]; intros; [simpl; tauto|].
    rewrite IHta. unfold beam_insert. rewrite linsert_In. simpl. intuition congruence.
  Qed.

  Lemma linsert_Permutation : forall A i (x : A) (l : list A), Permutation (linsert i x l) (x :: l).
  Proof.
    induction i; destruct l; simpl; auto. eapply perm_trans; [apply perm_skip, IHi|]. apply perm_swap.
  Qed.

  Lemma beam_fold_Permutation : forall ta sd, Permutation (fold_left (@beam_insert P) ta sd) (sd ++ ta).
  Proof.
    induction ta; cbn [fold_left]; intros; [rewrite app_nil_r; auto|].
    eapply perm_trans; [apply IHta|]. unfold beam_insert.
    eapply perm_trans; [apply Permutation_app_tail, linsert_Permutation|].
    simpl. apply Permutation_middle.
  Qed.

  Lemma beam_take_In : forall k rsd acc ta' rsd', beam_take k rsd acc = (ta', rsd') ->
    forall x, In x ta' \/ In x rsd' <-> In x acc \/ In x rsd.
  Proof.
    induction k; destruct rsd; cbn [beam_take]; intros acc ta' rsd' E x;
      try (injection E as <- <-; simpl; tauto).
    apply IHk with (x := x) in E. rewrite E, col_insert_unchecked_In. simpl. intuition congruence.
  Qed.

  Definition fresh_tuples (l : list elem) (acc : list elem) : Prop :=
    NoDup (map fst l) /\ (forall e g, In e l -> ~ In (fst e, g) acc).

  Lemma fresh_step : forall e l acc, fresh_tuples (e :: l) acc ->
    (forall g, ~ In (fst e, g) acc) /\ fresh_tuples l (col_insert_unchecked e acc).
  Proof.
    intros e l acc [N F]. split; [intros; apply F; simpl; auto|].
    cbn [map] in N. inversion N; subst. split; auto. intros x g I J.
    apply col_insert_unchecked_In in J as [E|J].
    - apply H1. rewrite <- E. simpl. apply in_map; auto.
    - eapply F; [right; eauto|eauto].
  Qed.

  Lemma beam_take_ssorted : forall k rsd acc ta' rsd', beam_take k rsd acc = (ta', rsd') ->
    ssorted acc -> fresh_tuples rsd acc -> ssorted ta'.
  Proof.
    induction k; destruct rsd; cbn [beam_take]; intros acc ta' rsd' E S F;
      try (injection E as <- <-; auto).
    apply fresh_step in F as [F1 F2]. eapply IHk; eauto. apply col_insert_unchecked_ssorted; auto.
  Qed.

  Lemma beam_all_In : forall sd acc x,
    In x (fold_left (fun acc (e : elem) => col_insert_unchecked e acc) sd acc) <-> In x acc \/ In x sd.
  Proof.
    induction sd; cbn [fold_left]; intros; [simpl; tauto|].
    rewrite IHsd, col_insert_unchecked_In. simpl. intuition congruence.
  Qed.

  Lemma beam_all_ssorted : forall sd acc, ssorted acc -> fresh_tuples sd acc ->
    ssorted (fold_left (fun acc (e : elem) => col_insert_unchecked e acc) sd acc).
  Proof.
    induction sd; cbn [fold_left]; intros acc S F; auto.
    apply fresh_step in F as [F1 F2]. apply IHsd; auto. apply col_insert_unchecked_ssorted; auto.
  Qed.

  Lemma col_insert_cov : forall X e l, covL X (col_insert e l) <-> covL X l /\ covE X e.
  Proof.
    intros. unfold col_insert. set (i := gallop_index _ _ _); clearbody i.
    destruct (nth_error l i) as [x|] eqn:N.
    - destruct (teqb (fst x) (fst e)) eqn:T.
      + apply teqb_true in T. split.
        * intros C. split.
          -- eapply covL_lset_inv; eauto. eapply vle_trans; [|apply vh_add_ge]. apply vadd_r.
          -- assert (covE X (fst x, padd P (snd e) (snd x))) as D by (apply C; eapply In_lset_self; eauto).
             apply covE_padd_l in D. rewrite T in D. destruct e; auto.
        * intros [A B]. apply covL_lset; auto. apply nth_error_In in N. apply A in N.
          apply covE_padd; [rewrite T; destruct e; auto|destruct x; auto].
      + unfold covL. setoid_rewrite linsert_In. intuition (subst; auto).
    - rewrite covL_app, covL_cons. pose proof (covL_nil X). tauto.
  Qed.

  Lemma beam_fill_cov : forall X k rw acc ta' rw', beam_fill k rw acc = (ta', rw') ->
    (covL X ta' /\ covL X rw' <-> covL X acc /\ covL X rw).
  Proof.
    induction rw; cbn [beam_fill]; intros acc ta' rw' E.
    - injection E as <- <-; tauto.
    - destruct (length acc <? k).
      + apply IHrw in E. rewrite E, col_insert_cov, covL_cons. tauto.
      + injection E as <- <-; tauto.
  Qed.

  Lemma beam_fill_ssorted : forall k rw acc ta' rw', beam_fill k rw acc = (ta', rw') ->
    ssorted acc -> ssorted ta'.
  Proof.
    induction rw; cbn [beam_fill]; intros acc ta' rw' E S.
    - injection E as <- <-; auto.
    - destruct (length acc <? k); [|injection E as <- <-; auto].
      eapply IHrw; eauto. apply col_insert_ssorted; auto.
  Qed.

  Lemma linsert_nonnil : forall A i (x : A) (l : list A), linsert i x l <> [].
  Proof. destruct i, l; simpl; discriminate. Qed.
  Lemma lset_nil : forall A i (x : A) (l : list A), lset i x l = [] -> l = [].
  Proof. destruct i, l; simpl; auto; discriminate. Qed.
  Lemma col_insert_nonnil : forall e l, col_insert e l <> [].
  Proof.
    intros e l. unfold col_insert. destruct (nth_error l _) as [x|] eqn:N.
    - destruct (teqb (fst x) (fst e)); [|apply linsert_nonnil].
      intros H. apply lset_nil in H. subst. destruct (gallop_index _ _ _); discriminate.
    - intros H. apply app_eq_nil in H as [_ H]; discriminate.
  Qed.

  Lemma beam_fill_empty : forall k rw acc ta' rw', k <> 0 -> beam_fill k rw acc = (ta', rw') ->
    ta' = [] -> rw' = [] .
  Proof.
    intros k rw acc ta' rw' K. revert acc. induction rw; cbn [beam_fill]; intros acc E N.
    - injection E as <- <-; auto.
    - destruct (length acc <? k) eqn:L.
      + eapply IHrw; eauto.
      + injection E as <- <-. subst. apply Nat.ltb_ge in L. simpl in L. lia.
  Qed.

  Lemma beam_fill_nonnil : forall k rw acc ta' rw', beam_fill k rw acc = (ta', rw') ->
    acc <> [] -> ta' <> [].
  Proof.
    induction rw; cbn [beam_fill]; intros acc ta' rw' E N.
    - injection E as <- <-; auto.
    - destruct (length acc <? k); [|injection E as <- <-; auto].
      eapply IHrw; eauto. apply col_insert_nonnil.
  Qed.

  (** *** Scheduling as a whole *)
  Lemma covL_In_iff : forall X l m, (forall x, In x l <-> In x m) -> (covL X l <-> covL X m).
  Proof. unfold covL. firstorder. Qed.

  Theorem schedule_sound : forall X s ta wl st ta' wl' st',
    schedule s ta wl st = (ta', wl', st') ->
    covL X ta -> covL X wl -> covB X st -> covL X ta' /\ covL X wl' /\ covB X st'.
  Proof.
    intros X s ta wl st ta' wl' st' E CT CW CB.
    destruct (phase1 ta st) as [st1 ta1] eqn:E1.
    destruct (@phase1_sound X _ _ _ _ E1 CB CT) as [C1 C2].
    destruct s; cbn [schedule] in E;
      unfold schedule_lfp, schedule_dfs, schedule_astar, schedule_beam in E; rewrite E1 in E.
    - injection E as <- <- <-; auto.
    - destruct ta1 as [|f rest].
      + destruct (wait_loop (rev wl) st1) as [[ta2 rw] st2] eqn:E2. injection E as <- <- <-.
        apply (@wait_loop_sound X) in E2 as (A & B & C); auto; [|apply covL_rev; auto].
        rewrite covL_rev. auto.
      + injection E as <- <- <-. rewrite col_insert_unchecked_nil. rewrite covL_cons in C2.
        destruct C2. rewrite covL_cons, covL_app. auto using covL_nil.
    - destruct (wait_loop (rev (fold_left (@astar_insert P) ta1 wl)) st1) as [[ta2 rw] st2] eqn:E2.
      injection E as <- <- <-.
      apply (@wait_loop_sound X) in E2 as (A & B & C); auto; [rewrite covL_rev; auto|].
      apply covL_rev. apply astar_fold_cov; auto.
    - set (sd := fold_left (@beam_insert P) ta1 []) in *.
      assert (CD : covL X sd). { intros x I. apply beam_fold_In in I as [[]|I]; auto. }
      destruct (size <=? length sd).
      + destruct (beam_take size (rev sd) []) as [ta2 rsd] eqn:E2. injection E as <- <- <-.
        pose proof (beam_take_In _ _ _ E2) as I.
        assert (forall x, In x ta2 \/ In x rsd -> covE X x).
        { intros x J. apply I in J as [[]|J]. apply in_rev in J; auto. }
        split; [intros x J; auto|]. split; auto. apply covL_app. split; auto. apply covL_rev. intros x J; auto.
      + destruct (beam_fill size (rev wl) (fold_left (fun acc (e : elem) => col_insert_unchecked e acc) sd [])) as [ta3 rw] eqn:E2.
        injection E as <- <- <-. apply (@beam_fill_cov X) in E2. rewrite covL_rev in E2.
        assert (covL X ta3 /\ covL X rw) as [A B].
        { apply E2. split; auto. intros x I. apply beam_all_In in I as [[]|I]; auto. }
        rewrite covL_rev. auto.
  Qed.

  Theorem schedule_stable : sat_sound V -> forall X s ta wl st ta' wl' st',
    schedule s ta wl st = (ta', wl', st') -> covB X st -> covB X st'.
  Proof.
    intros SS X s ta wl st ta' wl' st' E CB.
    destruct (phase1 ta st) as [st1 ta1] eqn:E1.
    assert (C1 : covB X st1) by (eapply phase1_stable; eauto).
    destruct s; cbn [schedule] in E;
      unfold schedule_lfp, schedule_dfs, schedule_astar, schedule_beam in E; rewrite E1 in E.
    - injection E as <- <- <-; auto.
    - destruct ta1 as [|f rest].
      + destruct (wait_loop (rev wl) st1) as [[ta2 rw] st2] eqn:E2. injection E as <- <- <-.
        eapply wait_loop_stable; eauto.
      + injection E as <- <- <-; auto.
    - destruct (wait_loop (rev (fold_left (@astar_insert P) ta1 wl)) st1) as [[ta2 rw] st2] eqn:E2.
      injection E as <- <- <-. eapply wait_loop_stable; eauto.
    - set (sd := fold_left (@beam_insert P) ta1 []) in *.
      destruct (size <=? length sd).
      + destruct (beam_take size (rev sd) []) as [ta2 rsd] eqn:E2. injection E as <- <- <-; auto.
      + destruct (beam_fill size (rev wl) (fold_left (fun acc (e : elem) => col_insert_unchecked e acc) sd [])) as [ta3 rw] eqn:E2.
        injection E as <- <- <-; auto.
  Qed.

  Theorem schedule_back : unsat_dom V -> forall X s ta wl st ta' wl' st',
    schedule s ta wl st = (ta', wl', st') ->
    covL X ta' -> covL X wl' -> covB X st' -> covL X ta /\ covL X wl /\ covB X st.
  Proof.
    intros UD X s ta wl st ta' wl' st' E CT CW CB.
    destruct (phase1 ta st) as [st1 ta1] eqn:E1.
    assert (H : covB X st1 -> covL X ta1 -> covB X st /\ covL X ta) by (eapply phase1_back; eauto).
    destruct s; cbn [schedule] in E;
      unfold schedule_lfp, schedule_dfs, schedule_astar, schedule_beam in E; rewrite E1 in E.
    - injection E as <- <- <-. tauto.
    - destruct ta1 as [|f rest].
      + destruct (wait_loop (rev wl) st1) as [[ta2 rw] st2] eqn:E2. injection E as <- <- <-.
        rewrite covL_rev in CW. destruct (wait_loop_back _ _ E2 CT CW CB) as [A B].
        rewrite covL_rev in A. pose proof (covL_nil X). tauto.
      + injection E as <- <- <-. rewrite col_insert_unchecked_nil, covL_cons in CT.
        rewrite covL_app in CW. destruct CT, CW. rewrite covL_cons in H. tauto.
    - destruct (wait_loop (rev (fold_left (@astar_insert P) ta1 wl)) st1) as [[ta2 rw] st2] eqn:E2.
      injection E as <- <- <-. rewrite covL_rev in CW.
      destruct (wait_loop_back _ _ E2 CT CW CB) as [A B]. rewrite covL_rev in A.
      apply astar_fold_cov in A as [A1 A2]. tauto.
    - set (sd := fold_left (@beam_insert P) ta1 []) in *.
      assert (CD : covL X sd <-> covL X ta1).
      { apply covL_In_iff. intros x. unfold sd. rewrite beam_fold_In. simpl. tauto. }
      destruct (size <=? length sd).
      + destruct (beam_take size (rev sd) []) as [ta2 rsd] eqn:E2. injection E as <- <- <-.
        rewrite covL_app, covL_rev in CW. destruct CW as [CW1 CW2].
        assert (covL X sd).
        { intros x I. assert (In x [] \/ In x (rev sd)) as J by (right; apply in_rev in I; auto).
          apply (beam_take_In _ _ _ E2) in J as [J|J]; auto. }
        tauto.
      + destruct (beam_fill size (rev wl) (fold_left (fun acc (e : elem) => col_insert_unchecked e acc) sd [])) as [ta3 rw] eqn:E2.
        injection E as <- <- <-. rewrite covL_rev in CW. apply (@beam_fill_cov X) in E2.
        destruct E2 as [E2 _]. destruct (E2 (conj CT CW)) as [A B]. rewrite covL_rev in B.
        assert (covL X sd) by (intros x I; apply A; apply beam_all_In; auto). tauto.
  Qed.

  Theorem schedule_ssorted : forall s ta wl st ta' wl' st',
    schedule s ta wl st = (ta', wl', st') -> ssorted ta -> Forall (@ssorted P) st ->
    ssorted ta' /\ Forall (@ssorted P) st'.
  Proof.
    intros s ta wl st ta' wl' st' E S F.
    destruct (phase1 ta st) as [st1 ta1] eqn:E1.
    assert (ssorted ta1 /\ Forall (@ssorted P) st1) as [S1 F1] by (eapply phase1_ssorted; eauto).
    destruct s; cbn [schedule] in E;
      unfold schedule_lfp, schedule_dfs, schedule_astar, schedule_beam in E; rewrite E1 in E.
    - injection E as <- <- <-; auto.
    - destruct ta1 as [|f rest].
      + destruct (wait_loop (rev wl) st1) as [[ta2 rw] st2] eqn:E2. injection E as <- <- <-.
        eapply wait_loop_ssorted; eauto.
      + injection E as <- <- <-. split; auto. rewrite col_insert_unchecked_nil. repeat constructor.
    - destruct (wait_loop (rev (fold_left (@astar_insert P) ta1 wl)) st1) as [[ta2 rw] st2] eqn:E2.
      injection E as <- <- <-. eapply wait_loop_ssorted; eauto.
    - set (sd := fold_left (@beam_insert P) ta1 []) in *.
      assert (ND : NoDup (map fst sd)).
      { eapply Permutation_NoDup; [apply Permutation_map, Permutation_sym, beam_fold_Permutation|].
        simpl. clear - S1. induction S1; simpl; constructor; auto.
        intros I. apply in_map_iff in I as (x & E & I). rewrite Forall_forall in H.
        specialize (H _ I). unfold elt in H. rewrite E in H. eapply (to_lt_irrefl tcmp_TOrder); eauto. }
      assert (N0 : ssorted (@nil elem)) by constructor.
      destruct (size <=? length sd).
      + destruct (beam_take size (rev sd) []) as [ta2 rsd] eqn:E2. injection E as <- <- <-. split; auto.
        eapply beam_take_ssorted; eauto. split; [|simpl; auto].
        rewrite map_rev. eapply Permutation_NoDup; [apply Permutation_rev|auto].
      + destruct (beam_fill size (rev wl) (fold_left (fun acc (e : elem) => col_insert_unchecked e acc) sd [])) as [ta3 rw] eqn:E2.
        injection E as <- <- <-. split; auto. eapply beam_fill_ssorted; eauto.
        apply beam_all_ssorted; auto. split; simpl; auto.
  Qed.

  (** When nothing is fresh, nothing is waiting either (LFP never uses the waiting list). *)
  Theorem schedule_quiet : forall s ta wl st ta' wl' st',
    schedule s ta wl st = (ta', wl', st') -> s <> Beam 0 -> (s = LFP -> wl = []) ->
    ta' = [] -> wl' = [].
  Proof.
    intros s ta wl st ta' wl' st' E NB L N.
    destruct (phase1 ta st) as [st1 ta1] eqn:E1.
    destruct s; cbn [schedule] in E;
      unfold schedule_lfp, schedule_dfs, schedule_astar, schedule_beam in E; rewrite E1 in E.
    - injection E as <- <- <-; auto.
    - destruct ta1 as [|f rest].
      + destruct (wait_loop (rev wl) st1) as [[ta2 rw] st2] eqn:E2. injection E as <- <- <-.
        apply wait_loop_empty in E2; auto. subst; auto.
      + injection E as <- <- <-. rewrite col_insert_unchecked_nil in N; discriminate.
    - destruct (wait_loop (rev (fold_left (@astar_insert P) ta1 wl)) st1) as [[ta2 rw] st2] eqn:E2.
      injection E as <- <- <-. apply wait_loop_empty in E2; auto. subst; auto.
    - assert (K : size <> 0) by (intros ->; auto).
      set (sd := fold_left (@beam_insert P) ta1 []) in *.
      destruct (size <=? length sd) eqn:L1.
      + destruct (beam_take size (rev sd) []) as [ta2 rsd] eqn:E2. injection E as <- <- <-.
        exfalso. destruct size; [congruence|]. apply Nat.leb_le in L1.
        destruct (rev sd) as [|a r] eqn:R.
        { apply (f_equal (@length _)) in R. rewrite rev_length in R. simpl in R. lia. }
        cbn [beam_take] in E2. pose proof (beam_take_In _ _ _ E2) as I. rewrite N in E2.
        clear I. revert E2. rewrite col_insert_unchecked_nil. generalize r.
        assert (H : forall k rsd acc ta' rsd', beam_take k rsd acc = (ta', rsd') -> acc <> [] -> ta' <> []).
        { clear. induction k; destruct rsd; cbn [beam_take]; intros acc ta' rsd' E N;
            try (injection E as <- <-; auto). eapply IHk; eauto. apply linsert_nonnil. }
        intros r0 E2. eapply H in E2; [congruence|discriminate].
      + destruct (beam_fill size (rev wl) (fold_left (fun acc (e : elem) => col_insert_unchecked e acc) sd [])) as [ta3 rw] eqn:E2.
        injection E as <- <- <-. apply beam_fill_empty in E2; auto. subst; auto.
  Qed.

  Theorem schedule_lfp_waitlist : forall ta wl st ta' wl' st',
    schedule LFP ta wl st = (ta', wl', st') -> wl' = wl.
  Proof.
    intros. cbn [schedule] in H. unfold schedule_lfp in H. destruct (phase1 ta st).
    injection H as <- <- <-; auto.
  Qed.

  (** ** Merging and collection construction under coverage *)
  Lemma merge_loop_cov : forall X l1 l2, covL X (merge_loop l1 l2) <-> covL X l1 /\ covL X l2.
  Proof.
    intros X. induction l1 as [|e r1 IH]; intros l2.
    - simpl. pose proof (covL_nil X). tauto.
    - induction l2 as [|x r2 IH2]; cbn [merge_loop] in *.
      + rewrite !covL_cons, IH. tauto.
      + destruct (tcmp (fst x) (fst e)) eqn:C.
        * apply (to_eq tcmp_TOrder) in C. rewrite !covL_cons, IH. split.
          -- intros [A [B1 B2]]. pose proof A as H; apply covE_padd_l in H; pose proof A as H0; apply covE_padd_r in H0.
             rewrite <- C in H0. destruct e, x; auto.
          -- intros [[A B] [A' B']]. split; auto. apply covE_padd; [destruct e; auto|].
             rewrite <- C. destruct x; auto.
        * rewrite covL_cons, IH2, !covL_cons. tauto.
        * rewrite covL_cons, IH, !covL_cons. tauto.
  Qed.

  Lemma merge_cov : forall X l m, covL X (merge l m) <-> covL X l /\ covL X m.
  Proof.
    assert (O : forall X x r1 y r2, covL X (merge_ordered x r1 y r2) <-> covL X (x :: r1) /\ covL X (y :: r2)).
    { intros. unfold merge_ordered. destruct (tltb _ _); [apply covL_app|].
      destruct (teqb (fst x) (fst y)) eqn:T.
      - apply teqb_true in T. rewrite !covL_cons, merge_loop_cov. split.
        + intros [A [B1 B2]]. pose proof A as H; apply covE_padd_l in H; pose proof A as H0; apply covE_padd_r in H0.
          rewrite T in H0. destruct x, y; auto.
        + intros [[A B] [A' B']]. split; auto. apply covE_padd; [destruct x; auto|].
          rewrite T. destruct y; auto.
      - rewrite covL_cons, merge_loop_cov, !covL_cons. tauto. }
    intros. pose proof (covL_nil X). destruct l as [|x r1]; [simpl; tauto|].
    destruct m as [|y r2]; [simpl; tauto|].
    unfold merge. destruct (tcmp (fst x) (fst y)); rewrite O; tauto.
  Qed.

  Lemma dd_cov : forall X rest last, covL X (dd last rest) <-> covE X last /\ covL X rest.
  Proof.
    induction rest as [|e r IH]; cbn [dd]; intros last.
    - rewrite covL_cons. tauto.
    - destruct (teqb (fst e) (fst last)) eqn:T.
      + apply teqb_true in T. rewrite IH, covL_cons. split.
        * intros [A B]. pose proof A as H; apply covE_padd_l in H; pose proof A as H0; apply covE_padd_r in H0.
          rewrite <- T in H0. destruct last, e; auto.
        * intros [A [B C]]. split; auto. apply covE_padd; [destruct last; auto|].
          rewrite <- T. destruct e; auto.
      + rewrite covL_cons, IH, covL_cons. tauto.
  Qed.

  Lemma from_vec_cov : forall X l, covL X (from_vec l) <-> covL X l.
  Proof.
    intros. rewrite from_vec_dd. rewrite <- (@covL_In_iff X (ssort l) l (fun x => ssort_In l x)).
    destruct (ssort l); [tauto|]. rewrite dd_cov, covL_cons. tauto.
  Qed.

  (** ** [changed] *)
  Lemma absorb_cov : forall X rst rec, covB X (absorb rst rec) <-> covB X rst /\ covL X rec.
  Proof.
    induction rst as [|last r IH]; cbn [absorb]; intros.
    - rewrite covB_cons. tauto.
    - destruct (length last <=? 2 * length rec).
      + rewrite IH, merge_cov, covB_cons. tauto.
      + rewrite !covB_cons. tauto.
  Qed.
  Lemma absorb_ssorted : forall rst rec, Forall (@ssorted P) rst -> ssorted rec ->
    Forall (@ssorted P) (absorb rst rec).
  Proof.
    induction rst as [|last r IH]; cbn [absorb]; intros rec F S; [auto|]. inversion F; subst.
    destruct (length last <=? 2 * length rec); [|auto]. apply IH; auto. apply merge_spec; auto.
  Qed.
  Lemma condense_loop_cov : forall X rb acc, covL X (condense_loop acc rb) <-> covL X acc /\ covB X rb.
  Proof.
    induction rb; cbn [condense_loop]; intros.
    - pose proof (covB_nil X). tauto.
    - rewrite IHrb, merge_cov, covB_cons. tauto.
  Qed.
  Lemma condense_loop_ssorted : forall rb acc, Forall (@ssorted P) rb -> ssorted acc ->
    ssorted (condense_loop acc rb).
  Proof.
    induction rb; cbn [condense_loop]; intros; auto. inversion H; subst.
    apply IHrb; auto. apply merge_spec; auto.
  Qed.
  Lemma condense_cov : forall X bs, covL X (condense bs) <-> covB X bs.
  Proof.
    intros. rewrite <- covB_rev. unfold condense. destruct (rev bs).
    - pose proof (covL_nil X). pose proof (covB_nil X). tauto.
    - rewrite condense_loop_cov, covB_cons. tauto.
  Qed.
  Lemma condense_ssorted : forall bs, Forall (@ssorted P) bs -> ssorted (condense bs).
  Proof.
    intros bs F. unfold condense. apply Forall_rev in F. destruct (rev bs); [constructor|].
    inversion F; subst. apply condense_loop_ssorted; auto.
  Qed.
  Lemma promote_cov : forall X r, covB X (promote r) <-> covB X (stable r) /\ covL X (recent r).
  Proof.
    intros X r. unfold promote. destruct (recent r).
    - pose proof (covL_nil X). tauto.
    - rewrite covB_rev, absorb_cov, covB_rev. tauto.
  Qed.
  Lemma promote_ssorted : forall r : relation P, Forall (@ssorted P) (stable r) -> ssorted (recent r) ->
    Forall (@ssorted P) (promote r).
  Proof.
    intros r F S. unfold promote. destruct (recent r); auto.
    apply Forall_rev, absorb_ssorted; auto. apply Forall_rev; auto.
  Qed.

  (** Elements held by a relation. *)
  Definition rel_all (r : relation P) (e : elem) : Prop :=
    inB (stable r) e \/ In e (recent r) \/ inB (to_add r) e \/ In e (waitlist r).
  (** Elements visible to dataflows: established and fresh ones. *)
  Definition rel_vis (r : relation P) (e : elem) : Prop := inB (stable r) e \/ In e (recent r).

  Definition rel_sorted (r : relation P) : Prop :=
    Forall (@ssorted P) (stable r) /\ ssorted (recent r) /\ Forall (@ssorted P) (to_add r).

  Lemma covers_all : forall X r, covers V X (rel_all r) <->
    covB X (stable r) /\ covL X (recent r) /\ covB X (to_add r) /\ covL X (waitlist r).
  Proof.
    intros. unfold covers, rel_all, covB, covL. split.
    - intros H. repeat split; intros; apply H; auto.
    - intros (A & B & C & D) e [I|[I|[I|I]]]; auto.
  Qed.
  Lemma covers_vis : forall X r, covers V X (rel_vis r) <-> covB X (stable r) /\ covL X (recent r).
  Proof.
    intros. unfold covers, rel_vis, covB, covL. split.
    - intros H. repeat split; intros; apply H; auto.
    - intros (A & B) e [I|I]; auto.
  Qed.

  Theorem changed_sound : forall s r r' c, changed s r = (r', c) -> covers V (rel_all r) (rel_all r').
  Proof.
    intros s r r' c E. unfold changed in E.
    destruct (schedule s (condense (to_add r)) (waitlist r) (promote r)) as [[ta wl] st] eqn:E1.
    injection E as <- <-.
    assert (C : covers V (rel_all r) (rel_all r)) by apply covers_refl.
    apply covers_all in C as (C1 & C2 & C3 & C4). apply covers_all.
    apply (@schedule_sound (rel_all r)) in E1 as (A & B & D); auto.
    - simpl. auto using covB_nil.
    - apply condense_cov; auto.
    - apply promote_cov; auto.
  Qed.

  Theorem changed_back : unsat_dom V -> forall s r r' c, changed s r = (r', c) ->
    covers V (rel_all r') (rel_all r).
  Proof.
    intros UD s r r' c E. unfold changed in E.
    destruct (schedule s (condense (to_add r)) (waitlist r) (promote r)) as [[ta wl] st] eqn:E1.
    injection E as <- <-. remember (mkRel st ta [] wl) as r' eqn:R.
    assert (C : covers V (rel_all r') (rel_all r')) by apply covers_refl.
    apply covers_all in C as (C1 & C2 & C3 & C4). apply covers_all.
    subst r'. simpl in C1, C2, C3, C4. eapply schedule_back in E1 as (A & B & D); [|exact UD|exact C2|exact C4|exact C1].
    apply condense_cov in A. apply promote_cov in D. tauto.
  Qed.

  Theorem changed_stable : sat_sound V -> forall s r r' c, changed s r = (r', c) ->
    covers V (rel_vis r) (inB (stable r')).
  Proof.
    intros SS s r r' c E. unfold changed in E.
    destruct (schedule s (condense (to_add r)) (waitlist r) (promote r)) as [[ta wl] st] eqn:E1.
    injection E as <- <-. simpl.
    apply (@schedule_stable SS (rel_vis r)) in E1; auto.
    apply promote_cov. apply covers_vis. apply covers_refl.
  Qed.

  Theorem changed_sorted : forall s r r' c, changed s r = (r', c) -> rel_sorted r -> rel_sorted r'.
  Proof.
    intros s r r' c E (S1 & S2 & S3). unfold changed in E.
    destruct (schedule s (condense (to_add r)) (waitlist r) (promote r)) as [[ta wl] st] eqn:E1.
    injection E as <- <-. apply schedule_ssorted in E1 as [A B].
    - repeat split; simpl; auto.
    - apply condense_ssorted; auto.
    - apply promote_ssorted; auto.
  Qed.

  Theorem changed_flag : forall s (r r' : relation P) c, changed s r = (r', c) ->
    to_add r' = [] /\ (c = false <-> recent r' = []).
  Proof.
    intros s r r' c E. unfold changed in E.
    destruct (schedule s (condense (to_add r)) (waitlist r) (promote r)) as [[ta wl] st] eqn:E1.
    injection E as <- <-. simpl. split; auto. destruct ta; split; congruence.
  Qed.

  Theorem changed_quiet : forall s (r r' : relation P), changed s r = (r', false) ->
    s <> Beam 0 -> (s = LFP -> waitlist r = []) -> waitlist r' = [].
  Proof.
    intros s r r' E NB L. unfold changed in E.
    destruct (schedule s (condense (to_add r)) (waitlist r) (promote r)) as [[ta wl] st] eqn:E1.
    injection E as <- C. simpl. eapply schedule_quiet; eauto. destruct ta; auto; discriminate.
  Qed.

  Theorem changed_lfp_waitlist : forall (r r' : relation P) c, changed LFP r = (r', c) -> waitlist r' = waitlist r.
  Proof.
    intros r r' c E. unfold changed in E.
    destruct (schedule LFP (condense (to_add r)) (waitlist r) (promote r)) as [[ta wl] st] eqn:E1.
    injection E as <- C. simpl. eapply schedule_lfp_waitlist; eauto.
  Qed.

  (** ** [insert_batches], [complete] *)
  Lemma filter_cov : discard_sound V -> forall X l,
    covL X (filter (fun e => negb (pdiscard P (snd e))) l) -> covL X l.
  Proof.
    intros DS X l C e I. destruct (pdiscard P (snd e)) eqn:D.
    - apply DS in D. eapply cov_le; [apply D|apply cov_zero].
    - apply C. apply filter_In. rewrite D; auto.
  Qed.

  Lemma prep_batch_sound : forall early X l, covL X l -> covL X (prep_batch early l).
  Proof.
    intros. unfold prep_batch. apply from_vec_cov. destruct early; auto.
    intros e I. apply filter_In in I as [I _]; auto.
  Qed.
  Lemma prep_batch_back : forall early, (early = true -> discard_sound V) ->
    forall X l, covL X (prep_batch early l) -> covL X l.
  Proof.
    intros early DS X l C. unfold prep_batch in C. rewrite from_vec_cov in C.
    destruct early; [|exact C]. apply filter_cov; [apply DS; reflexivity|exact C].
  Qed.
  Lemma prep_batch_ssorted : forall early l, ssorted (prep_batch early l).
  Proof. intros. apply from_vec_ssorted. Qed.

  Lemma covB_prep_sound : forall early X bs, covB X bs -> covB X (map (prep_batch early) bs).
  Proof.
    induction bs; simpl; intros; [apply covB_nil|]. rewrite covB_cons in *. destruct H.
    split; auto using prep_batch_sound.
  Qed.
  Lemma covB_prep_back : forall early, (early = true -> discard_sound V) ->
    forall X bs, covB X (map (prep_batch early) bs) -> covB X bs.
  Proof.
    intros early DS. induction bs; simpl; intros C; [apply covB_nil|]. rewrite covB_cons in *. destruct C.
    split; auto. eapply prep_batch_back; eauto.
  Qed.

  Lemma complete_loop_cov : forall X rb acc, covL X (complete_loop acc rb) <-> covL X acc /\ covB X rb.
  Proof.
    induction rb; cbn [complete_loop]; intros.
    - pose proof (covB_nil X). tauto.
    - rewrite IHrb, merge_cov, covB_cons. tauto.
  Qed.
  Lemma complete_loop_ssorted : forall rb acc, Forall (@ssorted P) rb -> ssorted acc ->
    ssorted (complete_loop acc rb).
  Proof.
    induction rb; cbn [complete_loop]; intros; auto. inversion H; subst.
    apply IHrb; auto. apply merge_spec; auto.
  Qed.

  Theorem complete_cov : forall X r out, complete r = Some out -> (covL X out <-> covB X (stable r)).
  Proof.
    intros X r out E. unfold complete in E. destruct (recent r); [|discriminate].
    destruct (to_add r); [|discriminate]. injection E as <-.
    rewrite complete_loop_cov, covB_rev. pose proof (covL_nil X). tauto.
  Qed.
  Theorem complete_ssorted : forall (r : relation P) out, complete r = Some out ->
    Forall (@ssorted P) (stable r) -> ssorted out.
  Proof.
    intros r out E F. unfold complete in E. destruct (recent r); [|discriminate].
    destruct (to_add r); [|discriminate]. injection E as <-.
    apply complete_loop_ssorted; [apply Forall_rev; auto|constructor].
  Qed.
End Facts.
