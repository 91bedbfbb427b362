(** Exact description of the first phase of scheduling when the linear search
    of lfp.rs 28-30 is used, i.e. when no stable batch is much smaller than the
    pending batch.  Proof file, no model definitions. *)
From Coq Require Import List Arith Bool Lia Sorting.Sorted Sorting.Permutation.
From Verif Require Import Order Value Prov ListAux SortedCol GallopFacts SortedColFacts Schedulers Relation View SchedFacts
  PropsCollections.
Import ListNotations.
Set Implicit Arguments.

Section Linear.
  Variable P : Prov.
  Notation elem := (elem P).

  Lemma ssorted_nth_lt : forall (l : list elem) i j x y, ssorted l -> i < j ->
    nth_error l i = Some x -> nth_error l j = Some y -> elt x y.
  Proof.
    induction l as [|a l IH]; intros [|i] [|j] x y S L A B; simpl in *; try lia; try discriminate.
    - injection A as <-. apply ssorted_cons_inv in S as [_ F]. rewrite Forall_forall in F.
      apply F. eapply nth_error_In; eauto.
    - apply ssorted_cons_inv in S as [S _]. eapply IH with (i := i) (j := j); eauto; lia.
  Qed.

  Lemma ssorted_nth_inj : forall (l : list elem) i j x y, ssorted l ->
    nth_error l i = Some x -> nth_error l j = Some y -> fst x = fst y -> i = j.
  Proof.
    intros l i j x y S A B E. destruct (Nat.lt_trichotomy i j) as [L|[L|L]]; auto; exfalso.
    - pose proof (@ssorted_nth_lt _ _ _ _ _ S L A B) as H. unfold elt in H. rewrite E in H.
      rewrite (to_refl tcmp_TOrder) in H. discriminate.
    - pose proof (@ssorted_nth_lt _ _ _ _ _ S L B A) as H. unfold elt in H. rewrite E in H.
      rewrite (to_refl tcmp_TOrder) in H. discriminate.
  Qed.

  Lemma ssorted_fun : forall (l : list elem) t g g', ssorted l -> In (t, g) l -> In (t, g') l -> g = g'.
  Proof.
    intros l t g g' S A B. apply (ssorted_lookup_In t g S) in A. apply (ssorted_lookup_In t g' S) in B.
    congruence.
  Qed.

  Lemma lset_In : forall (l : list elem) i x n t g, ssorted l -> nth_error l i = Some x ->
    (In (t, g) (lset i (fst x, n) l) <-> (t = fst x /\ g = n) \/ (t <> fst x /\ In (t, g) l)).
  Proof.
    intros l i x n t g S H. unfold Prov.elem in *. split.
    - intros I. apply In_nth_error in I as (j & I). rewrite nth_error_lset in I.
      destruct (Nat.eqb_spec i j) as [->|N]; simpl in I.
      + rewrite H in I. injection I as <- <-. auto.
      + right. split; [|eapply nth_error_In; eauto]. intros ->. apply N.
        eapply (@ssorted_nth_inj _ _ _ _ _ S H I); auto.
    - intros [[-> ->]|[N I]].
      + apply (@nth_error_In _ _ i). rewrite nth_error_lset, Nat.eqb_refl. rewrite H; auto.
      + apply In_nth_error in I as (j & I). apply (@nth_error_In _ _ j). rewrite nth_error_lset.
        destruct (Nat.eqb_spec i j) as [->|M]; auto. rewrite H in I. injection I as ->. simpl in N. congruence.
  Qed.

  Lemma linear_pos : forall (ta : list elem) index t, ssorted ta ->
    (forall j x, j < index -> nth_error ta j = Some x -> tcmp (fst x) t = Lt) ->
    let i := next_index false ta index t in
    (forall j x, j < i -> nth_error ta j = Some x -> tcmp (fst x) t = Lt) /\
    (forall x, nth_error ta i = Some x -> tcmp (fst x) t <> Lt).
  Proof.
    intros ta index t S B. unfold next_index. cbv zeta.
    assert (S' : ssorted (skipn index ta)).
    { rewrite <- (firstn_skipn index ta) in S. apply ssorted_app in S. tauto. }
    assert (SK : forall k, nth_error ta (index + k) = nth_error (skipn index ta) k).
    { intros k. revert ta S B S'. clear. induction index; intros; simpl; auto.
      destruct ta; simpl; [destruct k; auto|].
      apply IHindex; auto.
      - apply ssorted_cons_inv in S. tauto.
      - intros j x L H. apply (B (Datatypes.S j) x); auto. lia. }
    pose proof (ssorted_prefix t S') as [A C].
    set (n := prefix_len (fun x : elem => tltb (fst x) t) (skipn index ta)) in *.
    split.
    - intros j x L H. destruct (le_lt_dec index j) as [G|G]; [|eapply B; eauto].
      replace j with (index + (j - index)) in H by lia. rewrite SK in H. apply A.
      apply (@nth_error_In _ _ (j - index)).
      assert (W : forall m (l : list elem) q, q < m -> nth_error (firstn m l) q = nth_error l q).
      { induction m; intros [|a l] [|q] W; simpl; auto; try lia. apply IHm; lia. }
      rewrite W; auto. lia.
    - intros x H. rewrite SK in H. apply C.
      assert (W : forall m (l : list elem), nth_error l m = Some x -> In x (skipn m l)).
      { induction m; intros [|a l] W; simpl in *; try discriminate; auto. injection W as ->; auto. }
      apply W; auto.
  Qed.

  (** One batch with the linear search. *)
  Lemma p1_batch_linear : forall b index ta rm b' ta' rm',
    p1_batch false b index ta rm = (b', ta', rm') ->
    ssorted b -> ssorted ta ->
    (forall j x s, j < index -> nth_error ta j = Some x -> In s b -> elt x s) ->
    map fst ta' = map fst ta /\
    (forall t g', In (t, g') b' <-> exists g, In (t, g) b /\
        (((forall x, ~ In (t, x) ta) /\ g' = g) \/
         (exists x, In (t, x) ta /\ psat P g (padd P g x) = true /\ g' = padd P g x))) /\
    (forall t x', In (t, x') ta' <-> exists x, In (t, x) ta /\
        (((forall g, In (t, g) b -> psat P g (padd P g x) = true) /\ x' = x) \/
         (exists g, In (t, g) b /\ psat P g (padd P g x) = false /\ x' = padd P g x))) /\
    (forall j, In j rm' <-> In j rm \/ exists t x g, nth_error ta j = Some (t, x) /\ In (t, g) b /\
        psat P g (padd P g x) = true).
  Proof.
    induction b as [|[s gs] b IH]; intros index ta rm b' ta' rm' H SB ST LT.
    - simpl in H. injection H as <- <- <-. split; auto. split; [|split].
      + intros t g'. simpl. split; [tauto|]. intros (g & [] & _).
      + intros t x'. simpl. split.
        * intros I. exists x'. split; auto.
        * intros (x & I & [[_ ->]|(g & [] & _)]). auto.
      + intros j. simpl. split; auto. intros [|(t & x & g & _ & [] & _)]; auto.
    - pose proof (ssorted_cons_inv SB) as [SB' FB]. rewrite Forall_forall in FB.
      cbn [p1_batch] in H.
      destruct (@linear_pos ta index s ST) as [L1 L2].
      { intros j x L N. apply (LT j x (s, gs) L N). simpl; auto. }
      cbn [fst] in H. set (i := next_index false ta index s) in *. clearbody i.
      assert (LT' : forall j x e, j < i -> nth_error ta j = Some x -> In e b -> elt x e).
      { intros j x e L N I. specialize (L1 _ _ L N). apply FB in I. eapply elt_trans; eauto. exact L1. }
      assert (NB : forall g, ~ In (s, g) b).
      { intros g I. apply FB in I. unfold elt in I. simpl in I. rewrite (to_refl tcmp_TOrder) in I. discriminate. }
      assert (KEEP : (forall x, ~ In (s, x) ta) ->
         forall b1, p1_batch false b i ta rm = (b1, ta', rm') -> b' = (s, gs) :: b1 ->
         map fst ta' = map fst ta /\
    (forall t g', In (t, g') b' <-> exists g, In (t, g) ((s, gs) :: b) /\
        (((forall x, ~ In (t, x) ta) /\ g' = g) \/
         (exists x, In (t, x) ta /\ psat P g (padd P g x) = true /\ g' = padd P g x))) /\
    (forall t x', In (t, x') ta' <-> exists x, In (t, x) ta /\
        (((forall g, In (t, g) ((s, gs) :: b) -> psat P g (padd P g x) = true) /\ x' = x) \/
         (exists g, In (t, g) ((s, gs) :: b) /\ psat P g (padd P g x) = false /\ x' = padd P g x))) /\
    (forall j, In j rm' <-> In j rm \/ exists t x g, nth_error ta j = Some (t, x) /\ In (t, g) ((s, gs) :: b) /\
        psat P g (padd P g x) = true)).
      { intros NS b1 H1 ->. apply IH in H1 as (M & A & B & C); auto.
        split; auto. split; [|split].
        - intros t g'. simpl. rewrite A. split.
          + intros [E|(g & I & R)].
            * injection E as <- <-. exists gs. auto.
            * exists g. auto.
          + intros (g & [E|I] & R).
            * injection E as <- <-. left. destruct R as [[_ ->]|(x & I & _)]; auto. destruct (NS _ I).
            * right. eauto.
        - intros t x'. rewrite B. split.
          + intros (x & I & R). exists x. split; auto. destruct R as [[U ->]|(g & J & R)].
            * left. split; auto. intros g [E|J]; auto. injection E as <- <-. destruct (NS _ I).
            * right. exists g. simpl; auto.
          + intros (x & I & R). exists x. split; auto. destruct R as [[U ->]|(g & [E|J] & R)].
            * left. split; auto. intros g J; apply U; simpl; auto.
            * injection E as <- <-. destruct (NS _ I).
            * right; eauto.
        - intros j. rewrite C. split; intros [I|(t & x & g & N & I & R)]; auto; right.
          + exists t, x, g. simpl; auto.
          + exists t, x, g. destruct I as [E|I]; auto. injection E as <- <-. apply nth_error_In in N.
            destruct (NS _ N). }
      assert (ABS : (forall x, nth_error ta i = Some x -> fst x <> s) -> forall x, ~ In (s, x) ta).
      { intros D x I. apply In_nth_error in I as (j & N). destruct (Nat.lt_trichotomy j i) as [L|[->|L]].
        - specialize (L1 _ _ L N). simpl in L1. rewrite (to_refl tcmp_TOrder) in L1. discriminate.
        - apply (D _ N). auto.
        - destruct (nth_error ta i) as [y|] eqn:Y.
          + pose proof (@ssorted_nth_lt _ _ _ _ _ ST L Y N) as Q. apply (L2 _ eq_refl). exact Q.
          + apply nth_error_None in Y. assert (Q : j < length ta) by (apply nth_error_Some; intros Q; unfold Prov.elem in *; rewrite N in Q; discriminate).
            unfold Prov.elem in *. lia. }
      destruct (nth_error ta i) as [[tx x]|] eqn:NX.
      2:{ destruct (p1_batch false b i ta rm) as [[b1 ta1] rm1] eqn:R. injection H as <- <- <-.
          eapply KEEP; eauto. apply ABS. intros; discriminate. }
      cbn [fst snd] in H. destruct (teqb tx s) eqn:TE.
      2:{ destruct (p1_batch false b i ta rm) as [[b1 ta1] rm1] eqn:R. injection H as <- <- <-.
          eapply KEEP; eauto. apply ABS. intros y [= <-]; simpl; intros ->. rewrite teqb_refl in TE. discriminate. }
      apply teqb_true in TE. subst tx.
      assert (INX : In (s, x) ta) by (eapply nth_error_In; eauto).
      assert (UX : forall y, In (s, y) ta -> y = x) by (intros y I; exact (ssorted_fun _ _ _ ST I INX)).
      destruct (psat P gs (padd P gs x)) eqn:SAT.
      + destruct (p1_batch false b i ta (i :: rm)) as [[b1 ta1] rm1] eqn:R. injection H as <- <- <-.
        apply IH in R as (M & A & B & C); auto. split; auto. split; [|split].
        * intros t g'. simpl. rewrite A. split.
          -- intros [E|(g & I & Q)]; [|exists g; auto]. injection E as <- <-. exists gs. split; auto.
             right. exists x. auto.
          -- intros (g & [E|I] & Q); [|right; eauto]. injection E as <- <-. left.
             destruct Q as [[N _]|(y & I & _ & ->)]; [destruct (N _ INX)|]. rewrite (UX _ I). auto.
        * intros t x'. rewrite B. split; intros (y & I & Q); exists y; split; auto.
          -- destruct Q as [[U ->]|(g & J & Q)]; [left|right; exists g; simpl; auto]. split; auto.
             intros g [E|J]; auto. injection E as <- <-. rewrite (UX _ I). auto.
          -- destruct Q as [[U ->]|(g & [E|J] & Q)]; [left|exfalso|right; eauto].
             ++ split; auto. intros g J; apply U; simpl; auto.
             ++ injection E as <- <-. rewrite (UX _ I) in Q. destruct Q; congruence.
        * intros j. rewrite C. simpl. split.
          -- intros [[<-|I]|(t & y & g & N & I & Q)]; auto; right.
             ++ exists s, x, gs. auto.
             ++ exists t, y, g. auto.
          -- intros [I|(t & y & g & N & [E|I] & Q)]; auto.
             ++ injection E as <- <-. left; left. eapply (@ssorted_nth_inj _ _ _ _ _ ST NX N). auto.
             ++ right; eauto 6.
      + set (n := padd P gs x) in *.
        assert (MF : map fst (lset i (s, n) ta) = map fst ta) by (apply (map_fst_lset i ta n NX)).
        assert (ST' : ssorted (lset i (s, n) ta)) by (eapply ssorted_map_fst; [symmetry; apply MF|auto]).
        assert (LS : forall t g, In (t, g) (lset i (s, n) ta) <-> (t = s /\ g = n) \/ (t <> s /\ In (t, g) ta)).
        { intros. apply (@lset_In ta i (s, x) n t g ST NX). }
        apply IH in H as (M & A & B & C); auto.
        2:{ intros j y e L N I. rewrite nth_error_lset in N. destruct (Nat.eqb_spec i j); [lia|]. eauto. }
        split; [congruence|]. split; [|split].
        * intros t g'. rewrite A. split.
          -- intros (g & I & Q). assert (t <> s) by (intros ->; destruct (NB _ I)).
             exists g. split; [simpl; auto|]. destruct Q as [[N ->]|(y & J & Q)].
             ++ left. split; auto. intros y J. apply (N y). apply LS; auto.
             ++ right. exists y. split; auto. apply LS in J. tauto.
          -- intros (g & [E|I] & Q).
             ++ injection E as <- <-. destruct Q as [[N _]|(y & J & Q & _)]; [destruct (N _ INX)|].
                rewrite (UX _ J) in Q. unfold n in SAT. congruence.
             ++ assert (t <> s) by (intros ->; destruct (NB _ I)).
                exists g. split; auto. destruct Q as [[N ->]|(y & J & Q)].
                ** left. split; auto. intros y J. apply LS in J. destruct J as [[]|[_ J]]; [congruence|]. apply (N _ J).
                ** right. exists y. split; auto. apply LS; auto.
        * intros t x'. rewrite B. split.
          -- intros (y & I & Q). apply LS in I. destruct I as [[-> ->]|[NE I]].
             ++ exists x. split; auto. right. exists gs. split; [simpl; auto|]. split; auto.
                destruct Q as [[_ ->]|(g & J & _)]; auto. destruct (NB _ J).
             ++ exists y. split; auto. destruct Q as [[U ->]|(g & J & Q)]; [left|right; exists g; simpl; auto].
                split; auto. intros g [E|J]; auto. congruence.
          -- intros (y & I & Q). destruct (teqb t s) eqn:TE.
             ++ apply teqb_true in TE. subst t. rewrite (UX _ I) in Q. exists n. split; [apply LS; auto|].
                left. destruct Q as [[U _]|(g & [E|J] & Q)].
                ** specialize (U gs (or_introl eq_refl)). unfold n in SAT; congruence.
                ** injection E as <-. destruct Q as [_ ->]. split; auto. intros g J. destruct (NB _ J).
                ** destruct (NB _ J).
             ++ assert (NE : t <> s) by (intros ->; rewrite teqb_refl in TE; discriminate).
                exists y. split; [apply LS; auto|]. destruct Q as [[U ->]|(g & [E|J] & Q)]; [left|congruence|right; eauto].
                split; auto. intros g J; apply U; simpl; auto.
        * intros j. rewrite C. split; intros [I|(t & y & g & N & I & Q)]; auto; right.
          -- rewrite nth_error_lset in N. destruct (Nat.eqb_spec i j) as [->|NE].
             ++ unfold Prov.elem in *; rewrite NX in N. injection N as <- <-. destruct (NB _ I).
             ++ exists t, y, g. simpl; auto.
          -- exists t, y, g. rewrite nth_error_lset. destruct (Nat.eqb_spec i j) as [->|NE].
             ++ unfold Prov.elem in *; rewrite NX in N. injection N as <- <-. exfalso. destruct I as [E|I]; [|destruct (NB _ I)].
                injection E as <-. unfold n in SAT; congruence.
             ++ destruct I as [E|I]; auto. injection E as <- <-. exfalso. apply NE.
                eapply (@ssorted_nth_inj _ _ _ _ _ ST NX N). auto.
  Qed.

  (** ** all batches *)
  Lemma NoDup_app_disj : forall A (l m : list A), NoDup (l ++ m) -> forall x, In x l -> ~ In x m.
  Proof.
    induction l; simpl; intros m N x []; inversion N; subst; eauto.
    intros J. apply H2. apply in_or_app; auto.
  Qed.
  Lemma NoDup_app_r : forall A (l m : list A), NoDup (l ++ m) -> NoDup m.
  Proof. induction l; simpl; intros m N; auto. inversion N; auto. Qed.
  Lemma NoDup_app_intro : forall A (l m : list A), NoDup l -> NoDup m ->
    (forall x, In x l -> ~ In x m) -> NoDup (l ++ m).
  Proof.
    induction l; simpl; intros m N M D; auto. inversion N; subst. constructor.
    - rewrite in_app_iff. intros [I|I]; auto. apply (D a); auto.
    - apply IHl; auto.
  Qed.

  (** Tuples of all batches, with repetitions. *)
  Definition tuples_of (st : list (list elem)) : list tuple := map fst (concat st).
  (** The test of lfp.rs 18 picks the linear search for every batch that has more
      than one element. *)
  Definition linear_for (ta : list elem) (st : list (list elem)) : Prop :=
    forall b, In b st -> length ta <= 4 * length b \/ length b <= 1.
  (** For the first element of a batch both searches agree. *)
  Lemma p1_batch_short : forall gal b (ta : list elem) rm, ssorted ta -> length b <= 1 ->
    p1_batch gal b 0 ta rm = p1_batch false b 0 ta rm.
  Proof.
    intros [|] [|s [|s2 b]] ta rm S L; try reflexivity; [|cbn in L; lia]. cbn [p1_batch].
    assert (E : next_index true ta 0 (fst s) = next_index false ta 0 (fst s)).
    { unfold next_index. cbn [skipn Nat.add]. apply insert_pos, ssorted_wsorted, S. }
    rewrite E. reflexivity.
  Qed.

  Lemma inB_concat : forall (st : list (list elem)) e, inB st e <-> In e (concat st).
  Proof.
    intros. rewrite in_concat. unfold inB. firstorder.
  Qed.

  Lemma map_fst_In : forall (l m : list elem) t, map fst l = map fst m ->
    ((forall x, ~ In (t, x) l) <-> (forall x, ~ In (t, x) m)).
  Proof.
    assert (H : forall (l m : list elem) t, map fst l = map fst m ->
       (forall x, ~ In (t, x) l) -> (forall x, ~ In (t, x) m)).
    { intros l m t E N x I. apply (in_map fst) in I. rewrite <- E in I. apply in_map_iff in I as ([t' y] & Q & I).
      simpl in Q; subst. apply (N _ I). }
    split; apply H; auto.
  Qed.

  Lemma p1_batches_linear : forall st ta rm st' ta' rm',
    p1_batches st ta rm = (st', ta', rm') ->
    Forall (@ssorted P) st -> ssorted ta -> NoDup (tuples_of st) -> linear_for ta st ->
    map fst ta' = map fst ta /\
    (forall t g', inB st' (t, g') <-> exists g, inB st (t, g) /\
        (((forall x, ~ In (t, x) ta) /\ g' = g) \/
         (exists x, In (t, x) ta /\ psat P g (padd P g x) = true /\ g' = padd P g x))) /\
    (forall t x', In (t, x') ta' <-> exists x, In (t, x) ta /\
        (((forall g, inB st (t, g) -> psat P g (padd P g x) = true) /\ x' = x) \/
         (exists g, inB st (t, g) /\ psat P g (padd P g x) = false /\ x' = padd P g x))) /\
    (forall j, In j rm' <-> In j rm \/ exists t x g, nth_error ta j = Some (t, x) /\ inB st (t, g) /\
        psat P g (padd P g x) = true).
  Proof.
    induction st as [|b st IH]; intros ta rm st' ta' rm' H FS ST ND LN.
    - simpl in H. injection H as <- <- <-. split; auto. split; [|split].
      + intros t g'. split; [intros (? & [] & _)|intros (g & (? & [] & _) & _)].
      + intros t x'. split.
        * intros I. exists x'. split; auto. left. split; auto. intros g (? & [] & _).
        * intros (x & I & [[_ ->]|(g & (? & [] & _) & _)]). auto.
      + intros j. split; auto. intros [|(t & x & g & _ & (? & [] & _) & _)]; auto.
    - cbn [p1_batches] in H. pose proof (Forall_inv FS) as Sb. pose proof (Forall_inv_tail FS) as FS'.
      assert (G : p1_batch (4 * length b <? length ta) b 0 ta rm = p1_batch false b 0 ta rm).
      { destruct (LN b (or_introl eq_refl)) as [G|G]; [|apply p1_batch_short; auto].
        replace (4 * length b <? length ta) with false; [reflexivity|]. symmetry. apply Nat.ltb_ge, G. }
      rewrite G in H.
      destruct (p1_batch false b 0 ta rm) as [[b1 ta1] rm1] eqn:E1.
      destruct (p1_batches st ta1 rm1) as [[st2 ta2] rm2] eqn:E2. injection H as <- <- <-.
      apply p1_batch_linear in E1 as (M1 & A1 & B1 & C1); auto; [|intros; lia].
      assert (ST1 : ssorted ta1) by (eapply ssorted_map_fst; [symmetry; apply M1|auto]).
      unfold tuples_of in ND. cbn [concat] in ND. rewrite map_app in ND.
      assert (ND' : NoDup (tuples_of st)).
      { eapply NoDup_app_r; eauto. }
      assert (DJ : forall t g g', In (t, g) b -> ~ inB st (t, g')).
      { intros t g g' I J. apply inB_concat in J. apply (in_map fst) in I, J. simpl in I, J.
        exact (NoDup_app_disj _ _ ND _ I J). }
      apply IH in E2 as (M2 & A2 & B2 & C2); auto.
      2:{ intros c I. assert (LE : length ta1 = length ta) by (apply (f_equal (@length _)) in M1; rewrite !map_length in M1; exact M1).
          unfold Prov.elem in *. rewrite LE. apply LN. simpl; auto. }
      split; [congruence|]. split; [|split].
      + intros t g'. rewrite inB_cons, A1, A2. split.
        * intros [(g & I & Q)|(g & I & Q)]; exists g; rewrite inB_cons; split; auto.
          destruct Q as [[N ->]|(x & J & Q)].
          -- left. split; auto. apply (map_fst_In _ _ t M1); auto.
          -- right. apply B1 in J as (y & J & [[_ ->]|(h & K & _)]); [eauto|]. destruct (DJ _ _ g K); auto.
        * intros (g & I & Q). rewrite inB_cons in I. destruct I as [I|I]; [left; eauto|right].
          exists g. split; auto. destruct Q as [[N ->]|(x & J & Q)].
          -- left. split; auto. apply (map_fst_In _ _ t M1); auto.
          -- right. exists x. split; auto. apply B1. exists x. split; auto. left. split; auto.
             intros h K. destruct (DJ _ _ g K); auto.
      + intros t x'. rewrite B2. split.
        * intros (x & I & Q). apply B1 in I as (y & I & R). exists y. split; auto.
          destruct R as [[U ->]|(h & K & R & ->)].
          -- destruct Q as [[W ->]|(g & J & Q)].
             ++ left. split; auto. intros g J. rewrite inB_cons in J. destruct J; auto.
             ++ right. exists g. rewrite inB_cons. auto.
          -- right. exists h. rewrite inB_cons. split; auto. split; auto.
             destruct Q as [[_ ->]|(g & J & _)]; auto. destruct (DJ _ _ g K); auto.
        * intros (x & I & Q). destruct Q as [[U ->]|(g & J & Q & ->)].
          -- exists x. split.
             ++ apply B1. exists x. split; auto. left. split; auto. intros g J. apply U. rewrite inB_cons; auto.
             ++ left. split; auto. intros g J. apply U. rewrite inB_cons; auto.
          -- rewrite inB_cons in J. destruct J as [J|J].
             ++ exists (padd P g x). split; [apply B1; eauto 8|]. left. split; auto. intros h K.
                destruct (DJ _ _ h J); auto.
             ++ exists x. split; [|right; eauto]. apply B1. exists x. split; auto. left. split; auto.
                intros h K. destruct (DJ _ _ g K); auto.
      + intros j. rewrite C2, C1. split.
        * intros [[I|(t & x & g & N & I & Q)]|(t & x & g & N & I & Q)]; auto; right.
          -- exists t, x, g. rewrite inB_cons; auto.
          -- assert (K : In (t, x) ta1) by (eapply nth_error_In; eauto).
             apply B1 in K as (y & K & [[_ ->]|(h & L & _)]); [|destruct (DJ _ _ g L); auto].
             exists t, y, g. rewrite inB_cons. split; auto.
             assert (MM : nth_error (map fst ta1) j = nth_error (map fst ta) j) by congruence.
             rewrite !nth_error_map in MM. unfold Prov.elem in *. rewrite N in MM. simpl in MM.
             destruct (nth_error ta j) as [[t' z]|] eqn:Z; simpl in MM; [|discriminate]. injection MM as <-.
             f_equal. f_equal. apply nth_error_In in Z. exact (ssorted_fun _ _ _ ST Z K).
        * intros [I|(t & x & g & N & I & Q)]; auto. rewrite inB_cons in I. destruct I as [I|I].
          -- left; right; eauto 8.
          -- right. exists t, x, g. split; auto.
             assert (MM : nth_error (map fst ta1) j = nth_error (map fst ta) j) by congruence.
             rewrite !nth_error_map in MM. unfold Prov.elem in *. rewrite N in MM. simpl in MM.
             destruct (nth_error ta1 j) as [[t' z]|] eqn:Z; simpl in MM; [|discriminate]. injection MM as <-.
             f_equal. f_equal. apply nth_error_In in Z. apply B1 in Z as (y & K & [[_ ->]|(h & L & _)]).
             ++ apply nth_error_In in N. exact (ssorted_fun _ _ _ ST K N).
             ++ destruct (DJ _ _ g L); auto.
  Qed.

  (** ** repetition-freeness *)
  Inductive sub {A} : list A -> list A -> Prop :=
  | sub_nil : sub [] []
  | sub_keep : forall x l m, sub l m -> sub (x :: l) (x :: m)
  | sub_skip : forall x l m, sub l m -> sub l (x :: m).

  Lemma sub_In : forall A (l m : list A), sub l m -> forall x, In x l -> In x m.
  Proof. induction 1; simpl; intros; auto. destruct H0; auto. Qed.
  Lemma sub_NoDup : forall A (l m : list A), sub l m -> NoDup m -> NoDup l.
  Proof.
    induction 1; intros N; inversion N; subst; auto. constructor; auto. intros I. apply (sub_In H) in I; auto.
  Qed.
  Lemma sub_refl : forall A (l : list A), sub l l.
  Proof. induction l; constructor; auto. Qed.
  Lemma sub_app : forall A (a b c d : list A), sub a b -> sub c d -> sub (a ++ c) (b ++ d).
  Proof. induction 1; simpl; auto; constructor; auto. Qed.

  Lemma p1_batch_sub : forall gal (b : list elem) index ta rm b' ta' rm',
    p1_batch gal b index ta rm = (b', ta', rm') -> sub (map fst b') (map fst b).
  Proof.
    induction b as [|s b IH]; cbn [p1_batch]; intros index ta rm b' ta' rm' H.
    - injection H as <- <- <-. constructor.
    - destruct (nth_error ta (next_index gal ta index (fst s))) as [x|].
      1: destruct (teqb (fst x) (fst s)); [destruct (psat P (snd s) (padd P (snd s) (snd x)))|].
      2: apply IH in H; simpl; constructor 3; auto.
      all: match type of H with context [p1_batch ?a ?b0 ?c ?d ?e] =>
             destruct (p1_batch a b0 c d e) as [[b1 ta1] rm1] eqn:R end; injection H as <- <- <-;
           apply IH in R; simpl; constructor 2; auto.
  Qed.

  Lemma p1_batches_sub : forall st ta rm st' ta' rm',
    p1_batches st ta rm = (st', ta', rm') -> sub (tuples_of st') (tuples_of st).
  Proof.
    induction st as [|b st IH]; cbn [p1_batches]; intros ta rm st' ta' rm' H.
    - injection H as <- <- <-. constructor.
    - destruct (p1_batch (4 * length b <? length ta) b 0 ta rm) as [[b1 ta1] rm1] eqn:E1.
      destruct (p1_batches st ta1 rm1) as [[st2 ta2] rm2] eqn:E2. injection H as <- <- <-.
      unfold tuples_of. cbn [concat]. rewrite !map_app. apply sub_app; [eapply p1_batch_sub; eauto|].
      eapply IH; eauto.
  Qed.

  Lemma ssorted_NoDup : forall l : list elem, ssorted l -> NoDup (map fst l).
  Proof.
    induction l as [|a l IH]; simpl; intros S; constructor.
    - apply ssorted_cons_inv in S as [_ F]. rewrite Forall_forall in F. intros I.
      apply in_map_iff in I as (x & E & I). apply F in I. unfold elt in I. rewrite E in I.
      rewrite (to_refl tcmp_TOrder) in I. discriminate.
    - apply IH. apply ssorted_cons_inv in S. tauto.
  Qed.

  Lemma NoDup_fst_inv : forall (l : list elem), NoDup (map fst l) -> NoDup l.
  Proof. intros. eapply NoDup_map_inv; eauto. Qed.

  Lemma merge_disjoint : forall a b : list elem, ssorted a -> ssorted b ->
    (forall t x y, In (t, x) a -> ~ In (t, y) b) ->
    Permutation (merge a b) (a ++ b).
  Proof.
    intros a b Sa Sb D. destruct (C02_merge Sa Sb) as [S M]. apply NoDup_Permutation.
    - apply NoDup_fst_inv, ssorted_NoDup; auto.
    - assert (Na := NoDup_fst_inv _ (ssorted_NoDup Sa)). assert (Nb := NoDup_fst_inv _ (ssorted_NoDup Sb)).
      apply NoDup_app_intro; auto. intros [t g] I. apply (D t g g I).
    - intros [t g]. rewrite M, in_app_iff. split.
      + intros [[I _]|[[I _]|(x & y & I & J & _)]]; auto. destruct (D _ _ _ I J).
      + intros [I|I]; [left|right; left]; split; auto; intros h J.
        * destruct (D _ _ _ I J).
        * destruct (D _ _ _ J I).
  Qed.


  Lemma absorb_perm : forall rst rec, Forall (@ssorted P) rst -> ssorted rec ->
    NoDup (map fst (rec ++ concat rst)) ->
    Permutation (concat (absorb rst rec)) (rec ++ concat rst).
  Proof.
    induction rst as [|last r IH]; cbn [absorb]; intros rec F S N; [simpl; auto|].
    inversion F as [|? ? F1 F2]; subst. destruct (length last <=? 2 * length rec); [|simpl; auto].
    assert (Q : Permutation (merge rec last) (rec ++ last)).
    { apply merge_disjoint; auto. intros t x y I J. cbn [concat] in N. rewrite map_app in N.
      apply (NoDup_app_disj _ _ N t).
      - apply (in_map fst) in I; auto.
      - rewrite map_app, in_app_iff. left. apply (in_map fst) in J; auto. }
    rewrite IH; auto.
    - cbn [concat]. rewrite Q, app_assoc. auto.
    - apply merge_spec; auto.
    - eapply Permutation_NoDup; [|apply N]. apply Permutation_map. cbn [concat].
      rewrite Q, app_assoc. auto.
  Qed.

  Lemma concat_rev_perm : forall A (st : list (list A)), Permutation (concat (rev st)) (concat st).
  Proof.
    induction st; simpl; auto. rewrite concat_app. simpl. rewrite app_nil_r, Permutation_app_comm.
    apply Permutation_app_head; auto.
  Qed.

  Lemma promote_perm : forall r : relation P, Forall (@ssorted P) (stable r) -> ssorted (recent r) ->
    NoDup (map fst (concat (stable r) ++ recent r)) ->
    Permutation (concat (promote r)) (concat (stable r) ++ recent r).
  Proof.
    intros r F S N. unfold promote. destruct (recent r) as [|e l] eqn:E; [rewrite app_nil_r; auto|].
    rewrite <- E in *. rewrite concat_rev_perm.
    assert (Q : Permutation (recent r ++ concat (rev (stable r))) (concat (stable r) ++ recent r)).
    { rewrite concat_rev_perm. apply Permutation_app_comm. }
    rewrite absorb_perm; auto.
    - apply Forall_rev; auto.
    - eapply Permutation_NoDup; [|apply N]. apply Permutation_map. symmetry; auto.
  Qed.

  (** ** one round under the default scheduler *)
  Theorem lfp_round : forall (r r' : relation P) c, changed LFP r = (r', c) ->
    rel_sorted r -> NoDup (map fst (concat (stable r) ++ recent r)) ->
    linear_for (condense (to_add r)) (promote r) ->
    (forall t g', inB (stable r') (t, g') <-> exists g, rel_vis r (t, g) /\
        (((forall x, ~ In (t, x) (condense (to_add r))) /\ g' = g) \/
         (exists x, In (t, x) (condense (to_add r)) /\ psat P g (padd P g x) = true /\ g' = padd P g x))) /\
    (forall t n, In (t, n) (recent r') <-> exists x, In (t, x) (condense (to_add r)) /\
        (((forall g, ~ rel_vis r (t, g)) /\ n = x) \/
         (exists g, rel_vis r (t, g) /\ psat P g (padd P g x) = false /\ n = padd P g x))) /\
    NoDup (map fst (concat (stable r') ++ recent r')).
  Proof.
    intros r r' c H RS ND LN. pose proof (changed_sorted _ H RS) as RS'.
    destruct RS as (S1 & S2 & S3). unfold changed, schedule, schedule_lfp in H.
    set (ta := condense (to_add r)) in *. set (st := promote r) in *.
    assert (ST : ssorted ta) by (apply condense_ssorted; auto).
    assert (SS : Forall (@ssorted P) st) by (apply promote_ssorted; auto).
    pose proof (promote_perm _ S1 S2 ND) as PP. fold st in PP.
    assert (NS : NoDup (tuples_of st)).
    { eapply Permutation_NoDup; [|apply ND]. apply Permutation_map. symmetry; auto. }
    assert (VIS : forall e, rel_vis r e <-> inB st e).
    { intros e. unfold rel_vis. rewrite !inB_concat. rewrite (Permutation_in' eq_refl PP).
      rewrite in_app_iff. tauto. }
    assert (UQ : forall t g g', inB st (t, g) -> inB st (t, g') -> g = g').
    { intros t g g' I J. apply inB_concat in I, J. unfold tuples_of in NS. clear - NS I J. revert NS I J.
      induction (concat st) as [|a l IH]; simpl in *; [tauto|]. intros NS I J. inversion NS; subst.
      destruct I as [->|I], J as [J|J]; auto.
      - congruence.
      - destruct H1. apply (in_map fst) in J; auto.
      - subst. destruct H1. apply (in_map fst) in I; auto. }
    assert (GOAL :
    (forall t g', inB (stable r') (t, g') <-> exists g, inB st (t, g) /\
        (((forall x, ~ In (t, x) ta) /\ g' = g) \/
         (exists x, In (t, x) ta /\ psat P g (padd P g x) = true /\ g' = padd P g x))) /\
    (forall t n, In (t, n) (recent r') <-> exists x, In (t, x) ta /\
        (((forall g, ~ inB st (t, g)) /\ n = x) \/
         (exists g, inB st (t, g) /\ psat P g (padd P g x) = false /\ n = padd P g x))) /\
    NoDup (map fst (concat (stable r')))).
    { unfold phase1 in H. destruct ta as [|e0 tl] eqn:ET.
      - injection H as <- <-. simpl. split; [|split; [|apply NS]].
        + intros t g'. split; [intros I; exists g'; auto|]. intros (g & I & [[_ ->]|(x & [] & _)]). auto.
        + intros t n. split; [tauto|]. intros (x & [] & _).
      - rewrite <- ET in *. destruct (p1_batches st ta []) as [[st' ta'] rm'] eqn:E.
        injection H as <- <-. simpl. rewrite retain_ifilter.
        pose proof (p1_batches_sub _ _ _ E) as SUB.
        apply p1_batches_linear in E as (M & A & B & C); auto.
        split; [auto|]. split; [|eapply sub_NoDup; eauto].
        intros t n. split.
        + intros HI. apply ifilter_In in HI as (k & N & K). simpl in K. assert (I : In (t, n) ta') by (eapply nth_error_In; eauto).
          apply B in I as (x & I & Q). exists x. split; auto. destruct Q as [[U ->]|Q]; auto.
          left. split; auto. intros g J. apply negb_true_iff in K.
          assert (X : existsb (Nat.eqb k) rm' = true); [|congruence].
          apply existsb_exists. exists k. split; [|apply Nat.eqb_refl]. apply C. right.
          exists t, x, g. split; [|auto].
          assert (MM : nth_error (map fst ta') k = nth_error (map fst ta) k) by congruence.
          rewrite !nth_error_map in MM. unfold Prov.elem in *. rewrite N in MM. simpl in MM.
          destruct (nth_error ta k) as [[t' z]|] eqn:Z; simpl in MM; [|discriminate]. injection MM as <-.
          f_equal. f_equal. apply nth_error_In in Z. exact (ssorted_fun _ _ _ ST Z I).
        + intros (x & I & Q).
          assert (J : In (t, n) ta').
          { apply B. exists x. split; auto. destruct Q as [[N ->]|Q]; auto. left. split; auto.
            intros g J. destruct (N _ J). }
          apply In_nth_error in J as (k & N). apply ifilter_In. exists k. split; auto. simpl.
          apply negb_true_iff. destruct (existsb (Nat.eqb k) rm') eqn:X; auto. exfalso.
          apply existsb_exists in X as (k' & X & Y). apply Nat.eqb_eq in Y. subst k'.
          apply C in X as [[]|(t' & y & g & N' & IB & SAT)].
          assert (MM : nth_error (map fst ta') k = nth_error (map fst ta) k) by congruence.
          rewrite !nth_error_map in MM. unfold Prov.elem in *. rewrite N, N' in MM. simpl in MM.
          injection MM as <-. apply nth_error_In in N'.
          pose proof (ssorted_fun _ _ _ ST N' I) as ->.
          destruct Q as [[U _]|(h & J & Q & _)]; [apply (U _ IB)|]. rewrite (UQ _ _ _ IB J) in SAT. congruence. }
    destruct GOAL as (GA & GB & GC). split; [|split].
    - intros t g'. rewrite GA. split; intros (g & I & Q); exists g; (split; [apply VIS; auto|auto]).
    - intros t n. rewrite GB. split; intros (x & I & Q); exists x; (split; [auto|]);
        destruct Q as [[U ->]|(g & J & Q)]; [left|right|left|right];
        (split || exists g); auto; try (intros g J; apply (U g); apply VIS; auto); split; auto; apply VIS; auto.
    - rewrite map_app. destruct RS' as (_ & R2 & _). apply ssorted_NoDup in R2.
      assert (DJ : forall t, In t (map fst (concat (stable r'))) -> ~ In t (map fst (recent r'))).
      { intros t I J. apply in_map_iff in I as ([t1 g'] & <- & I). apply in_map_iff in J as ([t2 n] & EQ & J).
        simpl in *. subst t2. apply inB_concat in I. apply GA in I as (g & I & Q). apply GB in J as (x & J & R).
        destruct R as [[U _]|(h & K & R & _)]; [apply (U _ I)|].
        rewrite (UQ _ _ _ K I) in R. destruct Q as [[N _]|(y & Y & SAT & _)]; [apply (N _ J)|].
        rewrite (ssorted_fun _ _ _ ST Y J) in SAT. congruence. }
      apply NoDup_app_intro; auto.
  Qed.
End Linear.
