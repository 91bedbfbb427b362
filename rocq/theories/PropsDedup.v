(** C30: sharing identical temporary relations. *)
From Coq Require Import List ZArith Bool Arith Lia Permutation.
From Verif Require Import Order Value Prov ProvInst SortedCol Dataflow View Denote Back Eval Ram Optimize
  Scc SccFacts PropsOpt2 PropsExpr Dedup.
Import ListNotations.

(** ** The equivalence sets *)
Lemma set_nth_length : forall (A : Type) i (a : A) l, length (set_nth i a l) = length l.
Proof. induction i; intros a [|x l]; cbn; auto. Qed.
Lemma nth_set_nth : forall (A : Type) i (a : A) l j d, i < length l ->
  nth j (set_nth i a l) d = if Nat.eqb j i then a else nth j l d.
Proof.
  induction i as [|i IH]; intros a [|x l] j d H; cbn in H; try lia.
  - destruct j; reflexivity.
  - destruct j; cbn [nth set_nth Nat.eqb]; [reflexivity|]. apply IH. lia.
Qed.
Lemma lookup_app_const : forall r (l : list nat) (i : nat) m,
  lookup r (map (fun x => (x, i)) l ++ m) = if memb r l then Some i else lookup r m.
Proof.
  induction l as [|x l IH]; intros i m; [reflexivity|]. cbn [map app lookup]. rewrite IH.
  unfold memb. cbn [existsb]. rewrite (Nat.eqb_sym r x). destruct (Nat.eqb x r) eqn:E.
  - reflexivity.
  - reflexivity.
Qed.
Lemma extend_NoDup : forall xs l, NoDup l -> NoDup (extend xs l).
Proof.
  unfold extend. induction xs as [|x xs IH]; intros l N; cbn; auto. apply IH.
  unfold insert. destruct (memb x l) eqn:M; auto. constructor; auto. intros H. apply memb_In in H. congruence.
Qed.
Lemma insert_NoDup' : forall x l, NoDup l -> NoDup (insert x l).
Proof. intros x l N. apply (extend_NoDup [x] l N). Qed.

Section Eqs.
  Variable R : nat -> nat -> Prop.
  Variable T : nat -> Prop.
  Hypothesis R_sym : forall a b, R a b -> R b a.
  Hypothesis R_trans : forall a b c, R a b -> R b c -> R a c.
  Hypothesis R_refl : forall a, R a a.

  Record eq_ok (q : eqrels) : Prop := {
    eo_map : forall r i, lookup r (q_map q) = Some i <-> In r (nth i (q_sets q) []);
    eo_nodup : forall i, NoDup (nth i (q_sets q) []);
    eo_rel : forall i a b, In a (nth i (q_sets q) []) -> In b (nth i (q_sets q) []) -> R a b;
    eo_temp : forall i a, In a (nth i (q_sets q) []) -> T a }.

  Lemma in_range : forall q r i, eq_ok q -> lookup r (q_map q) = Some i -> i < length (q_sets q).
  Proof.
    intros q r i O H. apply (eo_map _ O) in H. destruct (Nat.lt_ge_cases i (length (q_sets q))); auto.
    rewrite nth_overflow in H by auto. destruct H.
  Qed.

  Lemma eq_ok_empty : eq_ok (mkEq [] []).
  Proof.
    constructor; cbn; intros; try (destruct i; cbn in *; tauto).
    - destruct i; split; intros H; try discriminate; destruct H.
    - destruct i; constructor.
  Qed.

  (** Adding [x] to the set of [y]. *)
  Lemma eq_ok_insert : forall q x y i, eq_ok q -> R x y -> T x -> lookup y (q_map q) = Some i -> lookup x (q_map q) = None ->
    eq_ok (mkEq ((x, i) :: q_map q) (set_nth i (insert x (nth i (q_sets q) [])) (q_sets q))).
  Proof.
    intros q x y i O Rxy Tx Ly Lx. pose proof (in_range _ _ _ O Ly) as Li.
    assert (Nx : forall j, ~ In x (nth j (q_sets q) [])) by (intros j H; apply (eo_map _ O) in H; congruence).
    pose proof (proj1 (eo_map _ O y i) Ly) as Iy.
    constructor; cbn [q_map q_sets].
    - intros r j. rewrite nth_set_nth by auto. cbn [lookup]. destruct (Nat.eqb_spec r x) as [->|N].
      + destruct (Nat.eqb_spec j i) as [->|Nj].
        * rewrite insert_In. split; auto.
        * split; [intros Q; injection Q as <-; congruence|intros Q; destruct (Nx j Q)].
      + rewrite (eo_map _ O). destruct (Nat.eqb_spec j i) as [->|Nj]; [|tauto]. rewrite insert_In. intuition.
    - intros j. rewrite nth_set_nth by auto. destruct (Nat.eqb j i); [apply insert_NoDup'|]; apply (eo_nodup _ O).
    - intros j a b. rewrite nth_set_nth by auto. destruct (Nat.eqb j i); [|apply (eo_rel _ O)].
      rewrite !insert_In. intros [->|Ha] [->|Hb]; auto.
      + apply R_trans with y; auto. apply (eo_rel _ O i); auto.
      + apply R_trans with y; auto. apply (eo_rel _ O i); auto.
      + apply (eo_rel _ O i); auto.
    - intros j a. rewrite nth_set_nth by auto. destruct (Nat.eqb j i); [|apply (eo_temp _ O)].
      rewrite insert_In. intros [->|Ha]; auto. eapply (eo_temp _ O); eauto.
  Qed.

  Lemma eq_ok_add : forall q r1 r2, eq_ok q -> R r1 r2 -> T r1 -> T r2 -> eq_ok (add_eq q r1 r2).
  Proof.
    intros q r1 r2 O Rr T1 T2. unfold add_eq.
    destruct (lookup r1 (q_map q)) as [i1|] eqn:L1; destruct (lookup r2 (q_map q)) as [i2|] eqn:L2.
    - destruct (Nat.eqb_spec i1 i2) as [->|N]; auto.
      pose proof (in_range _ _ _ O L1) as B1. pose proof (in_range _ _ _ O L2) as B2.
      pose proof (proj1 (eo_map _ O r1 i1) L1) as I1. pose proof (proj1 (eo_map _ O r2 i2) L2) as I2.
      assert (Nth : forall j, nth j (set_nth i1 (extend (nth i2 (q_sets q) []) (nth i1 (q_sets q) [])) (set_nth i2 [] (q_sets q))) [] =
         if Nat.eqb j i1 then extend (nth i2 (q_sets q) []) (nth i1 (q_sets q) [])
         else if Nat.eqb j i2 then [] else nth j (q_sets q) []).
      { intros j. rewrite nth_set_nth by (rewrite set_nth_length; auto). rewrite nth_set_nth by auto. reflexivity. }
      constructor; cbn [q_map q_sets].
      + intros r j. rewrite Nth, lookup_app_const. destruct (memb r (nth i2 (q_sets q) [])) eqn:M.
        * apply memb_In in M. destruct (Nat.eqb_spec j i1) as [->|Nj].
          { rewrite extend_In. tauto. }
          split; [intros Q; injection Q as <-; congruence|].
          destruct (Nat.eqb_spec j i2) as [->|Nj2]; [intros []|]. intros H. apply (eo_map _ O) in H. apply (eo_map _ O) in M. congruence.
        * assert (~ In r (nth i2 (q_sets q) [])) as M' by (intros H; apply memb_In in H; congruence).
          rewrite (eo_map _ O). destruct (Nat.eqb_spec j i1) as [->|Nj]; [rewrite extend_In; tauto|].
          destruct (Nat.eqb_spec j i2) as [->|Nj2]; [cbn; tauto|tauto].
      + intros j. rewrite Nth. destruct (Nat.eqb j i1); [apply extend_NoDup, (eo_nodup _ O)|].
        destruct (Nat.eqb j i2); [constructor|apply (eo_nodup _ O)].
      + assert (X : forall a b, In a (nth i1 (q_sets q) []) -> In b (nth i2 (q_sets q) []) -> R a b).
        { intros a b Ha Hb. apply R_trans with r1; [apply (eo_rel _ O i1); auto|]. apply R_trans with r2; auto.
          apply (eo_rel _ O i2); auto. }
        intros j a b. rewrite Nth. destruct (Nat.eqb j i1).
        * rewrite !extend_In. intros [Ha|Ha] [Hb|Hb]; auto; try (apply (eo_rel _ O i2); auto; fail); apply (eo_rel _ O i1); auto.
        * destruct (Nat.eqb j i2); [intros []|apply (eo_rel _ O)].
      + intros j a. rewrite Nth. destruct (Nat.eqb j i1).
        * rewrite extend_In. intros [H|H]; eapply (eo_temp _ O); eauto.
        * destruct (Nat.eqb j i2); [intros []|apply (eo_temp _ O)].
    - apply eq_ok_insert with (y := r1); auto.
    - apply eq_ok_insert with (y := r2); auto.
    - assert (Nth : forall j, nth j (q_sets q ++ [extend [r1; r2] []]) [] =
         if Nat.eqb j (length (q_sets q)) then extend [r1; r2] [] else nth j (q_sets q) []).
      { intros j. destruct (Nat.eqb_spec j (length (q_sets q))) as [->|N].
        - rewrite app_nth2, Nat.sub_diag by lia. reflexivity.
        - destruct (Nat.lt_ge_cases j (length (q_sets q))).
          + rewrite app_nth1 by auto. reflexivity.
          + rewrite !nth_overflow; auto. rewrite app_length; cbn [length]; lia. }
      assert (N1 : forall j, ~ In r1 (nth j (q_sets q) [])) by (intros j H; apply (eo_map _ O) in H; congruence).
      assert (N2 : forall j, ~ In r2 (nth j (q_sets q) [])) by (intros j H; apply (eo_map _ O) in H; congruence).
      assert (Lg : forall r, lookup r (q_map q) <> Some (length (q_sets q))).
      { intros r H. pose proof (in_range _ _ _ O H). lia. }
      assert (In12 : forall a, In a (extend [r1; r2] []) <-> a = r1 \/ a = r2).
      { intros a. rewrite extend_In. cbn. intuition. }
      constructor; cbn [q_map q_sets].
      + intros r j. rewrite Nth. cbn [lookup]. destruct (Nat.eqb_spec j (length (q_sets q))) as [->|Nj].
        * rewrite In12. destruct (Nat.eqb_spec r r2); [tauto|]. destruct (Nat.eqb_spec r r1); [tauto|].
          split; [intros H; destruct (Lg r H)|tauto].
        * destruct (Nat.eqb_spec r r2) as [->|]; [split; [intros Q; congruence|intros H; destruct (N2 j H)]|].
          destruct (Nat.eqb_spec r r1) as [->|]; [split; [intros Q; congruence|intros H; destruct (N1 j H)]|].
          apply (eo_map _ O).
      + intros j. rewrite Nth. destruct (Nat.eqb j _); [apply extend_NoDup; constructor|apply (eo_nodup _ O)].
      + intros j a b. rewrite Nth. destruct (Nat.eqb j _); [|apply (eo_rel _ O)].
        rewrite !In12. intros [->| ->] [->| ->]; auto.
      + intros j a. rewrite Nth. destruct (Nat.eqb j _); [|apply (eo_temp _ O)]. rewrite In12. intros [->| ->]; auto.
  Qed.
End Eqs.

Lemma NoDup_concat_nth : forall (ss : list (list nat)), (forall i, NoDup (nth i ss [])) ->
  (forall i j r, In r (nth i ss []) -> In r (nth j ss []) -> i = j) -> NoDup (concat ss).
Proof.
  induction ss as [|s ss IH]; intros N D; cbn; [constructor|].
  assert (Nss : NoDup (concat ss)).
  { apply IH; [intros i; exact (N (S i))|]. intros i j r Hi Hj.
    assert (S i = S j) by (apply (D (S i) (S j) r); auto). lia. }
  assert (Dj : forall x, In x s -> ~ In x (concat ss)).
  { intros x Hs Hc. apply in_concat in Hc. destruct Hc as (t & Ht & Hx).
    apply In_nth with (d := []) in Ht. destruct Ht as (j & _ & <-).
    assert (0 = S j) by (apply (D 0 (S j) x); auto). lia. }
  pose proof (N 0) as N0. cbn in N0. clear N D IH. induction s as [|x s IHs]; cbn; auto.
  inversion N0; subst. constructor.
  - intros H. apply in_app_or in H. destruct H as [H|H]; [contradiction|]. exact (Dj x (or_introl eq_refl) H).
  - apply IHs; auto. intros y Hy. apply Dj; right; auto.
Qed.

(** ** Renaming *)
Lemma rename_comp : forall f g d, rename f (rename g d) = rename (fun r => f (g r)) d.
Proof.
  intros f g. induction d; cbn; try congruence. f_equal. destruct grp; reflexivity.
Qed.
Lemma rename_id : forall d, rename (fun r => r) d = d.
Proof. induction d; cbn; try congruence. destruct grp; reflexivity. Qed.
(** The names read from completed collections by an aggregation or an indexed
    join. *)
Fixpoint special (d : rdf) : list nat :=
  match d with
  | RUnit _ | RVec _ | RRel _ | RGround _ _ => []
  | ROverwrite d | RFilter d _ | RProject d _ | RFind d _ | RSorted d | RConstraint d _ _ | RFpJoin d _ _ => special d
  | RInter a b | RJoin a b | RProd a b | RUnion a b | RDiff a b | RAnti a b => special a ++ special b
  | RJoinIV d r => r :: special d
  | RReduce _ p grp => p :: match grp with GJoin g => [g] | _ => [] end
  end.
(** All names. *)
Fixpoint names (d : rdf) : list nat :=
  match d with
  | RUnit _ | RVec _ | RGround _ _ => []
  | RRel r => [r]
  | ROverwrite d | RFilter d _ | RProject d _ | RFind d _ | RSorted d | RConstraint d _ _ | RFpJoin d _ _ => names d
  | RInter a b | RJoin a b | RProd a b | RUnion a b | RDiff a b | RAnti a b => names a ++ names b
  | RJoinIV d r => r :: names d
  | RReduce _ p grp => p :: match grp with GJoin g => [g] | _ => [] end
  end.
Lemma names_rename : forall f d, names (rename f d) = map f (names d).
Proof. intros f. induction d; cbn; rewrite ?map_app; try congruence. destruct grp; reflexivity. Qed.

Section DenRename.
  Context {P : Prov} (L : lenv P) (col : nat -> option (list (elem P))) (f : nat -> nat).
  Hypothesis Fc : forall r, f r <> r -> col r = None /\ col (f r) = None.
  Lemma den_rename : forall d st (I J : nat -> elem P -> Prop), (forall r, In r (special d) -> f r = r) ->
    (forall r e, I (f r) e <-> J r e) ->
    forall e, den col st I (lower L (rename f d)) e <-> den col st J (lower L d) e.
  Proof.
    induction d; intros st I J Sp E x; cbn [rename lower den special] in *;
      try (rewrite (IHd st I J) by auto; tauto);
      try (assert (Sa : forall r, In r (special d1) -> f r = r) by (intros; apply Sp, in_or_app; auto);
           assert (Sb : forall r, In r (special d2) -> f r = r) by (intros; apply Sp, in_or_app; auto);
           pose proof (fun st => IHd1 st I J Sa E) as A; pose proof (fun st => IHd2 st I J Sb E) as B).
    - tauto.
    - tauto.
    - destruct (Nat.eq_dec (f r) r) as [Q|Q].
      + rewrite Q. destruct (col r); [tauto|]. rewrite <- E, Q. tauto.
      + destruct (Fc r Q) as [C1 C2]. rewrite C1, C2. apply E.
    - split; intros [(g & H) Q]; (split; [exists g|exact Q]); apply (IHd st I J); auto.
    - split; intros (t & H & Q); exists t; (split; [|exact Q]); apply (IHd st I J); auto.
    - split; intros (a & b & Ha & Hb & Q); exists a, b; (split; [apply A; auto|split; [apply B; auto|exact Q]]).
    - split; intros (t1 & t2 & a & b & k & u & v & Ha & Hb & Q); exists t1, t2, a, b, k, u, v;
        (split; [apply A; auto|split; [apply B; auto|exact Q]]).
    - split; intros (t1 & t2 & a & b & Ha & Hb & Q); exists t1, t2, a, b;
        (split; [apply A; auto|split; [apply B; auto|exact Q]]).
    - rewrite A, B. tauto.
    - split; (intros [(Ha & Hb)|(a & b & Ha & Hb & Q)]; [left; split; [apply A; auto|intros g H; apply (Hb g), B; auto]|
        right; exists a, b; split; [apply A; auto|split; [apply B; auto|exact Q]]]).
    - split; (intros [(Ha & Hb)|(k & a & b & K & Ha & Hb & Q)];
        [left; split; [apply A; auto|intros k g Hk H; apply (Hb k g Hk), B; auto]|
         right; exists k, a, b; split; [exact K|split; [apply A; auto|split; [apply B; auto|exact Q]]]]).
    - assert (Sd : forall r0, In r0 (special d) -> f r0 = r0) by (intros; apply Sp; right; auto).
      rewrite (Sp r (or_introl eq_refl)).
      split; intros (t & a & k & u & y & g & H & Q); exists t, a, k, u, y, g; (split; [|exact Q]); apply (IHd st I J); auto.
    - tauto.
    - split; intros (a & g & H & Q); exists a, g; (split; [|exact Q]); apply (IHd st I J); auto.
    - split; intros (t & a & u & g & H & Q); exists t, a, u, g; (split; [|exact Q]); apply (IHd st I J); auto.
    - rewrite (Sp p (or_introl eq_refl)). destruct grp as [| |g]; [tauto|tauto|].
      rewrite (Sp g) by (right; left; reflexivity). tauto.
  Qed.
End DenRename.

Lemma filter_all : forall (A : Type) (f : A -> bool) l, (forall a, f a = true) -> filter f l = l.
Proof. intros A f l H. induction l; cbn; auto. rewrite H. congruence. Qed.
Lemma map_rename_id : forall us : list (nat * rdf), map (fun u => (fst u, rename (fun r => r) (snd u))) us = us.
Proof. induction us as [|[q d] us IH]; cbn; auto. rewrite rename_id. congruence. Qed.

(** ** The replacement loop *)
Definition lrules {P : Prov} (L : lenv P) (us : list (nat * rdf)) : list (nat * dflow P) :=
  map (fun u => (fst u, lower L (snd u))) us.

Section Main.
  Context {P : Prov} (L : lenv P) (col : nat -> option (list (elem P))) (facts : nat -> elem P -> Prop).
  Variables (is_temp : nat -> bool) (order : list nat -> list nat) (S0 : rstratum).
  Hypothesis Ord : forall l, Permutation (order l) l.
  Hypothesis Tc : forall t, is_temp t = true -> col t = None /\ forall e, ~ facts t e.
  Hypothesis T1 : forall t d d', is_temp t = true -> In (t, d) (rs_updates S0) -> In (t, d') (rs_updates S0) -> d = d'.
  Hypothesis Sp : forall u r, In u (rs_updates S0) -> In r (special (snd u)) -> is_temp r = false.

  Let st0 := stage col (lrules L (rs_updates S0)) facts.
  Let same (a b : nat) : Prop := forall n e, st0 n a e <-> st0 n b e.
  Let T (a : nat) : Prop := is_temp a = true /\ exists d, In (a, d) (rs_updates S0).

  Lemma same_temps : forall a b d, is_temp a = true -> is_temp b = true ->
    In (a, d) (rs_updates S0) -> In (b, d) (rs_updates S0) -> same a b.
  Proof.
    intros a b d Ta Tb Ha Hb n. induction n as [|n IH]; intros e.
    - split; intros H; exfalso; [exact (proj2 (Tc a Ta) e H)|exact (proj2 (Tc b Tb) e H)].
    - unfold st0 in *; cbn [stage]. rewrite IH.
      assert (K : forall x, is_temp x = true -> In (x, d) (rs_updates S0) ->
        ((exists d', In (x, d') (lrules L (rs_updates S0)) /\ den col true (stage col (lrules L (rs_updates S0)) facts n) d' e) <->
         den col true (stage col (lrules L (rs_updates S0)) facts n) (lower L d) e)).
      { intros x Tx Hx. split.
        - intros (d' & Hd & D). apply in_map_iff in Hd. destruct Hd as ((y & dy) & Q & Hy). injection Q as -> <-.
          cbn [snd] in D. rewrite (T1 x d dy Tx Hx Hy). exact D.
        - intros D. exists (lower L d). split; auto. apply in_map_iff. exists (x, d). auto. }
      rewrite (K a Ta Ha), (K b Tb Hb). tauto.
  Qed.

  Lemma equivalents_ok : eq_ok same T (equivalents is_temp (rs_updates S0)).
  Proof.
    unfold equivalents.
    assert (G : forall ps q, incl ps (list_prod (rs_updates S0) (rs_updates S0)) -> eq_ok same T q ->
              eq_ok same T (fold_left (pair_step is_temp) ps q)).
    { induction ps as [|[[h1 d1] [h2 d2]] ps IH]; intros q I O; cbn [fold_left]; auto.
      apply IH; [intros z Hz; apply I; right; auto|]. unfold pair_step.
      destruct (rdf_eq_dec d1 d2) as [->|]; auto. destruct (Nat.eqb h1 h2); auto.
      destruct (is_temp h1) eqn:E1; auto. destruct (is_temp h2) eqn:E2; auto. cbn [andb].
      pose proof (I _ (or_introl eq_refl)) as H. apply in_prod_iff in H. destruct H as [H1 H2].
      apply eq_ok_add; auto.
      - intros a b Q n e. symmetry. apply Q.
      - intros a b c Q1 Q2 n e. rewrite (Q1 n e). apply Q2.
      - intros a n e. tauto.
      - apply same_temps with d2; auto.
      - split; eauto.
      - split; eauto. }
    apply G; [apply incl_refl|apply eq_ok_empty].
  Qed.

  Definition gone (rm : list nat) (r : nat) : bool := negb (memb r rm).
  Record inv (s : rstratum) (f : nat -> nat) (rm : list nat) : Prop := {
    iv_us : rs_updates s = map (fun u => (fst u, rename f (snd u))) (filter (fun u => gone rm (fst u)) (rs_updates S0));
    iv_rels : rs_rels s = filter (gone rm) (rs_rels S0);
    iv_same : forall r, same r (f r);
    iv_kept : forall r, ~ In (f r) rm;
    iv_temp : forall r, f r = r \/ (is_temp r = true /\ T (f r));
    iv_rm : forall r, In r rm -> is_temp r = true }.

  Lemma filter_filter' : forall (A : Type) (f g : A -> bool) l, filter f (filter g l) = filter (fun x => f x && g x) l.
  Proof. intros A f g l. induction l; cbn; auto. destruct (g a); cbn; [|rewrite andb_false_r; auto]. rewrite andb_true_r. destruct (f a); congruence. Qed.
  Lemma filter_map' : forall (A C : Type) (f : C -> bool) (g : A -> C) l, filter f (map g l) = map g (filter (fun x => f (g x)) l).
  Proof. intros. induction l; cbn; auto. destruct (f (g a)); cbn; congruence. Qed.

  Lemma replace_rel_inv : forall s f rm a pivot, inv s f rm -> same a pivot -> T a -> T pivot ->
    a <> pivot -> ~ In pivot rm ->
    inv (replace_rel pivot s a) (fun r => swap a pivot (f r)) (a :: rm).
  Proof.
    intros s f rm a pivot [I1 I2 I3 I4 I5 I6] Sm Ta Tp N Np.
    assert (G : forall r, negb (Nat.eqb r a) && gone rm r = gone (a :: rm) r).
    { intros r. unfold gone, memb. cbn [existsb]. rewrite negb_orb. reflexivity. }
    constructor; cbn [replace_rel rs_updates rs_rels].
    - rewrite I1, filter_map', map_map, filter_filter'. cbn [fst snd].
      erewrite filter_ext by (intros u; apply G). apply map_ext. intros u. rewrite rename_comp. reflexivity.
    - rewrite I2, filter_filter'. apply filter_ext. intros r. apply G.
    - intros r n e. rewrite (I3 r n e). unfold swap. destruct (Nat.eqb_spec (f r) a) as [->|]; [apply Sm|tauto].
    - intros r. unfold swap. destruct (Nat.eqb_spec (f r) a) as [E|E].
      + intros [Q|Q]; auto.
      + intros [Q|Q]; [congruence|]. exact (I4 r Q).
    - intros r. unfold swap. destruct (Nat.eqb_spec (f r) a) as [E|E]; auto. right. split; auto.
      destruct (I5 r) as [Q|[Q _]]; auto. rewrite <- Q, E. apply Ta.
    - intros r [<-|H]; auto. apply Ta.
  Qed.

  Lemma replace_rest_inv : forall rest s f rm pivot, inv s f rm -> NoDup (pivot :: rest) ->
    (forall a, In a (pivot :: rest) -> T a /\ same a pivot) -> ~ In pivot rm ->
    exists f', inv (fold_left (replace_rel pivot) rest s) f' (rev rest ++ rm).
  Proof.
    induction rest as [|a rest IH]; intros s f rm pivot I N R Np; [eauto|]. cbn [fold_left rev].
    inversion N as [|? ? Na N']; subst. inversion N' as [|? ? Nb N'']; subst.
    rewrite <- app_assoc. cbn [app].
    eapply IH.
    - apply replace_rel_inv; eauto; try apply (R a); try (right; left; reflexivity); [apply (R pivot); left; auto|].
      intros ->. apply Na. left; auto.
    - constructor; auto. intros H. apply Na; right; auto.
    - intros b Hb. apply R. destruct Hb; [left|right; right]; auto.
    - intros [->|H]; auto. apply Na; left; auto.
  Qed.

  Lemma sets_inv : forall ss s f rm, inv s f rm -> NoDup (concat ss) ->
    (forall t a b, In t ss -> In a t -> In b t -> same a b) ->
    (forall t a, In t ss -> In a t -> T a) -> (forall a, In a (concat ss) -> ~ In a rm) ->
    exists f' rm', inv (fold_left (replace_set order) ss s) f' rm'.
  Proof.
    induction ss as [|t ss IH]; intros s f rm I N R Tt D; [eauto|]. cbn [fold_left concat] in *.
    assert (Pt : forall a, In a (order t) <-> In a t).
    { intros a. split; apply Permutation_in; [|apply Permutation_sym]; apply Ord. }
    assert (Nt : NoDup (order t)).
    { apply Permutation_NoDup with t; [apply Permutation_sym, Ord|]. apply NoDup_app_l in N. exact N. }
    assert (Ns : NoDup (concat ss)) by (apply NoDup_app_r in N; exact N).
    assert (Dj : forall x, In x t -> ~ In x (concat ss)) by (intros x Hx Hc; eapply NoDup_app_disj; eauto).
    unfold replace_set at 2; destruct (order t) as [|pivot rest] eqn:Eo.
    - eapply IH; eauto; intros.
      + eapply R; eauto. right; auto.
      + eapply Tt; eauto. right; auto.
      + apply D. apply in_or_app; auto.
    - destruct (replace_rest_inv rest s f rm pivot I Nt) as (f' & I').
      + intros a Ha. apply Pt in Ha. split; [apply (Tt t a); [left|]; auto|]. apply (R t); [left; auto|auto|].
        apply Pt. left; auto.
      + apply D. apply in_or_app; left. apply Pt; left; auto.
      + eapply IH; [exact I'|exact Ns| | |].
        * intros u a b Hu. apply R. right; auto.
        * intros u a Hu. apply Tt. right; auto.
        * intros a Ha Hr. apply in_app_or in Hr. destruct Hr as [Hr|Hr].
          { apply in_rev in Hr. apply (Dj a); auto. apply Pt. right; auto. }
          { apply (D a); auto. apply in_or_app; auto. }
  Qed.

  Lemma deduplicate_inv : exists f rm, inv (deduplicate is_temp order S0) f rm.
  Proof.
    unfold deduplicate. pose proof equivalents_ok as O.
    assert (Dj : forall i j r, In r (nth i (q_sets (equivalents is_temp (rs_updates S0))) []) ->
       In r (nth j (q_sets (equivalents is_temp (rs_updates S0))) []) -> i = j).
    { intros i j r Hi Hj. apply (eo_map _ _ _ O) in Hi. apply (eo_map _ _ _ O) in Hj. congruence. }
    apply sets_inv with (f := fun r => r) (rm := []).
    - constructor; auto.
      + rewrite filter_all, map_rename_id; auto.
      + rewrite filter_all; auto.
      + intros r n e. tauto.
    - apply NoDup_concat_nth; [apply (eo_nodup _ _ _ O)|exact Dj].
    - intros t a b Ht Ha Hb. apply In_nth with (d := []) in Ht. destruct Ht as (i & _ & <-).
      apply (eo_rel _ _ _ O i); auto.
    - intros t a Ht Ha. apply In_nth with (d := []) in Ht. destruct Ht as (i & _ & <-).
      apply (eo_temp _ _ _ O i); auto.
    - intros a _ [].
  Qed.

  (** C30: every relation that is not a temporary derives the same tagged tuples
      at every stage, and no remaining rule reads a removed relation. *)
  Theorem C30_shared_stage : forall r n e, is_temp r = false ->
    (stage col (lrules L (rs_updates (deduplicate is_temp order S0))) facts n r e <->
     stage col (lrules L (rs_updates S0)) facts n r e).
  Proof.
    destruct deduplicate_inv as (f & rm & [I1 I2 I3 I4 I5 I6]).
    assert (K : forall n r e, ~ In r rm ->
      (stage col (lrules L (rs_updates (deduplicate is_temp order S0))) facts n r e <-> st0 n r e)).
    { induction n as [|n IH]; intros r e Nr; [tauto|]. unfold st0 in *. cbn [stage]. rewrite (IH r e Nr).
      assert (Dn : forall d, In (r, d) (rs_updates S0) ->
         (den col true (stage col (lrules L (rs_updates (deduplicate is_temp order S0))) facts n) (lower L (rename f d)) e <->
          den col true (stage col (lrules L (rs_updates S0)) facts n) (lower L d) e)).
      { intros d Hd. apply den_rename.
        - intros q Hq. destruct (I5 q) as [Z|[Z1 Z2]]; [congruence|]. split; [apply Tc; auto|]. apply Tc, Z2.
        - intros q Hq. destruct (I5 q) as [Z|[Z _]]; auto. rewrite (Sp _ _ Hd Hq) in Z. discriminate.
        - intros q x. rewrite (IH (f q) x (I4 q)). symmetry. apply (I3 q n x). }
      split; (intros [H|(d & Hd & D)]; [left; exact H|right]).
      - unfold lrules in Hd. apply in_map_iff in Hd. destruct Hd as ((q & d') & Q & Hd). injection Q as -> <-.
        rewrite I1 in Hd. apply in_map_iff in Hd. destruct Hd as ((q & d0) & Q & Hd). injection Q as -> <-.
        apply filter_In in Hd. destruct Hd as [Hd _]. cbn [fst snd] in *.
        exists (lower L d0). split; [apply in_map_iff; exists (r, d0); auto|]. apply Dn; auto.
      - unfold lrules in Hd. apply in_map_iff in Hd. destruct Hd as ((q & d0) & Q & Hd). injection Q as -> <-. cbn [fst snd] in *.
        exists (lower L (rename f d0)). split; [|apply Dn; auto].
        unfold lrules. apply in_map_iff. exists (r, rename f d0). split; auto. rewrite I1. apply in_map_iff. exists (r, d0). split; auto.
        apply filter_In. split; auto. unfold gone. cbn [fst]. destruct (memb r rm) eqn:M; auto. apply memb_In in M. contradiction. }
    intros r n e Tr. apply K. intros H. apply I6 in H. congruence.
  Qed.
  Theorem C30_no_dangling : forall u x, In u (rs_updates (deduplicate is_temp order S0)) -> In x (names (snd u)) ->
    (forall v y, In v (rs_updates S0) -> In y (fst v :: names (snd v)) -> In y (rs_rels S0) \/ is_temp y = false) ->
    In x (rs_rels (deduplicate is_temp order S0)) \/ is_temp x = false.
  Proof.
    destruct deduplicate_inv as (f & rm & [I1 I2 I3 I4 I5 I6]). intros u x Hu Hx Known.
    rewrite I1 in Hu. apply in_map_iff in Hu. destruct Hu as ((q & d) & <- & Hu). apply filter_In in Hu. destruct Hu as [Hu _].
    cbn [snd] in Hx. rewrite names_rename in Hx. apply in_map_iff in Hx. destruct Hx as (y & <- & Hy).
    destruct (is_temp (f y)) eqn:E; auto. left. rewrite I2. apply filter_In. split.
    - destruct (I5 y) as [Q|[_ [_ (dd & Hdd)]]].
      + rewrite Q in *. destruct (Known (q, d) y Hu (or_intror Hy)); congruence.
      + destruct (Known _ (f y) Hdd (or_introl eq_refl)); congruence.
    - unfold gone. destruct (memb (f y) rm) eqn:M; auto. apply memb_In in M. destruct (I4 y M).
  Qed.
End Main.

(** The temporaries of a program lowered by b2r.rs meet the hypotheses: lines
    1253-1280 create each with one update and no facts, and aggregations and
    indexed joins read relations with other names.  Two rules share a join. *)
Definition c30_temp (r : nat) : bool := Nat.leb 100 r.
Definition c30_join : rdf := RJoin (RRel 0) (RRel 1).
Definition c30_s : rstratum := mkStr [2; 3; 100; 101; 102]
  [(100, c30_join); (101, RRel 3); (2, RFilter (RRel 100) (XBin OEq (XAccess (acc_index 0)) (XConst (I32 1))));
   (102, c30_join); (3, RJoin (RRel 102) (RRel 100)); (2, RRel 101)].
Definition c30_facts (r : nat) (e : elem bool_prov) : Prop :=
  (r = 0 \/ r = 1) /\ e = (TTup [TVal (I32 (Z.of_nat r)); TVal (I32 7)], true).
Example C30_ex : (forall t, c30_temp t = true -> (fun _ : nat => @None (list (elem bool_prov))) t = None /\ forall e, ~ c30_facts t e) /\
  (forall t d d', c30_temp t = true -> In (t, d) (rs_updates c30_s) -> In (t, d') (rs_updates c30_s) -> d = d') /\
  (forall u r, In u (rs_updates c30_s) -> In r (special (snd u)) -> c30_temp r = false) /\
  rs_rels (deduplicate c30_temp (@rev nat) c30_s) = [2; 3; 100; 101] /\
  In (3, RJoin (RRel 100) (RRel 100)) (rs_updates (deduplicate c30_temp (@rev nat) c30_s)).
Proof.
  split; [|split; [|split; [|split]]].
  - intros t H. split; auto. intros e [[->| ->] _]; discriminate H.
  - intros t d d' Ht H H'. cbn in H, H'.
    repeat match goal with H : _ \/ _ |- _ => destruct H as [H|H] | H : False |- _ => destruct H end;
      injection H as <- <-; first [discriminate Ht|congruence].
  - intros u r H Hr. cbn in H. repeat destruct H as [<-|H]; try destruct H; cbn in Hr; tauto.
  - vm_compute. reflexivity.
  - vm_compute. auto.
Qed.

(** The pass compares single updates, so it is wrong for a temporary with a second
    update: 100 is 0 and 1 together, 101 is 0 alone, and both are merged. *)
Theorem C30_second_update_refuted : exists (s : rstratum) (facts : nat -> elem bool_prov -> Prop) r e,
  c30_temp r = false /\
  derivable (fun _ => None) (lrules C26_dom (rs_updates s)) facts r e /\
  ~ derivable (fun _ => None) (lrules C26_dom (rs_updates (deduplicate c30_temp (fun l => l) s))) facts r e.
Proof.
  set (s := mkStr [2; 3; 100; 101] [(100, RRel 0); (100, RRel 1); (101, RRel 0); (2, RRel 101); (3, RRel 100)]).
  set (t := (TTup [TVal (I32 1); TVal (I32 7)], true) : elem bool_prov).
  exists s, c30_facts, 3, t. split; [reflexivity|]. split.
  - assert (H0 : stage (fun _ => None) (lrules C26_dom (rs_updates s)) c30_facts 0 1 t) by (split; auto).
    exists 2. right. exists (lower C26_dom (RRel 100)). split; [cbn; auto 10|]. cbn [lower den].
    right. exists (lower C26_dom (RRel 1)). split; [cbn; auto 10|]. cbn [lower den]. exact H0.
  - assert (E : rs_updates (deduplicate c30_temp (fun l => l) s) = [(101, RRel 0); (2, RRel 101); (3, RRel 101)]) by (vm_compute; reflexivity).
    rewrite E. intros (n & H). revert H.
    assert (G : forall n r, r <> 1 -> ~ stage (fun _ => None) (lrules C26_dom [(101, RRel 0); (2, RRel 101); (3, RRel 101)]) c30_facts n r t).
    { clear n. induction n as [|n IH]; intros r Nr H.
      - destruct H as [[->| ->] Q]; [discriminate Q|congruence].
      - destruct H as [H|(d & Hd & H)]; [exact (IH r Nr H)|]. cbn in Hd.
        destruct Hd as [Q|[Q|[Q|[]]]]; injection Q as <- <-; cbn [den] in H; eapply IH; try exact H; lia. }
    apply G. lia.
Qed.

Print Assumptions C30_shared_stage.
Print Assumptions C30_no_dangling.
Print Assumptions C30_second_update_refuted.
