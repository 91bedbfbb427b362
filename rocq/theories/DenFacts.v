(** The semi-naive split: what the recent side of a dataflow yields, together
    with what its stable side denotes, is what the dataflow denotes over the
    visible contents of the relations. *)
From Coq Require Import List Arith Bool Lia Sorted.
From Verif Require Import Order Value Prov ListAux SortedCol GallopFacts SortedColFacts
  Schedulers Relation View SchedFacts Dataflow Denote OpFacts DataflowFacts.
Import ListNotations.
Set Implicit Arguments.

Section DenF.
  Variable P : Prov.
  Notation elem := (elem P).
  Notation batch := (batch P).

  Variable Sh : nat -> tuple -> Prop.
  Lemma den_static2 : forall col (d : dflow P) I J e, is_static col d ->
    den col true I d e -> den col true J d e.
  Proof. intros col d I J e S H. eapply den_static; eauto. Qed.

  (** More tuples in, more tuples out (negated sides are static). *)
  Lemma den_mono : forall col (d : dflow P) n (I J : nat -> elem -> Prop) st st',
    (forall r e, I r e -> J r e) -> (st = true -> st' = true) -> wf col Sh n d ->
    forall e, den col st I d e -> den col st' J d e.
  Proof.
    intros col d n I J st st' IJ SS. revert n.
    induction d; cbn [wf den]; intros n W e H.
    - tauto.
    - tauto.
    - destruct (col r); [tauto|auto].
    - destruct H as [(g & H) E]. split; eauto.
    - destruct H; eauto.
    - destruct H as (t & H & E); eauto.
    - destruct W, H; eauto.
    - eauto.
    - destruct W as (W1 & W2 & _), H as (a & b & A & B & E). exists a, b. eauto.
    - destruct W as (W1 & W2 & _), H as (t1 & t2 & a & b & k & x & y & A & B & E).
      exists t1, t2, a, b, k, x, y. split; eauto.
    - destruct W as (W1 & W2), H as (t1 & t2 & a & b & A & B & E).
      exists t1, t2, a, b. split; eauto.
    - destruct W as (W1 & W2), H; eauto.
    - destruct W as (_ & W1 & W2 & S & _). destruct H as [[A B]|(a & b & A & B & M)]; [left|right].
      + split; eauto. intros g K. apply (B g). eapply den_static2; eauto.
      + exists a, b. split; eauto. split; eauto. eapply den_static2; eauto.
    - destruct W as (_ & W1 & W2 & S & _). destruct H as [[A B]|(k & a & b & K & A & B & M)]; [left|right].
      + split; eauto. intros k g K L. apply (B k g); auto. eapply den_static2; eauto.
      + exists k, a, b. split; auto. split; eauto. split; eauto. eapply den_static2; eauto.
    - destruct H as (t & a & k & x & y & g & A & E). exists t, a, k, x, y, g. split; eauto.
    - tauto.
    - destruct H as (a & g & A & E). exists a, g. split; eauto.
    - destruct H as (t & a & u & g & A & E). exists t, a, u, g. split; eauto.
    - tauto.
  Qed.

  Section Env.
    Variable v : denv P.
    Hypothesis EO : env_ok Sh v.
    Notation stb d e := (inBt (iter_stable v d) e).
    Notation rcn d e := (inBt (iter_recent v d) e).
    Notation den := (den (e_col v)).
    Notation wf := (wf (e_col v) Sh).

    Lemma fstsnd : forall (e : elem), (fst e, snd e) = e.
    Proof. destruct e; auto. Qed.

    Theorem den_split : forall d, wf true d -> forall e, den true (Vis v) d e -> rcn d e \/ stb d e.
    Proof.
      induction d; cbn [Denote.wf Denote.den]; intros W e H; try discriminate; try (destruct W as [W _]; discriminate).
      - destruct H as [_ ->]. unfold iter_recent, iter_stable; simpl. destruct (e_first v); simpl; rewrite !inBt_one; simpl; auto.
      - destruct H as (_ & I & E). left. unfold iter_recent; simpl. rewrite inBt_one. simpl. apply in_map_iff.
        exists (fst e). split; auto. destruct e; simpl in *; congruence.
      - unfold iter_recent, iter_stable. cbn [iters]. destruct (e_col v r) eqn:E.
        + destruct H as [_ H]. destruct (e_first v); cbn [fst snd]; rewrite !inBt_one; simpl; auto.
        + cbn [fst snd]. destruct H as [(b & I & J)|H]; [right|left; apply inBt_one; auto].
          exists (true, b). split; auto. apply in_map_iff. eauto.
      - destruct H as [(g & H) E]. destruct (iters_overwrite v d e) as [-> ->]. apply IHd in H; auto.
        destruct H; [left|right]; eauto.
      - destruct H as [H E]. destruct (iters_filter v d p e) as [-> ->]. apply IHd in H; auto. tauto.
      - destruct H as (t & H & E). destruct (iters_project v d f e) as [-> ->]. apply IHd in H; auto.
        destruct H; [left|right]; eauto.
      - destruct W as [W S]. destruct H as [H E]. destruct (iters_find EO d k e S) as [-> ->]. apply IHd in H; auto. tauto.
      - destruct (iters_sorted_op v d e) as [-> ->]. auto.
      - destruct W as (W1 & W2 & S1 & S2). destruct H as (a & b & A & B & E).
        apply IHd1 in A; auto. apply IHd2 in B; auto. destruct (iters_inter EO d1 d2 S1 S2 e) as [-> ->].
        assert (R : R_inter (fst e, a) (fst e, b) e) by (repeat split; auto).
        destruct A, B; [left|left|left|right]; exists (fst e, a), (fst e, b); split; auto.
      - destruct W as (W1 & W2 & S1 & S2). destruct H as (t1 & t2 & a & b & k & x & y & A & B & E).
        apply IHd1 in A; auto. apply IHd2 in B; auto. destruct (iters_join EO d1 d2 S1 S2 e) as [-> ->].
        assert (R : R_join (t1, a) (t2, b) e).
        { destruct E as (E1 & E2 & E3 & E4 & E5). exists k, x, y. simpl. auto. }
        destruct A, B; [left|left|left|right]; exists (t1, a), (t2, b); split; auto.
      - destruct W as (W1 & W2). destruct H as (t1 & t2 & a & b & A & B & E).
        apply IHd1 in A; auto. apply IHd2 in B; auto. destruct (iters_prod v d1 d2 e) as [-> ->].
        assert (R : R_prod (t1, a) (t2, b) e) by auto.
        destruct A, B; [left|left|left|right]; exists (t1, a), (t2, b); split; auto.
      - destruct W as [W1 W2]. destruct (iters_union v d1 d2 e) as [-> ->].
        destruct H as [H|H]; [apply IHd1 in H|apply IHd2 in H]; tauto.
      - destruct H as (t & a & k & x & y & g & A & B). apply IHd in A; auto.
        destruct (iters_joiv v d get e) as [-> ->].
        destruct A; [left|right]; exists (t, a); split; auto; apply joiv_elem_In; exists k, x, y, g; tauto.
      - destruct H as [_ H]. unfold iter_recent, iter_stable; simpl. destruct (e_first v); simpl; rewrite !inBt_one; auto.
      - destruct H as (a & g & A & B & C). apply IHd in A; auto.
        destruct (iters_constr v d fp e) as [-> ->].
        destruct A; [left|right]; exists (fst e, a); split; auto; apply constr_elem_In; exists g; simpl; split; auto;
        destruct e; simpl in *; congruence.
      - destruct H as (t & a & u & g & A & B & C). apply IHd in A; auto.
        destruct (iters_fpjoin v d fp e) as [-> ->].
        destruct A; [left|right]; exists (t, a); split; auto; apply fpjoin_elem_In; exists u, g; auto.
    Qed.

    (** Whatever the stable side yields was derivable from stable contents. *)
    Theorem stable_den : forall d n, wf n d -> forall e, stb d e -> den (negb (e_first v)) (Stb v) d e.
    Proof.
      induction d; cbn [Denote.wf Denote.den]; intros n W e H.
      - unfold iter_stable in H; simpl in H. destruct (e_first v); simpl in *; [destruct (inBt_nil H)|].
        apply inBt_one in H. destruct H as [<-|[]]; auto.
      - destruct (inBt_nil H).
      - unfold iter_stable in H; cbn [iters] in H. destruct (e_col v r) eqn:E.
        + destruct (e_first v); simpl in *; [destruct (inBt_nil H)|]. apply inBt_one in H. auto.
        + simpl in H. destruct H as (b & I & J). apply in_map_iff in I as (c & <- & I). exists c; auto.
      - destruct (iters_overwrite v d e) as [EQ _]. apply EQ in H as [(g & H) E]. split; eauto.
      - destruct (iters_filter v d p e) as [EQ _]. apply EQ in H as [H E]. split; eauto.
      - destruct (iters_project v d f e) as [EQ _]. apply EQ in H as (t & H & E). eauto.
      - destruct W as [W S]. destruct (iters_find EO d k e S) as [EQ _]. apply EQ in H as [H E]. eauto.
      - destruct (iters_sorted_op v d e) as [EQ _]. apply EQ in H. eauto.
      - destruct W as (W1 & W2 & S1 & S2). destruct (iters_inter EO d1 d2 S1 S2 e) as [EQ _].
        apply EQ in H as ([t a] & [t' b] & A & B & R1 & R2 & R3). simpl in *. subst. exists a, b. eauto.
      - destruct W as (W1 & W2 & S1 & S2). destruct (iters_join EO d1 d2 S1 S2 e) as [EQ _].
        apply EQ in H as ([t a] & [t' b] & A & B & k & x & y & R). simpl in *.
        exists t, t', a, b, k, x, y. split; eauto.
      - destruct W as (W1 & W2). destruct (iters_prod v d1 d2 e) as [EQ _].
        apply EQ in H as ([t a] & [t' b] & A & B & R). exists t, t', a, b. split; eauto.
      - destruct W as (W1 & W2). destruct (iters_union v d1 d2 e) as [EQ _].
        apply EQ in H as [H|H]; eauto.
      - destruct W as (_ & W1 & W2 & S & S1 & S2). destruct (iters_diff EO d1 d2 S1 S S2 e) as [N _]. tauto.
      - destruct W as (_ & W1 & W2 & S & S1 & S2). destruct (iters_anti EO d1 d2 S1 S S2 e) as [N _]. tauto.
      - destruct (iters_joiv v d get e) as [EQ _]. apply EQ in H as ([t a] & H & J).
        apply joiv_elem_In in J as (k & x & y & g & A & B & C & ->). exists t, a, k, x, y, g.
        split; eauto.
      - unfold iter_stable in H; simpl in H. destruct (e_first v); simpl in *; [destruct (inBt_nil H)|].
        apply inBt_one in H. auto.
      - destruct (iters_constr v d fp e) as [EQ _]. apply EQ in H as ([t a] & H & J).
        apply constr_elem_In in J as (g & A & ->). exists a, g. simpl in *. split; eauto.
      - destruct (iters_fpjoin v d fp e) as [EQ _]. apply EQ in H as ([t a] & H & J).
        apply fpjoin_elem_In in J as (u & g & A & ->). exists t, a, u, g. split; eauto.
      - unfold iter_stable in H; simpl in H. destruct (e_first v); destruct (inBt_nil H).
    Qed.

    Lemma neg_side : forall d2, wf true d2 -> (forall e, stb d2 e \/ rcn d2 e -> den true (Vis v) d2 e) ->
      forall x, stb d2 x \/ rcn d2 x <-> den true (Vis v) d2 x.
    Proof. intros d2 W S x. split; auto. intros H. apply den_split in H; tauto. Qed.

    Lemma nowd_or : forall d e, nowd v d e -> stb d e \/ rcn d e.
    Proof. unfold nowd. tauto. Qed.

    Theorem den_sound : forall d n, wf n d -> forall e, stb d e \/ rcn d e -> den true (Vis v) d e.
    Proof.
      induction d; cbn [Denote.wf Denote.den]; intros n W e H.
      - unfold iter_stable, iter_recent in H; simpl in H. destruct (e_first v); simpl in H; rewrite inBt_one in H;
        (destruct H as [H|H]; [try destruct (inBt_nil H)|try destruct (inBt_nil H)]); destruct H as [<-|[]]; auto.
      - unfold iter_stable, iter_recent in H; simpl in H. destruct H as [H|H]; [destruct (inBt_nil H)|].
        apply inBt_one in H. simpl in H. apply in_map_iff in H as (t & <- & H). auto.
      - unfold iter_stable, iter_recent in H; cbn [iters] in H. destruct (e_col v r) eqn:E.
        + split; auto. destruct (e_first v); simpl in H; rewrite inBt_one in H; pose proof (@inBt_nil P e); tauto.
        + simpl in H. rewrite inBt_one in H. destruct H as [(b & I & J)|H]; [left|right; auto].
          apply in_map_iff in I as (c & <- & I). exists c; auto.
      - destruct (iters_overwrite v d e) as [E1 E2]. rewrite E1, E2 in H.
        destruct H as [[(g & H) E]|[(g & H) E]]; split; eauto.
      - destruct (iters_filter v d p e) as [E1 E2]. rewrite E1, E2 in H. destruct H as [[H E]|[H E]]; split; eauto.
      - destruct (iters_project v d f e) as [E1 E2]. rewrite E1, E2 in H. destruct H as [(t & H & E)|(t & H & E)]; eauto.
      - destruct W as [W S]. destruct (iters_find EO d k e S) as [E1 E2]. rewrite E1, E2 in H.
        destruct H as [[H E]|[H E]]; split; eauto.
      - destruct (iters_sorted_op v d e) as [E1 E2]. rewrite E1, E2 in H. eauto.
      - destruct W as (W1 & W2 & S1 & S2). destruct (iters_inter EO d1 d2 S1 S2 e) as [E1 E2]. rewrite E1, E2 in H.
        assert (X : exists x y, (stb d1 x \/ rcn d1 x) /\ (stb d2 y \/ rcn d2 y) /\ R_inter x y e).
        { destruct H as [(x & y & A & B & C)|(x & y & A & B)]; exists x, y; tauto. }
        destruct X as ([t a] & [t' b] & A & B & R1 & R2 & R3). simpl in *. subst. exists a, b. eauto.
      - destruct W as (W1 & W2 & S1 & S2). destruct (iters_join EO d1 d2 S1 S2 e) as [E1 E2]. rewrite E1, E2 in H.
        assert (X : exists x y, (stb d1 x \/ rcn d1 x) /\ (stb d2 y \/ rcn d2 y) /\ R_join x y e).
        { destruct H as [(x & y & A & B & C)|(x & y & A & B)]; exists x, y; tauto. }
        destruct X as ([t a] & [t' b] & A & B & k & x & y & R). simpl in *.
        exists t, t', a, b, k, x, y. split; eauto.
      - destruct W as (W1 & W2). destruct (iters_prod v d1 d2 e) as [E1 E2]. rewrite E1, E2 in H.
        assert (X : exists x y, (stb d1 x \/ rcn d1 x) /\ (stb d2 y \/ rcn d2 y) /\ R_prod x y e).
        { destruct H as [(x & y & A & B & C)|(x & y & A & B)]; exists x, y; tauto. }
        destruct X as ([t a] & [t' b] & A & B & R). exists t, t', a, b. split; eauto.
      - destruct W as (W1 & W2). destruct (iters_union v d1 d2 e) as [E1 E2]. rewrite E1, E2 in H.
        destruct H as [[H|H]|[H|H]]; eauto.
      - destruct W as (_ & W1 & W2 & S & S1 & S2). destruct (iters_diff EO d1 d2 S1 S S2 e) as [N E2].
        rewrite E2 in H. destruct H as [H|H]; [tauto|].
        assert (NS := neg_side d2 W2 (IHd2 _ W2)).
        destruct H as [[A B]|(a & b & A & B & M)]; [left|right].
        + split. * eapply IHd1; eauto. apply nowd_or; auto. * intros g K. apply (B g), NS; auto.
        + exists a, b. split; [|split; auto].
          * eapply IHd1; eauto. apply nowd_or; auto.
          * eapply IHd2; eauto.
      - destruct W as (_ & W1 & W2 & S & S1 & S2). destruct (iters_anti EO d1 d2 S1 S S2 e) as [N E2].
        rewrite E2 in H. destruct H as [H|H]; [tauto|].
        assert (NS := neg_side d2 W2 (IHd2 _ W2)).
        destruct H as [[A B]|(k & a & b & K & A & B & M)]; [left|right].
        + split. * eapply IHd1; eauto. apply nowd_or; auto. * intros k g K L. apply (B k g); auto. apply NS; auto.
        + exists k, a, b. split; [auto|split; [|split; auto]].
          * eapply IHd1; eauto. apply nowd_or; auto.
          * eapply IHd2; eauto.
      - destruct (iters_joiv v d get e) as [E1 E2]. rewrite E1, E2 in H.
        assert (X : exists x, (stb d x \/ rcn d x) /\ In e (joiv_elem get x)).
        { destruct H as [(x & A & B)|(x & A & B)]; exists x; tauto. }
        destruct X as ([t a] & A & J). apply joiv_elem_In in J as (k & x & y & g & B & C & D & ->).
        exists t, a, k, x, y, g. split; eauto.
      - split; auto. unfold iter_stable, iter_recent in H; simpl in H.
        destruct (e_first v); simpl in H; rewrite inBt_one in H; pose proof (@inBt_nil P e); tauto.
      - destruct (iters_constr v d fp e) as [E1 E2]. rewrite E1, E2 in H.
        assert (X : exists x, (stb d x \/ rcn d x) /\ In e (constr_elem fp x)).
        { destruct H as [(x & A & B)|(x & A & B)]; exists x; tauto. }
        destruct X as ([t a] & A & J). apply constr_elem_In in J as (g & B & ->).
        exists a, g. simpl in *. split; eauto.
      - destruct (iters_fpjoin v d fp e) as [E1 E2]. rewrite E1, E2 in H.
        assert (X : exists x, (stb d x \/ rcn d x) /\ In e (fpjoin_elem fp x)).
        { destruct H as [(x & A & B)|(x & A & B)]; exists x; tauto. }
        destruct X as ([t a] & A & J). apply fpjoin_elem_In in J as (u & g & B & ->).
        exists t, a, u, g. split; eauto.
      - split; auto. unfold iter_stable, iter_recent in H; simpl in H.
        destruct (e_first v); simpl in H; rewrite ?inBt_one in H; pose proof (@inBt_nil P e); tauto.
    Qed.

    Lemma nested_split : forall d, wf true d -> forall e, den true (Vis v) d e ->
      rcn d e \/ den (negb (e_first v)) (Stb v) d e.
    Proof.
      intros d W e H. apply den_split in H as [H|H]; auto. right. eapply stable_den; eauto.
    Qed.

    (** The semi-naive split for whole rules. *)
    Theorem top_split : forall d, wf false d -> forall e, den true (Vis v) d e ->
      rcn d e \/ den (negb (e_first v)) (Stb v) d e.
    Proof.
      induction d; intros W e H; try (apply nested_split; auto; exact W); cbn [Denote.wf Denote.den] in *.
      - destruct H as [(g & H) E]. destruct (iters_overwrite v d e) as [_ ->]. apply IHd in H; auto.
        destruct H; [left|right]; eauto.
      - destruct H as [H E]. destruct (iters_filter v d p e) as [_ ->]. apply IHd in H; auto. tauto.
      - destruct H as (t & H & E). destruct (iters_project v d f e) as [_ ->]. apply IHd in H; auto.
        destruct H; [left|right]; eauto.
      - destruct W as [W S]. destruct H as [H E]. destruct (iters_find EO d k e S) as [_ ->]. apply IHd in H; auto. tauto.
      - destruct (iters_sorted_op v d e) as [_ ->]. auto.
      - destruct W as [W1 W2]. destruct (iters_union v d1 d2 e) as [_ ->].
        destruct H as [H|H]; [apply IHd1 in H|apply IHd2 in H]; tauto.
      - destruct W as (_ & W1 & W2 & S & S1 & S2). destruct (iters_diff EO d1 d2 S1 S S2 e) as [_ ->].
        assert (NS := neg_side d2 W2 (@den_sound d2 _ W2)).
        destruct H as [[A B]|(a & b & A & B & M)].
        + apply IHd1 in A; auto. destruct A as [A|A].
          * left; left. split; [left; auto|]. intros g K. apply (B g), NS; auto.
          * right; left. split; auto. intros g K. apply (B g). eapply den_static2; eauto.
        + apply IHd1 in A; auto. destruct A as [A|A].
          * left; right. exists a, b. split; [left; auto|]. split; auto. apply NS; auto.
          * right; right. exists a, b. split; auto. split; auto. eapply den_static2; eauto.
      - destruct W as (_ & W1 & W2 & S & S1 & S2). destruct (iters_anti EO d1 d2 S1 S S2 e) as [_ ->].
        assert (NS := neg_side d2 W2 (@den_sound d2 _ W2)).
        destruct H as [[A B]|(k & a & b & K & A & B & M)].
        + apply IHd1 in A; auto. destruct A as [A|A].
          * left; left. split; [left; auto|]. intros k g K L. apply (B k g); auto. apply NS; auto.
          * right; left. split; auto. intros k g K L. apply (B k g); auto. eapply den_static2; eauto.
        + apply IHd1 in A; auto. destruct A as [A|A].
          * left; right. exists k, a, b. split; auto. split; [left; auto|]. split; auto. apply NS; auto.
          * right; right. exists k, a, b. split; auto. split; auto. split; auto. eapply den_static2; eauto.
      - destruct H as (t & a & k & x & y & g & A & B). apply IHd in A; auto.
        destruct (iters_joiv v d get e) as [_ ->].
        destruct A; [left|right].
        + exists (t, a); split; auto; apply joiv_elem_In; exists k, x, y, g; tauto.
        + exists t, a, k, x, y, g. auto.
      - destruct H as (a & g & A & B & C). apply IHd in A; auto.
        destruct (iters_constr v d fp e) as [_ ->].
        destruct A; [left|right].
        + exists (fst e, a); split; auto; apply constr_elem_In; exists g; simpl; split; auto;
          destruct e; simpl in *; congruence.
        + exists a, g. auto.
      - destruct H as (t & a & u & g & A & B & C). apply IHd in A; auto.
        destruct (iters_fpjoin v d fp e) as [_ ->].
        destruct A; [left|right].
        + exists (t, a); split; auto; apply fpjoin_elem_In; exists u, g; auto.
        + exists t, a, u, g. auto.
      - destruct H as [_ H]. unfold iter_recent; simpl. destruct (e_first v); simpl; [|auto].
        rewrite inBt_one. auto.
    Qed.
  End Env.

  (** ** Denotation respects coverage *)
  Section Covs.
    Variable V : view P.
    Notation le := (vle V).
    Notation h := (vh V).
    Variable col : nat -> option (list elem).

    (** A multiplier attached to the covered element. *)
    Lemma cov_scale : forall (X Z : elem -> Prop) t w a c (act : ptag P -> ptag P -> Prop),
      (forall g, X (t, g) -> exists g', Z (w, g') /\ le (vmul V (h g) c) (h g')) ->
      cov V X t a -> cov V Z w (vmul V a c).
    Proof.
      intros X Z t w a c act H (ts & F & L).
      apply cov_le with (s' := vmul V (vsum V ts) c); [apply vmul_mono; auto; apply vle_refl|].
      clear L. induction F as [|g ts Hg F IH]; simpl.
      - apply cov_le with (s' := vzero V); [apply vmul_zero_l|apply cov_zero].
      - eapply cov_le; [apply vmul_add_l|]. apply cov_add; auto.
        destruct (H _ Hg) as (g' & Z' & L). eapply cov_le; [exact L|].
        apply (@covE_in P V Z (w, g')); auto.
    Qed.

    Lemma covers_pointwise : forall (X : elem -> Prop) t s, cov V X t s -> cov V X t s.
    Proof. auto. Qed.

    (** If any tag of [t] is worth something, [X] has [t]. *)
    Lemma cov_worth : forall (X : elem -> Prop) t s, cov V X t s -> (exists g, X (t, g)) \/ le s (vzero V).
    Proof.
      intros X t s (ts & F & L). destruct ts as [|g ts]; [right; auto|left].
      inversion F; subst; eauto.
    Qed.

    Theorem den_covers : forall (d : dflow P) (I J : nat -> elem -> Prop) st, tag_wf col V d ->
      (forall r, covers V (J r) (I r)) -> covers V (den col st J d) (den col st I d).
    Proof.
      intros d I J st W C. revert W.
      induction d; cbn [tag_wf]; intros W e H; cbn [den] in H.
      - apply covE_in. auto.
      - apply covE_in. auto.
      - unfold covE. destruct (col r) eqn:E.
        + eapply cov_mono; [|apply (covE_in V (fun e => den col st J (DRel r) e) e)]; auto. simpl. rewrite E. auto.
        + specialize (C r _ H). eapply cov_mono; [|exact C]. simpl. rewrite E. auto.
      - destruct W as [OW W]. destruct H as [(g & H) E]. destruct e as [t g1]. simpl in *. subst.
        specialize (IHd W _ H). unfold covE in *. simpl in *. apply cov_worth in IHd as [(g' & H')|Z].
        + apply (covE_in V _ (t, pone P)). simpl. eauto.
        + eapply cov_le; [apply (OW _ Z)|apply cov_zero].
      - destruct H as [H E]. specialize (IHd W _ H). destruct IHd as (ts & F & L). exists ts. split; auto.
        eapply Forall_impl; [|exact F]. simpl. auto.
      - destruct H as (t & H & E). specialize (IHd W _ H). destruct IHd as (ts & F & L). exists ts. split; auto.
        eapply Forall_impl; [|exact F]. simpl. eauto.
      - destruct H as [H E]. specialize (IHd W _ H). destruct IHd as (ts & F & L). exists ts. split; auto.
        eapply Forall_impl; [|exact F]. simpl. auto.
      - specialize (IHd W _ H). exact IHd.
      - destruct W as [W1 W2]. destruct H as (a & b & A & B & E). specialize (IHd1 W1 _ A). specialize (IHd2 W2 _ B).
        destruct e as [t g]; simpl in *; subst. eapply cov_le; [apply vh_mul_le|].
        eapply cov_mul; [|exact IHd1|exact IHd2]. simpl. intros. exists g, k. auto.
      - destruct W as [W1 W2]. destruct H as (t1 & t2 & a & b & k & x & y & A & B & E1 & E2 & E3 & E4 & ->).
        specialize (IHd1 W1 _ A). specialize (IHd2 W2 _ B).
        eapply cov_le; [apply vh_mul_le|].
        eapply cov_mul; [|exact IHd1|exact IHd2]. simpl. intros g l X Y. exists t1, t2, g, l, k, x, y.
        repeat split; auto.
      - destruct W as [W1 W2]. destruct H as (t1 & t2 & a & b & A & B & ->).
        specialize (IHd1 W1 _ A). specialize (IHd2 W2 _ B).
        eapply cov_le; [apply vh_mul_le|].
        eapply cov_mul; [|exact IHd1|exact IHd2]. simpl. intros g l X Y. exists t1, t2, g, l. auto.
      - destruct W as [W1 W2]. destruct H as [H|H].
        + specialize (IHd1 W1 _ H). eapply cov_mono; [|exact IHd1]. simpl; auto.
        + specialize (IHd2 W2 _ H). eapply cov_mono; [|exact IHd2]. simpl; auto.
      - destruct W as (M & S & W). destruct H as [[A B]|(a & b & A & B & E)].
        + specialize (IHd1 W _ A). destruct IHd1 as (ts & F & L). exists ts. split; auto.
          eapply Forall_impl; [|exact F]. simpl. intros g H. left. split; auto.
          intros k K. apply (B k). eapply den_static2; eauto.
        + specialize (IHd1 W _ A). destruct e as [t g]; simpl in *. unfold covE in *; simpl in *.
          destruct (M b) as [N|(c & N)]; [rewrite N in E; discriminate|].
          destruct (N a) as (g0 & E0 & L1 & L2). rewrite E in E0. injection E0 as <-.
          eapply cov_le; [exact L1|]. eapply cov_scale; [exact (fun _ _ => True)| |exact IHd1].
          intros g1 H. destruct (N g1) as (g2 & E2 & L3 & L4). exists g2. split; auto.
          simpl. right. exists g1, b. split; auto. split; auto. eapply den_static2; eauto.
      - destruct W as (M & S & W). destruct H as [[A B]|(k & a & b & K & A & B & E)].
        + specialize (IHd1 W _ A). destruct IHd1 as (ts & F & L). exists ts. split; auto.
          eapply Forall_impl; [|exact F]. simpl. intros g H. left. split; auto.
          intros k k' K K'. apply (B k k'); auto. eapply den_static2; eauto.
        + specialize (IHd1 W _ A). destruct e as [t g]; simpl in *. unfold covE in *; simpl in *.
          destruct (M b) as [N|(c & N)]; [rewrite N in E; discriminate|].
          destruct (N a) as (g0 & E0 & L1 & L2). rewrite E in E0. injection E0 as <-.
          eapply cov_le; [exact L1|]. eapply cov_scale; [exact (fun _ _ => True)| |exact IHd1].
          intros g1 H. destruct (N g1) as (g2 & E2 & L3 & L4). exists g2. split; auto.
          simpl. right. exists k, g1, b. split; auto. split; auto. split; auto. eapply den_static2; eauto.
      - destruct H as (t & a & k & x & y & g & A & E1 & E2 & E3 & ->). specialize (IHd W _ A).
        eapply cov_le; [apply vh_mul_le|]. eapply cov_scale; [exact (fun _ _ => True)| |exact IHd].
        simpl. intros g1 H. exists (pmult P g1 g). split; [|apply vh_mul_ge].
        exists t, g1, k, x, y, g. auto.
      - apply covE_in. auto.
      - destruct H as (a & g & A & E1 & E2). specialize (IHd W _ A). destruct e as [t k]. simpl in *. subst.
        eapply cov_le; [apply vh_mul_le|]. eapply cov_scale; [exact (fun _ _ => True)| |exact IHd].
        simpl. intros g1 H. exists (pmult P g1 g). split; [|apply vh_mul_ge]. exists g1, g. auto.
      - destruct H as (t & a & u & g & A & E1 & ->). specialize (IHd W _ A).
        eapply cov_le; [apply vh_mul_le|]. eapply cov_scale; [exact (fun _ _ => True)| |exact IHd].
        simpl. intros g1 H. exists (pmult P g1 g). split; [|apply vh_mul_ge]. exists t, g1, u, g. auto.
      - apply covE_in. auto.
    Qed.
  End Covs.
End DenF.
