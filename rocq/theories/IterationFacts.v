(** The evaluation loop against derivability. *)
From Coq Require Import List Arith Bool Lia Sorted.
From Verif Require Import Order Value Prov ListAux SortedCol GallopFacts SortedColFacts
  Schedulers Relation View SchedFacts Dataflow Denote OpFacts DataflowFacts DenFacts Iteration.
Import ListNotations.
Set Implicit Arguments.

Section Stages.
  Variable P : Prov.
  Notation elem := (elem P).
  Variable col : nat -> option (list elem).
  Variable rules : list (nat * dflow P).
  Variable facts : nat -> elem -> Prop.
  Variable Sh : nat -> tuple -> Prop.
  Hypothesis WF : forall r d, In (r, d) rules -> wf col Sh false d.
  Notation stage := (stage col rules facts).
  Notation derivable := (derivable col rules facts).

  Lemma stage_mono : forall n m r e, n <= m -> stage n r e -> stage m r e.
  Proof. induction 1; simpl; auto. Qed.

  (** Continuity: a rule application uses finitely many stages. *)
  Lemma den_cont : forall d n st e, wf col Sh n d -> den col st derivable d e -> exists k, den col st (stage k) d e.
  Proof.
    assert (MO : forall d n st k m e, wf col Sh n d -> k <= m -> den col st (stage k) d e -> den col st (stage m) d e).
    { intros d n st k m e W L H. eapply den_mono; [| |exact W|exact H]; auto. intros; eapply stage_mono; eauto. }
    induction d; cbn [wf den]; intros n st e W H; try (exists 0; exact H).
    - destruct (col r) eqn:E; [exists 0; auto|]. destruct H as (k & H). exists k. auto.
    - destruct H as [(g & H) E]. eapply IHd in H as (k & H); eauto.
    - destruct H as [H E]. eapply IHd in H as (k & H); eauto.
    - destruct H as (t & H & E). eapply IHd in H as (k & H); eauto.
    - destruct W as [W _]. destruct H as [H E]. eapply IHd in H as (k' & H); eauto.
    - eauto.
    - destruct W as (W1 & W2 & _). destruct H as (a & b & A & B & E).
      eapply IHd1 in A as (k1 & A); eauto. eapply IHd2 in B as (k2 & B); eauto. exists (max k1 k2).
      exists a, b. split; [|split; auto].
      + eapply MO; [exact W1|apply Nat.le_max_l|auto]. + eapply MO; [exact W2|apply Nat.le_max_r|auto].
    - destruct W as (W1 & W2 & _). destruct H as (t1 & t2 & a & b & k & x & y & A & B & E).
      eapply IHd1 in A as (k1 & A); eauto. eapply IHd2 in B as (k2 & B); eauto. exists (max k1 k2).
      exists t1, t2, a, b, k, x, y. split; [|split; auto].
      + eapply MO; [exact W1|apply Nat.le_max_l|auto]. + eapply MO; [exact W2|apply Nat.le_max_r|auto].
    - destruct W as (W1 & W2). destruct H as (t1 & t2 & a & b & A & B & E).
      eapply IHd1 in A as (k1 & A); eauto. eapply IHd2 in B as (k2 & B); eauto. exists (max k1 k2).
      exists t1, t2, a, b. split; [|split; auto].
      + eapply MO; [exact W1|apply Nat.le_max_l|auto]. + eapply MO; [exact W2|apply Nat.le_max_r|auto].
    - destruct W as (W1 & W2). destruct H as [H|H].
      + eapply IHd1 in H as (k & H); eauto. + eapply IHd2 in H as (k & H); eauto.
    - destruct W as (_ & W1 & W2 & S & _). destruct H as [[A B]|(a & b & A & B & M)].
      + eapply IHd1 in A as (k & A); eauto. exists k. left. split; auto. intros g K. apply (B g).
        eapply den_static2; eauto.
      + eapply IHd1 in A as (k & A); eauto. exists k. right. exists a, b. split; auto. split; auto.
        eapply den_static2; eauto.
    - destruct W as (_ & W1 & W2 & S & _). destruct H as [[A B]|(k0 & a & b & K0 & A & B & M)].
      + eapply IHd1 in A as (k & A); eauto. exists k. left. split; auto. intros k0 g K0 K. apply (B k0 g); auto.
        eapply den_static2; eauto.
      + eapply IHd1 in A as (k & A); eauto. exists k. right. exists k0, a, b. split; auto. split; auto. split; auto.
        eapply den_static2; eauto.
    - destruct H as (t & a & k & x & y & g & A & E). eapply IHd in A as (k' & A); eauto.
      exists k', t, a, k, x, y, g. auto.
    - destruct H as (a & g & A & E). destruct (IHd _ _ _ W A) as (k' & A'). exists k', a, g. auto.
    - destruct H as (t & a & u & g & A & E). destruct (IHd _ _ _ W A) as (k' & A'). exists k', t, a, u, g. auto.
  Qed.

  (** Derivability is the least set closed under the rules. *)
  Theorem derivable_closed : closed col rules facts derivable.
  Proof.
    split.
    - intros r e F. exists 0. auto.
    - intros r d e I H. eapply den_cont in H as (k & H); [|eapply WF; eauto]. exists (S k). simpl. right. eauto.
  Qed.
  Theorem derivable_least : forall I, closed col rules facts I -> forall r e, derivable r e -> I r e.
  Proof.
    intros I [CF CR] r e (n & H). revert r e H. induction n; simpl; intros r e H; auto.
    destruct H as [H|(d & J & H)]; auto. eapply CR; eauto. eapply den_mono; [| |eapply WF; eauto|exact H]; auto.
  Qed.
End Stages.

Section Loop.
  Variable P : Prov.
  Notation elem := (elem P).
  Variable it : iteration P.
  Variable facts : nat -> list (list elem).
  Variable V : view P.

  Definition factset (r : nat) (e : elem) : Prop := inB (facts r) e.
  Notation Der := (derivable (i_cols it) (i_updates it) factset).

  (** Conditions on the program.  [Sh] are the tuples that relations may hold: the
      completed collections and the facts do, and the rules yield such tuples. *)
  Variable Sh : nat -> tuple -> Prop.
  Record prog_shaped : Prop := {
    ok_cols : forall r c, i_cols it r = Some c -> ssorted c;
    ok_facts : forall r, facts r <> [] -> In r (i_rels it);
    ok_target : forall r d, In (r, d) (i_updates it) -> In r (i_rels it);
    ok_wf : forall r d, In (r, d) (i_updates it) -> wf (i_cols it) Sh false d;
    ok_tag : forall r d, In (r, d) (i_updates it) -> tag_wf (i_cols it) V d;
    ok_shape_cols : forall r c e, i_cols it r = Some c -> In e c -> Sh r (fst e);
    ok_shape_facts : forall r e, factset r e -> Sh r (fst e);
    ok_shape_rules : forall r d (I : nat -> elem -> Prop) e, In (r, d) (i_updates it) -> (forall q x, I q x -> Sh q (fst x)) ->
      den (i_cols it) true I d e -> Sh r (fst e) }.
  Hypothesis OK : prog_shaped.

  Notation state := (state P).
  Definition visS (st : state) (r : nat) : elem -> Prop := rel_vis (st r).
  Definition stbS (st : state) (r : nat) : elem -> Prop := inB (stable (st r)).
  Definition allS (st : state) (r : nat) : elem -> Prop := rel_all (st r).

  (** ** Soundness part of the invariant *)
  Record inv_s (st : state) : Prop := {
    is_sorted : forall r, rel_sorted (st r);
    is_new : forall r, ~ In r (i_rels it) -> st r = @rel_new P;
    is_sound : forall r, covers V (Der r) (allS st r);
    is_shape : forall r e, allS st r e -> Sh r (fst e) }.

  Lemma existsb_rels : forall r, existsb (Nat.eqb r) (i_rels it) = true <-> In r (i_rels it).
  Proof.
    intros. rewrite existsb_exists. split.
    - intros (x & I & E). apply Nat.eqb_eq in E. subst; auto.
    - intros I. exists r. split; auto. apply Nat.eqb_refl.
  Qed.

  Lemma changed_all_eq : forall st r,
    fst (changed_all it st) r = fst (changed (i_sched it r) (st r)) /\ In r (i_rels it) \/
    fst (changed_all it st) r = st r /\ ~ In r (i_rels it).
  Proof.
    intros. simpl. destruct (existsb (Nat.eqb r) (i_rels it)) eqn:E.
    - left. split; auto. apply existsb_rels; auto.
    - right. split; auto. rewrite <- existsb_rels. congruence.
  Qed.

  Lemma changed_all_inv_s : forall st, inv_s st -> inv_s (fst (changed_all it st)).
  Proof.
    intros st [S N C T]. split; intros r.
    - destruct (changed_all_eq st r) as [[-> _]|[-> _]]; auto.
      destruct (changed (i_sched it r) (st r)) as [r' c] eqn:E. simpl. eapply changed_sorted; eauto.
    - intros I. destruct (changed_all_eq st r) as [[_ J]|[-> _]]; [tauto|auto].
    - unfold allS. destruct (changed_all_eq st r) as [[-> _]|[-> _]]; [|apply C].
      destruct (changed (i_sched it r) (st r)) as [r' c] eqn:E. simpl.
      eapply covers_trans; [apply C|]. eapply changed_sound; eauto.
    - intros e H. unfold allS in H. destruct (changed_all_eq st r) as [[Q _]|[Q _]]; rewrite Q in H; [|apply (T r); exact H].
      destruct (changed (i_sched it r) (st r)) as [r' c] eqn:E. simpl in H.
      assert (X := changed_sound (set_view P) _ _ E). apply X in H. apply set_view_cov in H as (g & H). apply (T r _ H).
  Qed.

  Lemma env_of_ok : forall n st, inv_s st -> env_ok Sh (env_of it n st).
  Proof.
    intros n st [S N C T]. split; [|split; [|split]]; simpl.
    - apply OK. - intros r. destruct (S r) as (A & B & _). auto. - apply OK.
    - intros r e H. apply (T r). unfold allS. unfold Vis, rel_vis in H. simpl in H. unfold rel_all. tauto.
  Qed.

  Lemma vis_all : forall st r e, visS st r e -> allS st r e.
  Proof. unfold visS, allS, rel_vis, rel_all. tauto. Qed.

  Lemma inB_snd : forall (bs : list (batch P)) e, inB (map snd bs) e <-> inBt bs e.
  Proof.
    intros. unfold inB, inBt. split.
    - intros (b & I & J). apply in_map_iff in I as (c & <- & I). eauto.
    - intros (b & I & J). exists (snd b). split; auto. apply in_map; auto.
  Qed.

  Lemma rule_sound : forall st n tgt d, inv_s st -> In (tgt, d) (i_updates it) ->
    covB V (Der tgt) (map snd (iter_recent (env_of it n st) d)).
  Proof.
    intros st n tgt d IS U e I. assert (EO := env_of_ok n IS). apply inB_snd in I.
    assert (D : den (i_cols it) true (visS st) d e).
    { apply (@den_sound P Sh (env_of it n st) EO d false); [eapply ok_wf; eauto|auto]. }
    eapply den_covers with (V := V) (J := Der) in D.
    - eapply cov_mono; [|exact D]. intros x X.
      eapply derivable_closed; [exact (ok_wf OK)|exact U|exact X].
    - exact (ok_tag OK _ _ U).
    - intros r. eapply covers_trans; [apply (is_sound IS)|]. apply covers_incl. apply vis_all.
  Qed.

  Lemma rule_shape : forall st n tgt d, inv_s st -> In (tgt, d) (i_updates it) ->
    forall e, inB (map snd (iter_recent (env_of it n st) d)) e -> Sh tgt (fst e).
  Proof.
    intros st n tgt d IS U e I. assert (EO := env_of_ok n IS). apply inB_snd in I.
    assert (D : den (i_cols it) true (visS st) d e).
    { apply (@den_sound P Sh (env_of it n st) EO d false); [eapply ok_wf; eauto|auto]. }
    refine (@ok_shape_rules OK tgt d (visS st) e U _ D). intros q x X. apply (is_shape IS), vis_all, X.
  Qed.

  Lemma do_update_inv_s : forall n st u, In u (i_updates it) -> inv_s st -> inv_s (do_update it n st u).
  Proof.
    intros n st [tgt d] U IS. assert (RS := fun n => @rule_sound st n tgt d IS U); specialize (RS n). assert (RT := @rule_shape st n tgt d IS U). destruct IS as [S N C T]. unfold do_update. split; intros r.
    - unfold upd. destruct (r =? tgt) eqn:E; auto. destruct (S tgt) as (A & B & D). split; [|split]; simpl; auto.
      apply Forall_app. split; auto. rewrite Forall_map. apply Forall_forall. intros; apply prep_batch_ssorted.
    - unfold upd. intros NI. destruct (r =? tgt) eqn:E; auto. apply Nat.eqb_eq in E. subst.
      exfalso. apply NI. eapply ok_target; eauto.
    - unfold allS, upd. destruct (r =? tgt) eqn:E; [|apply C]. apply Nat.eqb_eq in E. subst.
      apply covers_all. simpl. specialize (C tgt). apply covers_all in C as (C1 & C2 & C3 & C4).
      repeat split; auto. apply covB_app. split; auto. apply covB_prep_sound. auto.
    - unfold allS, upd. destruct (r =? tgt) eqn:E; [|apply T]. apply Nat.eqb_eq in E. subst. intros e H.
      destruct H as [H|[H|[H|H]]]; simpl in H.
      + apply T. left; auto. + apply T. right; left; auto.
      + apply inB_app in H as [H|H]; [apply T; right; right; left; auto|].
        assert (X : covB (set_view P) (fun x => Sh tgt (fst x)) (map snd (iter_recent (env_of it n st) d))).
        { intros x I. apply covE_in. auto. }
        apply (covB_prep_sound (i_early it)) in X. apply X in H. apply set_view_cov in H as (g & H). exact H.
      + apply T. right; right; right; auto.
  Qed.

  Lemma do_updates_inv_s : forall n st, inv_s st -> inv_s (do_updates it n st).
  Proof.
    intros n. unfold do_updates.
    assert (X : forall us st, incl us (i_updates it) -> inv_s st -> inv_s (fold_left (do_update it n) us st)).
    { induction us; simpl; intros st I IS; auto. apply IHus.
      - intros x J. apply I; right; auto.
      - apply do_update_inv_s; auto. apply I; left; auto. }
    intros. apply X; auto. apply incl_refl.
  Qed.

  Lemma need_inv_s : forall st n st1 v, need_to_iterate it st n = (st1, v) -> inv_s st -> inv_s st1.
  Proof.
    intros st n st1 v E IS. unfold need_to_iterate in E.
    pose proof (changed_all_inv_s IS) as IS1. destruct (changed_all it st) as [s c]. simpl in IS1.
    pose proof (changed_all_inv_s IS1) as IS2.
    destruct (c || (n =? 0)).
    - destruct (match i_limit it with Some k => k <? n | None => false end); [injection E as <- _; auto|].
      destruct (i_goalstop it && goals_reached it s); injection E as <- _; auto.
    - destruct (i_limit it); [destruct (n <? n0)|]; injection E as <- _; auto.
  Qed.

  Lemma init_inv_s : inv_s (init_state it facts).
  Proof.
    unfold init_state. split; intros r.
    - destruct (existsb (Nat.eqb r) (i_rels it)); repeat split; simpl; try constructor.
      rewrite Forall_map. apply Forall_forall. intros; apply prep_batch_ssorted.
    - intros N. destruct (existsb (Nat.eqb r) (i_rels it)) eqn:E; auto. apply existsb_rels in E. tauto.
    - unfold allS. apply covers_all. destruct (existsb (Nat.eqb r) (i_rels it)) eqn:E; simpl; repeat split;
        try apply covB_nil; try apply covL_nil. apply covB_prep_sound.
      intros e I. apply covE_in. exists 0. auto.
    - intros e H. unfold allS in H. destruct (existsb (Nat.eqb r) (i_rels it)) eqn:E;
        destruct H as [H|[H|[H|H]]]; simpl in H; try destruct H as (b & [] & _); try (destruct H; fail).
      assert (X : covB (set_view P) (fun x => Sh r (fst x)) (facts r)).
      { intros x I. apply covE_in. apply (ok_shape_facts OK). exact I. }
      apply (covB_prep_sound (i_early it)) in X. apply X in H. apply set_view_cov in H as (g & H). exact H.
  Qed.

  Lemma derivable_shaped : forall r e, Der r e -> Sh r (fst e).
  Proof.
    intros r e (n & H). revert r e H. induction n; simpl; intros r e H; [apply (ok_shape_facts OK); auto|].
    destruct H as [H|(d & J & H)]; auto. exact (@ok_shape_rules OK r d _ e J IHn H).
  Qed.

  Theorem loop_sound : forall fuel st n st' n' v, loop it fuel st n = Some (st', n', v) ->
    inv_s st -> inv_s st'.
  Proof.
    induction fuel; simpl; intros st n st' n' v E IS; [discriminate|].
    destruct (need_to_iterate it st n) as [st1 w] eqn:E1. assert (IS1 := need_inv_s n E1 IS).
    destruct w; try (injection E as <- _ _; auto).
    eapply IHfuel; eauto. apply do_updates_inv_s; auto.
  Qed.

  (** ** Completeness part *)
  Hypothesis SAT : sat_sound V.
  Hypothesis DOM : unsat_dom V.
  Hypothesis DISC : i_early it = true -> discard_sound V.

  Record inv_c (st : state) (n : nat) : Prop := {
    ic_facts : forall r, covers V (allS st r) (factset r);
    ic_rules : forall r d, In (r, d) (i_updates it) ->
      covers V (allS st r) (den (i_cols it) (negb (n =? 0)) (visS st) d);
    ic_lfp : forall r, i_sched it r = LFP -> waitlist (st r) = [] }.

  Lemma changed_all_back : forall st r, covers V (allS (fst (changed_all it st)) r) (allS st r).
  Proof.
    intros. unfold allS. destruct (changed_all_eq st r) as [[-> _]|[-> _]]; [|apply covers_refl].
    destruct (changed (i_sched it r) (st r)) as [r' c] eqn:E. simpl. eapply changed_back; eauto.
  Qed.
  Lemma changed_all_stable : forall st r, inv_s st -> covers V (visS st r) (stbS (fst (changed_all it st)) r).
  Proof.
    intros st r IS. unfold visS, stbS. destruct (changed_all_eq st r) as [[-> _]|[-> N]].
    - destruct (changed (i_sched it r) (st r)) as [r' c] eqn:E. simpl. eapply changed_stable; eauto.
    - apply covers_incl. intros; left; auto.
  Qed.
  Lemma changed_all_lfp : forall st, (forall r, i_sched it r = LFP -> waitlist (st r) = []) ->
    forall r, i_sched it r = LFP -> waitlist (fst (changed_all it st) r) = [].
  Proof.
    intros st H r E. destruct (changed_all_eq st r) as [[-> _]|[-> N]]; auto.
    rewrite E. destruct (changed LFP (st r)) as [r' c] eqn:E1. simpl.
    apply changed_lfp_waitlist in E1. rewrite E1. auto.
  Qed.

  (** During one round, updates only touch pending batches. *)
  Definition same_rest (st st1 : state) : Prop := forall r,
    stable (st r) = stable (st1 r) /\ recent (st r) = recent (st1 r) /\ waitlist (st r) = waitlist (st1 r) /\
    (forall e, inB (to_add (st1 r)) e -> inB (to_add (st r)) e).

  Lemma same_rest_vis : forall st st1, same_rest st st1 -> forall r e, visS st r e <-> visS st1 r e.
  Proof. intros st st1 S r e. destruct (S r) as (A & B & _). unfold visS, rel_vis. rewrite A, B. tauto. Qed.
  Lemma same_rest_stb : forall st st1, same_rest st st1 -> forall r e, stbS st r e <-> stbS st1 r e.
  Proof. intros st st1 S r e. destruct (S r) as (A & B & _). unfold stbS. rewrite A. tauto. Qed.
  Lemma same_rest_all : forall st st1, same_rest st st1 -> forall r e, allS st1 r e -> allS st r e.
  Proof.
    intros st st1 S r e. destruct (S r) as (A & B & C & D). unfold allS, rel_all. rewrite A, B, C.
    specialize (D e). tauto.
  Qed.
  Lemma same_rest_refl : forall st, same_rest st st.
  Proof. intros st r. auto. Qed.
  Lemma same_rest_trans : forall a b c, same_rest a b -> same_rest b c -> same_rest a c.
  Proof.
    intros a b c X Y r. destruct (X r) as (A & B & C & D), (Y r) as (A' & B' & C' & D').
    repeat split; try congruence. auto.
  Qed.
  Lemma do_update_rest : forall n st u, same_rest (do_update it n st u) st.
  Proof.
    intros n st [tgt d] r. unfold do_update, upd. destruct (r =? tgt) eqn:E; auto.
    apply Nat.eqb_eq in E. subst. simpl. repeat split; auto. intros e I. apply inB_app. auto.
  Qed.
  Lemma do_updates_rest : forall n us st, same_rest (fold_left (do_update it n) us st) st.
  Proof.
    intros n. induction us; simpl; intros; [apply same_rest_refl|].
    eapply same_rest_trans; [apply IHus|]. apply do_update_rest.
  Qed.

  Lemma do_updates_closure : forall n us st, incl us (i_updates it) -> inv_s st ->
    forall r d, In (r, d) us -> forall e, den (i_cols it) true (visS st) d e ->
    covE V (allS (fold_left (do_update it n) us st) r) e \/ den (i_cols it) (negb (n =? 0)) (stbS st) d e.
  Proof.
    intros n. induction us as [|u us IH]; intros st IU IS r d I e H; [destruct I|].
    assert (UI : In u (i_updates it)) by (apply IU; left; auto).
    destruct I as [->|I].
    - simpl. assert (EO := env_of_ok n IS).
      assert (T := @top_split P Sh (env_of it n st) EO d (ok_wf OK _ _ UI) e H). simpl in T.
      destruct T as [T|T]; [left|right; auto].
      apply cov_mono with (X := allS (do_update it n st (r, d)) r).
      { intros x. apply same_rest_all, do_updates_rest. }
      unfold allS, do_update, upd. rewrite Nat.eqb_refl.
      assert (X : covB V (rel_all (insert_batches (i_early it) (map snd (iter_recent (env_of it n st) d)) (st r)))
                    (map snd (iter_recent (env_of it n st) d))).
      { eapply covB_prep_back; [exact DISC|]. intros x J. apply covE_in. right; right; left. simpl.
        apply inB_app. auto. }
      apply X. apply inB_snd. auto.
    - simpl. assert (SR := do_update_rest n st u).
      destruct (IH (do_update it n st u)) with (r := r) (d := d) (e := e) as [T|T]; auto.
      + intros x J. apply IU. right; auto.
      + apply do_update_inv_s; auto.
      + eapply den_mono; [| |apply (ok_wf OK r d)|exact H]; auto.
        * intros x y Y. apply (same_rest_vis SR). auto.
        * apply IU; right; auto.
      + right. eapply den_mono; [| |apply (ok_wf OK r d)|exact T]; auto.
        * intros x y Y. apply (same_rest_stb SR). auto.
        * apply IU; right; auto.
  Qed.

  (** What one [changed] round followed by the updates establishes. *)
  Lemma round_inv : forall st n, inv_s st -> inv_c st n ->
    inv_c (do_updates it n (fst (changed_all it st))) (S n).
  Proof.
    intros st n IS [F R L]. set (st1 := fst (changed_all it st)). assert (IS1 := changed_all_inv_s IS). fold st1 in IS1.
    assert (SR : same_rest (do_updates it n st1) st1) by apply do_updates_rest.
    assert (UP : forall r, covers V (allS (do_updates it n st1) r) (allS st r)).
    { intros r. eapply covers_trans; [apply covers_incl, same_rest_all; exact SR|].
      apply changed_all_back. }
    split.
    - intros r. eapply covers_trans; [apply UP|apply F].
    - intros r d I e H. simpl in H.
      assert (H1 : den (i_cols it) true (visS st1) d e).
      { eapply den_mono; [| |apply (ok_wf OK r d I)|exact H]; auto. intros x y Y. apply (same_rest_vis SR). auto. }
      destruct (@do_updates_closure n (i_updates it) st1 (incl_refl _) IS1 r d I e H1) as [T|T]; auto.
      eapply covE_covers; [eapply covers_trans; [apply UP|apply (R r d I)]|].
      eapply den_covers; [apply (ok_tag OK r d I)| |exact T].
      intros r'. apply changed_all_stable; auto.
    - intros r E. destruct (SR r) as (_ & _ & -> & _). apply changed_all_lfp; auto.
  Qed.

  Lemma need_continue : forall st n st1, need_to_iterate it st n = (st1, Continue) ->
    st1 = fst (changed_all it st).
  Proof.
    intros st n st1 E. unfold need_to_iterate in E. destruct (changed_all it st) as [s c]. simpl.
    destruct (c || (n =? 0)).
    - destruct (match i_limit it with Some k => k <? n | None => false end); [discriminate|].
      destruct (i_goalstop it && goals_reached it s); [discriminate|]. congruence.
    - destruct (i_limit it); [destruct (n <? n0)|]; congruence.
  Qed.
  Lemma need_quiet : forall st n st1, need_to_iterate it st n = (st1, StopQuiet) ->
    st1 = fst (changed_all it st) /\ snd (changed_all it st) = false /\ n <> 0.
  Proof.
    intros st n st1 E. unfold need_to_iterate in E. destruct (changed_all it st) as [s c]. simpl.
    destruct (c || (n =? 0)) eqn:X.
    - destruct (match i_limit it with Some k => k <? n | None => false end); [discriminate|].
      destruct (i_goalstop it && goals_reached it s); discriminate.
    - apply orb_false_elim in X as [-> X]. apply Nat.eqb_neq in X.
      destruct (i_limit it); [destruct (n <? n0)|]; split; try split; congruence.
  Qed.

  Lemma den_false_empty : forall d (I : nat -> elem -> Prop) e, (forall r x, ~ I r x) ->
    ~ den (i_cols it) false I d e.
  Proof.
    intros d I e N. revert e. induction d; cbn [den]; intros e H; try (destruct H; discriminate).
    - destruct (i_cols it r); [destruct H; discriminate|]. eapply N; eauto.
    - destruct H as [(g & H) _]. eapply IHd; eauto.
    - destruct H. eapply IHd; eauto.
    - destruct H as (t & H & _). eapply IHd; eauto.
    - destruct H. eapply IHd; eauto.
    - eapply IHd; eauto.
    - destruct H as (a & b & H & _). eapply IHd1; eauto.
    - destruct H as (t1 & t2 & a & b & k & x & y & H & _). eapply IHd1; eauto.
    - destruct H as (t1 & t2 & a & b & H & _). eapply IHd1; eauto.
    - destruct H; [eapply IHd1|eapply IHd2]; eauto.
    - destruct H as [[H _]|(a & b & H & _)]; eapply IHd1; eauto.
    - destruct H as [[H _]|(k & a & b & _ & H & _)]; eapply IHd1; eauto.
    - destruct H as (t & a & k & x & y & g & H & _). eapply IHd; eauto.
    - destruct H as (a & g & H & _). eapply IHd; eauto.
    - destruct H as (t & a & u & g & H & _). eapply IHd; eauto.
  Qed.

  Lemma init_inv_c : inv_c (init_state it facts) 0.
  Proof.
    split.
    - intros r e (b & I & J).
      assert (IR : In r (i_rels it)). { apply (ok_facts OK). intros N. rewrite N in I. destruct I. }
      unfold allS, init_state. apply existsb_rels in IR. rewrite IR.
      assert (X : covB V (rel_all (insert_batches (i_early it) (facts r) (@rel_new P))) (facts r)).
      { eapply covB_prep_back; [exact DISC|]. intros x K. apply covE_in. right; right; left. simpl. auto. }
      apply X. exists b; auto.
    - intros r d I e H. simpl in H. exfalso. eapply den_false_empty; [|exact H].
      intros r' x. unfold visS, init_state, rel_vis. destruct (existsb (Nat.eqb r') (i_rels it)); simpl;
      intros [K|K]; try destruct K as (b & [] & _); auto.
    - intros r E. unfold init_state. destruct (existsb (Nat.eqb r) (i_rels it)); auto.
  Qed.

  Hypothesis NB0 : forall r, In r (i_rels it) -> i_sched it r <> Beam 0.

  (** At a quiet stop everything is established and derivable facts are covered. *)
  Lemma quiet_complete : forall st n st1, inv_s st -> inv_c st n ->
    need_to_iterate it st n = (st1, StopQuiet) ->
    (forall r, recent (st1 r) = [] /\ to_add (st1 r) = [] /\ waitlist (st1 r) = []) /\
    forall r, covers V (stbS st1 r) (Der r).
  Proof.
    intros st n st1 IS [F R L] E. apply need_quiet in E as (-> & CH & N0).
    set (st1 := fst (changed_all it st)).
    assert (Q : forall r, recent (st1 r) = [] /\ to_add (st1 r) = [] /\ waitlist (st1 r) = []).
    { intros r. unfold st1. destruct (changed_all_eq st r) as [[-> I]|[-> NI]].
      - simpl in CH. assert (C0 : snd (changed (i_sched it r) (st r)) = false).
        { destruct (snd (changed (i_sched it r) (st r))) eqn:E; auto. exfalso.
          rewrite <- not_true_iff_false in CH. apply CH. apply existsb_exists. eauto. }
        destruct (changed (i_sched it r) (st r)) as [r' c] eqn:E. simpl in *. subst.
        assert (X := changed_flag _ _ E). destruct X as [X1 X2]. split; [apply X2; auto|]. split; auto.
        eapply changed_quiet; [exact E|apply NB0; auto|apply L].
      - rewrite (is_new IS r NI). auto. }
    split; auto.
    assert (AS : forall r, covers V (stbS st1 r) (allS st1 r)).
    { intros r. apply covers_incl. intros e [A|[A|[A|A]]]; auto; destruct (Q r) as (Q1 & Q2 & Q3).
      - rewrite Q1 in A; destruct A. - rewrite Q2 in A; destruct A as (b & [] & _). - rewrite Q3 in A; destruct A. }
    assert (AA : forall r, covers V (stbS st1 r) (allS st r)).
    { intros r. eapply covers_trans; [apply AS|apply changed_all_back]. }
    intros r e (k & H). revert r e H.
    change (forall r, covers V (stbS st1 r) (stage (i_cols it) (i_updates it) factset k r)).
    induction k; intros r e H.
    - eapply covE_covers; [apply AA|]. apply F. auto.
    - destruct H as [H|(d & I & H)]; [apply IHk; auto|].
      eapply covE_covers; [apply AA|]. eapply covE_covers; [apply (R r d I)|].
      assert (X : negb (n =? 0) = true) by (apply negb_true_iff, Nat.eqb_neq; auto). rewrite X.
      eapply den_covers; [apply (ok_tag OK r d I)| |exact H].
      intros r'. eapply covers_trans; [apply changed_all_stable; auto|]. apply IHk.
  Qed.

  Theorem loop_complete : forall fuel st n st' n', loop it fuel st n = Some (st', n', StopQuiet) ->
    inv_s st -> inv_c st n ->
    (forall r, recent (st' r) = [] /\ to_add (st' r) = [] /\ waitlist (st' r) = []) /\
    forall r, covers V (stbS st' r) (Der r).
  Proof.
    induction fuel; simpl; intros st n st' n' E IS IC; [discriminate|].
    destruct (need_to_iterate it st n) as [st1 w] eqn:E1.
    destruct w; try discriminate.
    - assert (X := need_continue _ _ E1). subst. eapply IHfuel; eauto.
      + apply do_updates_inv_s. apply changed_all_inv_s; auto.
      + apply round_inv; auto.
    - injection E as <- <-. eapply quiet_complete; eauto.
  Qed.
End Loop.

(** Programs whose rules are well-formed for tuples of some shapes. *)
Definition prog_ok (P : Prov) (it : iteration P) (facts : nat -> list (list (elem P))) (V : view P) : Prop :=
  exists Sh, prog_shaped it facts V Sh.
