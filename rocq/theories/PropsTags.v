(** Property theorem C11: tags of recursive evaluation with lattice provenances. *)
From Coq Require Import List Arith Bool ZArith QArith Qcanon Lia Sorting.Sorted.
From Verif Require Import Order Value Prov ListAux SortedCol GallopFacts SortedColFacts ProvInst
  PropsCollections Schedulers Relation View SchedFacts Dataflow OpFacts Denote DataflowFacts DenFacts
  Iteration IterationFacts Views SchedLinear PropsEval PropsRun.
Import ListNotations.
Set Implicit Arguments.
Local Open Scope nat_scope.

(** General form: for every view under which saturation, rescheduling and
    discarding are harmless, output and derivations bound each other. *)
Section General.
  Variable P : Prov.
  Variable V : view P.
  Hypothesis SAT : sat_sound V.
  Hypothesis DOM : unsat_dom V.
  Hypothesis DISC : discard_sound V.

  Theorem output_bounds : forall (it : iteration P) facts fuel st n r out,
    prog_ok it facts V -> (forall q, In q (i_rels it) -> i_sched it q <> Beam 0) ->
    run it facts fuel st n StopQuiet -> output st r = Some out ->
    ssorted out /\
    covers V (derivable (i_cols it) (i_updates it) (given facts) r) (fun e => In e out) /\
    covers V (fun e => In e out) (derivable (i_cols it) (i_updates it) (given facts) r).
  Proof.
    intros it facts fuel st n r out (Sh & OK) NB R O.
    assert (IS0 := init_inv_s OK). assert (IC0 := init_inv_c OK (fun _ => DISC)).
    assert (IS : inv_s it facts V Sh st) by (eapply loop_sound; eauto).
    split; [|split].
    - eapply complete_ssorted; eauto. apply (IterationFacts.is_sorted IS r).
    - intros e I.
      assert (C : covL V (derivable (i_cols it) (i_updates it) (given facts) r) out).
      { apply (@complete_cov P V _ _ _ O). intros x J. apply (is_sound IS). left. exact J. }
      apply C; auto.
    - destruct (loop_complete OK SAT DOM (fun _ => DISC) NB _ R IS0 IC0) as [_ C].
      eapply covers_trans; [|apply C].
      intros e J.
      assert (X : covL V (fun e => In e out) out) by (intros x I; apply covE_in; auto).
      apply (@complete_cov P V _ _ _ O) in X. apply X. exact J.
  Qed.
End General.

(** ** Booleans *)
Lemma bool_minus_ok : minus_ok bool_view.
Proof. intros b. right. exists (negb b). intros a. exists (andb a (negb b)). simpl. auto. Qed.
Lemma bool_vsum : forall l, vsum bool_view l = true <-> In true l.
Proof.
  induction l as [|a l IH]; simpl; [split; [discriminate|tauto]|].
  destruct a; simpl; [tauto|]. rewrite IH. intuition congruence.
Qed.

(** A tuple has tag true iff some derivation has tag true. *)
Theorem C11_bool : forall (it : iteration bool_prov) facts fuel st n r out,
  prog_ok it facts bool_view -> (forall q, In q (i_rels it) -> i_sched it q <> Beam 0) ->
  run it facts fuel st n StopQuiet -> output st r = Some out ->
  ssorted out /\
  forall t, In (t, true) out <-> derivable (i_cols it) (i_updates it) (given facts) r (t, true).
Proof.
  intros it facts fuel st n r out OK NB R O.
  destruct (@output_bounds _ bool_view bool_view_sat bool_view_dom bool_view_discard it facts fuel st n r out OK NB R O)
    as (S & A & B).
  split; auto. intros t. split; intros H; [apply A in H|apply B in H];
    destruct H as (ts & F & L); specialize (L eq_refl); apply bool_vsum in L;
    rewrite Forall_forall in F; apply (F _ L).
Qed.
Print Assumptions C11_bool.

(** ** Max-min probabilities *)
Lemma minmax_minus_ok : minus_ok minmax_view.
Proof.
  intros b. right. exists (1 - b)%Qc. intros a. exists (qc_min a (1 - b))%Qc.
  split; [reflexivity|]. split; apply Qcle_refl.
Qed.
Lemma mm_pos : forall a b, (0 < a)%Qc -> mm_le a b -> (a <= b)%Qc.
Proof.
  intros a b P L. apply mm_le_iff in L as [L|L]; auto. exfalso. exact (Qclt_not_le _ _ P L).
Qed.
Lemma mm_vsum : forall l q, (0 < q)%Qc -> mm_le q (vsum minmax_view l) -> exists g, In g l /\ (q <= g)%Qc.
Proof.
  intros l q P L. apply mm_pos in L; auto. revert L. induction l as [|a l IH]; simpl; intros L.
  - exfalso. exact (Qclt_not_le _ _ P L).
  - destruct (qc_max_spec a (vsum minmax_view l)) as [[X E]|[X E]]; rewrite E in L.
    + destruct IH as (g & I & J); auto. eauto.
    + eauto.
Qed.

(** A positive output tag is the tag of a derivation, and no derivation of the tuple
    has a larger one; a tuple with a positive derivation is output. *)
Theorem C11_minmax : forall (it : iteration minmax_prov) facts fuel st n r out,
  prog_ok it facts minmax_view -> (forall q, In q (i_rels it) -> i_sched it q <> Beam 0) ->
  run it facts fuel st n StopQuiet -> output st r = Some out ->
  let D t g := derivable (i_cols it) (i_updates it) (given facts) r (t, g) in
  ssorted out /\
  (forall t g, In (t, g) out -> (0 < g)%Qc -> D t g /\ forall g', D t g' -> (g' <= g)%Qc) /\
  (forall t g, D t g -> (0 < g)%Qc -> exists g', In (t, g') out /\ (g <= g')%Qc).
Proof.
  intros it facts fuel st n r out OK NB R O D.
  destruct (@output_bounds _ minmax_view minmax_view_sat minmax_view_dom minmax_view_discard it facts fuel st n r out OK NB R O)
    as (S & A & B).
  assert (B' : forall t g, D t g -> (0 < g)%Qc -> exists g', In (t, g') out /\ (g <= g')%Qc).
  { intros t g H P. apply B in H as (ts & F & L). apply mm_vsum in L as (g' & I & J); auto.
    rewrite Forall_forall in F. exists g'. split; [apply (F _ I)|auto]. }
  split; auto. split; auto. intros t g H P.
  assert (U : forall g', D t g' -> (g' <= g)%Qc).
  { intros g' H'. destruct (Qclt_le_dec 0 g') as [Q|Q].
    - destruct (B' _ _ H' Q) as (g2 & I & J). rewrite (ssorted_fun _ _ _ S H I). auto.
    - eapply Qcle_trans; [exact Q|]. apply Qclt_le_weak; auto. }
  split; auto. apply A in H as (ts & F & L). apply mm_vsum in L as (g' & I & J); auto.
  rewrite Forall_forall in F. apply F in I. replace g with g'; auto. apply Qcle_antisym; auto.
Qed.
Print Assumptions C11_minmax.

(** ** Shortest distances *)
Lemma trop_minus_ok : minus_ok trop_view.
Proof. intros b. left. auto. Qed.
Lemma tr_vsum : forall l n, tr_le (Some n) (vsum trop_view l) -> exists m, In (Some m) l /\ m <= n.
Proof.
  induction l as [|[a|] l IH]; intros n L; simpl in L; [tauto| |].
  - rewrite trop_add_spec in L. destruct (vsum trop_view l) as [m|] eqn:E.
    + simpl in L. destruct (Nat.min_dec a m) as [X|X]; rewrite X in L; [exists a; simpl; auto|].
      destruct (IH n) as (k & I & J); [simpl; auto|]. exists k. simpl; auto.
    + exists a. simpl in *. auto.
  - rewrite trop_add_spec in L. destruct (IH n) as (k & I & J); auto. exists k. simpl; auto.
Qed.

Theorem C11_tropical : forall (it : iteration trop_prov) facts fuel st n r out,
  prog_ok it facts trop_view -> (forall q, In q (i_rels it) -> i_sched it q <> Beam 0) ->
  run it facts fuel st n StopQuiet -> output st r = Some out ->
  let D t g := derivable (i_cols it) (i_updates it) (given facts) r (t, g) in
  ssorted out /\
  (forall t k, In (t, Some k) out -> D t (Some k) /\ forall k', D t (Some k') -> k <= k') /\
  (forall t k, D t (Some k) -> exists k', In (t, Some k') out /\ k' <= k).
Proof.
  intros it facts fuel st n r out OK NB R O D.
  destruct (@output_bounds _ trop_view trop_view_sat trop_view_dom trop_view_discard it facts fuel st n r out OK NB R O)
    as (S & A & B).
  assert (B' : forall t k, D t (Some k) -> exists k', In (t, Some k') out /\ k' <= k).
  { intros t k H. apply B in H as (ts & F & L). apply tr_vsum in L as (k' & I & J).
    rewrite Forall_forall in F. exists k'. split; [apply (F _ I)|auto]. }
  split; auto. split; auto. intros t k H.
  assert (U : forall k', D t (Some k') -> k <= k').
  { intros k' H'. destruct (B' _ _ H') as (k2 & I & J). pose proof (ssorted_fun _ _ _ S H I) as E.
    injection E as ->. auto. }
  split; auto. apply A in H as (ts & F & L). apply tr_vsum in L as (k' & I & J).
  rewrite Forall_forall in F. apply F in I. replace k with k'; auto. apply U in I. lia.
Qed.
Print Assumptions C11_tropical.

(** Example: distances in a graph where the first path found is not the best, and
    best-probability paths with a blocked pair. *)
Definition dist_edges : list (Z * Z * option nat) :=
  [(0, 3, Some 10%nat); (0, 1, Some 1%nat); (1, 2, Some 1%nat); (2, 3, Some 1%nat); (3, 0, Some 2%nat)]%Z.
Definition dtc s := tc (P:=trop_prov) [] s true None [].
Example C11_example_tropical :
  prog_ok (dtc LFP) (edges trop_prov dist_edges 2) trop_view /\
  get_out (loop (dtc LFP) 20 (init_state (dtc LFP) (edges trop_prov dist_edges 2)) 0) 1
  = Some (Some (map (fun x => (t2 (fst (fst x)) (snd (fst x)), Some (snd x)))
      [(0,0,5%nat);(0,1,1%nat);(0,2,2%nat);(0,3,3%nat);(1,0,4%nat);(1,1,5%nat);(1,2,1%nat);(1,3,2%nat);
       (2,0,3%nat);(2,1,4%nat);(2,2,5%nat);(2,3,1%nat);(3,0,2%nat);(3,1,3%nat);(3,2,4%nat);(3,3,5%nat)]%Z), 9, StopQuiet).
Proof.
  split.
  - apply tc_ok; [repeat constructor|apply trop_minus_ok|apply edges_rels].
  - vm_compute. reflexivity.
Qed.
Definition q (a : Z) (b : positive) : Qc := Q2Qc (a # b).
Definition pr_edges : list (Z * Z * Qc) :=
  [(0, 3, q 1 10); (0, 1, q 9 10); (1, 2, q 4 5); (2, 3, q 7 10)]%Z.
Definition ptc s := tc (P:=minmax_prov) [(t2 0 3, q 1 5)] s true None [].
Example C11_example_minmax :
  prog_ok (ptc LFP) (edges minmax_prov pr_edges 2) minmax_view /\
  get_out (loop (ptc LFP) 20 (init_state (ptc LFP) (edges minmax_prov pr_edges 2)) 0) 4
  = Some (Some [(t2 0 1, q 9 10); (t2 0 2, q 4 5); (t2 0 3, q 7 10); (t2 1 2, q 4 5); (t2 1 3, q 7 10); (t2 2 3, q 7 10)],
      7, StopQuiet).
Proof.
  split.
  - apply tc_ok; [repeat constructor|apply minmax_minus_ok|apply edges_rels].
  - vm_compute. reflexivity.
Qed.

(** The real-valued tropical provenance calls tags within 0.001 of each other
    saturated (real_tropical.rs), so a small improvement is not propagated: the best
    derivation of path(0,4) costs 1.9995, the output says 2. *)
Definition rt_edges : list (Z * Z * option Qc) :=
  [(0, 1, Some (q 1 2)); (0, 3, Some (q 1 1)); (1, 3, Some (q 999 2000)); (3, 4, Some (q 1 1))]%Z.
Definition rtc s := tc (P:=rtrop_prov) [] s true None [].
Theorem C11_real_tropical_refuted : exists facts out n,
  get_out (loop (rtc LFP) 20 (init_state (rtc LFP) facts) 0) 1 = Some (Some out, n, StopQuiet) /\
  In (t2 0 4, Some (q 2 1)) out /\
  derivable (i_cols (rtc LFP)) (i_updates (rtc LFP)) (given facts) 1 (t2 0 4, Some (q 3999 2000)) /\
  (q 3999 2000 < q 2 1)%Qc.
Proof.
  set (facts := edges rtrop_prov rt_edges 4). exists facts.
  destruct (get_out (loop (rtc LFP) 20 (init_state (rtc LFP) facts) 0) 1) as [[[[out|] n] v]|] eqn:E;
    vm_compute in E; try discriminate. injection E as <- <- <-. eexists _, _.
  split; [reflexivity|]. split; [|split].
  - vm_compute. tauto.
  - assert (F : forall a b w, In (a, b, w) rt_edges -> forall n, stage (i_cols (rtc LFP)) (i_updates (rtc LFP)) (given facts) n 0 (t2 a b, w)).
    { intros a b w I k. induction k; [|left; auto]. exists (map (fun x => (t2 (fst (fst x)) (snd (fst x)), snd x)) rt_edges).
      split; [simpl; auto|]. apply in_map_iff. exists (a, b, w). auto. }
    assert (P0 : forall n a b w, In (a, b, w) rt_edges -> stage (i_cols (rtc LFP)) (i_updates (rtc LFP)) (given facts) (S n) 1 (t2 a b, w)).
    { intros k a b w I. right. exists (DRel 0). split; [simpl; auto|]. cbn [den]. simpl. apply F; auto. }
    assert (STEP : forall n a b c w w', stage (i_cols (rtc LFP)) (i_updates (rtc LFP)) (given facts) n 1 (t2 a b, w) ->
       In (b, c, w') rt_edges ->
       stage (i_cols (rtc LFP)) (i_updates (rtc LFP)) (given facts) (S (S n)) 1 (t2 a c, rtrop_mult w w')).
    { intros k a b c w w' S1 S2. right. eexists. split; [simpl; right; right; left; reflexivity|].
      cbn [den]. exists (TTup [v1 b; v1 a; v1 c]). split; [|reflexivity].
      exists (t2 b a), (t2 b c), w, w', (v1 b), (v1 a), (v1 c). simpl. split; [|split; [|auto]].
      - right. exists (DProject (DRel 1) swap2). split; [auto|]. cbn [den]. simpl. exists (t2 a b). auto.
      - apply F with (n := S k); auto. }
    exists 5. replace (Some (q 3999 2000)) with (rtrop_mult (rtrop_mult (Some (q 1 2)) (Some (q 999 2000))) (Some (q 1 1))).
    + apply STEP with (b := 3%Z); [|simpl; tauto]. apply STEP with (b := 1%Z); [|simpl; tauto].
      apply P0. simpl. tauto.
    + vm_compute. reflexivity.
  - reflexivity.
Qed.
Print Assumptions C11_real_tropical_refuted.
