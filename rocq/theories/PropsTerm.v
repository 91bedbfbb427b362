(** Property C57: evaluation ends. *)
From Coq Require Import List ZArith QArith Qcanon Bool Arith Lia.
From Verif Require Import Order Value Prov ListAux SortedCol SortedColFacts ProvInst Schedulers Relation View Dataflow Denote DataflowFacts DenFacts
  Iteration IterationFacts Views PropsEval PropsRun Eval Ram Scc SccFacts Dedup Increm Exec PropsExec PropsExec2 Terminate RunTotal.
Import ListNotations.
Set Implicit Arguments.
Local Open Scope nat_scope.

(** * Tags that can change only finitely often *)
Lemma always_sat_improving : forall P : Prov, (forall a b, psat P a b = true) -> improving P.
Proof.
  intros P S. exists unit, (fun _ _ => False), (fun _ => tt). split; [intros x; constructor; tauto|]. intros g x. rewrite S. auto.
Qed.
Lemma unit_improving : improving unit_prov.
Proof. apply always_sat_improving. reflexivity. Qed.
Lemma nat_improving : improving nat_prov.
Proof. apply always_sat_improving. reflexivity. Qed.
Lemma addmult_improving : improving addmult_prov.
Proof. apply always_sat_improving. reflexivity. Qed.
Lemma bool_improving : improving bool_prov.
Proof.
  exists nat, lt, (fun b : bool => if b then 0 else 1). split; [apply lt_wf|]. intros [] []; cbn; auto; lia.
Qed.
Lemma trop_improving : improving trop_prov.
Proof.
  exists (option nat), (olt lt), (fun t => t). split; [apply olt_wf, lt_wf|].
  intros [n|] [m|]; cbn; unfold trop_add; cbn; try (destruct (Nat.compare_spec n m); cbn; try rewrite Nat.eqb_refl; auto); try rewrite Nat.eqb_refl; auto.
  - replace (n =? m) with false by (symmetry; apply Nat.eqb_neq; lia). constructor. lia.
  - constructor.
Qed.

(** * The loop of one stratum
    Least-fixed-point scheduling, no iteration limit, finitely many derivable tuples,
    tags that can change only finitely often: the loop ends, unless it comes to a
    state from which a round compares by galloping with a batch of at least two
    elements (lfp.rs 18-24, gallop_index misses elements then).  Left out: the other
    schedulers. *)
Theorem C57_loop_partial : forall (P : Prov) (it : iteration P) facts, prog_ok it facts (set_view P) ->
  (forall r, In r (i_rels it) -> i_sched it r = LFP) -> i_limit it = None -> improving P ->
  (exists U : nat -> list tuple, forall r e, derivable (i_cols it) (i_updates it) (factset facts) r e -> In (fst e) (U r)) ->
  (exists fuel res, loop it fuel (init_state it facts) 0 = Some res) \/
  (exists st n, reaches it (init_state it facts) st n /\ gallops it st).
Proof.
  intros P it facts (Sh & OK) LF NL (A & lt & rk & WF & IMP) (U & HU). eapply loop_ends; eauto.
Qed.
Print Assumptions C57_loop_partial.

(** Transitive closure over four nodes; the loop ends. *)
Definition ends_in (D : list Z) (t : tuple) : Prop := exists a b, In a D /\ In b D /\ t = t2 a b.
Lemma ends_in_list : forall D t, ends_in D t -> In t (flat_map (fun a => map (t2 a) D) D).
Proof. intros D t (a & b & A & B & ->). apply in_flat_map. exists a. split; auto. apply in_map, B. Qed.
Lemma ends_swap : forall D t u, ends_in D t -> swap2 t = Some u -> ends_in D u.
Proof. intros D t u (a & b & A & B & ->) H. cbn in H. injection H as <-. exists b, a. auto. Qed.
Example C57_loop_ex : forall inits : nat -> list (list (elem unit_prov)), inits = edges unit_prov uedges 2 ->
  prog_ok (utc LFP None []) inits (set_view unit_prov) /\
  (exists U : nat -> list tuple, forall r e, derivable (i_cols (utc LFP None [])) (i_updates (utc LFP None [])) (factset inits) r e -> In (fst e) (U r)) /\
  exists fuel res, loop (utc LFP None []) fuel (init_state (utc LFP None []) inits) 0 = Some res.
Proof.
  intros inits ->. split; [apply C09_example|]. split.
  - exists (fun _ => flat_map (fun a => map (t2 a) [0; 1; 2; 3]%Z) [0; 1; 2; 3]%Z). intros r e (n & H). apply ends_in_list.
    revert r e H. induction n as [|n IH]; intros r [t g] H; cbn [stage] in H.
    + destruct H as (b & I & J). unfold edges in I. destruct (r =? 0); [|destruct I]. cbn in I.
      repeat (destruct I as [<-|I]; [cbn in J; repeat (destruct J as [J|J]; [injection J as <- <-; cbn [fst]; do 2 eexists; split; [|split; [|reflexivity]]; cbn; tauto|]); destruct J|]).
      destruct I.
    + destruct H as [H|(d & I & H)]; [apply (IH _ _ H)|]. cbn in I.
      destruct I as [I|[I|[I|[I|[]]]]]; injection I as <- <-; cbn in H; cbn [fst] in *.
      * apply (IH _ _ H).
      * destruct H as (u & H & S). apply (ends_swap (IH _ _ H) S).
      * destruct H as (u & (t1 & t3 & x & y & k & z & w & H1 & H2 & K1 & K2 & K3 & K4 & Z) & S). injection Z as -> _.
        apply IH in H1. apply IH in H2. cbn [fst] in *. destruct H1 as (a1 & b1 & A1 & B1 & ->). destruct H2 as (a2 & b2 & A2 & B2 & ->).
        cbn in K1, K2, K3, K4. injection K3 as <-. injection K4 as <-. cbn in S. injection S as <-. exists b1, b2. auto.
      * destruct H as [[H _]|(a & b & H & _)]; apply (IH _ _ H).
  - exists 20. assert (V : option_map snd (loop (utc LFP None []) 20 (init_state (utc LFP None []) (edges unit_prov uedges 2)) 0) = Some StopQuiet) by (vm_compute; reflexivity).
    destruct (loop _ 20 _ 0) as [res|]; [eauto|discriminate].
Qed.

(** * Iteration limits
    With a limit of [k] iterations every loop ends after at most [k + 3] tests. *)
Theorem C57_limit : forall (P : Prov) (it : iteration P) st k, i_limit it = Some k -> exists res, loop it (k + 3) st 0 = Some res.
Proof.
  intros P it st k L. destruct (@loop_limit P it k st 0 L) as (res & H). exists res. rewrite <- H. f_equal. lia.
Qed.
Print Assumptions C57_limit.
Example C57_limit_ex : i_limit (utc LFP (Some 2) []) = Some 2 /\
  option_map snd (loop (utc LFP (Some 2) []) 5 (init_state (utc LFP (Some 2) []) (edges unit_prov uedges 2)) 0) = Some StopLimit.
Proof. split; vm_compute; reflexivity. Qed.

(** * Strata without recursion
    If the relations can be numbered so that every rule reads lower-numbered ones,
    the loop ends after as many rounds, for every provenance.  Left out: literal lists
    of tuples, which are yielded again in every round, and other schedulers. *)
Theorem C57_nonrecursive_partial : forall (P : Prov) (it : iteration P) Sh (lvl : nat -> nat) m st,
  (forall r d, In (r, d) (i_updates it) -> In r (i_rels it) /\ wf (i_cols it) Sh false d /\ no_vec d) ->
  (forall r, In r (i_rels it) -> i_sched it r = LFP) -> i_limit it = None ->
  (forall r d q, In (r, d) (i_updates it) -> In q (dreads d) -> i_cols it q = None -> In q (i_rels it) /\ lvl q < lvl r) ->
  (forall r, In r (i_rels it) -> lvl r <= m) ->
  exists res, loop it (m + 4) st 0 = Some res.
Proof.
  intros P it Sh lvl m st W LF NL LV M. eapply nonrec_ends with (Sh := Sh) (lvl := lvl); eauto.
  intros r d I. apply (W _ _ I).
Qed.
Print Assumptions C57_nonrecursive_partial.
(** Two rules above each other, with probabilities as tags. *)
Definition half_third : list (elem minmax_prov) := [(t2 0 1, Q2Qc (1 # 2)); (t2 1 2, Q2Qc (1 # 3))].
Definition two_step : iteration minmax_prov :=
  mkIter [1; 2] (fun r => if r =? 0 then Some half_third else None)
    [(1, DProject (DRel 0) swap2); (2, DInter (DRel 1) (DRel 0)); (2, DProject (DRel 1) swap2)] (fun _ => LFP) [2] [] false None false.
Example C57_nonrecursive_ex : exists st n, loop two_step 6 (init_state two_step (fun _ => [])) 0 = Some (st, n, StopQuiet) /\
  output st 2 = Some half_third.
Proof.
  destruct (@C57_nonrecursive_partial minmax_prov two_step any_shape (fun r => r) 2 (init_state two_step (fun _ => []))) as ([[st n] v] & H).
  - intros r d I. cbn in I. destruct I as [I|[I|[I|[]]]]; injection I as <- <-; cbn; repeat split; auto.
  - reflexivity.
  - reflexivity.
  - intros r d q I J K. cbn in I. destruct I as [I|[I|[I|[]]]]; injection I as <- <-; cbn in J; intuition (subst; try discriminate; cbn; auto; lia).
  - intros r I. cbn in I. intuition lia.
  - exists st, n.
    assert (V : option_map snd (loop two_step 6 (init_state two_step (fun _ => [])) 0) = Some StopQuiet) by (vm_compute; reflexivity).
    assert (O : option_map (fun x => output (fst (fst x)) 2) (loop two_step 6 (init_state two_step (fun _ => [])) 0)
                = Some (Some half_third)) by (vm_compute; reflexivity).
    cbn [Nat.add] in H. rewrite H in V, O. cbn in V, O. injection V as ->. injection O as O. auto.
Qed.

(** * Whole programs
    Each relation that is read is given, or computed in the same stratum or an earlier
    one; whichever stratum is reached, finitely many tuples are derivable in it.  Then
    a run ends, with the same context for every larger number of rounds allowed,
    unless it gallops.  Nothing that a run checks fails. *)
Theorem C57_execute_partial : forall (P : Prov) (IT X : Type) (E : rtenv P IT X) inc (p : xprog IT) Sh (c : ctx P IT X),
  rt_ok E -> xprog_ok E Sh p -> placed p -> all_lfp E p -> improving P ->
  (forall r t, stored E (e_get (x_edb c) r) t \/ prog_fact E p r t -> Sh r t) ->
  (forall r, e_progint (e_get (x_edb c) r) = false) ->
  finite_strata E p (fun r t => stored E (e_get (x_edb c) r) t \/ prog_fact E p r t) ->
  (exists N c', forall fuel, N <= fuel -> execute E inc fuel (Some p) c = Some c') \/
  (exists d, start_facts E p c = Some d /\ run_gallops E inc p d).
Proof.
  intros P IT X E inc p Sh c RT OK PL LFP IMP SHP FRESH FIN.
  destruct (@populate_fresh P IT (xrels p) (x_edb c) FRESH) as (d1 & PO).
  destruct (start_facts E p c) as [d|] eqn:ST; [|unfold start_facts in ST; rewrite PO in ST; discriminate].
  destruct (start_spec _ _ _ ST) as (DS & DI & DB).
  assert (DH : forall r c0 e, aget r d = Some c0 -> In e c0 -> Sh r (fst e)).
  { intros r c0 [t g] G I. apply SHP, DB. exists g, c0. auto. }
  destruct (@strata_end_lfp P IT X E RT inc p Sh OK PL d DS DH DI IMP LFP) as [(fuel & i' & XS)|GL].
  - intros F HF B dn s rest M HB Q PM r C. eapply (FIN B dn s rest M); eauto. intros q t. rewrite HB, <- HF. apply DB.
  - left. destruct (@execute_ends P IT X E inc p Sh c d fuel i' OK PL ST XS) as (c' & H). exists fuel, c'. exact H.
  - right. exists d. auto.
Qed.
Print Assumptions C57_execute_partial.
