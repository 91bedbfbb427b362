(** Property theorems C12 - C15: stopping criteria and negation. *)
From Coq Require Import List Arith Bool ZArith QArith Qcanon Lia Sorting.Sorted.
From Verif Require Import Order Value Prov ListAux SortedCol GallopFacts SortedColFacts ProvInst
  PropsCollections Schedulers Relation View SchedFacts Dataflow OpFacts Denote DataflowFacts DenFacts
  Iteration IterationFacts Views SchedLinear PropsEval PropsRun PropsTags.
Import ListNotations.
Set Implicit Arguments.
Local Open Scope nat_scope.

(** * C12: iteration limit *)
(** Whatever the program and the state, with limit [k] the loop finishes, after at
    most [k + 1] executions of its body ([k + 2] calls of [need_to_iterate]). *)
Theorem C12_limit : forall (P : Prov) (it : iteration P) (st : nat -> relation P) k,
  i_limit it = Some k ->
  exists st' n why, loop it (k + 2) st 0 = Some (st', n, why) /\ n <= k + 1.
Proof.
  intros P it st k L.
  assert (X : forall m st n, n + m = k + 2 -> 0 < m ->
    exists st' n' why, loop it m st n = Some (st', n', why) /\ n' <= k + 1).
  { induction m; intros s n E G; [lia|]. cbn [loop].
    destruct (need_to_iterate it s n) as [s1 v] eqn:N. destruct v; try (exists s1, n; eexists; split; [reflexivity|lia]).
    assert (n <= k).
    { unfold need_to_iterate in N. rewrite L in N. destruct (changed_all it s) as [s2 c].
      destruct (c || (n =? 0)).
      - destruct (k <? n) eqn:K; [discriminate|]. apply Nat.ltb_ge in K. lia.
      - destruct (n <? k) eqn:K; [|discriminate]. apply Nat.ltb_lt in K. lia. }
    apply IHm; lia. }
  apply X; lia.
Qed.
Print Assumptions C12_limit.
(** Any larger fuel gives the same result, so the fuel is not a bound on the runs
    described. *)
Theorem C12_fuel_irrelevant : forall (P : Prov) (it : iteration P) fuel extra st n x,
  loop it fuel st n = Some x -> loop it (fuel + extra) st n = Some x.
Proof.
  induction fuel; simpl; intros extra st n x H; [discriminate|].
  destruct (need_to_iterate it st n) as [s1 v]. destruct v; auto.
Qed.
Print Assumptions C12_fuel_irrelevant.
(** Example: two iterations on the cyclic graph; 3 bodies executed. *)
Example C12_example :
  i_limit (utc LFP (Some 2) []) = Some 2 /\
  get_out (loop (utc LFP (Some 2) []) 4 (init_state (utc LFP (Some 2) []) (edges unit_prov uedges 2)) 0) 1
  = Some (Some (map (fun x => (t2 (fst x) (snd x), tt)) [(0, 1); (0, 2); (1, 0); (1, 2); (1, 3); (2, 0); (2, 1); (2, 3)]%Z), 3, StopLimit).
Proof. split; vm_compute; reflexivity. Qed.

(** * C13: stopping early *)
Lemma lfp_second_round : forall (P : Prov) (r : relation P), to_add r = [] ->
  recent (fst (changed LFP r)) = [] /\ to_add (fst (changed LFP r)) = [].
Proof. intros P r E. unfold changed, schedule, schedule_lfp. rewrite E. simpl. auto. Qed.
Lemma changed_to_add : forall (P : Prov) s (r : relation P), to_add (fst (changed s r)) = [].
Proof. intros P s r. destruct (changed s r) as [r' c] eqn:E. apply changed_flag in E as [E _]. auto. Qed.

Lemma need_stop : forall (P : Prov) (it : iteration P) st n st1 v, need_to_iterate it st n = (st1, v) ->
  match v with
  | StopLimit | StopGoal => st1 = fst (changed_all it (fst (changed_all it st)))
  | _ => st1 = fst (changed_all it st)
  end /\ (v = StopQuiet -> snd (changed_all it st) = false) /\
  (v = StopGoal -> goals_reached it (fst (changed_all it st)) = true).
Proof.
  intros P it st n st1 v E. unfold need_to_iterate in E. destruct (changed_all it st) as [s c]. simpl.
  destruct (c || (n =? 0)) eqn:C.
  - destruct (match i_limit it with Some k => k <? n | None => false end);
      [injection E as <- <-; repeat split; auto; discriminate|].
    destruct (i_goalstop it && goals_reached it s) eqn:G; injection E as <- <-; repeat split; auto; try discriminate.
    apply andb_prop in G. tauto.
  - apply orb_false_elim in C as [-> _].
    destruct (i_limit it) as [k|]; [destruct (n <? k)|]; injection E as <- <-; repeat split; auto; discriminate.
Qed.
Lemma loop_last : forall (P : Prov) (it : iteration P) fuel st n st' n' v,
  loop it fuel st n = Some (st', n', v) ->
  exists st0, need_to_iterate it st0 n' = (st', v) /\ v <> Continue.
Proof.
  induction fuel; simpl; intros st n st' n' v H; [discriminate|].
  destruct (need_to_iterate it st n) as [s1 w] eqn:E. destruct w; [eapply IHfuel; eauto| | |];
    injection H as <- <- <-; exists st; split; auto; discriminate.
Qed.

(** Under the default scheduler the output of every computed relation can be
    produced, however the loop stopped. *)
Theorem C13_output_lfp : forall (P : Prov) (it : iteration P) facts fuel st n why r,
  run it facts fuel st n why -> In r (i_rels it) -> i_sched it r = LFP ->
  exists out, output st r = Some out.
Proof.
  intros P it facts fuel st n why r R IR S. apply loop_last in R as (st0 & N & NC).
  assert (X : recent (st r) = [] /\ to_add (st r) = []).
  { apply need_stop in N as (N & Q & _).
    assert (H : forall s, fst (changed_all it s) r = fst (changed LFP (s r))).
    { intros s. destruct (changed_all_eq it s r) as [[-> _]|[_ X]]; [|tauto]. rewrite S. auto. }
    destruct why; [tauto| | |]; subst st; rewrite !H.
    - split; [|apply changed_to_add]. specialize (Q eq_refl). simpl in Q.
      assert (C : snd (changed LFP (st0 r)) = false).
      { destruct (snd (changed LFP (st0 r))) eqn:C; auto. rewrite <- Q. symmetry. apply existsb_exists.
        exists r. rewrite S. auto. }
      destruct (changed LFP (st0 r)) as [r' c] eqn:E. simpl in *. apply changed_flag in E as [_ E]. apply E; auto.
    - apply lfp_second_round, changed_to_add.
    - apply lfp_second_round, changed_to_add. }
  unfold output, complete. destruct X as [-> ->]. eauto.
Qed.
Print Assumptions C13_output_lfp.
Example C13_example :
  (exists st n, run (utc LFP (Some 1) []) (edges unit_prov uedges 2) 9 st n StopLimit) /\
  In 1 (i_rels (utc LFP (Some 1) [])) /\ i_sched (utc LFP (Some 1) []) 1 = LFP.
Proof.
  split; [|simpl; auto].
  destruct (loop (utc LFP (Some 1) []) 9 (init_state (utc LFP (Some 1) []) (edges unit_prov uedges 2)) 0)
    as [[[st n] v]|] eqn:E.
  - exists st, n. unfold run. rewrite E. f_equal. f_equal.
    apply (f_equal (fun x => match x with Some (_, _, w) => w | None => Continue end)) in E.
    vm_compute in E. congruence.
  - apply (f_equal (fun x => match x with Some _ => true | None => false end)) in E. vm_compute in E. discriminate.
Qed.
(** Under depth-first scheduling [complete] meets a non-empty recent batch and its
    assertion (relation.rs 225) fails: the claim is false for DFS, A* and beam. *)
Theorem C13_output_other_schedulers_refuted : forall s, In s [DFS; AStar; Beam 1] ->
  exists n, get_out (loop (utc s (Some 1) []) 9 (init_state (utc s (Some 1) []) (edges unit_prov uedges 2)) 0) 0
    = Some (None, n, StopLimit).
Proof.
  intros s [<-|[<-|[<-|[]]]]; eexists; vm_compute; reflexivity.
Qed.
Print Assumptions C13_output_other_schedulers_refuted.
Theorem C13_goal_stop_refuted : exists n,
  get_out (loop (utc DFS None [0]) 9 (init_state (utc DFS None [0]) (edges unit_prov uedges 2)) 0) 0
  = Some (None, n, StopGoal).
Proof. eexists. vm_compute. reflexivity. Qed.
Print Assumptions C13_goal_stop_refuted.

(** * C14: goal-directed stopping *)
Theorem C14_goal : forall (P : Prov) (it : iteration P) facts fuel st n,
  run it facts fuel st n StopGoal ->
  i_goals it <> [] /\ forall r, In r (i_goals it) -> exists e, rel_all (st r) e.
Proof.
  intros P it facts fuel st n R. apply loop_last in R as (st0 & N & _).
  apply need_stop in N as (-> & _ & G). specialize (G eq_refl). set (s1 := fst (changed_all it st0)) in *.
  clearbody s1. unfold goals_reached in G. destruct (i_goals it) as [|g0 gs]; [discriminate|].
  split; [discriminate|]. intros r I. rewrite forallb_forall in G. apply G in I.
  destruct (recent (s1 r)) as [|e l] eqn:E; [discriminate|].
  assert (A : rel_all (s1 r) e) by (right; left; rewrite E; left; auto).
  assert (B : covers (set_view P) (allS (fst (changed_all it s1)) r) (allS s1 r)).
  { apply changed_all_back. apply set_view_dom. }
  apply B in A. apply set_view_cov in A as (g & A). eauto.
Qed.
Print Assumptions C14_goal.
(** Under the default scheduler the goal's output is non-empty. *)
Theorem C14_goal_output_lfp : forall (P : Prov) (it : iteration P) facts fuel st n r,
  set_prog it facts -> (forall q, In q (i_rels it) -> i_sched it q = LFP) ->
  run it facts fuel st n StopGoal -> In r (i_goals it) ->
  exists out, output st r = Some out /\ out <> [].
Proof.
  intros P it facts fuel st n r (Sh & OK) S R I.
  destruct (C14_goal R) as [_ G]. destruct (G _ I) as (e & A).
  assert (IS : inv_s it facts (set_view P) Sh st).
  { eapply loop_sound; [exact OK|exact R|]. apply init_inv_s; auto. }
  assert (IR : In r (i_rels it)).
  { destruct (in_dec Nat.eq_dec r (i_rels it)) as [Y|Y]; auto. exfalso.
    rewrite (is_new IS _ Y) in A. destruct A as [(b & [] & _)|[[]|[(b & [] & _)|[]]]]. }
  assert (X13 : exists out, output st r = Some out) by (eapply C13_output_lfp; eauto).
  destruct X13 as (out & O). exists out. split; auto. intros ->.
  assert (W : forall fuel st0 n st' n' v, loop it fuel st0 n = Some (st', n', v) ->
     waitlist (st0 r) = [] -> waitlist (st' r) = []).
  { assert (CA : forall s, waitlist (s r) = [] -> waitlist (fst (changed_all it s) r) = []).
    { intros s W. destruct (changed_all_eq it s r) as [[-> _]|[-> _]]; auto. rewrite (S _ IR).
      destruct (changed LFP (s r)) as [r' c] eqn:E. apply changed_lfp_waitlist in E. simpl. congruence. }
    assert (NW : forall s k s1 v, need_to_iterate it s k = (s1, v) -> waitlist (s r) = [] -> waitlist (s1 r) = []).
    { intros s k s1 v N W. apply need_stop in N as (N & _). destruct v; subst s1; auto. }
    induction fuel0; simpl; intros st0 k st' n' v H W; [discriminate|].
    destruct (need_to_iterate it st0 k) as [s1 w] eqn:E. apply NW in E; auto.
    destruct w; [|injection H as <- _ _; auto..].
    eapply IHfuel0; eauto. destruct (do_updates_rest it k (i_updates it) s1 r) as (_ & _ & X & _).
    unfold do_updates. congruence. }
  assert (WL : waitlist (st r) = []).
  { eapply W; [exact R|]. unfold init_state. destruct (existsb (Nat.eqb r) (i_rels it)); auto. }
  unfold output, complete in O. destruct (recent (st r)) eqn:E1; [|discriminate].
  destruct (to_add (st r)) eqn:E2; [|discriminate]. 
  assert (O' : output st r = Some []) by (unfold output, complete; rewrite E1, E2; auto).
  assert (C : covB (set_view P) (fun x => In x []) (stable (st r))).
  { apply (@complete_cov P (set_view P) _ _ _ O'). intros x []. }
  unfold rel_all in A. rewrite E1, E2, WL in A. destruct A as [A|[[]|[(b & [] & _)|[]]]].
  apply C in A. apply set_view_cov in A as (g & []).
Qed.
Print Assumptions C14_goal_output_lfp.
Example C14_example : set_prog (utc LFP None [4]) (edges unit_prov uedges 2) /\
  get_out (loop (utc LFP None [4]) 9 (init_state (utc LFP None [4]) (edges unit_prov uedges 2)) 0) 4
  = Some (Some (map (fun x => (t2 (fst x) (snd x), tt)) [(0, 1); (1, 2); (2, 0); (2, 3)]%Z), 2, StopGoal).
Proof.
  split; [apply tc_ok; [repeat constructor|apply unit_minus_ok|apply edges_rels]|]. vm_compute. reflexivity.
Qed.
(** The converse direction, that the loop stops as soon as every goal has a tuple,
    does not hold: all goals must be fresh in the same round.  Goals 0 (edges, fresh
    in round 0 only) and 1 both have tuples, yet the loop runs to the end. *)
Theorem C14_stops_when_reached_refuted :
  get_out (loop (utc LFP None [0; 1]) 20 (init_state (utc LFP None [0; 1]) (edges unit_prov uedges 2)) 0) 1
  = get_out (loop (utc LFP None []) 20 (init_state (utc LFP None []) (edges unit_prov uedges 2)) 0) 1 /\
  exists out n, get_out (loop (utc LFP None [0; 1]) 20 (init_state (utc LFP None [0; 1]) (edges unit_prov uedges 2)) 0) 1
  = Some (Some out, n, StopQuiet) /\ length out = 12.
Proof. split; [vm_compute; reflexivity|]. eexists _, _. split; vm_compute; reflexivity. Qed.
Print Assumptions C14_stops_when_reached_refuted.

(** * C15: negation over a completed relation *)
Section C15.
  Variable P : Prov.
  Variable v : denv P.
  Variable Sh : nat -> tuple -> Prop.
  Hypothesis EO : env_ok Sh v.
  (** Everything the left operand yields in this iteration (in the first iteration
      established results count too). *)
  Definition now (d : dflow P) (e : elem P) : Prop :=
    inBt (iter_recent v d) e \/ (e_first v = true /\ inBt (iter_stable v d) e).

  Lemma completed : forall s N, e_col v s = Some N ->
    forall x, inBt (iter_stable v (DRel s)) x \/ inBt (iter_recent v (DRel s)) x <-> In x N.
  Proof.
    intros s N E x. unfold iter_stable, iter_recent. cbn [iters]. rewrite E.
    destruct (e_first v); cbn [fst snd]; rewrite inBt_one; simpl; split; auto;
      intros [H|H]; auto; destruct (inBt_nil H).
  Qed.

  Theorem C15_difference : forall d1 s N, is_strict Sh d1 -> e_col v s = Some N ->
    forall t g, inBt (iter_recent v (DDiff d1 (DRel s))) (t, g) <->
      (now d1 (t, g) /\ forall h, ~ In (t, h) N) \/
      (exists a b, now d1 (t, a) /\ In (t, b) N /\ pminus P a b = Some g).
  Proof.
    intros d1 s N S E t g.
    destruct (iters_diff EO d1 (DRel s) S) with (e := (t, g)) as [_ ->]; [simpl; congruence|exact I|].
    unfold R_diff. cbn [fst snd]. change (nowd v d1) with (now d1).
    split; (intros [[A B]|(a & b & A & B & M)]; [left|right]).
    - split; auto. intros h H. apply (B h). apply (completed _ E); auto.
    - exists a, b. split; auto. split; auto. apply (completed _ E); auto.
    - split; auto. intros h H. apply (B h). apply (completed _ E); auto.
    - exists a, b. split; auto. split; auto. apply (completed _ E); auto.
  Qed.

  Theorem C15_antijoin : forall d1 s N, Denote.is_sorted Sh d1 -> e_col v s = Some N ->
    forall t g, inBt (iter_recent v (DAnti d1 (DRel s))) (t, g) <->
      (now d1 (t, g) /\ forall k h, tnth t 0 = Some k -> ~ In (k, h) N) \/
      (exists k a b, tnth t 0 = Some k /\ now d1 (t, a) /\ In (k, b) N /\ pminus P a b = Some g).
  Proof.
    intros d1 s N S E t g.
    destruct (iters_anti EO d1 (DRel s) S) with (e := (t, g)) as [_ ->]; [simpl; congruence|exact I|].
    unfold R_anti. cbn [fst snd]. change (nowd v d1) with (now d1).
    split; (intros [[A B]|(k & a & b & K & A & B & M)]; [left|right]).
    - split; auto. intros k h K H. apply (B k h K). apply (completed _ E); auto.
    - exists k, a, b. split; auto. split; auto. split; auto. apply (completed _ E); auto.
    - split; auto. intros k h K H. apply (B k h K). apply (completed _ E); auto.
    - exists k, a, b. split; auto. split; auto. split; auto. apply (completed _ E); auto.
  Qed.
End C15.
Print Assumptions C15_difference.
Print Assumptions C15_antijoin.

(** Untagged facts: exact set difference, exact anti-join. *)
Theorem C15_unit : forall (v : denv unit_prov) Sh d1 s N, env_ok Sh v -> e_col v s = Some N ->
  (is_strict Sh d1 -> forall t, inBt (iter_recent v (DDiff d1 (DRel s))) (t, tt) <->
     now v d1 (t, tt) /\ ~ In (t, tt) N) /\
  (Denote.is_sorted Sh d1 -> forall t, inBt (iter_recent v (DAnti d1 (DRel s))) (t, tt) <->
     now v d1 (t, tt) /\ forall k, tnth t 0 = Some k -> ~ In (k, tt) N).
Proof.
  intros v Sh d1 s N EO E. split; intros S t.
  - rewrite (C15_difference EO d1 s S E t tt). split.
    + intros [[A B]|(a & b & _ & _ & M)]; [split; auto|discriminate M].
    + intros [A B]. left. split; auto. intros []; auto.
  - rewrite (C15_antijoin EO d1 s S E t tt). split.
    + intros [[A B]|(k & a & b & _ & _ & _ & M)]; [split; auto|discriminate M].
    + intros [A B]. left. split; auto. intros k [] K; auto.
Qed.
Print Assumptions C15_unit.
(** Boolean tags: a result is true iff the left tuple is true and the right one is
    absent or false. *)
Theorem C15_bool : forall (v : denv bool_prov) Sh d1 s N, env_ok Sh v -> e_col v s = Some N -> is_strict Sh d1 ->
  forall t, inBt (iter_recent v (DDiff d1 (DRel s))) (t, true) <->
     now v d1 (t, true) /\ ~ In (t, true) N.
Proof.
  intros v Sh d1 s N EO E S t. rewrite (C15_difference EO d1 s S E t true).
  assert (SN : ssorted N) by (eapply (proj1 EO); eauto). split.
  - intros [[A B]|(a & b & A & B & M)]; [split; auto|]. simpl in M. injection M as M.
    apply andb_prop in M as [-> M]. apply negb_true_iff in M. subst. split; auto. intros C.
    pose proof (ssorted_fun _ _ _ SN B C). discriminate.
  - intros [A B]. destruct (lookup t N) as [b|] eqn:L.
    + apply lookup_In in L. right. exists true, b. repeat split; auto. destruct b; auto. tauto.
    + left. split; auto. apply lookup_None; auto.
Qed.
Print Assumptions C15_bool.
(** Max-min probabilities: the tag is the minimum of the left tag and one minus the
    right tag. *)
Theorem C15_minmax : forall (v : denv minmax_prov) Sh d1 s N, env_ok Sh v -> e_col v s = Some N -> is_strict Sh d1 ->
  forall t (g : Qc), inBt (iter_recent v (DDiff d1 (DRel s))) (t, g) <->
     (now v d1 (t, g) /\ (forall h, ~ In (t, h) N)) \/
     (exists a b : Qc, now v d1 (t, a) /\ In (t, b) N /\ g = qc_min a (1 - b)%Qc).
Proof.
  intros v Sh d1 s N EO E S t g. rewrite (C15_difference EO d1 s S E t g). simpl.
  split; (intros [H|(a & b & A & B & M)]; [left; auto|right]); exists a, b; repeat split; auto.
  - injection M as <-. auto.
  - subst. auto.
Qed.
Print Assumptions C15_minmax.
Section C15Example.
  Let x (z : Z) : elem unit_prov := (tz z, tt).
  Let v : denv unit_prov := mkEnv false (fun r => if r =? 1 then Some [x 2; x 3] else None)
    (fun _ => mkRel [[x 9]] [x 1; x 2; x 4] [] []).
  Example C15_example : env_ok any_shape v /\ e_col v 1 = Some [x 2; x 3] /\ is_strict (P:=unit_prov) any_shape (DRel 0) /\
    concat (map snd (iter_recent v (DDiff (DRel 0) (DRel 1)))) = [x 1; x 4].
  Proof.
    split; [|split; [|split]]; [|reflexivity|exact I|vm_compute; reflexivity].
    apply env_any.
    - intros r c H. simpl in H. destruct (r =? 1); [|discriminate]. injection H as <-. repeat constructor.
    - intros r. simpl. split; repeat constructor.
  Qed.
End C15Example.
(** The restriction to completed relations matters: against a negated relation held
    in several batches (a dynamic relation), each pair of batches is subtracted on
    its own and the blocked tuple comes out. *)
Theorem C15_dynamic_negation_refuted : exists (v : denv unit_prov) t,
  env_ok any_shape v /\ inBt (iter_recent v (DDiff (DRel 0) (DRel 1))) (t, tt) /\ Vis v 1 (t, tt).
Proof.
  set (x := fun z : Z => (tz z, tt) : elem unit_prov).
  exists (mkEnv (P:=unit_prov) false (fun _ => None)
     (fun r => if r =? 0 then mkRel [] [x 1%Z] [] [] else mkRel [[x 1%Z]] [x 2%Z] [] [])), (tz 1).
  split; [|split].
  - apply env_any; [intros; discriminate|]. intros r. simpl. destruct (r =? 0); simpl; split; repeat constructor.
  - exists (false, [x 1%Z]). vm_compute. tauto.
  - left. exists [x 1%Z]. simpl. auto.
Qed.
Print Assumptions C15_dynamic_negation_refuted.
(** A left batch with repeated tuples (a sorted projection) keeps the second copy. *)
Theorem C15_repeated_left_refuted : exists (v : denv unit_prov) d1 N t,
  env_ok any_shape v /\ e_col v 1 = Some N /\ In (t, tt) N /\
  inBt (iter_recent v (DDiff d1 (DRel 1))) (t, tt).
Proof.
  exists (mkEnv (P:=unit_prov) true (fun r => if r =? 1 then Some [(v1 1, tt)] else None)
     (fun r => mkRel (P:=unit_prov) [] [(t2 1 1, tt); (t2 1 2, tt)] [] [])).
  exists (DSorted (DProject (DRel 0) (fun t => tnth t 0))), [(v1 1, tt)], (v1 1).
  split; [|split; [reflexivity|split; [left; reflexivity|]]].
  - apply env_any.
    + intros r c H. simpl in H. destruct (r =? 1); [|discriminate]. injection H as <-. repeat constructor.
    + intros r. simpl. split; repeat constructor.
  - exists (false, [(v1 1, tt)]). vm_compute. tauto.
Qed.
Print Assumptions C15_repeated_left_refuted.
