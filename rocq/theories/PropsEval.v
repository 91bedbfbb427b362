(** Property theorems C04 - C09: lookup, scheduling, operators, evaluation. *)
From Coq Require Import List Arith Bool ZArith Lia Sorting.Sorted.
From Verif Require Import Order Value Prov ListAux SortedCol GallopFacts SortedColFacts ProvInst
  PropsCollections Schedulers Relation View SchedFacts Dataflow OpFacts Denote DataflowFacts DenFacts
  Iteration IterationFacts Views SchedLinear.
Import ListNotations.
Set Implicit Arguments.

(** * C04: lookup *)
Theorem C04_find : forall (P : Prov) (k : tuple) (l : list (elem P)), wsorted l ->
  find_batch k l = filter (fun e => match tnth (fst e) 0 with Some k' => teqb k' k | None => false end) l.
Proof. intros. rewrite find_batch_spec; auto. Qed.
Print Assumptions C04_find.
(** In terms of members. *)
Theorem C04_find_members : forall (P : Prov) (k : tuple) (l : list (elem P)) e, wsorted l ->
  (In e (find_batch k l) <-> In e l /\ tnth (fst e) 0 = Some k).
Proof.
  intros P k l e W. rewrite C04_find, filter_In by auto. destruct (tnth (fst e) 0) as [k'|].
  - rewrite teqb_true. split; intros [A B]; split; auto; congruence.
  - split; intros [A B]; discriminate.
Qed.
Print Assumptions C04_find_members.
Definition t2 (a b : Z) : tuple := TTup [TVal (I32 a); TVal (I32 b)].
Definition v1 (a : Z) : tuple := TVal (I32 a).
Example C04_example : let l := map (fun t => (t, 1)) [t2 1 5; t2 2 3; t2 2 8; t2 4 0] in
  wsorted (P:=nat_prov) l /\ find_batch (P:=nat_prov) (v1 2) l = [(t2 2 3, 1); (t2 2 8, 1)].
Proof.
  split; [|vm_compute; reflexivity].
  repeat constructor; unfold ele; vm_compute; discriminate.
Qed.
(** Sortedness is needed: on an unsorted list the search stops early. *)
Example C04_needs_sorted : find_batch (P:=unit_prov) (v1 2) [(t2 4 0, tt); (t2 2 8, tt)] = [].
Proof. vm_compute. reflexivity. Qed.

(** * C05: one scheduling round *)
Theorem C05_no_tuple_lost : forall (P : Prov) (s : scheduler) (r r' : relation P) c,
  changed s r = (r', c) ->
  forall t, (exists g, rel_all r (t, g)) <-> (exists g, rel_all r' (t, g)).
Proof.
  intros P s r r' c E t. split; intros (g & H).
  - pose proof (@changed_back P (set_view P) (@set_view_dom P) _ _ _ _ E _ H) as C.
    apply set_view_cov in C. auto.
  - pose proof (@changed_sound P (set_view P) _ _ _ _ E _ H) as C. apply set_view_cov in C. auto.
Qed.
Print Assumptions C05_no_tuple_lost.
(** After the round nothing is pending, and the answer says whether there are
    fresh tuples. *)
Theorem C05_round_shape : forall (P : Prov) (s : scheduler) (r r' : relation P) c,
  changed s r = (r', c) -> to_add r' = [] /\ (c = false <-> recent r' = []).
Proof. intros. eapply changed_flag; eauto. Qed.
Print Assumptions C05_round_shape.
(** Batches stay strictly sorted. *)
Theorem C05_round_sorted : forall (P : Prov) (s : scheduler) (r r' : relation P) c,
  changed s r = (r', c) -> rel_sorted r -> rel_sorted r'.
Proof. intros. eapply changed_sorted; eauto. Qed.
Print Assumptions C05_round_sorted.
Section C05Example.
  Let e (z : Z) : elem unit_prov := (tz z, tt).
  Let r0 : relation unit_prov :=
    mkRel [[e 1; e 4]] [e 2] [[e 4; e 7]; [e 2; e 3; e 9]] [e 8; e 1].
  Example C05_example :
    changed LFP r0 = (mkRel [[e 1; e 2; e 4]] [e 3; e 7; e 9] [] [e 8; e 1], true) /\
    changed DFS r0 = (mkRel [[e 1; e 2; e 4]] [e 3] [] [e 8; e 1; e 7; e 9], true) /\
    changed (Beam 2) r0 = (mkRel [[e 1; e 2; e 4]] [e 3; e 7] [] [e 8; e 1; e 9], true) /\
    changed AStar r0 = (mkRel [[e 1; e 2; e 4]] [e 8] [] [e 9; e 7; e 3], true).
  Proof. vm_compute. auto. Qed.
End C05Example.

(** * C06: what counts as fresh *)
(** Under the conditions that hold when no stable batch of two or more elements is
    much smaller than the pending one (lfp.rs 18 picks the linear search), a round
    acts on every tuple independently:
    - established and not pending: stays established with its tag;
    - pending and not established: becomes fresh with the pending tag;
    - both, saturated: stays established with the combined tag, not fresh;
    - both, not saturated: leaves the established batches, fresh with the
      combined tag. *)
Theorem C06_lfp_round_partial : forall (P : Prov) (r r' : relation P) c, changed LFP r = (r', c) ->
  rel_sorted r -> NoDup (map fst (concat (stable r) ++ recent r)) ->
  (forall b, In b (promote r) -> length (condense (to_add r)) <= 4 * length b \/ length b <= 1) ->
  let old t g := rel_vis r (t, g) in
  let pend t x := In (t, x) (condense (to_add r)) in
  (forall t g', inB (stable r') (t, g') <-> exists g, old t g /\
      (((forall x, ~ pend t x) /\ g' = g) \/
       (exists x, pend t x /\ psat P g (padd P g x) = true /\ g' = padd P g x))) /\
  (forall t n, In (t, n) (recent r') <-> exists x, pend t x /\
      (((forall g, ~ old t g) /\ n = x) \/
       (exists g, old t g /\ psat P g (padd P g x) = false /\ n = padd P g x))) /\
  NoDup (map fst (concat (stable r') ++ recent r')).
Proof. intros P r r' c E RS ND LN. exact (lfp_round E RS ND LN). Qed.
Print Assumptions C06_lfp_round_partial.
(** A fresh tuple is not established. *)
Corollary C06_fresh_not_established_partial : forall (P : Prov) (r r' : relation P) c, changed LFP r = (r', c) ->
  rel_sorted r -> NoDup (map fst (concat (stable r) ++ recent r)) ->
  (forall b, In b (promote r) -> length (condense (to_add r)) <= 4 * length b \/ length b <= 1) ->
  forall t n g, In (t, n) (recent r') -> ~ inB (stable r') (t, g).
Proof.
  intros P r r' c E RS ND LN t n g I J. destruct (C06_lfp_round_partial E RS ND LN) as (_ & _ & N).
  rewrite map_app in N. apply inB_concat in J. apply (in_map fst) in I, J.
  exact (NoDup_app_disj _ _ N _ J I).
Qed.
Print Assumptions C06_fresh_not_established_partial.
Example C06_example :
  let r := mkRel (P:=nat_prov) [[(tz 1, 3); (tz 4, 2)]] [] [[(tz 1, 3); (tz 5, 1)]] [] in
  let rb := mkRel (P:=trop_prov) [[(tz 1, Some 3); (tz 4, Some 2)]] [] [[(tz 1, Some 1); (tz 4, Some 7); (tz 5, Some 1)]] [] in
  rel_sorted rb /\ NoDup (map fst (concat (stable rb) ++ recent rb)) /\
  (forall b, In b (promote rb) -> length (condense (to_add rb)) <= 4 * length b \/ length b <= 1) /\
  fst (changed LFP rb) = mkRel (P:=trop_prov) [[(tz 4, Some 2)]] [(tz 1, Some 1); (tz 5, Some 1)] [] [] /\
  fst (changed LFP r) = mkRel (P:=nat_prov) [[(tz 1, 6); (tz 4, 2)]] [(tz 5, 1)] [] [].
Proof.
  cbv zeta. split; [|split; [|split; [|split]]].
  - repeat split; repeat constructor; try discriminate.
  - repeat constructor; simpl; intuition discriminate.
  - intros b [<-|[]]. vm_compute. lia.
  - vm_compute. reflexivity.
  - vm_compute. reflexivity.
Qed.
(** With a much longer pending batch lfp.rs 19-24 gallops with the wrong starting
    point (C03) and the claim fails: tuple 5 is established and pending, its tag is
    saturated, and yet it is fresh again while staying established. *)
Theorem C06_galloping_refuted : exists (r r' : relation unit_prov) c t,
  changed LFP r = (r', c) /\ rel_sorted r /\ NoDup (map fst (concat (stable r) ++ recent r)) /\
  rel_vis r (t, tt) /\ psat unit_prov tt tt = true /\
  In (t, tt) (recent r') /\ inB (stable r') (t, tt).
Proof.
  set (e := fun z : Z => (tz z, tt) : elem unit_prov).
  set (r := mkRel (P:=unit_prov) [[e 3; e 5]%Z] [] [map e [1; 5; 6; 7; 8; 9; 10; 11; 12]%Z] []).
  destruct (changed LFP r) as [r' c] eqn:E. exists r, r', c, (tz 5).
  vm_compute in E. injection E as <- <-.
  split; [vm_compute; reflexivity|]. split; [repeat split; repeat constructor; try discriminate|].
  split; [repeat constructor; simpl; intuition discriminate|].
  split; [left; exists [e 3; e 5]%Z; simpl; auto|]. split; [reflexivity|].
  split; [simpl; auto|]. exists [e 3; e 5]%Z. simpl; auto.
Qed.
Print Assumptions C06_galloping_refuted.

(** * C07: operators *)
(** [wf _ true d] covers projection, selection, lookup, union, product, join,
    intersection, foreign predicates, sorting and constants, in any nesting in
    which sorted inputs are supplied where the merge loops expect them.  [den] is
    the plain relational meaning.  The relations' established and fresh tuples
    are [Stb]/[Vis]. *)
Theorem C07_operator_meaning : forall (P : Prov) (v : denv P) (Sh : nat -> tuple -> Prop) (d : dflow P), env_ok Sh v -> wf (e_col v) Sh true d ->
  forall e, inBt (iter_stable v d) e \/ inBt (iter_recent v d) e <-> den (e_col v) true (Vis v) d e.
Proof.
  intros P v Sh d EO W e. split.
  - intros H. eapply den_sound; eauto.
  - intros H. apply (den_split EO d W) in H; tauto.
Qed.
Print Assumptions C07_operator_meaning.
(** Every result not obtainable from established tuples alone is fresh; and what is
    reported as established is obtainable from established tuples alone.  In the
    first iteration completed collections count as fresh. *)
Theorem C07_fresh_covers : forall (P : Prov) (v : denv P) (Sh : nat -> tuple -> Prop) (d : dflow P), env_ok Sh v -> wf (e_col v) Sh true d ->
  forall e, den (e_col v) true (Vis v) d e ->
  ~ den (e_col v) (negb (e_first v)) (Stb v) d e -> inBt (iter_recent v d) e.
Proof. intros P v Sh d EO W e D N. destruct (nested_split EO d W e D); tauto. Qed.
Print Assumptions C07_fresh_covers.
Theorem C07_stable_old : forall (P : Prov) (v : denv P) (Sh : nat -> tuple -> Prop) (d : dflow P), env_ok Sh v -> wf (e_col v) Sh true d ->
  forall e, inBt (iter_stable v d) e -> den (e_col v) (negb (e_first v)) (Stb v) d e.
Proof. intros. eapply stable_den; eauto. Qed.
Print Assumptions C07_stable_old.
Section C07Example.
  Let e (a b : Z) : elem nat_prov := (t2 a b, 1%nat).
  Let v : denv nat_prov := mkEnv false (fun _ => None)
    (fun r => match r with
              | 0 => mkRel [[e 1 2; e 3 4]] [e 1 9] [] []
              | _ => mkRel [[e 1 7]] [e 3 8] [] [] end).
  Let d : dflow nat_prov := DJoin (DRel 0) (DFilter (DRel 1) (fun _ => true)).
  Let tr (a b c : Z) : elem nat_prov := (TTup [v1 a; v1 b; v1 c], 1%nat).
  Example C07_example : env_ok any_shape v /\ wf (e_col v) any_shape true d /\
    concat (map snd (iter_stable v d)) = [tr 1 2 7] /\
    concat (map snd (iter_recent v d)) = [tr 3 4 8; tr 1 9 7].
  Proof.
    split; [|split; [|split]].
    - apply env_any; [intros; discriminate|]. intros [|r]; simpl; split; repeat constructor.
    - simpl. auto.
    - vm_compute. reflexivity.
    - vm_compute. reflexivity.
  Qed.
End C07Example.
(** Difference has no established results (difference.rs 20-28 is the default, empty
    [iter_stable]); below a product this loses results.  Here [d = (A - B) x C] with
    [A], [B] completed and a tuple that becomes fresh in [C] in the second
    iteration. *)
Theorem C07_nested_difference_refuted : exists (v : denv unit_prov) (d : dflow unit_prov) e,
  env_ok any_shape v /\ den (e_col v) true (Vis v) d e /\
  ~ den (e_col v) (negb (e_first v)) (Stb v) d e /\ ~ inBt (iter_recent v d) e.
Proof.
  set (x := fun z : Z => (tz z, tt) : elem unit_prov).
  set (v := mkEnv (P:=unit_prov) false (fun r => match r with 0 => Some [x 1%Z] | 1 => Some [x 2%Z] | _ => None end)
              (fun r => mkRel [] [x 3%Z] [] [])).
  exists v, (DProd (DDiff (DRel 0) (DRel 1)) (DRel 2)), (TTup [tz 1; tz 3], tt).
  split; [|split; [|split]].
  - apply env_any; [|intros r; simpl; split; repeat constructor]. intros r c H. simpl in H.
    destruct r as [|[|r]]; try discriminate; injection H as <-; repeat constructor.
  - simpl. exists (tz 1), (tz 3), tt, tt. repeat split; auto.
    + left. split; [split; [auto|left; reflexivity]|]. intros g [_ [H|[]]]. discriminate.
    + right; left; reflexivity.
  - simpl. intros (a & b & g & h & _ & (c & [] & _) & _).
  - intros (b & I & J). vm_compute in I. destruct I.
Qed.
Print Assumptions C07_nested_difference_refuted.
(** Intersection of a batch with repeated tuples (an unsorted-then-[Sorted]
    projection) skips tag combinations. *)
Theorem C07_intersection_repeated_refuted : exists (v : denv nat_prov) (d : dflow nat_prov) e,
  env_ok any_shape v /\ den (e_col v) true (Vis v) d e /\
  ~ inBt (iter_stable v d) e /\ ~ inBt (iter_recent v d) e.
Proof.
  set (v := mkEnv (P:=nat_prov) false (fun _ => None)
    (fun r => match r with 0 => mkRel (P:=nat_prov) [] [(t2 1 1, 2); (t2 1 2, 3)] [] []
              | _ => mkRel (P:=nat_prov) [] [(v1 1, 5)] [] [] end)).
  exists v, (DInter (DSorted (DProject (DRel 0) (fun t => tnth t 0))) (DRel 1)), (v1 1, 15).
  split; [|split; [|split]].
  - apply env_any; [intros; discriminate|]. intros [|r]; simpl; split; repeat constructor.
  - simpl. exists 3, 5. repeat split; auto.
    + exists (t2 1 2). split; auto. right. simpl; auto.
    + right. simpl; auto.
  - intros (b & I & J). vm_compute in I. destruct I.
  - intros (b & I & J). vm_compute in I. destruct I as [<-|[]]. vm_compute in J.
    destruct J as [J|[]]. discriminate.
Qed.
Print Assumptions C07_intersection_repeated_refuted.

(** * C08: soundness *)
(** A run: the loop started on the given facts stopped in state [st]. *)
Definition run (P : Prov) (it : iteration P) (facts : nat -> list (list (elem P))) (fuel : nat)
  (st : nat -> relation P) (n : nat) (why : verdict) : Prop :=
  loop it fuel (init_state it facts) 0 = Some (st, n, why).
(** The tagged facts given for relation [r]. *)
Definition given (P : Prov) (facts : nat -> list (list (elem P))) (r : nat) (e : elem P) : Prop :=
  exists b, In b (facts r) /\ In e b.
(** What a program may contain for the tuple-level theorems. *)
Definition set_prog (P : Prov) (it : iteration P) (facts : nat -> list (list (elem P))) : Prop :=
  prog_ok it facts (set_view P).

Theorem C08_sound : forall (P : Prov) (it : iteration P) facts fuel st n why r out,
  set_prog it facts -> run it facts fuel st n why -> output st r = Some out ->
  forall t, (exists g, In (t, g) out) ->
  exists g, derivable (i_cols it) (i_updates it) (given facts) r (t, g).
Proof.
  intros P it facts fuel st n why r out (Sh & OK) R O t (g & I).
  assert (IS : inv_s it facts (set_view P) Sh st).
  { eapply loop_sound; [exact OK|exact R|]. apply init_inv_s; auto. }
  assert (C : covL (set_view P) (derivable (i_cols it) (i_updates it) (given facts) r) out).
  { apply (@complete_cov P (set_view P) _ _ _ O). intros e J. apply (is_sound IS).
    left. exact J. }
  apply C in I. apply set_view_cov in I. auto.
Qed.
Print Assumptions C08_sound.
(** The intermediate states are sound too: anything held by a relation, in whatever
    role, when the loop stops. *)
Theorem C08_sound_states : forall (P : Prov) (it : iteration P) facts fuel st n why r,
  set_prog it facts -> run it facts fuel st n why ->
  forall t g, rel_all (st r) (t, g) ->
  exists g', derivable (i_cols it) (i_updates it) (given facts) r (t, g').
Proof.
  intros P it facts fuel st n why r (Sh & OK) R t g I.
  assert (IS : inv_s it facts (set_view P) Sh st).
  { eapply loop_sound; [exact OK|exact R|]. apply init_inv_s; auto. }
  apply (is_sound IS) in I. apply set_view_cov in I. auto.
Qed.
Print Assumptions C08_sound_states.

(** * C09: completeness *)
Theorem C09_complete : forall (P : Prov) (it : iteration P) facts fuel st n r out,
  set_prog it facts -> (forall q, In q (i_rels it) -> i_sched it q <> Beam 0) ->
  (i_early it = true -> forall g, pdiscard P g = false) ->
  run it facts fuel st n StopQuiet -> output st r = Some out ->
  ssorted out /\
  forall t, (exists g, In (t, g) out) <->
            (exists g, derivable (i_cols it) (i_updates it) (given facts) r (t, g)).
Proof.
  intros P it facts fuel st n r out OK0 NB ND R O. assert (OK1 := OK0). destruct OK1 as (Sh & OK).
  assert (DISC : i_early it = true -> discard_sound (set_view P)).
  { intros E t D. rewrite ND in D by auto. discriminate. }
  assert (IS0 := init_inv_s OK). assert (IC0 := init_inv_c OK DISC).
  assert (IS : inv_s it facts (set_view P) Sh st) by (eapply loop_sound; eauto).
  split.
  { eapply complete_ssorted; eauto. apply (is_sorted IS r). }
  intros t. split; [eapply C08_sound; eauto|]. intros (g & D).
  destruct (loop_complete OK (@set_view_sat P) (@set_view_dom P) DISC NB _ R IS0 IC0) as [_ C].
  apply C in D. apply set_view_cov in D as (g' & D). simpl in D.
  assert (X : covL (set_view P) (fun e => In e out) out) by (intros e I; apply covE_in; auto).
  apply (@complete_cov P (set_view P) _ _ _ O) in X. apply X in D. apply set_view_cov in D. auto.
Qed.
Print Assumptions C09_complete.
(** The derivable tuples are the least set containing the given facts and closed
    under the rules. *)
Theorem C09_least : forall (P : Prov) (it : iteration P) facts,
  set_prog it facts ->
  let D := derivable (i_cols it) (i_updates it) (given facts) in
  closed (i_cols it) (i_updates it) (given facts) D /\
  forall I, closed (i_cols it) (i_updates it) (given facts) I -> forall r e, D r e -> I r e.
Proof.
  intros P it facts (Sh & OK) D. split.
  - exact (derivable_closed _ _ (given facts) _ (ok_wf OK)).
  - intros I C r e. apply derivable_least with (1 := ok_wf OK); auto.
Qed.
Print Assumptions C09_least.
(** When the loop stops by itself, an output can be produced for every relation. *)
Theorem C09_output : forall (P : Prov) (it : iteration P) facts fuel st n r,
  set_prog it facts -> (forall q, In q (i_rels it) -> i_sched it q <> Beam 0) ->
  (i_early it = true -> forall g, pdiscard P g = false) ->
  run it facts fuel st n StopQuiet -> exists out, output st r = Some out.
Proof.
  intros P it facts fuel st n r (Sh & OK) NB ND R.
  assert (DISC : i_early it = true -> discard_sound (set_view P)).
  { intros E t D. rewrite ND in D by auto. discriminate. }
  assert (IS0 := init_inv_s OK). assert (IC0 := init_inv_c OK DISC).
  destruct (loop_complete OK (@set_view_sat P) (@set_view_dom P) DISC NB _ R IS0 IC0) as [C _].
  destruct (C r) as (A & B & _). unfold output, complete. rewrite A, B. eauto.
Qed.
Print Assumptions C09_output.
