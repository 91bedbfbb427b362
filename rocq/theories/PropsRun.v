(** Property theorems C10 - C15, and example programs for C08 - C15. *)
From Coq Require Import List Arith Bool ZArith QArith Qcanon Lia Sorting.Sorted.
From Verif Require Import Order Value Prov ListAux SortedCol GallopFacts SortedColFacts ProvInst
  PropsCollections Schedulers Relation View SchedFacts Dataflow OpFacts Denote DataflowFacts DenFacts
  Iteration IterationFacts Views SchedLinear PropsEval.
Import ListNotations.
Set Implicit Arguments.
Local Open Scope nat_scope.

(** * Example: transitive closure, minus a completed relation of blocked pairs.
    Relations: 0 edge(x,y), 1 path(x,y), 2 path reversed (y,x), 3 the completed
    relation blocked(x,y), 4 open(x,y) :- path(x,y), not blocked(x,y). *)
Definition swap2 (t : tuple) : option tuple :=
  match tnth t 0, tnth t 1 with Some a, Some b => Some (TTup [b; a]) | _, _ => None end.
Definition pick12 (t : tuple) : option tuple :=
  match tnth t 1, tnth t 2 with Some a, Some b => Some (TTup [a; b]) | _, _ => None end.
Definition tc_rules (P : Prov) : list (nat * dflow P) :=
  [ (1, DRel 0);
    (2, DProject (DRel 1) swap2);
    (1, DProject (DJoin (DRel 2) (DRel 0)) pick12);
    (4, DDiff (DRel 1) (DRel 3)) ].
Definition tc (P : Prov) (blocked : list (elem P)) (s : scheduler) (early : bool)
  (limit : option nat) (goals : list nat) : iteration P :=
  mkIter [0; 1; 2; 4] (fun r => if r =? 3 then Some blocked else None) (tc_rules P) (fun _ => s)
    [1; 4] goals early limit (match goals with [] => false | _ => true end).

Lemma tc_ok : forall (P : Prov) (V : view P) blocked s early limit goals facts,
  ssorted blocked -> minus_ok V -> (forall r, facts r <> [] -> In r [0; 1; 2; 4]) ->
  prog_ok (tc blocked s early limit goals) facts V.
Proof.
  intros P V blocked s early limit goals facts S M F. exists any_shape. split; simpl; auto; try (intros; exact Logic.I).
  - intros r c H. destruct (r =? 3); [|discriminate]. congruence.
  - intros r d H. repeat (destruct H as [H|H]; [injection H as <- <-; auto|]). destruct H.
  - intros r d H. repeat (destruct H as [H|H]; [injection H as <- <-; simpl; auto|]); [|destruct H].
    repeat split; auto. discriminate.
  - intros r d H. repeat (destruct H as [H|H]; [injection H as <- <-; simpl; auto|]); [|destruct H].
    repeat split; auto. discriminate.
Qed.

(** Tuple-level condition on the negation of a provenance: whether [minus] is
    defined depends on the right tag only. *)
Lemma set_minus_ok : forall P : Prov,
  (forall b, (forall a, pminus P a b = None) \/ (forall a, exists g, pminus P a b = Some g)) ->
  minus_ok (set_view P).
Proof.
  intros P H b. destruct (H b) as [N|N]; auto. right. exists true. intros a. destruct (N a) as (g & G).
  exists g. simpl. auto.
Qed.
Lemma default_minus_ok : forall (A : Type) (mul : A -> A -> A) (neg : A -> option A) b,
  (forall a, default_minus mul neg a b = None) \/ (forall a, exists g, default_minus mul neg a b = Some g).
Proof. intros. unfold default_minus. destruct (neg b); simpl; [right; eauto|left; auto]. Qed.
Lemma unit_minus_ok : minus_ok (set_view unit_prov).
Proof. apply set_minus_ok. intros b. apply default_minus_ok. Qed.

Definition edges (P : Prov) (l : list (Z * Z * ptag P)) (split : nat) : nat -> list (list (elem P)) :=
  fun r => if r =? 0 then
    let es := map (fun x => (t2 (fst (fst x)) (snd (fst x)), snd x)) l in [firstn split es; skipn split es]
  else [].
Lemma edges_rels : forall P l k r, @edges P l k r <> [] -> In r [0; 1; 2; 4].
Proof. intros P l k r. unfold edges. destruct (r =? 0) eqn:E; [apply Nat.eqb_eq in E; simpl; auto|]. congruence. Qed.

Definition get_out (P : Prov) (x : option ((nat -> relation P) * nat * verdict)) (r : nat) :=
  match x with Some (st, n, v) => Some (output st r, n, v) | None => None end.
Definition uedges : list (Z * Z * unit) := [(0, 1, tt); (1, 2, tt); (2, 0, tt); (2, 3, tt)]%Z.
Definition ublock : list (elem unit_prov) := [(t2 0 0, tt); (t2 1 1, tt); (t2 3 3, tt)].
Definition utc s limit goals := tc ublock s true limit goals.

(** C08 and C09 apply, and the computed result is the closure: 12 pairs, 10 not
    blocked. *)
Example C09_example :
  set_prog (utc LFP None []) (edges unit_prov uedges 2) /\
  get_out (loop (utc LFP None []) 20 (init_state (utc LFP None []) (edges unit_prov uedges 2)) 0) 1
  = Some (Some (map (fun x => (t2 (fst x) (snd x), tt))
      [(0,0);(0,1);(0,2);(0,3);(1,0);(1,1);(1,2);(1,3);(2,0);(2,1);(2,2);(2,3)]%Z), 7, StopQuiet) /\
  get_out (loop (utc LFP None []) 20 (init_state (utc LFP None []) (edges unit_prov uedges 2)) 0) 4
  = Some (Some (map (fun x => (t2 (fst x) (snd x), tt))
      [(0,1);(0,2);(0,3);(1,0);(1,2);(1,3);(2,0);(2,1);(2,2);(2,3)]%Z), 7, StopQuiet).
Proof.
  split; [|split].
  - apply tc_ok; [repeat constructor|apply unit_minus_ok|apply edges_rels].
  - vm_compute. reflexivity.
  - vm_compute. reflexivity.
Qed.
(** Early discarding drops tuples: with Boolean tags and a fact tagged false the
    derivable tuple is absent.  This is why C09 excludes discarding provenances
    and C11 speaks about tags. *)
Example C09_discarding :
  get_out (loop (tc (P:=bool_prov) [] LFP true None []) 20
    (init_state (tc (P:=bool_prov) [] LFP true None []) (edges bool_prov [(0, 1, false); (1, 2, true)]%Z 1)) 0) 1
  = Some (Some [(t2 1 2, true)], 3, StopQuiet).
Proof. vm_compute. reflexivity. Qed.

(** * C10: schedulers, batches, rule order *)
Lemma den_ext : forall (P : Prov) (c1 c2 : nat -> option (list (elem P))) d st I e,
  (forall r, c1 r = c2 r) -> den c1 st I d e -> den c2 st I d e.
Proof.
  intros P c1 c2 d st I e E.
  assert (X : forall st e, den c1 st I d e <-> den c2 st I d e); [|apply X].
  clear st e. induction d; cbn [den]; intros st e; try tauto.
  - rewrite E. tauto.
  - split; intros [(g & H) Q]; split; auto; exists g; apply IHd; auto.
  - rewrite IHd; tauto.
  - split; intros (t & H & Q); exists t; split; auto; apply IHd; auto.
  - rewrite IHd; tauto.
  - apply IHd.
  - split; intros (a & b & A & B & Q); exists a, b; (split; [apply IHd1; auto|split; [apply IHd2; auto|auto]]).
  - split; intros (x1 & x2 & a & b & k & x & y & A & B & Q); exists x1, x2, a, b, k, x, y;
      (split; [apply IHd1; auto|split; [apply IHd2; auto|auto]]).
  - split; intros (x1 & x2 & a & b & A & B & Q); exists x1, x2, a, b;
      (split; [apply IHd1; auto|split; [apply IHd2; auto|auto]]).
  - rewrite IHd1, IHd2; tauto.
  - split; (intros [[A B]|(a & b & A & B & M)]; [left|right]).
    1,3: split; [apply IHd1; auto|intros g G; apply (B g), IHd2; auto].
    all: exists a, b; (split; [apply IHd1; auto|split; [apply IHd2; auto|auto]]).
  - split; (intros [[A B]|(k & a & b & K & A & B & M)]; [left|right]).
    1,3: split; [apply IHd1; auto|intros k g K G; apply (B k g); auto; apply IHd2; auto].
    all: exists k, a, b; (split; [auto|split; [apply IHd1; auto|split; [apply IHd2; auto|auto]]]).
  - split; intros (t & a & k & x & y & g & A & Q); exists t, a, k, x, y, g; (split; [apply IHd; auto|auto]).
  - split; intros (a & g & A & Q); exists a, g; (split; [apply IHd; auto|auto]).
  - split; intros (t & a & u & g & A & Q); exists t, a, u, g; (split; [apply IHd; auto|auto]).
Qed.

Theorem C10_same_answers : forall (P : Prov) (it1 it2 : iteration P) facts1 facts2 fuel1 fuel2 st1 st2 n1 n2 r out1 out2,
  (* same completed collections, same rules (in any order), same facts (in any batches) *)
  (forall q, i_cols it1 q = i_cols it2 q) ->
  (forall u, In u (i_updates it1) <-> In u (i_updates it2)) ->
  (forall q e, given facts1 q e <-> given facts2 q e) ->
  set_prog it1 facts1 -> set_prog it2 facts2 ->
  (forall q, In q (i_rels it1) -> i_sched it1 q <> Beam 0) ->
  (forall q, In q (i_rels it2) -> i_sched it2 q <> Beam 0) ->
  (i_early it1 = true -> forall g, pdiscard P g = false) ->
  (i_early it2 = true -> forall g, pdiscard P g = false) ->
  run it1 facts1 fuel1 st1 n1 StopQuiet -> run it2 facts2 fuel2 st2 n2 StopQuiet ->
  output st1 r = Some out1 -> output st2 r = Some out2 ->
  map fst out1 = map fst out2.
Proof.
  assert (X : forall (P : Prov) (it1 it2 : iteration P) facts1 facts2 r e,
    (forall q, i_cols it1 q = i_cols it2 q) ->
    (forall u, In u (i_updates it1) <-> In u (i_updates it2)) ->
    (forall q e, given facts1 q e <-> given facts2 q e) ->
    set_prog it1 facts1 -> set_prog it2 facts2 ->
    derivable (i_cols it1) (i_updates it1) (given facts1) r e ->
    derivable (i_cols it2) (i_updates it2) (given facts2) r e).
  { intros P it1 it2 facts1 facts2 r e C U F O1 O2 D. destruct (C09_least O1) as [_ L].
    destruct (C09_least O2) as [[C2 C3] _]. eapply L; [|exact D]. split.
    - intros q x G. apply C2, F; auto.
    - intros q d x I G. eapply C3; [apply U; exact I|]. eapply den_ext; [|exact G]. auto. }
  intros P it1 it2 facts1 facts2 fuel1 fuel2 st1 st2 n1 n2 r out1 out2 C U F O1 O2 B1 B2 D1 D2 R1 R2 E1 E2.
  destruct (@C09_complete P it1 facts1 fuel1 st1 n1 r out1 O1 B1 D1 R1 E1) as [S1 A1].
  destruct (@C09_complete P it2 facts2 fuel2 st2 n2 r out2 O2 B2 D2 R2 E2) as [S2 A2].
  assert (EQ : forall t, In t (map fst out1) <-> In t (map fst out2)).
  { intros t. assert (Y : forall l : list (elem P), In t (map fst l) <-> exists g, In (t, g) l).
    { intros l. rewrite in_map_iff. split; [intros ([t' g] & <- & I); eauto|intros (g & I); exists (t, g); auto]. }
    rewrite !Y, A1, A2. split; intros (g & G); exists g.
    - eapply (X P it1 it2); eauto.
    - eapply (X P it2 it1); eauto; intros; symmetry; auto. }
  clear - S1 S2 EQ. rewrite ssorted_fst in S1, S2. revert S1 S2 EQ.
  generalize (map fst out1) (map fst out2). clear. intros l m S. revert m.
  induction S as [|a l S IH Fa]; intros m S2 EQ.
  - destruct m as [|b m]; auto. destruct (proj2 (EQ b)); simpl; auto.
  - destruct S2 as [|b m S2 Fb].
    + destruct (proj1 (EQ a)); simpl; auto.
    + rewrite Forall_forall in Fa, Fb.
      assert (a = b) as <-.
      { destruct (proj1 (EQ a)) as [<-|I]; simpl; auto. destruct (proj2 (EQ b)) as [<-|J]; simpl; auto.
        exfalso. apply Fb in I. apply Fa in J. apply (to_lt_irrefl tcmp_TOrder a).
        eapply (to_trans tcmp_TOrder); eauto. }
      f_equal. apply IH; auto. intros t. split; intros I.
      * destruct (proj1 (EQ t)) as [<-|J]; simpl; auto. exfalso. apply (to_lt_irrefl tcmp_TOrder a). apply Fa; auto.
      * destruct (proj2 (EQ t)) as [<-|J]; simpl; auto. exfalso. apply (to_lt_irrefl tcmp_TOrder a). apply Fb; auto.
Qed.
Print Assumptions C10_same_answers.

Example C10_example :
  let f1 := edges unit_prov uedges 2 in let f2 := edges unit_prov (rev uedges) 3 in
  (forall q e, given f1 q e <-> given f2 q e) /\
  set_prog (utc LFP None []) f1 /\ set_prog (utc (Beam 1) None []) f2 /\
  (exists st n, run (utc LFP None []) f1 30 st n StopQuiet) /\
  (exists st n, run (utc DFS None []) f2 60 st n StopQuiet) /\
  (exists st n, run (utc AStar None []) f2 60 st n StopQuiet) /\
  (exists st n, run (utc (Beam 1) None []) f2 60 st n StopQuiet).
Proof.
  assert (OK : forall s l k, set_prog (utc s None []) (edges unit_prov l k)).
  { intros. apply tc_ok; [repeat constructor|apply unit_minus_ok|apply edges_rels]. }
  assert (R : forall s f k st n v, loop (utc s None []) k (init_state (utc s None []) f) 0 = Some (st, n, v) ->
     v = StopQuiet -> exists st n, run (utc s None []) f k st n StopQuiet).
  { intros s f k st n v H ->. exists st, n. exact H. }
  cbv zeta. split; [|split; [|split; [|split; [|split; [|split]]]]]; auto.
  - intros q e. unfold given, edges. destruct (q =? 0); [|tauto]. simpl.
    split; intros (b & [<-|[<-|[]]] & I); simpl in I.
    all: repeat (destruct I as [<-|I]; [eauto 10|]); try destruct I.
    all: try (eexists; split; [left; reflexivity|simpl; tauto]).
    all: try (eexists; split; [right; left; reflexivity|simpl; tauto]).
  - destruct (loop (utc LFP None []) 30 (init_state (utc LFP None []) (edges unit_prov uedges 2)) 0) as [[[st n] v]|] eqn:E.
    + eapply R; [exact E|]. apply (f_equal (fun x => match x with Some (_, _, w) => w | None => Continue end)) in E.
      vm_compute in E. congruence.
    + apply (f_equal (fun x => match x with Some _ => true | None => false end)) in E. vm_compute in E. discriminate.
  - destruct (loop (utc DFS None []) 60 (init_state (utc DFS None []) (edges unit_prov (rev uedges) 3)) 0) as [[[st n] v]|] eqn:E.
    + eapply R; [exact E|]. apply (f_equal (fun x => match x with Some (_, _, w) => w | None => Continue end)) in E.
      vm_compute in E. congruence.
    + apply (f_equal (fun x => match x with Some _ => true | None => false end)) in E. vm_compute in E. discriminate.
  - destruct (loop (utc AStar None []) 60 (init_state (utc AStar None []) (edges unit_prov (rev uedges) 3)) 0) as [[[st n] v]|] eqn:E.
    + eapply R; [exact E|]. apply (f_equal (fun x => match x with Some (_, _, w) => w | None => Continue end)) in E.
      vm_compute in E. congruence.
    + apply (f_equal (fun x => match x with Some _ => true | None => false end)) in E. vm_compute in E. discriminate.
  - destruct (loop (utc (Beam 1) None []) 60 (init_state (utc (Beam 1) None []) (edges unit_prov (rev uedges) 3)) 0) as [[[st n] v]|] eqn:E.
    + eapply R; [exact E|]. apply (f_equal (fun x => match x with Some (_, _, w) => w | None => Continue end)) in E.
      vm_compute in E. congruence.
    + apply (f_equal (fun x => match x with Some _ => true | None => false end)) in E. vm_compute in E. discriminate.
Qed.
(** [Beam 0] must be excluded: it schedules nothing, so the loop stops at once with
    nothing derived although facts are waiting. *)
Example C10_beam_zero :
  get_out (loop (utc (Beam 0) None []) 20 (init_state (utc (Beam 0) None []) (edges unit_prov uedges 2)) 0) 1
  = Some (Some [], 1, StopQuiet).
Proof. vm_compute. reflexivity. Qed.
