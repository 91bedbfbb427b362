(** Property theorems C86: entities created while running, and monitored runs. *)
From Coq Require Import List Arith Bool ZArith Lia Permutation.
From Verif Require Import Order Value Prov ListAux SortedCol ProvInst Schedulers Relation View SchedFacts
  Dataflow OpFacts DataflowFacts Denote DenFacts Iteration IterationFacts Back Scc SccFacts PropsStrat DynEnt.
Import ListNotations.
Set Implicit Arguments.

(** * Specification *)
(** The facts in a store, one by one. *)
Definition stored (s : ent_store) : list ent_fact :=
  flat_map (fun '(f, m) => flat_map (fun '(id, ts) => map (fun a => (f, id, a)) ts) m) s.
(** The tuple a relation should get for a fact: the entity, then its arguments. *)
Definition fact_tuple (x : ent_fact) : nat * tuple :=
  let '(f, id, args) := x in (f, TTup (TVal (VEntity id) :: map TVal args)).
Definition fact_rel (x : ent_fact) : nat := fst (fact_tuple x).
(** A relation holds a tuple, with some tag. *)
Definition holds (P : Prov) (st : state P) (r : nat) (t : tuple) : Prop := exists g, rel_all (st r) (t, g).

(** * The store *)
Lemma stored_args : forall f id args m,
  Permutation (flat_map (fun '(i, ts) => map (fun a => (f, i, a)) ts) (add_args id args m))
    ((f, id, args) :: flat_map (fun '(i, ts) => map (fun a => (f, i, a)) ts) m : list ent_fact).
Proof.
  induction m as [|[i ts] m IH]; simpl; [auto|]. destruct (Z.eqb_spec i id) as [->|N]; simpl.
  - rewrite map_app, <- app_assoc. simpl. apply Permutation_sym, Permutation_middle.
  - rewrite IH. apply Permutation_sym, Permutation_middle.
Qed.

Lemma stored_add : forall x s, Permutation (stored (add_entity_fact x s)) (x :: stored s).
Proof.
  intros [[f id] args]. induction s as [|[g m] s IH]; simpl; [auto|].
  destruct (Nat.eqb_spec g f) as [->|N]; simpl.
  - rewrite stored_args. auto.
  - change (stored ((g, m) :: s)) with (flat_map (fun '(id, ts) => map (fun a => (g, id, a)) ts) m ++ stored s).
    unfold stored in *. simpl. rewrite IH. apply Permutation_sym, Permutation_middle.
Qed.

Lemma stored_adds : forall xs s, Permutation (stored (add_entity_facts xs s)) (stored s ++ xs).
Proof.
  unfold add_entity_facts. induction xs as [|x xs IH]; simpl; intros; [rewrite app_nil_r; auto|].
  rewrite IH, stored_add. simpl. apply Permutation_middle.
Qed.

Lemma stored_functor : forall f m, Forall (fun x => fact_rel x = f)
  (flat_map (fun '(id, ts) => map (fun a => (f, id, a)) ts) m).
Proof.
  intros. apply Forall_forall. intros x I. apply in_flat_map in I as ([id ts] & _ & I).
  apply in_map_iff in I as (a & <- & _). reflexivity.
Qed.

Lemma stored_cons : forall f m s,
  stored ((f, m) :: s) = flat_map (fun '(id, ts) => map (fun a => (f, id, a)) ts) m ++ stored s.
Proof. reflexivity. Qed.

Lemma filter_all : forall A (p : A -> bool) l, Forall (fun x => p x = true) l -> filter p l = l.
Proof. induction 1; simpl; auto. rewrite H, IHForall. auto. Qed.
Lemma filter_none : forall A (p : A -> bool) l, Forall (fun x => p x = false) l -> filter p l = [].
Proof. induction 1; simpl; auto. rewrite H. auto. Qed.

Lemma stored_filter : forall keep s, stored (filter (fun x => keep (fst x)) s) = filter (fun x => keep (fact_rel x)) (stored s).
Proof.
  intros keep. induction s as [|[f m] s IH]; auto. rewrite stored_cons, filter_app.
  etransitivity; [|apply f_equal; exact IH]. cbn [filter fst].
  pose proof (stored_functor f m) as F.
  destruct (keep f) eqn:K.
  - rewrite stored_cons. f_equal. symmetry. apply filter_all. eapply Forall_impl; [|exact F]. intros ? <-; auto.
  - match goal with |- _ = ?a ++ _ => replace a with (@nil ent_fact); auto end.
    symmetry. apply filter_none. eapply Forall_impl; [|exact F]. intros ? <-; auto.
Qed.

Lemma filter_split : forall A (p : A -> bool) l, Permutation l (filter p l ++ filter (fun x => negb (p x)) l).
Proof.
  induction l; simpl; auto. destruct (p a); simpl; [constructor; auto|].
  eapply Permutation_trans; [constructor; exact IHl|]. apply Permutation_middle.
Qed.

(** What is taken out of the store, tuple by tuple. *)
Definition taken (out : list (nat * list tuple)) : list (nat * tuple) :=
  flat_map (fun '(f, ts) => map (pair f) ts) out.

Lemma ent_tuples_spec : forall f m, map (pair f) (ent_tuples m) =
  map fact_tuple (flat_map (fun '(id, ts) => map (fun a => (f, id, a)) ts) m).
Proof.
  induction m as [|[id ts] m IH]; simpl; auto. unfold ent_tuples in *. simpl.
  rewrite !map_app, IH, !map_map. reflexivity.
Qed.
Lemma taken_spec : forall s, taken (map (fun '(f, m) => (f, ent_tuples m)) s) = map fact_tuple (stored s).
Proof.
  induction s as [|[f m] s IH]; auto. rewrite stored_cons, map_app.
  etransitivity; [|apply f_equal; exact IH]. rewrite <- ent_tuples_spec. reflexivity.
Qed.

(** C86: draining hands out, for the relations asked for, one tuple per fact added
    since the last time, and keeps the facts of the other relations; so nothing is
    lost, invented or handed out twice. *)
Theorem C86_drain : forall keep s out rest, drain_entities keep s = (out, rest) ->
  taken out = map fact_tuple (filter (fun x => keep (fact_rel x)) (stored s)) /\
  stored rest = filter (fun x => negb (keep (fact_rel x))) (stored s) /\
  taken (fst (drain_entities keep rest)) = [].
Proof.
  unfold drain_entities. intros keep s out rest E. injection E as <- <-.
  rewrite taken_spec, stored_filter, (stored_filter (fun f => negb (keep f))).
  repeat split; auto. simpl. rewrite taken_spec, stored_filter, (stored_filter (fun f => negb (keep f))).
  rewrite filter_none; auto. apply Forall_forall. intros x I. apply filter_In in I as [_ I].
  apply negb_true_iff in I. auto.
Qed.
Print Assumptions C86_drain.

Theorem C86_add : forall xs s, Permutation (stored (add_entity_facts xs s)) (stored s ++ xs).
Proof. exact stored_adds. Qed.
Print Assumptions C86_add.

(** * Runs *)
Section Facts.
  Variable P : Prov.
  Variable it : iteration P.
  Variable creates : denv P -> nat * dflow P -> list ent_fact.
  Notation state := (state P).
  Notation V := (set_view P).

  Lemma holds_changed : forall st r t, holds st r t <-> holds (fst (changed_all it st)) r t.
  Proof.
    intros st r t. unfold holds. destruct (changed_all_eq it st r) as [[-> _]|[-> _]]; [|tauto].
    destruct (changed (i_sched it r) (st r)) as [r' c] eqn:E. simpl. split; intros (g & H).
    - apply (@changed_back P V (@set_view_dom P) _ _ _ _ E) in H. apply set_view_cov in H. auto.
    - apply (@changed_sound P V _ _ _ _ E) in H. apply set_view_cov in H. auto.
  Qed.

  Lemma need_state : forall st n st1 v, need_to_iterate it st n = (st1, v) ->
    st1 = fst (changed_all it st) \/ st1 = fst (changed_all it (fst (changed_all it st))).
  Proof.
    intros st n st1 v E. unfold need_to_iterate in E.
    destruct (changed_all it st) as [s1 ch] eqn:C.
    destruct (ch || (n =? 0)).
    - destruct (match i_limit it with Some k => k <? n | None => false end); [injection E as <- _; right; rewrite ?C; auto|].
      destruct (i_goalstop it && goals_reached it s1); injection E as <- _; auto.
    - destruct (i_limit it) as [k|]; [destruct (n <? k)|]; injection E as <- _; auto.
  Qed.

  Lemma holds_need : forall st n st1 v, need_to_iterate it st n = (st1, v) -> forall r t, holds st r t <-> holds st1 r t.
  Proof.
    intros st n st1 v E r t. apply need_state in E as [-> | ->].
    - apply holds_changed.
    - rewrite holds_changed. apply holds_changed.
  Qed.

  Lemma inB_prep : forall early bs t g, inB (map (@prep_batch P early) bs) (t, g) -> exists g', inB bs (t, g').
  Proof.
    intros early bs t g H. assert (C : covB V (inB (map (prep_batch early) bs)) (map (prep_batch early) bs)).
    { intros e I. apply covE_in; auto. }
    assert (D : covB V (inB bs) (map (prep_batch early) bs)).
    { apply covB_prep_sound. intros e I. apply covE_in; auto. }
    apply D in H. apply set_view_cov in H. auto.
  Qed.

  Lemma holds_update : forall n st u r t, holds st r t -> holds (do_update it n st u) r t.
  Proof.
    intros n st [tgt d] r t (g & H). unfold holds, do_update, upd. destruct (Nat.eqb_spec r tgt) as [->|]; [|eauto].
    exists g. unfold rel_all in *. simpl. destruct H as [H|[H|[H|H]]]; auto.
    right; right; left. apply inB_app; auto.
  Qed.

  Lemma holds_update_inv : forall n st tgt d r t, holds (do_update it n st (tgt, d)) r t ->
    holds st r t \/ r = tgt /\ exists g, inBt (iter_recent (env_of it n st) d) (t, g).
  Proof.
    intros n st tgt d r t (g & H). unfold do_update, upd in H. destruct (Nat.eqb_spec r tgt) as [->|]; [|left; exists g; auto].
    unfold rel_all in H. simpl in H. destruct H as [H|[H|[H|H]]]; try (left; exists g; unfold rel_all; auto; fail).
    apply inB_app in H as [H|H]; [left; exists g; unfold rel_all; auto|].
    apply inB_prep in H as (g' & H). right. split; auto. exists g'. apply inB_snd; auto.
  Qed.

  Hypothesis ONE : i_early it = true -> pdiscard P (pone P) = false.

  Lemma holds_vec : forall n st f ts t, In t ts -> holds (do_update it n st (f, DVec ts)) f t.
  Proof.
    intros n st f ts t I. unfold holds, do_update, upd. rewrite Nat.eqb_refl.
    set (l := map (fun t => (t, pone P)) ts : list (elem P)).
    change (map snd (iter_recent (env_of it n st) (DVec ts))) with [l].
    set (b := prep_batch (i_early it) l).
    assert (F : b = from_vec l).
    { unfold b, prep_batch. destruct (i_early it); auto. rewrite filter_all; auto.
      apply Forall_forall. intros e J. apply in_map_iff in J as (u & <- & _). cbn [snd]. rewrite ONE; auto. }
    assert (C : covL V (fun e => In e b) l).
    { rewrite F. apply from_vec_cov. intros e J. apply covE_in; auto. }
    specialize (C (t, pone P)). assert (J : In (t, pone P) l) by (apply in_map_iff; eauto).
    apply C in J. apply set_view_cov in J as (g & J). exists g. unfold rel_all. simpl. right; right; left.
    apply inB_app. right. exists b. split; simpl; auto.
  Qed.

  Lemma do_updates_holds : forall n us st r t, holds st r t ->
    holds (fold_left (fun st '(f, ts) => do_update it n st (f, DVec ts)) us st) r t.
  Proof. induction us as [|[f ts] us IH]; cbn [fold_left]; intros; auto. apply IH, holds_update; auto. Qed.

  Lemma taken_holds : forall n out st r t, In (r, t) (taken out) ->
    holds (fold_left (fun st '(f, ts) => do_update it n st (f, DVec ts)) out st) r t.
  Proof.
    induction out as [|[f ts] out IH]; cbn [fold_left taken flat_map]; intros st r t I; [destruct I|]. apply in_app_or in I as [I|I]; auto.
    apply in_map_iff in I as (u & E & I). injection E as <- <-. apply do_updates_holds, holds_vec; auto.
  Qed.

  Lemma taken_holds_inv : forall n out st r t,
    holds (fold_left (fun st '(f, ts) => do_update it n st (f, DVec ts)) out st) r t ->
    holds st r t \/ In (r, t) (taken out).
  Proof.
    induction out as [|[f ts] out IH]; cbn [fold_left taken flat_map]; intros st r t H; auto. apply IH in H as [H|H]; [|right; apply in_or_app; auto].
    apply holds_update_inv in H as [H|(-> & g & H)]; auto. right. apply in_or_app. left.
    simpl in H. destruct H as (b & [<-|[]] & H). simpl in H. apply in_map_iff in H as (u & E & H).
    injection E as <- _. apply in_map; auto.
  Qed.

  Definition new_facts (n : nat) (x : estate P) (us : list (nat * dflow P)) : list ent_fact :=
    skipn (length (es_log x)) (es_log (fold_left (e_update it creates n) us x)).

  Lemma e_updates_spec : forall n us x, let y := fold_left (e_update it creates n) us x in
    exists c, es_log y = es_log x ++ c /\ Permutation (stored (es_store y)) (stored (es_store x) ++ c) /\
    es_rels y = fold_left (do_update it n) us (es_rels x).
  Proof.
    induction us as [|u us IH]; cbn [fold_left]; intros x.
    - exists []. rewrite !app_nil_r. auto.
    - destruct (IH (e_update it creates n x u)) as (c & A & B & C). simpl in *.
      exists (creates (env_of it n (es_rels x)) u ++ c). rewrite A, C, !app_assoc. split; auto. split; auto.
      rewrite B, stored_adds. auto.
  Qed.

  Lemma fold_update_holds : forall n us st r t, holds st r t -> holds (fold_left (do_update it n) us st) r t.
  Proof. induction us; cbn [fold_left]; intros; auto. apply IHus, holds_update; auto. Qed.
  Lemma fold_update_holds_inv : forall n us st r t, (forall d, ~ In (r, d) us) ->
    holds (fold_left (do_update it n) us st) r t -> holds st r t.
  Proof.
    induction us as [|[f d] us IH]; cbn [fold_left]; intros st r t N H; auto.
    apply IH in H; [|intros d' J; apply (N d'); right; auto].
    apply holds_update_inv in H as [H|(-> & _)]; auto. destruct (N d); left; auto.
  Qed.

  Lemma drain_spec : forall n x, let y := drain_dynamic_entities it n x in
    exists del, es_log y = es_log x /\ Permutation (stored (es_store x)) (del ++ stored (es_store y)) /\
    Forall (fun e => In (fact_rel e) (i_rels it)) del /\
    Forall (fun e => ~ In (fact_rel e) (i_rels it)) (stored (es_store y)) /\
    Forall (fun e => holds (es_rels y) (fact_rel e) (snd (fact_tuple e))) del /\
    (forall r t, holds (es_rels x) r t -> holds (es_rels y) r t) /\
    (forall r t, holds (es_rels y) r t -> holds (es_rels x) r t \/ exists e, In e del /\ fact_tuple e = (r, t)).
  Proof.
    intros n x. unfold drain_dynamic_entities.
    destruct (drain_entities (has_dynamic_relation it) (es_store x)) as [out rest] eqn:E.
    destruct (C86_drain E) as (A & B & _). cbn [es_rels es_store es_log].
    exists (filter (fun e => has_dynamic_relation it (fact_rel e)) (stored (es_store x))).
    split; auto. split; [rewrite B; apply filter_split|]. split; [|split; [|split; [|split]]].
    - apply Forall_forall. intros e I. apply filter_In in I as [_ I]. apply existsb_rels in I; auto.
    - rewrite B. apply Forall_forall. intros e I. apply filter_In in I as [_ I]. apply negb_true_iff in I.
      intros J. apply existsb_rels in J. unfold has_dynamic_relation in I. congruence.
    - apply Forall_forall. intros e I. apply taken_holds. rewrite A. unfold fact_rel.
      rewrite <- surjective_pairing. apply in_map; auto.
    - intros r t H. apply do_updates_holds; auto.
    - intros r t H. apply taken_holds_inv in H as [H|H]; auto. right. rewrite A in H.
      apply in_map_iff in H as (e & Q & H). eauto.
  Qed.

  Definition round (n : nat) (x : estate P) (st1 : state) : estate P :=
    drain_dynamic_entities it n (e_updates it creates n (mkEst st1 (es_store x) (es_log x))).

  Lemma round_spec : forall n x st1, need_to_iterate it (es_rels x) n = (st1, Continue) -> let y := round n x st1 in
    exists c del, es_log y = es_log x ++ c /\ Permutation (stored (es_store x) ++ c) (del ++ stored (es_store y)) /\
    Forall (fun e => In (fact_rel e) (i_rels it)) del /\
    Forall (fun e => ~ In (fact_rel e) (i_rels it)) (stored (es_store y)) /\
    Forall (fun e => holds (es_rels y) (fact_rel e) (snd (fact_tuple e))) del /\
    (forall r t, holds (es_rels x) r t -> holds (es_rels y) r t) /\
    (forall r t, (forall d, ~ In (r, d) (i_updates it)) -> holds (es_rels y) r t ->
       holds (es_rels x) r t \/ exists e, In e del /\ fact_tuple e = (r, t)).
  Proof.
    intros n x st1 E. cbv zeta. unfold round, e_updates.
    destruct (e_updates_spec n (i_updates it) (mkEst st1 (es_store x) (es_log x))) as (c & A & B & C).
    cbn [es_rels es_store es_log] in A, B, C.
    set (z := fold_left (e_update it creates n) (i_updates it) (mkEst st1 (es_store x) (es_log x))) in *.
    destruct (drain_spec n z) as (del & D1 & D2 & D3 & D4 & D5 & D6 & D7). exists c, del.
    cbv zeta in *. rewrite D1, A. split; auto. split; [rewrite <- B; auto|]. repeat (split; auto).
    - intros r t H. apply D6. rewrite C. apply fold_update_holds. eapply (holds_need _ _ E); auto.
    - intros r t N H. apply D7 in H as [H|H]; auto. rewrite C in H. left.
      apply fold_update_holds_inv in H; auto. eapply (holds_need _ _ E); auto.
  Qed.

  Lemma run_spec : forall fuel x n y n' v, e_loop it creates fuel x n = Some (y, n', v) ->
    exists c del, es_log y = es_log x ++ c /\
    Permutation (stored (es_store x) ++ c) (del ++ stored (es_store y)) /\
    Forall (fun e => In (fact_rel e) (i_rels it)) del /\
    (n = n' /\ c = [] /\ del = [] \/ n < n' /\ Forall (fun e => ~ In (fact_rel e) (i_rels it)) (stored (es_store y))) /\
    Forall (fun e => holds (es_rels y) (fact_rel e) (snd (fact_tuple e))) del /\
    (forall r t, holds (es_rels x) r t -> holds (es_rels y) r t) /\
    (forall r t, (forall d, ~ In (r, d) (i_updates it)) -> holds (es_rels y) r t ->
       holds (es_rels x) r t \/ exists e, In e del /\ fact_tuple e = (r, t)).
  Proof.
    induction fuel as [|fuel IH]; cbn [e_loop]; intros x n y n' v E; [discriminate|].
    destruct (need_to_iterate it (es_rels x) n) as [st1 w] eqn:N.
    assert (DONE : forall v', Some (mkEst st1 (es_store x) (es_log x), n, v') = Some (y, n', v) -> 
      exists c del, es_log y = es_log x ++ c /\
      Permutation (stored (es_store x) ++ c) (del ++ stored (es_store y)) /\
      Forall (fun e => In (fact_rel e) (i_rels it)) del /\
      (n = n' /\ c = [] /\ del = [] \/ n < n' /\ Forall (fun e => ~ In (fact_rel e) (i_rels it)) (stored (es_store y))) /\
      Forall (fun e => holds (es_rels y) (fact_rel e) (snd (fact_tuple e))) del /\
      (forall r t, holds (es_rels x) r t -> holds (es_rels y) r t) /\
      (forall r t, (forall d, ~ In (r, d) (i_updates it)) -> holds (es_rels y) r t ->
         holds (es_rels x) r t \/ exists e, In e del /\ fact_tuple e = (r, t))).
    { intros v' Q. injection Q as <- <- <-. exists [], []. simpl. rewrite !app_nil_r.
      repeat (split; auto).
      - intros r t H. eapply (holds_need _ _ N); auto.
      - intros r t _ H. left. eapply (holds_need _ _ N); auto. }
    destruct w; try (eapply DONE; exact E). clear DONE.
    destruct (round_spec _ _ N) as (c1 & d1 & A1 & A2 & A3 & A4 & A5 & A6 & A7).
    change (e_loop it creates fuel (round n x st1) (S n) = Some (y, n', v)) in E.
    set (z := round n x st1) in *.
    destruct (IH _ _ _ _ _ E) as (c2 & d2 & B1 & B2 & B3 & B4 & B5 & B6 & B7).
    exists (c1 ++ c2), (d1 ++ d2). rewrite B1, A1, !app_assoc. split; auto. split.
    { rewrite A2, <- !app_assoc. apply Permutation_app_head. auto. }
    split; [apply Forall_app; auto|]. split.
    { right. destruct B4 as [(<- & -> & ->)|[L F]]; [|split; [lia|auto]]. split; [lia|].
      rewrite app_nil_r in B2. simpl in B2. eapply Permutation_Forall; [exact B2|auto]. }
    split; [|split].
    - apply Forall_app. split; auto. eapply Forall_impl; [|exact A5]. simpl. auto.
    - auto.
    - intros r t NT H. apply B7 in H as [H|(e & I & Q)]; auto.
      + apply A7 in H as [H|(e & I & Q)]; auto. right. exists e. split; auto. apply in_or_app; auto.
      + right. exists e. split; auto. apply in_or_app; auto.
  Qed.
End Facts.

(** C86: in a run, the facts stored before and those created during it are either
    handed to their relation, which holds them when the run ends, or belong to
    relations of other strata and stay stored; each exactly once. *)
Theorem C86_delivered : forall (P : Prov) (it : iteration P) creates fuel x n y n' v,
  (i_early it = true -> pdiscard P (pone P) = false) ->
  e_loop it creates fuel x n = Some (y, n', v) -> n < n' ->
  exists created delivered, es_log y = es_log x ++ created /\
    Permutation (stored (es_store x) ++ created) (delivered ++ stored (es_store y)) /\
    (forall e, In e delivered -> In (fact_rel e) (i_rels it) /\ holds (es_rels y) (fact_rel e) (snd (fact_tuple e))) /\
    (forall e, In e (stored (es_store y)) -> ~ In (fact_rel e) (i_rels it)).
Proof.
  intros P it creates fuel x n y n' v ONE E L.
  destruct (@run_spec _ _ creates ONE _ _ _ _ _ _ E) as (c & del & A & B & C & D & F & _). exists c, del. split; auto. split; auto.
  rewrite Forall_forall in C, F. split; [auto|].
  destruct D as [(-> & _)|[_ D]]; [lia|]. rewrite Forall_forall in D. auto.
Qed.
Print Assumptions C86_delivered.

(** C86: a relation that no rule writes holds, at the end, what it held at first
    and the tuples of entities created or stored, nothing else. *)
Theorem C86_only : forall (P : Prov) (it : iteration P) creates fuel x n y n' v r t,
  (i_early it = true -> pdiscard P (pone P) = false) ->
  e_loop it creates fuel x n = Some (y, n', v) -> (forall d, ~ In (r, d) (i_updates it)) ->
  holds (es_rels y) r t ->
  holds (es_rels x) r t \/
  exists id args, In (r, id, args) (stored (es_store x) ++ skipn (length (es_log x)) (es_log y)) /\
    t = TTup (TVal (VEntity id) :: map TVal args).
Proof.
  intros P it creates fuel x n y n' v r t ONE E N H.
  destruct (@run_spec _ _ creates ONE _ _ _ _ _ _ E) as (c & del & A & B & C & D & F & _ & G).
  apply G in H as [H|([[f id] args] & I & Q)]; auto. right. injection Q as -> <-. exists id, args. split; auto.
  rewrite A, skipn_app, skipn_all, Nat.sub_diag. simpl. eapply Permutation_in; [apply Permutation_sym; exact B|].
  apply in_or_app; auto.
Qed.
Print Assumptions C86_only.

(** C86: when the run converges, the relation's output has them. *)
Theorem C86_output : forall (P : Prov) (it : iteration P) creates fuel x n y n' r id args,
  (i_early it = true -> pdiscard P (pone P) = false) ->
  (forall r, In r (i_rels it) -> i_sched it r <> Beam 0) ->
  (forall r, i_sched it r = LFP -> waitlist (es_rels x r) = []) ->
  e_loop it creates fuel x n = Some (y, n', StopQuiet) -> n < n' -> In r (i_rels it) ->
  In (r, id, args) (stored (es_store x) ++ skipn (length (es_log x)) (es_log y)) ->
  exists out g, output (es_rels y) r = Some out /\ In (TTup (TVal (VEntity id) :: map TVal args), g) out.
Proof.
  intros P it creates fuel x n y n' r id args ONE NB L E LT R I.
  destruct (@C86_delivered _ _ creates _ _ _ _ _ _ ONE E LT) as (c & del & A & B & C & D).
  rewrite A, skipn_app, skipn_all, Nat.sub_diag in I. simpl in I.
  assert (J : In (r, id, args) del).
  { eapply Permutation_in in I; [|exact B]. apply in_app_or in I as [I|I]; auto. destruct (D _ I). exact R. }
  apply C in J as [_ H]. unfold fact_rel in H. simpl in H.
  assert (Q : recent (es_rels y r) = [] /\ to_add (es_rels y r) = [] /\ waitlist (es_rels y r) = []).
  { clear A B C D I H LT. revert x n L E. induction fuel as [|fuel IH]; cbn [e_loop]; intros x n L E; [discriminate|].
    destruct (need_to_iterate it (es_rels x) n) as [st1 w] eqn:N. destruct w; try discriminate.
    - eapply IH; [|exact E]. intros q S. apply need_continue in N. subst st1.
      unfold drain_dynamic_entities.
      destruct (drain_entities (has_dynamic_relation it)
        (es_store (e_updates it creates n (mkEst (fst (changed_all it (es_rels x))) (es_store x) (es_log x))))) as [out rest].
      cbn [es_rels].
      assert (W : forall us st, waitlist (fold_left (fun st '(f, ts) => do_update it n st (f, DVec ts)) us st q) = waitlist (st q)).
      { induction us as [|[f ts] us IHu]; cbn [fold_left]; intros; auto. rewrite IHu. unfold do_update, upd.
        destruct (Nat.eqb_spec q f) as [->|]; auto. }
      rewrite W. unfold e_updates.
      destruct (e_updates_spec it creates n (i_updates it) (mkEst (fst (changed_all it (es_rels x))) (es_store x) (es_log x))) as (c' & _ & _ & ->).
      cbn [es_rels]. destruct (do_updates_rest it n (i_updates it) (fst (changed_all it (es_rels x))) q) as (_ & _ & X & _).
      rewrite X. apply changed_all_lfp; auto.
    - injection E as <- <-. simpl. apply need_quiet in N as (-> & CH & _).
      destruct (changed_all_eq it (es_rels x) r) as [[-> _]|[_ X]]; [|tauto].
      simpl in CH. assert (C0 : snd (changed (i_sched it r) (es_rels x r)) = false).
      { destruct (snd (changed (i_sched it r) (es_rels x r))) eqn:E1; auto. exfalso.
        rewrite <- not_true_iff_false in CH. apply CH. apply existsb_exists. eauto. }
      destruct (changed (i_sched it r) (es_rels x r)) as [r' b] eqn:E1. simpl in *. subst.
      pose proof (changed_flag _ _ E1) as X. destruct X as [X1 X2]. split; [apply X2; auto|]. split; auto.
      eapply changed_quiet; [exact E1|apply NB; auto|apply L]. }
  destruct Q as (Q1 & Q2 & Q3). unfold output.
  assert (O : exists out, complete (es_rels y r) = Some out) by (unfold complete; rewrite Q1, Q2; eauto).
  destruct O as (out & O). destruct H as (g & [H|[H|[H|H]]]).
  - assert (X : covL (set_view P) (fun e => In e out) out) by (intros e J; apply covE_in; auto).
    apply (@complete_cov P (set_view P) _ _ _ O) in X. apply X in H. apply set_view_cov in H as (g' & H). eauto.
  - rewrite Q1 in H. destruct H.
  - rewrite Q2 in H. destruct H as (b & [] & _).
  - rewrite Q3 in H. destruct H.
Qed.
Print Assumptions C86_output.

(** C86: a program that creates no entities runs as if there were no store. *)
Theorem C86_plain : forall (P : Prov) (it : iteration P) creates fuel st n,
  (forall d u, In u (i_updates it) -> creates d u = []) ->
  e_loop it creates fuel (mkEst st [] []) n =
  match loop it fuel st n with Some (st', n', v) => Some (mkEst st' [] [], n', v) | None => None end.
Proof.
  intros P it creates fuel st n H. revert st n. induction fuel as [|fuel IH]; intros; cbn [e_loop loop es_rels es_store es_log]; auto.
  destruct (need_to_iterate it st n) as [st1 w]. destruct w; auto.
  rewrite <- IH. f_equal. unfold e_updates, do_updates.
  assert (X : forall us st, incl us (i_updates it) ->
    fold_left (e_update it creates n) us (mkEst st [] []) = mkEst (fold_left (do_update it n) us st) [] []).
  { induction us as [|u us IHu]; intros s I; cbn [fold_left]; auto. unfold e_update at 2. simpl.
    rewrite H by (apply I; simpl; auto). simpl. apply IHu. intros a J. apply I. simpl; auto. }
  rewrite X by apply incl_refl. reflexivity.
Qed.
Print Assumptions C86_plain.

(** C86: a monitored run sees its iterations in order and then why it stopped. *)
Theorem C86_trace : forall (P : Prov) (it : iteration P) creates fuel x n y n' v tr,
  m_loop it creates fuel x n = Some (y, n', v, tr) ->
  n <= n' /\ v <> Continue /\
  tr = map SawIteration (seq n (n' - n)) ++
    [match v with StopLimit => SawLimit | StopGoal => SawGoal | _ => SawConverging end].
Proof.
  induction fuel as [|fuel IH]; cbn [m_loop]; intros x n y n' v tr E; [discriminate|].
  destruct (need_to_iterate it (es_rels x) n) as [st1 w].
  destruct w; try (injection E as <- <- <- <-; split; [auto|split; [discriminate|rewrite Nat.sub_diag; reflexivity]]).
  destruct (m_loop it creates fuel (e_updates it creates n (mkEst st1 (es_store x) (es_log x))) (S n)) as [[[[y1 n1] v1] tr1]|] eqn:E1; [|discriminate].
  injection E as <- <- <- <-. apply IH in E1 as (A & B & C). split; [lia|]. split; auto.
  rewrite C. replace (n1 - n) with (S (n1 - S n)) by lia. reflexivity.
Qed.
Print Assumptions C86_trace.

(** C86: the monitored run gives the plain run's relations when no entities are
    created.  Missing: programs that create entities (see below: false). *)
Theorem C86_monitor_partial : forall (P : Prov) (it : iteration P) creates fuel st n,
  (forall d u, In u (i_updates it) -> creates d u = []) ->
  match m_loop it creates fuel (mkEst st [] []) n with Some (y, n', v, _) => Some (y, n', v) | None => None end =
  e_loop it creates fuel (mkEst st [] []) n.
Proof.
  intros P it creates fuel st n H. revert st n. induction fuel as [|fuel IH]; intros; cbn [e_loop m_loop es_rels es_store es_log]; auto.
  destruct (need_to_iterate it st n) as [st1 w]. destruct w; auto.
  assert (X : forall us st, incl us (i_updates it) ->
    fold_left (e_update it creates n) us (mkEst st [] []) = mkEst (fold_left (do_update it n) us st) [] []).
  { induction us as [|u us IHu]; intros s I; cbn [fold_left]; auto. unfold e_update at 2. simpl.
    rewrite H by (apply I; simpl; auto). simpl. apply IHu. intros a J. apply I. simpl; auto. }
  unfold e_updates. rewrite X by apply incl_refl.
  change (drain_dynamic_entities it n (mkEst (fold_left (do_update it n) (i_updates it) st1) [] []))
    with (mkEst (P:=P) (fold_left (do_update it n) (i_updates it) st1) [] []).
  rewrite <- IH.
  destruct (m_loop it creates fuel (mkEst (fold_left (do_update it n) (i_updates it) st1) [] []) (S n)) as [[[[y1 n1] v1] tr1]|]; auto.
Qed.
Print Assumptions C86_monitor_partial.

(** * A program *)
(** [type T = C(i32)], [rel p = {1, 2}], [rel q(new C(x)) = p(x)],
    [rel s(x) = C(e, x)] with relations p = 0, q = 1, adt#C = 2, s = 3. *)
Definition ex_hash (v : value) : Z := match v with I32 z => z + 100 | _ => 0 end%Z.
Definition ex_new (t : tuple) : option tuple :=
  match t with TTup [TVal v] => Some (TTup [TVal (VEntity (ex_hash v))]) | _ => None end.
Definition ex_arg (t : tuple) : option tuple :=
  match t with TTup [TVal _; TVal v] => Some (TTup [TVal v]) | _ => None end.
Definition ex_iter (P : Prov) : iteration P :=
  mkIter [0; 1; 2; 3] (fun _ => None)
    [(1, DProject (DRel 0) ex_new); (3, DProject (DRel 2) ex_arg)] (fun _ => LFP) [1; 2; 3] [] false None false.
(** [eval_new] for the tuples the projection visits. *)
Definition ex_creates (P : Prov) (env : denv P) (u : nat * dflow P) : list ent_fact :=
  match u with
  | (1, DProject d _) => flat_map (fun e => match fst e with TTup [TVal v] => [(2, ex_hash v, [v])] | _ => [] end)
      (concat (map snd (iter_recent env d)))
  | _ => []
  end.
Definition ex_one (z : Z) : tuple := TTup [TVal (I32 z)].
Definition ex_start (P : Prov) : estate P :=
  mkEst (init_state (ex_iter P) (fun r => if r =? 0 then [[(ex_one 1, pone P); (ex_one 2, pone P)]] else [])) [] [].
Definition ex_run (P : Prov) := e_loop (ex_iter P) (@ex_creates P) 10 (ex_start P) 0.

Example C86_example : exists y n,
  ex_run nat_prov = Some (y, n, StopQuiet) /\ 0 < n /\ es_log y = [(2, 101%Z, [I32 1%Z]); (2, 102%Z, [I32 2%Z])] /\
  output (es_rels y) 2 = Some [(TTup [TVal (VEntity 101%Z); TVal (I32 1%Z)], 1); (TTup [TVal (VEntity 102%Z); TVal (I32 2%Z)], 1)] /\
  output (es_rels y) 3 = Some [(ex_one 1%Z, 1); (ex_one 2%Z, 1)].
Proof.
  assert (X : match ex_run nat_prov with
    | Some (y, n, v) => (n, v, es_log y, output (es_rels y) 2, output (es_rels y) 3) =
        (3, StopQuiet, [(2, 101%Z, [I32 1%Z]); (2, 102%Z, [I32 2%Z])],
         Some [(TTup [TVal (VEntity 101%Z); TVal (I32 1%Z)], 1); (TTup [TVal (VEntity 102%Z); TVal (I32 2%Z)], 1)],
         Some [(ex_one 1%Z, 1); (ex_one 2%Z, 1)])
    | None => False end) by (vm_compute; reflexivity).
  destruct (ex_run nat_prov) as [[[y n] v]|]; [|destruct X].
  exists y, n. injection X as -> -> -> -> ->. auto with arith.
Qed.
Example C86_drain_example : drain_entities (Nat.eqb 2)
    (add_entity_facts [(2, 101%Z, [I32 1%Z]); (5, 7%Z, []); (2, 101%Z, [I32 1%Z])] []) =
  ([(2, [TTup [TVal (VEntity 101%Z); TVal (I32 1%Z)]; TTup [TVal (VEntity 101%Z); TVal (I32 1%Z)]])], [(5, [(7%Z, [[]])])]).
Proof. vm_compute. reflexivity. Qed.

(** C86: a monitored run of a program that creates entities misses facts that the
    plain run derives: the entities' facts and all that follows from them. *)
Theorem C86_monitor_refuted : exists (it : iteration unit_prov) creates x y m n k tr,
  e_loop it creates 10 x 0 = Some (y, n, StopQuiet) /\ m_loop it creates 10 x 0 = Some (m, k, StopQuiet, tr) /\
  output (es_rels y) 3 = Some [(ex_one 1%Z, tt); (ex_one 2%Z, tt)] /\ output (es_rels m) 3 = Some [] /\
  output (es_rels m) 2 = Some [] /\ stored (es_store m) <> [].
Proof.
  exists (ex_iter unit_prov), (@ex_creates unit_prov), (ex_start unit_prov).
  assert (X : match ex_run unit_prov with
    | Some (y, n, v) => (v, output (es_rels y) 3) = (StopQuiet, Some [(ex_one 1%Z, tt); (ex_one 2%Z, tt)])
    | None => False end) by (vm_compute; reflexivity).
  assert (Y : match m_loop (ex_iter unit_prov) (@ex_creates unit_prov) 10 (ex_start unit_prov) 0 with
    | Some (m, n, v, _) => (v, output (es_rels m) 3, output (es_rels m) 2, length (stored (es_store m))) =
        (StopQuiet, Some [], Some [], 2)
    | None => False end) by (vm_compute; reflexivity).
  fold (ex_run unit_prov).
  destruct (ex_run unit_prov) as [[[y n] v]|]; [|destruct X].
  destruct (m_loop (ex_iter unit_prov) (@ex_creates unit_prov) 10 (ex_start unit_prov) 0) as [[[[m k] w] tr]|]; [|destruct Y].
  exists y, m, n, k, tr. injection X as -> ->. injection Y as -> -> -> L. repeat (split; auto).
  intros Q. rewrite Q in L. discriminate.
Qed.
Print Assumptions C86_monitor_refuted.

(** C86: an entity's fact does not always have the tag "one": when two rules (or
    two iterations) make the same entity its tag is a sum of ones.  Here [rel
    q(new C(x)) = p(x)] is in the program twice, over natural numbers. *)
Definition ex_twice : iteration nat_prov :=
  mkIter [0; 1; 2; 3] (fun _ => None)
    [(1, DProject (DRel 0) ex_new); (1, DProject (DRel 0) ex_new); (3, DProject (DRel 2) ex_arg)]
    (fun _ => LFP) [1; 2; 3] [] false None false.
Theorem C86_tag_refuted : exists y n,
  e_loop ex_twice (@ex_creates nat_prov) 10 (ex_start nat_prov) 0 = Some (y, n, StopQuiet) /\
  output (es_rels y) 2 = Some [(TTup [TVal (VEntity 101%Z); TVal (I32 1%Z)], 2); (TTup [TVal (VEntity 102%Z); TVal (I32 2%Z)], 2)] /\
  output (es_rels y) 3 = Some [(ex_one 1%Z, 2); (ex_one 2%Z, 2)].
Proof.
  assert (X : match e_loop ex_twice (@ex_creates nat_prov) 10 (ex_start nat_prov) 0 with
    | Some (y, n, v) => (v, output (es_rels y) 2, output (es_rels y) 3) =
        (StopQuiet, Some [(TTup [TVal (VEntity 101%Z); TVal (I32 1%Z)], 2); (TTup [TVal (VEntity 102%Z); TVal (I32 2%Z)], 2)],
         Some [(ex_one 1%Z, 2); (ex_one 2%Z, 2)])
    | None => False end) by (vm_compute; reflexivity).
  destruct (e_loop ex_twice (@ex_creates nat_prov) 10 (ex_start nat_prov) 0) as [[[y n] v]|]; [|destruct X].
  exists y, n. injection X as -> -> ->. auto.
Qed.
Print Assumptions C86_tag_refuted.

(** * Strata *)
Lemma NoDup_concat_index : forall A (l : list (list A)) a b x y q, NoDup (concat l) ->
  nth_error l a = Some x -> nth_error l b = Some y -> In q x -> In q y -> a = b.
Proof.
  induction l as [|h l IH]; intros a b x y q N E1 E2 I1 I2; [destruct a; discriminate|]. simpl in N.
  assert (D : forall k z, nth_error l k = Some z -> In q h -> In q z -> False).
  { intros k z E J1 J2. apply nth_error_In in E. clear -N E J1 J2. induction h as [|c h IHh]; [destruct J1|].
    simpl in N. inversion N; subst. destruct J1 as [->|J1]; auto. apply H1. apply in_or_app. right. apply in_concat. eauto. }
  destruct a, b; simpl in *; auto.
  - injection E1 as <-. destruct (D b y); auto.
  - injection E2 as <-. destruct (D a x); auto.
  - f_equal. eapply IH; eauto. clear -N. induction h; simpl in N; auto. inversion N; auto.
Qed.

(** C86: the relation of an entity that a rule makes is in the stratum of the rule,
    so its facts are handed over in the run that creates them. *)
Theorem C86_stratum : forall p g cs ss r x f args,
  dependency_graph p = Some g -> scc_contract g cs -> stratify g cs = Some (inr ss) ->
  In r (p_rules p) -> In (LAssign x (ANew f args)) (r_body r) -> needs_dyn_entity (p_reg p) r = false ->
  exists i, in_stratum ss (r_pred r) i /\ in_stratum ss f i.
Proof.
  intros p g cs ss r x f args G C S R I N. destruct (dependency_graph_spec p g G) as (W & _ & E).
  assert (F : In f (functor_preds p r)).
  { unfold functor_preds. rewrite N. unfold new_functors. apply in_flat_map. exists (LAssign x (ANew f args)). simpl; auto. }
  assert (X : forall e, In e [(f, r_pred r, EPos); (r_pred r, f, EPos)] -> In e (g_edges g)).
  { intros e J. apply E. exists r. split; auto. unfold rule_edges. apply in_or_app; right. apply in_or_app; left.
    apply in_flat_map. exists f. auto. }
  destruct (C24_order g cs W C ss S f (r_pred r) EPos) as (i & j & A & B & D & _); [apply X; simpl; auto|].
  destruct (C24_order g cs W C ss S (r_pred r) f EPos) as (i' & j' & A' & B' & D' & _); [apply X; simpl; auto|].
  assert (ND : NoDup (concat (map st_preds ss))).
  { eapply Permutation_NoDup; [apply Permutation_sym; eapply (C24_partition g cs W C ss S)|apply W]. }
  assert (U : forall q a b, in_stratum ss q a -> in_stratum ss q b -> a = b).
  { intros q a b (s1 & N1 & I1) (s2 & N2 & I2). eapply (@NoDup_concat_index _ (map st_preds ss)); eauto using map_nth_error. }
  assert (i = j') by eauto. assert (j = i') by eauto. exists i. subst. assert (i' = j') by lia. subst. auto.
Qed.
Print Assumptions C86_stratum.
