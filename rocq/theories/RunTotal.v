(** Running whole programs to the end: nothing that [execute] checks fails, and it
    ends if the loop of every stratum does.  Used by C57. *)
From Coq Require Import List Arith Bool Lia.
From Verif Require Import Order Value Prov ListAux SortedCol SortedColFacts Schedulers Relation View Dataflow Denote DataflowFacts DenFacts
  Iteration IterationFacts Views PropsEval Back Eval Ram Scc Dedup Increm SccFacts Exec PropsExec Terminate.
Import ListNotations.
Set Implicit Arguments.
Local Open Scope nat_scope.

(** * Specification *)
(** The relations that must be complete when a dataflow reads them. *)
Fixpoint hard (d : rdf) : list nat :=
  match d with
  | RUnit _ | RVec _ | RGround _ _ | RRel _ => []
  | ROverwrite d | RFilter d _ | RProject d _ | RFind d _ | RSorted d | RConstraint d _ _ | RFpJoin d _ _ => hard d
  | RInter a b | RJoin a b | RProd a b | RUnion a b | RDiff a b | RAnti a b => hard a ++ hard b
  | RJoinIV d r => hard d ++ [r]
  | RReduce _ p grp => p :: match grp with GJoin g => [g] | _ => [] end
  end.
Section Spec.
  Variable P : Prov.
  Variables IT X : Type.
  Notation elem := (elem P).
  Variable E : rtenv P IT X.
  (** Each relation that is read is given, or computed in the same stratum or before;
      no relation that is computed counts as given. *)
  Record placed (p : xprog IT) : Prop := {
    pl_target : forall s u, In s p -> In u (xs_updates s) -> ximm p (fst u) = false;
    pl_reads : forall dn s rest u r, p = dn ++ s :: rest -> In u (xs_updates s) -> In r (collect (snd u)) ->
      computed p s r \/ ximm p r = true \/ exists s', In s' dn /\ computed p s' r;
    pl_hard : forall s u r, In s p -> In u (xs_updates s) -> In r (hard (snd u)) -> ~ computed p s r }.
  (** [M] is the model of the strata [dn], as [strat_model] is of all strata. *)
  Record part_model (p : xprog IT) (dn : list (xstratum IT)) (B : nat -> elem -> Prop) (M : nat -> option (list elem)) : Prop := {
    pm_ext : forall x, In x (xrels p) -> x_imm x = true ->
      exists c, M (x_name x) = Some c /\ forall e, In e c <-> B (x_name x) e;
    pm_int : forall s r, In s dn -> computed p s r ->
      exists c, M r = Some c /\
        forall t, (exists g, In (t, g) c) <->
                  (exists g, derivable (outside p s M) (rules_of E (outside p s M) s) (facts_in p s B) r (t, g)) }.
  (** Only finitely many tuples are derivable, whatever stratum is reached. *)
  Definition finite_strata (p : xprog IT) (F : nat -> tuple -> Prop) : Prop :=
    forall B dn s rest M, (forall r t, (exists g, B r (t, g)) <-> F r t) -> p = dn ++ s :: rest -> part_model p dn B M ->
    forall r, computed p s r -> exists l, forall e, derivable (outside p s M) (rules_of E (outside p s M) s) (facts_in p s B) r e -> In (fst e) l.
  Definition all_lfp (p : xprog IT) : Prop := c_default E = LFP /\ forall x, In x (xrels p) -> x_sched x = None \/ x_sched x = Some LFP.
  (** Some stratum of a run comes to a state from which a round gallops. *)
  Definition run_gallops (inc : bool) (p : xprog IT) (d : idb P) : Prop :=
    exists fuel dn s rest i st n, p = dn ++ s :: rest /\ exec_strata E inc fuel p 0 dn d [] = Some i /\
      reaches (stratum_iter E inc p s d i) (init_state (stratum_iter E inc p s d i) (stratum_facts d (i_rels (stratum_iter E inc p s d i)))) st n /\
      gallops (stratum_iter E inc p s d i) st.
  (** The facts a run starts from. *)
  Definition start_facts (p : xprog IT) (c : ctx P IT X) : option (idb P) :=
    match populate (x_edb c) (xrels p) with
    | Some d1 => Some (ecols (tap_imm p (fst (internalize E (x_tag c) d1))))
    | None => None
    end.
End Spec.

(** * Strata *)
Section Strata.
  Variable P : Prov.
  Variables IT X : Type.
  Notation elem := (elem P).
  Variable E : rtenv P IT X.
  Hypothesis RT : rt_ok E.
  Variable inc : bool.
  Variable p : xprog IT.
  Variable Sh : nat -> tuple -> Prop.
  Hypothesis OK : xprog_ok E Sh p.
  Hypothesis PL : placed p.
  Variable d : idb P.
  Hypothesis DS : forall r c, aget r d = Some c -> ssorted c.
  Hypothesis DH : forall r c e, aget r d = Some c -> In e c -> Sh r (fst e).
  Hypothesis DI : forall r, ximm p r = true -> aget r d <> None.
  Notation inv := (inv E inc p Sh d).
  Notation base := (base d).

  (** What later strata read of the strata that are done is in the database. *)
  Definition avail (dn rest : list (xstratum IT)) (i : idb P) : Prop :=
    forall s r, In s rest -> In r (xs_deps s) -> (exists s', In s' dn /\ computed p s' r) -> aget r i <> None.

  Lemma reads_ok_intro : forall (col : nat -> option (list elem)) rels q,
    (forall r, In r (collect q) -> col r <> None \/ In r rels) -> (forall r, In r (hard q) -> col r <> None) -> reads_ok col rels q = true.
  Proof.
    intros col rels q. induction q; cbn [reads_ok collect hard]; intros A H; auto;
      try (rewrite IHq1, IHq2; auto; intros; [apply A|apply H|apply A|apply H]; rewrite in_app_iff; auto).
    - destruct (A r) as [K|K]; [left; auto|destruct (col r); [reflexivity|congruence]|]. apply memb_In in K. rewrite K. apply orb_true_r.
    - rewrite IHq; [|intros; apply A; rewrite in_app_iff; auto|intros; apply H; rewrite in_app_iff; auto].
      specialize (H r). rewrite in_app_iff in H. destruct (col r); [reflexivity|]. exfalso. apply H; [right; left; reflexivity|reflexivity].
    - assert (H0 := H p0 (or_introl eq_refl)). destruct (col p0); [|congruence]. destruct grp as [| |g]; auto.
      assert (H1 := H g (or_intror (or_introl eq_refl))). destruct (col g); [reflexivity|congruence].
  Qed.
  Lemma deps_in : forall (s : xstratum IT) r, In r (xs_deps s) <-> (exists u, In u (xs_updates s) /\ In r (collect (snd u))) /\ ~ In r (xs_names s).
  Proof.
    intros s r. unfold xs_deps. rewrite filter_In, nodup_In, in_flat_map, negb_true_iff. split.
    - intros [H K]. split; auto. intros J. apply memb_In in J. congruence.
    - intros [H K]. split; auto. destruct (memb r (xs_names s)) eqn:Q; auto. apply memb_In in Q. contradiction.
  Qed.

  Section Stratum.
    Variables (dn : list (xstratum IT)) (s : xstratum IT) (rest : list (xstratum IT)) (i : idb P) (M : nat -> option (list elem)).
    Hypothesis Q : p = dn ++ s :: rest.
    Hypothesis IV : inv dn i M.
    Hypothesis AV : avail dn (s :: rest) i.
    Notation it := (stratum_iter E inc p s d i).
    Notation F := (stratum_facts d (i_rels it)).
    Lemma s_in : In s p.
    Proof. rewrite Q. apply in_elt. Qed.
    Lemma fresh : forall r, In r (xs_names s) -> aget r i = None.
    Proof.
      intros r I. destruct (aget r i) as [c|] eqn:G; auto. exfalso.
      destruct (iv_dom IV _ G) as (s' & I' & [C _]). exact (proj2 (names_split OK _ _ _ Q) _ _ I' C I).
    Qed.
    Lemma dyn : filter (fun r => negb (ahas r i)) (xs_names s) = xs_names s.
    Proof. apply filter_all_in. intros r I. unfold ahas. rewrite (fresh _ I). auto. Qed.
    Lemma it_rels : forall r, In r (i_rels it) <-> computed p s r.
    Proof. intros r. unfold stratum_iter. cbn [i_rels]. rewrite dyn, filter_In, negb_true_iff. reflexivity. Qed.
    Lemma it_updates : i_updates it = rules_of E (i_cols it) s.
    Proof.
      unfold stratum_iter. cbn [i_updates i_cols]. rewrite dyn. unfold rules_of. f_equal.
      apply filter_all_in. intros u I. apply memb_In. eapply xo_target; [exact OK|exact s_in|exact I].
    Qed.
    Lemma imm_here : forall x, In x (xs_rels s) -> ximm p (x_name x) = x_imm x.
    Proof. intros x I. unfold ximm. rewrite (@xfind_in IT p x (xo_nodup OK)); auto. eapply in_xrels; [exact s_in|exact I]. Qed.
    Lemma not_dep : forall r, In r (xs_names s) -> memb r (xs_deps s) = false.
    Proof. intros r I. destruct (memb r (xs_deps s)) eqn:Z; auto. apply memb_In, deps_in in Z. tauto. Qed.
    Lemma cols_none : forall r, computed p s r -> i_cols it r = None.
    Proof.
      intros r [A B]. unfold stratum_iter. cbn [i_cols]. unfold in_cols. case inc.
      - rewrite (fresh _ A), B. auto.
      - rewrite (not_dep _ A). destruct (existsb _ (xs_rels s)) eqn:Z; auto.
        apply existsb_exists in Z as (x & I & Z). apply andb_true_iff in Z as [Z1 Z2]. apply Nat.eqb_eq in Z1. subst r.
        rewrite (imm_here _ I) in B. congruence.
    Qed.
    Lemma cols_model : forall r c, i_cols it r = Some c -> outside p s M r = Some c.
    Proof.
      intros r c G. assert (NC : ~ computed p s r) by (intros C; rewrite (cols_none C) in G; discriminate).
      rewrite outside_other by auto. unfold stratum_iter in G. cbn [i_cols] in G. unfold in_cols in G. revert G. case inc; intros G.
      - destruct (aget r i) as [c'|] eqn:GI; [injection G as ->; apply (iv_idb IV); auto|].
        destruct (ximm p r) eqn:IM; [|discriminate]. rewrite (iv_imm IV _ IM). auto.
      - destruct (memb r (xs_deps s)).
        + destruct (ximm p r) eqn:IM; [rewrite (iv_imm IV _ IM); auto|apply (iv_idb IV); auto].
        + destruct (existsb _ (xs_rels s)) eqn:Z; [|discriminate].
          apply existsb_exists in Z as (x & I & Z). apply andb_true_iff in Z as [Z1 Z2]. apply Nat.eqb_eq in Z1. subst r.
          rewrite (iv_imm IV); auto. rewrite (imm_here _ I). auto.
    Qed.
    Lemma done_read : forall u r, In u (xs_updates s) -> In r (collect (snd u)) -> ~ computed p s r ->
      ximm p r = true \/ (~ In r (xs_names s) /\ aget r i <> None).
    Proof.
      intros u r I J NC. destruct (@pl_reads _ _ PL _ _ _ _ _ Q I J) as [C|[C|C]]; [contradiction|auto|].
      assert (NN : ~ In r (xs_names s)) by (destruct C as (s' & A & [B _]); exact (fun H => proj2 (names_split OK _ _ _ Q) _ _ A B H)).
      right. split; auto. eapply AV; [left; reflexivity| |exact C]. apply deps_in. split; eauto.
    Qed.
    Lemma cols_some : forall u r, In u (xs_updates s) -> In r (collect (snd u)) -> ~ computed p s r -> i_cols it r <> None.
    Proof.
      intros u r I J NC. pose proof (@done_read _ _ I J NC) as H. unfold stratum_iter. cbn [i_cols]. unfold in_cols. case inc.
      - destruct H as [H|[_ H]]; [destruct (aget r i); [discriminate|]; rewrite H; apply DI, H|]. destruct (aget r i); congruence.
      - destruct (memb r (xs_deps s)) eqn:Z.
        + destruct (ximm p r) eqn:IM; [apply DI, IM|]. destruct H as [H|[_ H]]; [congruence|exact H].
        + assert (IN : In r (xs_names s)).
          { destruct (in_dec Nat.eq_dec r (xs_names s)) as [A|A]; auto. exfalso.
            assert (K : In r (xs_deps s)) by (apply deps_in; split; eauto). apply memb_In in K. congruence. }
          destruct H as [H|[H _]]; [|contradiction].
          replace (existsb (fun x => Nat.eqb (x_name x) r && x_imm x) (xs_rels s)) with true; [apply DI, H|].
          symmetry. apply existsb_exists. unfold xs_names in IN. apply in_map_iff in IN as (x & <- & IN). exists x. split; auto.
          rewrite Nat.eqb_refl, <- (imm_here _ IN). exact H.
    Qed.
    Lemma cols_outside : forall u q, In u (xs_updates s) -> In q (collect (snd u)) -> i_cols it q = outside p s M q.
    Proof.
      intros u q J K. destruct (computedb p s q) eqn:Z.
      - apply computedb_iff in Z. rewrite (cols_none Z), outside_none; auto.
      - assert (N : ~ computed p s q) by (rewrite <- computedb_iff, Z; discriminate).
        pose proof (@cols_some _ _ J K N) as D. destruct (i_cols it q) as [c|] eqn:G; [|congruence]. symmetry. apply cols_model, G.
    Qed.
    Lemma cols_sorted : forall r c, i_cols it r = Some c -> ssorted c.
    Proof. intros r c G. apply cols_model in G. unfold outside in G. destruct (computedb p s r); [discriminate|]. apply (iv_sorted IV _ G). Qed.
    Lemma cols_shape : forall r c e, i_cols it r = Some c -> In e c -> Sh r (fst e).
    Proof. intros r c e G. apply cols_model in G. unfold outside in G. destruct (computedb p s r); [discriminate|]. apply (iv_shape IV _ _ G). Qed.
    Lemma it_shaped : prog_shaped it F (set_view P) Sh.
    Proof.
      assert (UP : forall r d0, In (r, d0) (i_updates it) -> exists u, In (r, u) (xs_updates s) /\ d0 = low E (i_cols it) u).
      { intros r d0 I. rewrite it_updates in I. unfold rules_of in I. apply in_map_iff in I as ([k u] & Z & I). injection Z as -> <-. eauto. }
      split.
      - exact cols_sorted.
      - intros r N. unfold stratum_facts in N. destruct (memb r (i_rels it)) eqn:Z; [apply memb_In; auto|congruence].
      - intros r d0 I. destruct (UP _ _ I) as (u & K & _). apply it_rels. split; [exact (xo_target OK s (r, u) s_in K)|exact (@pl_target _ _ PL s (r, u) s_in K)].
      - intros r d0 I. destruct (UP _ _ I) as (u & K & ->). apply (xo_wf OK (i_cols it) s_in cols_none cols_some cols_sorted cols_shape _ K).
      - intros r d0 I. destruct (UP _ _ I) as (u & K & ->). apply (xo_wf OK (i_cols it) s_in cols_none cols_some cols_sorted cols_shape _ K).
      - exact cols_shape.
      - intros r e (b & I & J). unfold stratum_facts in I. destruct (memb r (i_rels it)); [|destruct I].
        destruct (aget r d) as [c|] eqn:G; [|destruct I]. destruct I as [<-|[]]. apply (DH _ _ G J).
      - intros r d0 I0 e I. destruct (UP _ _ I) as (u & K & ->).
        apply (xo_wf OK (i_cols it) s_in cols_none cols_some cols_sorted cols_shape _ K).
    Qed.
    Lemma checks_pass : inputs_ok inc p s d i
           && forallb (fun u => negb (memb (fst u) (xs_names s))
                                || (memb (fst u) (i_rels it) && reads_ok (i_cols it) (i_rels it) (snd u))) (xs_updates s) = true.
    Proof.
      apply andb_true_intro. split.
      - unfold inputs_ok. case inc; [reflexivity|]. cbn [orb]. apply andb_true_intro. split; apply forallb_forall.
        + intros x I. destruct (x_imm x) eqn:IM; [|reflexivity]. cbn. apply ahas_get, DI. rewrite (imm_here _ I). exact IM.
        + intros r I. pose proof I as I'. apply deps_in in I' as [(u & J & K) N].
          assert (NC : ~ computed p s r) by (intros [C _]; contradiction).
          destruct (ximm p r) eqn:IM; apply ahas_get; [apply DI, IM|]. destruct (@pl_reads _ _ PL _ _ _ _ _ Q J K) as [C|[C|C]]; [contradiction|congruence|].
          eapply AV; [left; reflexivity|exact I|exact C].
      - apply forallb_forall. intros u I. apply orb_true_iff. right.
        assert (R : In (fst u) (i_rels it)) by (apply it_rels; split; [exact (xo_target OK s u s_in I)|exact (@pl_target _ _ PL s u s_in I)]).
        apply andb_true_intro. split; [apply memb_In, R|]. apply reads_ok_intro.
        + intros r J. destruct (computedb p s r) eqn:Z.
          * right. apply it_rels. apply computedb_iff, Z.
          * left. apply (@cols_some u); auto. rewrite <- computedb_iff, Z. discriminate.
        + intros r J. assert (K : In r (collect (snd u))).
          { clear -J. revert J. generalize (snd u). intros q. induction q; cbn [hard collect]; rewrite ?in_app_iff; auto; try tauto. intros []. }
          apply (@cols_some u); auto. exact (@pl_hard _ _ PL s u _ s_in I J).
    Qed.
    Lemma it_sched : forall q, In q (i_rels it) -> i_sched it q <> Beam 0.
    Proof.
      intros q I. unfold stratum_iter. cbn [i_sched]. destruct (xfind p q) as [x|] eqn:XF; [|apply (ro_default RT)].
      destruct (x_sched x) as [sc|] eqn:XS; [|apply (ro_default RT)].
      apply find_some in XF as [XI _]. pose proof (xo_sched OK _ XI) as N. rewrite XS in N. congruence.
    Qed.
    Lemma outs_some : forall (st : nat -> relation P) rs, (forall r, exists o, output st r = Some o) -> exists res, outs st rs = Some res.
    Proof.
      intros st rs H. induction rs as [|r rs (res & IH)]; cbn [outs]; [eauto|]. destruct (H r) as (o & ->). rewrite IH. eauto.
    Qed.
    (** If the loop ends, so does the stratum. *)
    Lemma stratum_ends : forall fuel res0, loop it fuel (init_state it F) 0 = Some res0 -> exists res, exec_stratum E inc fuel p s d i = Some res.
    Proof.
      intros fuel [[st n'] v] LP. unfold exec_stratum. rewrite dyn. destruct (xs_names s) as [|n0 ns] eqn:NS; [eauto|]. rewrite <- NS. rewrite checks_pass, LP.
      apply outs_some. intros r. assert (LQ := LP). apply loop_quiet in LQ; [|apply (ro_limit RT)|apply (ro_goal RT)]. subst v.
      eapply C09_output; [exists Sh; exact it_shaped|exact it_sched|exact (ro_early RT)|exact LP].
    Qed.
    Lemma it_facts : forall q e, factset F q e <-> facts_in p s base q e.
    Proof.
      intros q e. unfold factset, SchedFacts.inB, stratum_facts, facts_in, PropsExec.base. rewrite <- it_rels.
      destruct (memb q (i_rels it)) eqn:Z.
      - apply memb_In in Z. destruct (aget q d) as [c|]; split.
        + intros (b & [<-|[]] & J). eauto.
        + intros (_ & c' & J & K). injection J as <-. exists c. split; [left|]; auto.
        + intros (b & [] & _).
        + intros (_ & c' & J & _). discriminate.
      - split; [intros (b & [] & _)|]. intros (J & _). apply memb_In in J. congruence.
    Qed.
    Lemma it_derivable : forall r e, derivable (i_cols it) (i_updates it) (factset F) r e ->
      derivable (outside p s M) (rules_of E (outside p s M) s) (facts_in p s base) r e.
    Proof.
      intros r e D. rewrite it_updates in D. eapply derivable_ext; [| |exact D].
      - intros u q J K. symmetry. eapply cols_outside; eauto.
      - intros q x. symmetry. apply it_facts.
    Qed.
    (** What later strata read stays in the database. *)
    Lemma lifespan_last : forall (q : xprog IT) k r s' j, nth_error q j = Some s' -> In r (xs_deps s') -> exists m, lifespan q k r = Some m /\ k + j <= m.
    Proof.
      induction q as [|x q IH]; intros k r s' [|j] NT I; cbn [nth_error lifespan] in *; try discriminate.
      - injection NT as ->. destruct (lifespan q (S k) r) as [m|] eqn:L.
        + exists m. split; auto. assert (K : forall (q : xprog IT) a b, lifespan q a r = Some b -> a <= b).
          { clear. induction q as [|x q IH]; intros a b; cbn [lifespan]; [discriminate|]. destruct (lifespan q (S a) r) as [m|] eqn:L.
            - intros H. injection H as <-. apply IH in L. lia.
            - destruct (memb r (xs_deps x)); [|discriminate]. intros H. injection H as <-. lia. }
          apply K in L. lia.
        + apply memb_In in I. rewrite I. exists k. split; auto. lia.
      - destruct (IH (S k) r s' j NT I) as (m & -> & L). exists m. split; auto. lia.
    Qed.
    Lemma avail_step : forall fuel res, exec_stratum E inc fuel p s d i = Some res ->
      avail (dn ++ [s]) rest (fold_left (fun i x => aset (fst x) (snd x) i) (filter (fun x => kept p (length dn) (fst x)) res) i).
    Proof.
      intros fuel res XS s1 r I1 D1 (s' & I' & C'). unfold exec_stratum in XS. rewrite dyn in XS.
      assert (ND : NoDup (map fst res)).
      { destruct (xs_names s) eqn:NS; [injection XS as <-; constructor|]. rewrite <- NS in *.
        match type of XS with (if ?b then _ else _) = _ => destruct b; [|discriminate] end.
        destruct (loop it fuel (init_state it F) 0) as [[[st n'] v]|]; [|discriminate]. destruct (outs_spec _ _ XS) as [OS1 _]. rewrite OS1.
        unfold stratum_iter. cbn [i_outputs]. apply NoDup_filter, NoDup_filter. rewrite dyn. apply (names_split OK _ _ _ Q). }
      assert (ND' : NoDup (map fst (filter (fun x => kept p (length dn) (fst x)) res))).
      { clear -ND. induction res as [|[k c] l IH]; [constructor|]. cbn [map fst] in ND. inversion ND as [|? ? NI N2]; subst. cbn [filter].
        destruct (kept p (length dn) (fst (k, c))); auto. cbn [map]. constructor; auto. cbn [fst]. intros I. apply NI.
        apply in_map_iff in I as (y & A & B). apply filter_In in B as [B _]. rewrite <- A. apply in_map; auto. }
      rewrite aget_fold by exact ND'. apply in_app_or in I' as [I'|[<-|[]]].
      - destruct (aget r (filter _ res)); [discriminate|]. eapply AV; [right; exact I1|exact D1|eauto].
      - destruct (xs_names s) as [|n0 ns] eqn:NS; [destruct C' as [C' _]; rewrite NS in C'; destruct C'|]. rewrite <- NS in *.
        match type of XS with (if ?b then _ else _) = _ => destruct b; [|discriminate] end.
        destruct (loop it fuel (init_state it F) 0) as [[[st n'] v]|]; [|discriminate]. destruct (outs_spec _ _ XS) as [OS1 _].
        assert (IO : In r (i_outputs it)).
        { apply it_rels in C'. unfold stratum_iter in *. cbn [i_outputs i_rels] in *. apply filter_In. split; auto.
          replace (needed_outside p r) with true; [rewrite orb_true_r; reflexivity|]. symmetry. apply existsb_exists. exists s1.
          split; [rewrite Q; apply in_or_app; right; right; exact I1|apply memb_In, D1]. }
        rewrite <- OS1 in IO. apply in_map_iff in IO as ([k c] & Z & IO). cbn [fst] in Z. subst k.
        assert (KP : In (r, c) (filter (fun x => kept p (length dn) (fst x)) res)).
        { apply filter_In. split; auto. cbn [fst]. unfold kept. destruct (xfind p r) as [x|]; auto. destruct (x_hidden x); auto.
          destruct (In_nth_error _ _ I1) as (j & NJ).
          destruct (@lifespan_last p 0 r s1 (length dn + S j)) as (m & -> & L); auto.
          - rewrite Q, nth_error_app2 by lia. replace (length dn + S j - length dn) with (S j) by lia. exact NJ.
          - apply Nat.ltb_lt. lia. }
        rewrite (In_aget _ _ _ ND' KP). discriminate.
    Qed.
  End Stratum.

  Lemma exec_stratum_mono : forall f f' s i res, f <= f' -> exec_stratum E inc f p s d i = Some res -> exec_stratum E inc f' p s d i = Some res.
  Proof.
    intros f f' s i res L. unfold exec_stratum. destruct (filter _ (xs_names s)); auto.
    match goal with |- (if ?b then _ else _) = _ -> _ => destruct b; auto end.
    destruct (loop _ f _ 0) as [x|] eqn:LP; [|discriminate]. rewrite (loop_mono _ _ _ L LP). auto.
  Qed.
  Lemma exec_strata_mono : forall f f' ss n i res, f <= f' -> exec_strata E inc f p n ss d i = Some res -> exec_strata E inc f' p n ss d i = Some res.
  Proof.
    intros f f' ss. induction ss as [|s ss IH]; intros n i res L; cbn [exec_strata]; auto.
    destruct (exec_stratum E inc f p s d i) as [x|] eqn:XS; [|discriminate]. rewrite (exec_stratum_mono _ _ L XS). auto.
  Qed.
  Lemma exec_strata_app : forall f a b n i res, exec_strata E inc f p n a d i = Some res ->
    exec_strata E inc f p n (a ++ b) d i = exec_strata E inc f p (n + length a) b d res.
  Proof.
    intros f a. induction a as [|s a IH]; intros b n i res H; cbn [exec_strata app length] in *.
    - injection H as ->. rewrite Nat.add_0_r. reflexivity.
    - destruct (exec_stratum E inc f p s d i) as [x|]; [|discriminate]. rewrite (IH _ _ _ _ H). f_equal. lia.
  Qed.

  (** All strata end, or the first that does not is in a state allowed by [Bad]. *)
  Theorem strata_end : forall Bad : list (xstratum IT) -> xstratum IT -> idb P -> Prop,
    (forall dn s rest i M, p = dn ++ s :: rest -> inv dn i M -> avail dn (s :: rest) i ->
      (exists fuel res, loop (stratum_iter E inc p s d i) fuel (init_state (stratum_iter E inc p s d i) (stratum_facts d (i_rels (stratum_iter E inc p s d i)))) 0 = Some res)
      \/ Bad dn s i) ->
    (exists fuel i', exec_strata E inc fuel p 0 p d [] = Some i') \/
    (exists fuel dn s rest i, p = dn ++ s :: rest /\ exec_strata E inc fuel p 0 dn d [] = Some i /\ Bad dn s i).
  Proof.
    intros Bad TERM.
    assert (G : forall ss dn i M fuel, p = dn ++ ss -> inv dn i M -> avail dn ss i -> exec_strata E inc fuel p 0 dn d [] = Some i ->
      (exists fuel i', exec_strata E inc fuel p 0 p d [] = Some i') \/
      (exists fuel dn s rest i, p = dn ++ s :: rest /\ exec_strata E inc fuel p 0 dn d [] = Some i /\ Bad dn s i)).
    { induction ss as [|s ss IH]; intros dn i M fuel Q IV AV XS.
      - left. exists fuel, i. rewrite app_nil_r in Q. rewrite Q at 2. exact XS.
      - destruct (TERM dn s ss i M Q IV AV) as [(f & res0 & LP)|BD]; [|right; eauto 10].
        assert (LP' := loop_mono _ _ _ (Nat.le_max_r fuel f) LP). assert (XS' := exec_strata_mono _ _ _ (Nat.le_max_l fuel f) XS).
        destruct (stratum_ends Q IV AV _ LP') as (res & XR).
        destruct (@stratum_step P IT X E RT inc _ p Sh OK d DH dn s ss i M res Q IV XR) as (M' & IV').
        eapply IH; [|exact IV'|eapply avail_step; eauto|].
        + rewrite <- app_assoc. exact Q.
        + rewrite (exec_strata_app _ _ _ _ _ XS'). cbn [exec_strata]. rewrite XR. reflexivity. }
    apply (G p [] [] (fun r => if ximm p r then aget r d else None) 0); auto.
    - apply inv_start; auto.
    - intros s r _ _ (s' & [] & _).
  Qed.
  (** Completed strata are a model of them. *)
  Lemma inv_part : forall dn i M, inv dn i M -> part_model E p dn base M.
  Proof.
    intros dn i M IV. split.
    - intros x I IM. assert (XI : ximm p (x_name x) = true) by (unfold ximm; rewrite (@xfind_in IT p x (xo_nodup OK) I); exact IM).
      rewrite (iv_imm IV _ XI). destruct (aget (x_name x) d) as [c|] eqn:G; [|exfalso; exact (DI _ XI G)]. exists c. split; auto.
      intros e. unfold PropsExec.base. rewrite G. split; [eauto|]. intros (c' & K & J). injection K as <-. exact J.
    - intros s r. apply (iv_int IV).
  Qed.
  (** With improving tags and finitely many derivable tuples, strata end unless they
      gallop. *)
  Theorem strata_end_lfp : improving P -> all_lfp E p -> (forall F, (forall r t, (exists g, base r (t, g)) <-> F r t) -> finite_strata E p F) ->
    (exists fuel i', exec_strata E inc fuel p 0 p d [] = Some i') \/ run_gallops E inc p d.
  Proof.
    intros (A & lt & rk & WF & IMP) [LD LX] FIN. specialize (FIN (fun r t => exists g, base r (t, g)) (fun r t => iff_refl _)).
    set (Bad := fun (dn : list (xstratum IT)) s i => exists st n,
      reaches (stratum_iter E inc p s d i) (init_state (stratum_iter E inc p s d i) (stratum_facts d (i_rels (stratum_iter E inc p s d i)))) st n /\
      gallops (stratum_iter E inc p s d i) st).
    destruct (@strata_end Bad) as [H|(fuel & dn & s & rest & i & Q & XS & st & n & R & GL)]; [|left; exact H|right; exists fuel, dn, s, rest, i, st, n; auto].
    intros dn s rest i M Q IV AV. set (it := stratum_iter E inc p s d i). set (F := stratum_facts d (i_rels it)).
    pose proof (@it_shaped dn s rest i M Q IV AV) as PS. fold it in PS. fold F in PS.
    assert (LF : forall r, In r (i_rels it) -> i_sched it r = LFP).
    { intros r _. unfold it, stratum_iter. cbn [i_sched]. destruct (xfind p r) as [x|] eqn:XF; [|exact LD].
      apply find_some in XF as [XI _]. destruct (LX x XI) as [-> | ->]; auto. }
    assert (FU : exists U, forall r e, derivable (i_cols it) (i_updates it) (factset F) r e -> In (fst e) (U r)).
    { assert (FR : forall r, In r (i_rels it) -> exists l, forall e, derivable (i_cols it) (i_updates it) (factset F) r e -> In (fst e) l).
      { intros r IR. apply (it_rels _ _ Q IV) in IR. destruct (FIN base dn s rest M (fun r t => iff_refl _) Q (inv_part IV) r IR) as (l & Hl).
        exists l. intros e D. apply Hl. exact (it_derivable Q IV AV D). }
      assert (RI : forall r e, derivable (i_cols it) (i_updates it) (factset F) r e -> In r (i_rels it)).
      { intros r e (n & D). revert r e D. induction n as [|n IH]; intros r e D; cbn [stage] in D.
        - apply (it_facts _ _ Q IV) in D. apply (it_rels _ _ Q IV). apply D.
        - destruct D as [D|(d0 & I & D)]; [eapply IH; eauto|]. exact (ok_target PS _ _ I). }
      revert FR RI. generalize (i_rels it). intros rs FR RI.
      assert (FU : exists U, forall r, In r rs -> forall e, derivable (i_cols it) (i_updates it) (factset F) r e -> In (fst e) (U r)).
      { clear RI. induction rs as [|r rs IH]; [exists (fun _ => []); intros r []|]. destruct IH as (U & HU); [intros; apply FR; right; auto|].
        destruct (FR r (or_introl eq_refl)) as (l & Hl). exists (fun q => if q =? r then l else U q). intros q IQ e D.
        destruct (Nat.eqb_spec q r) as [->|NE]; auto. destruct IQ as [->|IQ]; [congruence|auto]. }
      destruct FU as (U & HU). exists U. intros r e D. apply HU; auto. eapply RI; eauto. }
    destruct FU as (U & HU).
    destruct (@loop_ends P it F Sh PS LF (ro_limit RT) A lt rk WF IMP U HU) as [H|H]; [left; exact H|right; exact H].
  Qed.
End Strata.

(** * Programs *)
Section Program.
  Variable P : Prov.
  Variables IT X : Type.
  Notation elem := (elem P).
  Variable E : rtenv P IT X.
  Lemma in_flat : forall (p : xprog IT) r, In r (rp_names (flat p)) <-> exists x, In x (xrels p) /\ x_name x = r.
  Proof.
    intros p r. unfold rp_names, flat. cbn [rp_rels]. rewrite map_map. cbn [rr_name]. rewrite in_map_iff. split; intros (x & A & B); eauto.
  Qed.
  Lemma ximm_in : forall (p : xprog IT) r, ximm p r = true -> exists x, In x (xrels p) /\ x_name x = r.
  Proof.
    intros p r H. unfold ximm in H. destruct (xfind p r) as [x|] eqn:F; [|discriminate]. apply find_some in F as [F1 F2]. apply Nat.eqb_eq in F2. eauto.
  Qed.
  Lemma computed_in : forall (p : xprog IT) s r, In s p -> computed p s r -> exists x, In x (xrels p) /\ x_name x = r.
  Proof.
    intros p s r I [C _]. unfold xs_names in C. apply in_map_iff in C as (x & <- & C). exists x. split; auto. unfold xrels. apply in_flat_map. eauto.
  Qed.
  Lemma read_known : forall (p : xprog IT), placed p -> forall s u r, In s p -> In u (xs_updates s) -> In r (collect (snd u)) ->
    exists x, In x (xrels p) /\ x_name x = r.
  Proof.
    intros p PL s u r I J K. pose proof I as I'. apply in_split in I' as (a & b & Q). destruct (@pl_reads _ _ PL _ _ _ _ _ Q J K) as [C|[C|(s' & A & C)]].
    - eapply computed_in; eauto.
    - apply ximm_in, C.
    - eapply computed_in; [|exact C]. rewrite Q. apply in_or_app. auto.
  Qed.
  Lemma persistent_some : forall (p : xprog IT) Sh need fuel, xprog_ok E Sh p -> placed p -> persistent fuel (mkRP [] []) (flat p) need = Some [].
  Proof.
    intros p Sh need fuel OK PL. unfold persistent. replace (known (flat p)) with true.
    - cbn [known rp_updates forallb andb]. assert (F : fringe0 (mkRP [] []) = []) by reflexivity. rewrite F. destruct fuel; reflexivity.
    - symmetry. apply forallb_forall. intros u I. unfold flat in I. cbn [rp_updates] in I. apply in_flat_map in I as (s & Is & Iu).
      apply andb_true_intro. split.
      + apply memb_In, in_flat. pose proof (xo_target OK s u Is Iu) as T. unfold xs_names in T. apply in_map_iff in T as (x & T & I).
        exists x. split; auto. unfold xrels. apply in_flat_map. eauto.
      + apply forallb_forall. intros r Ir. unfold deps in Ir. apply nodup_In in Ir. apply memb_In, in_flat. eapply read_known; eauto.
  Qed.
  Lemma deps_are_known : forall (p : xprog IT), placed p -> deps_known p = true.
  Proof.
    intros p PL. apply forallb_forall. intros s I. apply forallb_forall. intros r J. unfold xs_deps in J. apply filter_In in J as [J _].
    apply nodup_In, in_flat_map in J as (u & Iu & Ir). destruct (read_known PL _ _ _ I Iu Ir) as (x & Ix & <-). unfold xfind.
    destruct (find (fun x0 => Nat.eqb (x_name x0) (x_name x)) (xrels p)) eqn:F; auto. apply (find_none _ _ F) in Ix. cbn in Ix. rewrite Nat.eqb_refl in Ix. discriminate.
  Qed.
  (** A context into which no program facts were put accepts every program. *)
  Lemma populate_fresh : forall (xs : list (xrel IT)) (d : edb P IT), (forall r, e_progint (e_get d r) = false) -> exists d1, populate d xs = Some d1.
  Proof.
    induction xs as [|x xs IH]; intros d H; cbn [populate]; [eauto|]. unfold populate_rel. destruct (x_facts x) as [|f fs]; [apply IH, H|].
    rewrite H. cbn [andb]. apply IH. intros r. rewrite e_get_aset. destruct (Nat.eqb r (x_name x)); cbn; auto.
  Qed.
  Lemma start_spec : forall (p : xprog IT) (c : ctx P IT X) d, start_facts E p c = Some d ->
    (forall r c0, aget r d = Some c0 -> ssorted c0) /\ (forall r, ximm p r = true -> aget r d <> None) /\
    (forall r t, (exists g, base d r (t, g)) <-> stored E (e_get (x_edb c) r) t \/ prog_fact E p r t).
  Proof.
    intros p c d H. unfold start_facts in H. destruct (populate (x_edb c) (xrels p)) as [d1|] eqn:PO; [|discriminate]. injection H as <-.
    destruct (internalize E (x_tag c) d1) as [d2 x2] eqn:IN. cbn [fst].
    assert (EG : forall r, e_get (tap_imm p d2) r = e_get d2 r) by (intros; apply tap_e_get).
    assert (CG : forall r c0, aget r (ecols (tap_imm p d2)) = Some c0 -> c0 = e_int (e_get d2 r)).
    { intros r c0 G. rewrite ecols_get in G. rewrite <- EG. unfold e_get. destruct (aget r (tap_imm p d2)); [|discriminate]. cbn in G. congruence. }
    split; [|split].
    - intros r c0 G. rewrite (CG _ _ G). apply (internalized _ _ _ IN r).
    - intros r Q. rewrite ecols_get. pose proof (tap_has p d2 r Q) as N. destruct (aget r (tap_imm p d2)); [discriminate|congruence].
    - intros r t. rewrite <- (populate_stored _ _ _ PO), <- (proj1 (internalized _ _ _ IN r) t). unfold base. split.
      + intros (g & c0 & G & I). rewrite (CG _ _ G) in I. eauto.
      + intros (g & I). rewrite <- EG in I. exists g. unfold e_get in I. destruct (aget r (tap_imm p d2)) as [e|] eqn:Z; [|destruct I].
        exists (e_int e). rewrite ecols_get, Z. auto.
  Qed.
  Lemma execute_ends : forall inc (p : xprog IT) Sh (c : ctx P IT X) d fuel i', xprog_ok E Sh p -> placed p ->
    start_facts E p c = Some d -> exec_strata E inc fuel p 0 p d [] = Some i' ->
    exists c', forall f, fuel <= f -> execute E inc f (Some p) c = Some c'.
  Proof.
    intros inc p Sh c d fuel i' OK PL ST XS. unfold start_facts in ST. unfold execute. destruct (populate (x_edb c) (xrels p)) as [d1|]; [|discriminate].
    injection ST as <-. destruct (internalize E (x_tag c) d1) as [d2 x2]. cbn [fst] in *.
    destruct (finish inc (xrels p) (tap_imm p d2) i') as [d4 i2] eqn:FI. exists (mkCtx d4 true i2 p x2).
    intros f L. rewrite (@persistent_some p Sh) by auto. rewrite (deps_are_known PL).
    replace (filter (fun x : nat * list elem => memb (fst x) []) (x_idb c)) with (@nil (nat * list elem)) by (induction (x_idb c); cbn; auto).
    rewrite (exec_strata_mono _ _ _ _ _ _ _ L XS), FI. reflexivity.
  Qed.
End Program.
