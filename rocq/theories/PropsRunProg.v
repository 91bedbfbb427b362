(** C56: compiling a typed program and running what it is compiled to yields its
    stable model. *)
From Coq Require Import List ZArith Bool Arith Lia Permutation.
From Verif Require Import Order Value Prov ListAux SortedCol SortedColFacts ProvInst Schedulers Relation View Dataflow Denote DataflowFacts DenFacts
  Iteration IterationFacts Views Back Eval Ram BackSem PropsOpt Scc SccFacts PropsStrat PropsUnused Dedup Increm Exec PropsExec
  Plan PlanSem PlanFacts PlanFacts2 PropsPlan VarTuple VarTupleFacts B2R RamSem B2RFacts B2RFacts2 B2RSpec B2RRule B2RScope PropsB2R B2RStrata
  StrataSem StrataFacts PropsStrata PropsTotal TypedProg PropsTyped PropsCompile PermOrder B2RWf PlanShape StrataWf RunSem RunFacts.
Import ListNotations.
Set Implicit Arguments.
Local Open Scope nat_scope.

(** A program with more facts: those that the context already stores. *)
Definition with_facts (P : program) (fs : list fact) : program :=
  mkProg (p_rels P) (p_outputs P) (p_facts P ++ fs) (p_rules P) (p_reg P).

Lemma nodup_join : forall (A : Type) (l1 l2 : list A), NoDup l1 -> NoDup l2 -> (forall x, In x l1 -> ~ In x l2) -> NoDup (l1 ++ l2).
Proof.
  induction l1 as [|x l IH]; cbn; intros l2 N1 N2 D; auto. inversion N1; subst. constructor; [|apply IH; auto]. rewrite in_app_iff. intros [H|H]; [auto|].
  exact (D x (or_introl eq_refl) H).
Qed.

(** ** One run of given strata *)
Section Run.
  Variables (P : Prov) (IT X : Type) (E : rtenv P IT X).
  Variables (C : cenv) (N : penv) (B : benv) (AG : rels -> nat -> nat -> rgrp -> tuple -> Prop) (Pr : program) (extra : list fact) (ss : list stratum) (sig : pred -> list ty).
  Variables (order : list pred -> rule -> list state -> list state) (xs : list rstratum).
  Variables (tag_of : fact -> option IT) (is_adt : pred -> bool) (sched_of : pred -> option scheduler).
  Notation inplace := (fun _ : rule => false).
  Notation Pr' := (with_facts Pr extra).
  Notation prog := (xprog_of tag_of is_adt sched_of Pr xs).
  Notation rel_of := (rel_of tag_of is_adt sched_of Pr).
  Notation xof := (xstratum_of tag_of is_adt sched_of Pr).
  Notation elem := (elem P).
  Hypothesis ORD : forall ps r l, Permutation (order ps r l) l.
  Hypothesis NM : names_ok C.
  Hypothesis NA : names_apart C (inp ss).
  Hypothesis IV : forall r, ce_iv C r = false.
  Hypothesis TP : typed_program C N sig Pr' ss.
  Hypothesis DC : forall q, In q (preds ss) <-> In q (map b_pred (p_rels Pr)).
  Hypothesis LOW : lower_strata C N inplace order (p_rules Pr) ss = Some (xs, []).
  Hypothesis ENV : forall m, l_env (c_lenv E m) = b_env B.
  Hypothesis INT : forall f, In f (p_facts Pr) -> c_intern E (vtup (f_args f)) = Some (vtup (f_args f)).
  Hypothesis SCH : forall p, sched_of p <> Some (Beam 0).
  Hypothesis NEG : (forall a b, pminus P a b = None) \/ forall r a, In r (p_rules Pr) -> ~ In (LNeg a) (r_body r).
  Let OK : program_ok C N B AG Pr' ss (typed_fact sig) order := @typed_program_ok C N B AG Pr' ss sig order TP.
  Let STR : PropsStrata.stratified xs := @C54_stratified_partial C N B AG Pr' ss (typed_fact sig) inplace order xs ORD NA OK LOW.
  Notation Sh := (shapes ss sig xs).

  Lemma upd_good : forall y n d, In y xs -> In (n, d) (rs_updates y) -> frag d /\ pwf P (b_env B) Sh false d /\
    ((inp ss n /\ ylen Sh (length (sig n)) d /\ exists r, In r (p_rules Pr) /\ r_pred r = n) \/ (~ inp ss n /\ projects d)).
  Proof. exact (@updates_good P B C N AG Pr' ss sig order xs ORD NM NA IV TP LOW). Qed.
  Lemma upd_minus : forall y n d, In y xs -> In (n, d) (rs_updates y) -> no_minus P d.
  Proof.
    intros y n d Iy Iu. destruct NEG as [H|H]; [left; auto|right]. exact (@no_negation B C N AG Pr' ss sig order xs ORD TP LOW H y n d Iy Iu).
  Qed.

  (** *** Names *)
  Lemma rel_name : forall n, x_name (rel_of n) = n.
  Proof.
    intros n. unfold RunSem.rel_of. destruct (find (fun b => Nat.eqb (b_pred b) n) (p_rels Pr)) as [b|] eqn:F; [|reflexivity]. apply find_some in F. destruct F as [_ F].
    apply Nat.eqb_eq in F. exact F.
  Qed.
  Lemma names_of : forall y, xs_names (xof y) = nodup Nat.eq_dec (rs_rels y).
  Proof.
    intros y. unfold xs_names, xstratum_of. cbn [xs_rels]. rewrite map_map. rewrite <- (map_id (nodup Nat.eq_dec (rs_rels y))) at 2. apply map_ext, rel_name.
  Qed.
  Lemma in_names : forall y r, In r (xs_names (xof y)) <-> In r (rs_rels y).
  Proof. intros y r. rewrite names_of. apply nodup_In. Qed.
  Lemma in_prog : forall s, In s prog -> exists y, In y xs /\ s = xof y.
  Proof. intros s H. unfold xprog_of in H. apply in_map_iff in H. destruct H as (y & <- & Iy). eauto. Qed.
  Lemma prog_in : forall y, In y xs -> In (xof y) prog.
  Proof. intros y Iy. unfold xprog_of. apply in_map, Iy. Qed.
  Lemma xrels_in : forall x, In x (xrels prog) <-> exists y r, In y xs /\ In r (rs_rels y) /\ x = rel_of r.
  Proof.
    intros x. unfold xrels. rewrite in_flat_map. split.
    - intros (s & Is & Ix). destruct (in_prog _ Is) as (y & Iy & ->). cbn in Ix. apply in_map_iff in Ix. destruct Ix as (r & <- & Ir).
      apply nodup_In in Ir. eauto.
    - intros (y & r & Iy & Ir & ->). exists (xof y). split; [apply prog_in, Iy|]. cbn. apply in_map, nodup_In, Ir.
  Qed.
  Lemma nodup_names : NoDup (map (@x_name IT) (xrels prog)).
  Proof.
    assert (Q : map (@x_name IT) (xrels prog) = flat_map (fun y => nodup Nat.eq_dec (rs_rels y)) xs).
    { unfold xrels, xprog_of. clear. induction xs as [|y l IH]; cbn; auto. rewrite map_app, IH. f_equal. apply (names_of y). }
    rewrite Q. clear Q.
    assert (A : forall a b, xs = a ++ b -> NoDup (flat_map (fun y => nodup Nat.eq_dec (rs_rels y)) a)).
    { induction a as [|y a IH] using rev_ind; intros b Eb; [constructor|]. rewrite flat_map_app. cbn. rewrite app_nil_r. rewrite <- app_assoc in Eb.
      apply nodup_join; [eapply IH; exact Eb|apply NoDup_nodup|]. intros r H1 H2. apply nodup_In in H2. apply (proj1 (STR _ _ _ Eb) r H2).
      apply in_flat_map in H1. destruct H1 as (y' & Iy & H1). apply nodup_In in H1. apply in_flat_map. eauto. }
    apply (A xs []). rewrite app_nil_r. reflexivity.
  Qed.
  Lemma imm_of : forall y r, In y xs -> In r (rs_rels y) -> ximm prog r = x_imm (rel_of r).
  Proof.
    intros y r Iy Ir. unfold ximm. rewrite <- (rel_name r) at 1. rewrite (@xfind_in IT prog (rel_of r) nodup_names); [reflexivity|]. apply xrels_in. eauto.
  Qed.
  Lemma imm_spec : forall r, x_imm (rel_of r) = true -> In r (preds ss) /\ forall q, In q (p_rules Pr) -> r_pred q <> r.
  Proof.
    intros r. unfold RunSem.rel_of. destruct (find (fun b => Nat.eqb (b_pred b) r) (p_rels Pr)) as [b|] eqn:F; [|discriminate]. apply find_some in F.
    destruct F as [Ib Eb]. apply Nat.eqb_eq in Eb. cbn. intros H. apply andb_prop in H. destruct H as [_ H]. split.
    - apply DC. rewrite <- Eb. apply in_map, Ib.
    - intros q Iq Eq. apply negb_true_iff in H. rewrite <- not_true_iff_false in H. apply H. apply existsb_exists. exists q. split; auto.
      apply Nat.eqb_eq. congruence.
  Qed.
  Lemma target : forall y n d, In y xs -> In (n, d) (rs_updates y) -> In n (rs_rels y) /\ x_imm (rel_of n) = false.
  Proof.
    intros y n d Iy Iu. pose proof Iy as Iy'. apply in_split in Iy'. destruct Iy' as (a & b & Ey). destruct (proj2 (STR _ _ _ Ey) n d Iu) as [T _]. split; auto.
    destruct (x_imm (rel_of n)) eqn:Q; auto. apply imm_spec in Q. destruct Q as [Q1 Q2]. destruct (upd_good _ _ _ Iy Iu) as (_ & _ & [(_ & _ & r & Ir & Er)|[H _]]).
    - exfalso. exact (Q2 r Ir Er).
    - exfalso. exact (H Q1).
  Qed.
  Lemma computed_spec : forall y r, In y xs -> (computed prog (xof y) r <-> In r (rs_rels y) /\ x_imm (rel_of r) = false).
  Proof.
    intros y r Iy. unfold computed. rewrite in_names. split; intros [H1 H2]; split; auto; [rewrite <- (imm_of _ _ Iy H1)|rewrite (imm_of _ _ Iy H1)]; auto.
  Qed.
  Lemma nrefs_before : forall y n d r, In y xs -> In (n, d) (rs_updates y) -> In r (nrefs d) -> ~ In r (rs_rels y).
  Proof.
    intros y n d r Iy Iu Ir K. apply in_split in Iy. destruct Iy as (a & b & Ey). destruct (proj2 (STR _ _ _ Ey) n d Iu) as (_ & _ & H).
    exact (proj1 (STR _ _ _ Ey) r K (H r Ir)).
  Qed.

  (** *** The conditions of C50 *)
  Theorem lowered_ok : xprog_ok E Sh prog.
  Proof.
    constructor.
    - exact nodup_names.
    - intros s [n d] Is Iu. destruct (in_prog _ Is) as (y & Iy & ->). cbn [fst]. apply in_names. exact (proj1 (target _ _ _ Iy Iu)).
    - intros s col Is HC HR _ HS [n d] Iu. destruct (in_prog _ Is) as (y & Iy & ->). cbn [fst snd xs_updates xstratum_of] in *.
      destruct (upd_good _ _ _ Iy Iu) as (FR & WF & SHAPE).
      assert (NR : forall r, In r (nrefs d) -> col r <> None).
      { intros r Ir. apply (HR (n, d) r Iu); [apply refs_collect; auto|]. intros [K _]. apply in_names in K. exact (nrefs_before _ _ _ _ Iy Iu Ir K). }
      split; [|split].
      + apply WF; auto.
      + apply frag_tag_wf; auto; [intros a K; exact K|]. eapply upd_minus; eauto.
      + intros I e HI D. split.
        * intros Hn. destruct SHAPE as [(_ & Y & _)|[K _]]; [|contradiction]. eapply ylen_den; eauto.
        * intros y' d' e' Iy' Iu' Hn. destruct SHAPE as [(K & _)|[_ (d0 & e0 & Ed)]]; [contradiction|].
          rewrite (@upd_unique B C N AG Pr' ss sig order xs ORD NA TP LOW y y' n d _ Iy Iy' Hn Iu Iu') in D. eapply project_den, D.
    - intros x Ix. apply xrels_in in Ix. destruct Ix as (y & r & _ & _ & ->). unfold RunSem.rel_of. destruct (find _ _); cbn; [apply SCH|discriminate].
  Qed.

  (** *** The model that is computed *)
  Variables (Bs : nat -> elem -> Prop) (Mc : nat -> option (list elem)).
  Hypothesis SX : forall x, In x (xrels prog) -> x_imm x = true -> exists c, Mc (x_name x) = Some c /\ forall e, In e c <-> Bs (x_name x) e.
  Hypothesis BF : forall r t, (exists g, Bs r (t, g)) <-> fact_rels Pr' r t.
  Definition holds (r : nat) (t : tuple) : Prop := exists c g, Mc r = Some c /\ In (t, g) c.
  Lemma imm_holds : forall y r t, In y xs -> In r (rs_rels y) -> x_imm (rel_of r) = true -> (holds r t <-> fact_rels Pr' r t).
  Proof.
    intros y r t Iy Ir Q. destruct (SX (rel_of r)) as (c & M1 & M2); auto; [apply xrels_in; eauto|]. rewrite rel_name in *.
    rewrite <- BF. split.
    - intros (c' & g & E1 & I). exists g. apply M2. rewrite M1 in E1. injection E1 as ->. exact I.
    - intros (g & H). exists c, g. split; auto. apply M2, H.
  Qed.
  Section Stratum.
    Variable y : rstratum.
    Hypothesis Iy : In y xs.
    Notation s := (xof y).
    Hypothesis RDS : forall u r, In u (rs_updates y) -> In r (collect (snd u)) -> ~ computed prog s r -> Mc r <> None.
    Notation col := (outside prog s Mc).
    Notation Der := (derivable col (PropsExec.rules_of E col s) (facts_in prog s Bs)).
    Lemma rules_in : forall n d', In (n, d') (PropsExec.rules_of E col s) -> exists d, In (n, d) (rs_updates y) /\ d' = low E col d.
    Proof. intros n d' H. unfold PropsExec.rules_of in H. apply in_map_iff in H. destruct H as ([m d] & K & I). injection K as <- <-. eauto. Qed.
    Lemma mc_reads : forall n d r, In (n, d) (rs_updates y) -> In r (collect d) -> ~ computed prog s r -> Mc r <> None.
    Proof. intros n d r Iu Ir K. exact (RDS (n, d) Iu Ir K). Qed.
    Lemma col_refs : forall n d r, In (n, d) (rs_updates y) -> In r (collect d) -> ~ computed prog s r -> col r <> None.
    Proof. intros n d r Iu Ir K. rewrite outside_other by exact K. exact (@mc_reads _ _ _ Iu Ir K). Qed.
    Lemma rules_wf : forall n d', In (n, d') (PropsExec.rules_of E col s) -> wf col Sh false d'.
    Proof.
      intros n d' H. destruct (rules_in _ _ H) as (d & Iu & ->). destruct (upd_good _ _ _ Iy Iu) as (_ & WF & _). apply WF; auto.
      intros r Ir. eapply col_refs; eauto; [apply refs_collect; auto|]. intros [K _]. apply in_names in K. exact (nrefs_before _ _ _ _ Iy Iu Ir K).
    Qed.
    Lemma other_reads : forall (I : nat -> elem -> Prop) r t, ~ computed prog s r -> Mc r <> None -> (holds r t <-> read col I r t).
    Proof.
      intros I r t K M. unfold holds, read. rewrite outside_other by exact K. destruct (Mc r) as [c|]; [|congruence]. split.
      - intros (c' & g & E1 & H). injection E1 as <-. eauto.
      - intros (g & H). eauto.
    Qed.
    Lemma neg_reads : forall (I : nat -> elem -> Prop) n d r t, In (n, d) (rs_updates y) -> In r (nrefs d) -> (holds r t <-> read col I r t).
    Proof.
      intros I n d r t Iu Ir. assert (K : ~ computed prog s r) by (intros [K _]; apply in_names in K; exact (nrefs_before _ _ _ _ Iy Iu Ir K)).
      apply other_reads; auto. apply (@mc_reads _ _ _ Iu); auto. apply refs_collect; auto.
    Qed.
    Lemma der_least : forall (Xr : rels), StrataSem.closed (b_env B) (b_fp B) AG (fact_rels Pr') y holds Xr -> forall r e, Der r e -> Xr r (fst e).
    Proof.
      intros Xr CL r e (n & H). revert r e H. induction n as [|n IH]; intros r [t g] H; cbn [stage fst] in *.
      - destruct H as [[H _] Hb]. apply in_names in H. apply (cl_fact CL r t H). apply BF. eauto.
      - destruct H as [H|(d' & I & D)]; [exact (IH _ _ H)|]. destruct (rules_in _ _ I) as (d & Iu & ->). apply (cl_upd CL r d t Iu). unfold low in D.
        rewrite <- (ENV (map (fun r0 => (r0, col r0)) (collect d))). destruct (upd_good _ _ _ Iy Iu) as (FR & _).
        eapply den_rden; [exact FR|eapply upd_minus; eauto| | |exact D].
        + intros q Iq u. eapply neg_reads; eauto.
        + intros q Iq u (g' & R). destruct (computedb prog s q) eqn:Cq.
          * apply computedb_iff in Cq. rewrite (outside_none _ Cq) in R. exact (IH _ _ R).
          * assert (Nq : ~ computed prog s q) by (intros K; apply computedb_iff in K; congruence).
            assert (HQ : holds q u).
            { eapply other_reads; [exact Nq| |exists g'; exact R]. apply (@mc_reads _ _ _ Iu); auto. apply refs_collect; auto. }
            destruct (in_dec Nat.eq_dec q (rs_rels y)) as [Jq|Jq]; [|apply (cl_out CL q Jq), HQ].
            apply (cl_fact CL q u Jq). apply (imm_holds _ _ u Iy Jq); auto. destruct (x_imm (rel_of q)) eqn:Qi; auto.
            exfalso. apply Nq. apply computed_spec; auto.
    Qed.
    Definition least (r : nat) (t : tuple) : Prop := if computedb prog s r then exists g, Der r (t, g) else holds r t.
    Lemma least_closed : StrataSem.closed (b_env B) (b_fp B) AG (fact_rels Pr') y holds least.
    Proof.
      constructor.
      - intros r Nr t. unfold least. destruct (computedb prog s r) eqn:Cr; [|tauto]. apply computedb_iff in Cr. destruct Cr as [K _]. apply in_names in K. contradiction.
      - intros r t Ir F. unfold least. destruct (computedb prog s r) eqn:Cr.
        + apply BF in F. destruct F as (g & F). exists g, 0. cbn. split; auto. apply computedb_iff, Cr.
        + apply (imm_holds _ _ t Iy Ir); auto. destruct (x_imm (rel_of r)) eqn:Qi; auto. exfalso.
          assert (K : computed prog s r) by (apply computed_spec; auto). apply computedb_iff in K. congruence.
      - intros r d t Iu R. assert (K : computed prog s r) by (apply computed_spec; auto; exact (target _ _ _ Iy Iu)).
        unfold least. rewrite (proj2 (computedb_iff _ _ _) K). destruct (upd_good _ _ _ Iy Iu) as (FR & _).
        rewrite <- (ENV (map (fun r0 => (r0, col r0)) (collect d))) in R.
        destruct (@rden_den P (c_lenv E (map (fun r0 => (r0, col r0)) (collect d))) (b_fp B) (AG holds) col Der holds least d FR) with (t := t) as (g & D); auto.
        + intros q Iq u. eapply neg_reads; eauto.
        + intros q Iq u. unfold least, read. destruct (computedb prog s q) eqn:Cq.
          * apply computedb_iff in Cq. rewrite (outside_none _ Cq). auto.
          * assert (Nq : ~ computed prog s q) by (intros H; apply computedb_iff in H; congruence). apply other_reads; auto.
            apply (@mc_reads _ _ _ Iu); auto. apply refs_collect; auto.
        + exists g. refine (proj2 (@derivable_closed P col (PropsExec.rules_of E col s) (facts_in prog s Bs) Sh rules_wf) r _ _ _ D).
          unfold PropsExec.rules_of. apply in_map_iff. exists (r, d). auto.
    Qed.
    (** If the stratum holds what is derivable, it is a least closed set. *)
    Lemma stratum_least : (forall r, computed prog s r -> exists c, Mc r = Some c /\ forall t, (exists g, In (t, g) c) <-> exists g, Der r (t, g)) ->
      forall r t, In r (rs_rels y) -> (holds r t <-> forall X0, StrataSem.closed (b_env B) (b_fp B) AG (fact_rels Pr') y holds X0 -> X0 r t).
    Proof.
      intros SI r t Ir. destruct (x_imm (rel_of r)) eqn:Q.
      - rewrite (imm_holds _ _ t Iy Ir Q). split.
        + intros F X0 CL. apply (cl_fact CL r t Ir F).
        + intros H. specialize (H (fun q u => (q = r -> fact_rels Pr' r u) /\ (~ In q (rs_rels y) -> holds q u))). apply H; auto. constructor.
          * intros q Nq u. split; [tauto|]. intros K. split; auto. intros ->. contradiction.
          * intros q u Iq F. split; [intros ->; auto|contradiction].
          * intros q d u Iu _. destruct (target _ _ _ Iy Iu) as [K1 K2]. split; [intros ->; congruence|contradiction].
      - assert (K : computed prog s r) by (apply computed_spec; auto). destruct (SI r K) as (c & Mr & Hc).
        assert (HD : holds r t <-> exists g, Der r (t, g)).
        { rewrite <- Hc. unfold holds. split; [intros (c' & g & E1 & I); rewrite Mr in E1; injection E1 as <-; eauto|intros (g & I); eauto]. }
        rewrite HD. split.
        + intros (g & D) X0 CL. exact (der_least CL D).
        + intros H. specialize (H _ least_closed). unfold least in H. rewrite (proj2 (computedb_iff _ _ _) K) in H. exact H.
    Qed.
  End Stratum.
  Theorem computes_model : strat_model E prog Bs Mc -> rmodel (b_env B) (b_fp B) AG (fact_rels Pr') xs holds.
  Proof.
    intros SM y r t Iy Ir. apply stratum_least; auto.
    - intros u q Iu Iq K. exact (@sm_reads _ _ _ _ _ _ _ SM (xof y) u q (prog_in _ Iy) Iu Iq K).
    - intros q K. exact (sm_int SM (prog_in _ Iy) K).
  Qed.
End Run.

(** What is known once the program is compiled. *)
Lemma compiled : forall (P : Prov) (IT X : Type) (E : rtenv P IT X) C N B Pr extra sig sigma order kosaraju
    (tag_of : fact -> option IT) is_adt sched_of (c : ctx P IT X),
  (forall ps r l, Permutation (order ps r l) l) -> (forall g, wf_graph g -> scc_contract g (kosaraju g)) ->
  names_ok C -> names_apart C (fun p => In p (map b_pred (p_rels Pr))) ->
  (forall r, ce_iv C r = false) -> (forall b, In b (p_rels Pr) -> ce_shape C (b_pred b) = SPlain) ->
  typed_source C N sig (with_facts Pr extra) -> PropsUnused.stratified (with_facts Pr extra) sigma ->
  rt_ok E -> (forall m, l_env (c_lenv E m) = b_env B) ->
  (forall f, In f (p_facts Pr) -> c_intern E (vtup (f_args f)) = Some (vtup (f_args f))) ->
  (forall p, sched_of p <> Some (Beam 0)) ->
  (forall a b, pminus P a b = None) \/ (forall r a, In r (p_rules Pr) -> ~ In (LNeg a) (r_body r)) ->
  (forall r t, stored E (e_get (x_edb c) r) t <-> exists f, In f extra /\ r = f_pred f /\ t = vtup (f_args f)) ->
  exists g ss xs J0, dependency_graph Pr = Some g /\ stratify g (kosaraju g) = Some (inr ss) /\
    lower_strata C N (fun _ => false) order (p_rules Pr) ss = Some (xs, []) /\ rmodel (b_env B) (b_fp B) (fun _ => no_ag) (fact_rels (with_facts Pr extra)) xs J0 /\
    (forall J', rmodel (b_env B) (b_fp B) (fun _ => no_ag) (fact_rels (with_facts Pr extra)) xs J' ->
       forall M, stable B (with_facts Pr extra) M <-> forall p vs, M p vs <-> decode C ss J' p vs) /\
    typed_program C N sig (with_facts Pr extra) ss /\ (forall q, In q (preds ss) <-> In q (map b_pred (p_rels Pr))) /\ names_apart C (inp ss) /\
    xprog_ok E (shapes ss sig xs) (xprog_of tag_of is_adt sched_of Pr xs) /\
    (forall q, In q (map b_pred (p_rels Pr)) -> In (rel_of tag_of is_adt sched_of Pr q) (xrels (xprog_of tag_of is_adt sched_of Pr xs))) /\
    (forall r t, stored E (e_get (x_edb c) r) t \/ prog_fact E (xprog_of tag_of is_adt sched_of Pr xs) r t <-> fact_rels (with_facts Pr extra) r t) /\
    (forall r t, stored E (e_get (x_edb c) r) t \/ prog_fact E (xprog_of tag_of is_adt sched_of Pr xs) r t -> shapes ss sig xs r t).
Proof.
  intros P IT X E C N B Pr extra sig sigma order kosaraju tag_of is_adt sched_of c ORD SCC NM NA IV PL TS ST RT ENV INT SCH NEG STO.
  assert (AL : ag_local (fun _ : rels => no_ag)) by (intros J J' agg p grp t _ _; tauto).
  destruct (@C54_compile C N B (fun _ => no_ag) (with_facts Pr extra) sig (fun _ => false) order kosaraju ORD SCC NM TS sigma ST NA AL)
    as (g & ss & xs & J0 & G & S & LOW & MJ0 & UJ).
  pose proof (@ts_program C N (with_facts Pr extra) sig kosaraju SCC TS g ss G S) as TP.
  assert (DC : forall q, In q (preds ss) <-> In q (map b_pred (p_rels Pr))).
  { destruct (dependency_graph_spec _ g G) as (W & _ & _). destruct (C24_program _ _ _ _ G (SCC _ W) S) as [[_ DC] _].
    intros q. cbn [p_rels with_facts] in DC. rewrite <- DC. unfold preds. rewrite flat_map_concat_map. tauto. }
  assert (NA' : names_apart C (inp ss)).
  { destruct NA as [A1 A2 A3 A4 A5 A6 A7 A8 A9]. constructor; auto; unfold inp; intros; intros K; apply DC in K; [eapply A7|eapply A8|eapply A9]; eauto. }
  pose proof (@lowered_ok P IT X E C N B (fun _ => no_ag) Pr extra ss sig order xs tag_of is_adt sched_of ORD NM NA' IV TP DC LOW ENV SCH NEG) as XOK.
  assert (PP : forall q, In q (map b_pred (p_rels Pr)) -> In (rel_of tag_of is_adt sched_of Pr q) (xrels (xprog_of tag_of is_adt sched_of Pr xs))).
  { intros q Hq. apply DC in Hq. destruct (@pred_placed B C N (fun _ => no_ag) (with_facts Pr extra) ss sig order xs ORD TP LOW q Hq) as (y & Iy & Ir).
    apply xrels_in. eauto. }
  assert (FACTS : forall r t, stored E (e_get (x_edb c) r) t \/ prog_fact E (xprog_of tag_of is_adt sched_of Pr xs) r t <-> fact_rels (with_facts Pr extra) r t).
  { intros r t. unfold fact_rels. cbn [p_facts with_facts]. rewrite STO. split.
    - intros [(f & If & -> & ->)|(x & o & u & Ix & Ex & Iu & Et)].
      + exists f. rewrite in_app_iff. auto.
      + apply xrels_in in Ix. destruct Ix as (y & q & Iy & Iq & ->). rewrite rel_name in Ex. subst q. unfold rel_of in Iu.
        destruct (find (fun b => Nat.eqb (b_pred b) r) (p_rels Pr)) as [b|] eqn:F; [|destruct Iu]. apply find_some in F. destruct F as [_ F].
        apply Nat.eqb_eq in F. cbn in Iu. apply in_map_iff in Iu. destruct Iu as (f & K & If). apply filter_In in If. destruct If as [If Ef]. apply Nat.eqb_eq in Ef.
        injection K as _ <-. rewrite (INT f If) in Et. injection Et as <-. exists f. rewrite in_app_iff. split; auto. split; auto. congruence.
    - intros (f & If & -> & ->). rewrite in_app_iff in If. destruct If as [If|If]; [right|left; eauto].
      destruct (tp_facts TP f) as (Hf & _); [cbn; rewrite in_app_iff; auto|]. apply DC in Hf. exists (rel_of tag_of is_adt sched_of Pr (f_pred f)), (tag_of f), (vtup (f_args f)).
      split; [apply PP, Hf|]. split; [apply rel_name|]. split; [|apply INT, If]. unfold rel_of.
      destruct (find (fun b => Nat.eqb (b_pred b) (f_pred f)) (p_rels Pr)) as [b|] eqn:F.
      + apply find_some in F. destruct F as [_ F]. apply Nat.eqb_eq in F. cbn. apply in_map_iff. exists f. split; auto. apply filter_In. split; auto.
        apply Nat.eqb_eq. congruence.
      + exfalso. apply in_map_iff in Hf. destruct Hf as (b & Eb & Ib). apply (find_none _ _ F) in Ib. cbn in Ib. apply Nat.eqb_neq in Ib. congruence. }
  exists g, ss, xs, J0. split; [exact G|]. split; [exact S|]. split; [exact LOW|]. split; [exact MJ0|]. split; [exact UJ|]. split; [exact TP|].
  split; [exact DC|]. split; [exact NA'|]. split; [exact XOK|]. split; [exact PP|]. split; [exact FACTS|].
intros r t H. apply FACTS in H. destruct H as (f & If & -> & ->). destruct (tp_facts TP f If) as (H1 & _ & H3). split; [|intros ? ? ? ? ? K; contradiction].
    intros _. eexists. split; [reflexivity|]. rewrite map_length. eapply F2_len, H3.
Qed.
(** ** Compiling and running a program
    The program is typed and stratified together with the facts that the context
    stores; no rule negates, or the provenance drops facts whose negation holds.
    The graph is built, the strata are found, the rules are lowered; and if the run
    of the result ends, every output relation holds exactly the facts of the stable
    model.  Left out: aggregations, foreign code, new entities, disjunctive heads,
    in-place ordering. *)
Theorem C56_run_partial : forall (P : Prov) (IT X : Type) (E : rtenv P IT X) C N B Pr extra sig sigma order kosaraju
    (tag_of : fact -> option IT) is_adt sched_of (c : ctx P IT X),
  (forall ps r l, Permutation (order ps r l) l) -> (forall g, wf_graph g -> scc_contract g (kosaraju g)) ->
  names_ok C -> names_apart C (fun p => In p (map b_pred (p_rels Pr))) ->
  (forall r, ce_iv C r = false) -> (forall b, In b (p_rels Pr) -> ce_shape C (b_pred b) = SPlain) ->
  typed_source C N sig (with_facts Pr extra) -> PropsUnused.stratified (with_facts Pr extra) sigma ->
  rt_ok E -> (forall m, l_env (c_lenv E m) = b_env B) ->
  (forall f, In f (p_facts Pr) -> c_intern E (vtup (f_args f)) = Some (vtup (f_args f))) ->
  (forall p, sched_of p <> Some (Beam 0)) ->
  (forall a b, pminus P a b = None) \/ (forall r a, In r (p_rules Pr) -> ~ In (LNeg a) (r_body r)) ->
  (forall r t, stored E (e_get (x_edb c) r) t <-> exists f, In f extra /\ r = f_pred f /\ t = vtup (f_args f)) ->
  exists g ss xs, dependency_graph Pr = Some g /\ stratify g (kosaraju g) = Some (inr ss) /\
    lower_strata C N (fun _ => false) order (p_rules Pr) ss = Some (xs, []) /\ (exists M, stable B (with_facts Pr extra) M) /\
    forall inc fuel c', execute E inc fuel (Some (xprog_of tag_of is_adt sched_of Pr xs)) c = Some c' ->
      forall M, stable B (with_facts Pr extra) M -> forall p, In p (p_outputs Pr) -> In p (map b_pred (p_rels Pr)) ->
      exists col, aget p (x_idb c') = Some col /\
        forall t, (exists g, In (t, g) col) <-> exists vs, t = vtup vs /\ M p vs.
Proof.
  intros P IT X E C N B Pr extra sig sigma order kosaraju tag_of is_adt sched_of c ORD SCC NM NA IV PL TS ST RT ENV INT SCH NEG STO.
  destruct (@compiled P IT X E C N B Pr extra sig sigma order kosaraju tag_of is_adt sched_of c ORD SCC NM NA IV PL TS ST RT ENV INT SCH NEG STO)
    as (g & ss & xs & J0 & G & S & LOW & MJ0 & UJ & TP & DC & NA' & XOK & PP & FACTS & SHP).
  exists g, ss, xs. split; [exact G|]. split; [exact S|]. split; [exact LOW|].
  split; [exists (decode C ss J0); apply (UJ J0 MJ0); intros; apply iff_refl|]. intros inc fuel c' EX M SM p Op Dp.
  destruct (@C50_stratified_model P IT X E inc fuel _ (shapes ss sig xs) c c' RT XOK) as (Bs & Mc & MOD & BF & OUT); auto.
  assert (BF' : forall r t, (exists g, Bs r (t, g)) <-> fact_rels (with_facts Pr extra) r t) by (intros r t; rewrite BF; apply FACTS).
  pose proof (@computes_model P IT X E C N B (fun _ => no_ag) Pr extra ss sig order xs tag_of is_adt sched_of ORD NM NA' IV TP DC LOW ENV NEG Bs Mc (sm_ext MOD) BF' MOD) as RM.
  pose proof (proj1 (UJ _ RM M) SM) as HM.
  assert (Ip : In p (preds ss)) by (apply DC, Dp).
  assert (LAID := @C54_laid_partial C N B (fun _ => no_ag) (with_facts Pr extra) ss (typed_fact sig) (fun _ => false) order xs (holds Mc) ORD NM NA'
    (@typed_program_ok C N B (fun _ => no_ag) (with_facts Pr extra) ss sig order TP) LOW RM p).
  assert (PS : ce_shape C p = SPlain) by (apply in_map_iff in Dp; destruct Dp as (b & <- & Ib); auto).
  assert (EQ : aget p (x_idb c') = Mc p).
  { rewrite <- (rel_name Pr tag_of is_adt sched_of p) at 1. rewrite OUT; [rewrite rel_name; reflexivity|apply PP, Dp|].
    unfold rel_of. destruct (find (fun b => Nat.eqb (b_pred b) p) (p_rels Pr)) as [b|] eqn:F.
    - apply find_some in F. destruct F as [_ F]. apply Nat.eqb_eq in F. cbn. apply negb_false_iff. rewrite F. apply memb_In, Op.
    - exfalso. apply in_map_iff in Dp. destruct Dp as (b & Eb & Ib). apply (find_none _ _ F) in Ib. cbn in Ib. apply Nat.eqb_neq in Ib. congruence. }
  destruct (Mc p) as [col|] eqn:Mp.
  - exists col. split; [exact EQ|]. intros t. split.
    + intros (g0 & I). assert (H : holds Mc p t) by (exists col, g0; auto). destruct (LAID t Ip H) as (vs & ->). rewrite PS in *. exists vs. split; auto.
      apply HM. split; auto. rewrite PS. exact H.
    + intros (vs & -> & H). apply HM in H. destruct H as [_ H]. rewrite PS in H. destruct H as (col' & g0 & K & I). rewrite Mp in K. injection K as <-. eauto.
  - exfalso. destruct (x_imm (rel_of tag_of is_adt sched_of Pr p)) eqn:Q.
    + destruct (sm_ext MOD _ (PP p Dp) Q) as (col & K & _). rewrite rel_name in K. congruence.
    + destruct (@pred_placed B C N (fun _ => no_ag) (with_facts Pr extra) ss sig order xs ORD TP LOW p Ip) as (y & Iy & Ir).
      assert (K : computed (xprog_of tag_of is_adt sched_of Pr xs) (xstratum_of tag_of is_adt sched_of Pr y) p).
      { eapply computed_spec with (extra := extra) (order := order) (ss := ss) (N := N) (C := C) (sig := sig); eauto; exact (fun _ => no_ag). }
      destruct (sm_int MOD (prog_in Pr xs tag_of is_adt sched_of y Iy) K) as (col & K' & _). congruence.
Qed.
Print Assumptions C56_run_partial.

(** ** Example: reachability, with a fact in the context
    The program of PropsCompile.v, whose last fact [node(3)] the context stores. *)
Definition is_swap (g : gt nat) : bool := match g with GT [GV 1; GV 0] => true | _ => false end.
Lemma is_swap_eq : forall g, is_swap g = true -> g = GT [GV 1; GV 0].
Proof.
  intros g H. destruct g as [n|[|[[|[|n]]|k] [|[[|m]|k'] [|x l]]]]; try discriminate H; reflexivity.
Qed.
Definition C3 : cenv := mkCenv (fun i => 100 + 3 * i) (fun i => 101 + 3 * i)
  (fun p g => 102 + 3 * if is_swap g then 2 * p else S (2 * proj1_sig gcode p g))
  (fun i _ => 100 + i) (fun _ => false) (fun p => pe_bounded N1 p) (fun _ => SPlain) (fun _ => false) (fun _ => false)
  (fun l => l) (ce_sort C1).
Lemma C3_names : names_ok C3.
Proof.
  constructor; cbn.
  - intros. lia.
  - apply C1_names.
  - intros l. apply Permutation_refl.
Qed.
Lemma C3_apart : names_apart C3 (fun p => p < 100).
Proof.
  constructor; cbn -[Nat.mul]; intros; try lia.
  destruct (is_swap g) eqn:G, (is_swap h) eqn:H'; try lia.
  - apply is_swap_eq in G. apply is_swap_eq in H'. subst. split; auto. lia.
  - apply (proj2_sig gcode). lia.
Qed.
Definition yE (P : Prov) : rtenv P (ptag P) nat :=
  mkRt (fun t => Some t) (fun x o => (match o with Some g => g | None => pone P end, x)) false None false LFP
    (fun _ => @mkLenv P env_none (fun _ _ => None) (fun _ _ => []) (fun _ _ => None) (fun _ _ => []) (fun _ _ _ => [])).
Definition C56_prog : program := mkProg (p_rels C54_prog) [3; 4; 8] (firstn 4 C54_facts) C54_rules g1.
Definition C56_extra : list fact := [mkFact 2 [I32 3]].
Definition C56_ctx (P : Prov) : ctx P (ptag P) nat := mkCtx (add_dynamic 2 [(None, vtup [I32 3])] []) false [] [] 0.
Definition C56_lowered : list rstratum :=
  match dependency_graph C56_prog with
  | Some g => match stratify g (sccs_of g) with
              | Some (inr ss) => match lower_strata C3 N1 (fun _ => false) same_order C54_rules ss with Some (xs, _) => xs | None => [] end
              | _ => []
              end
  | None => []
  end.
Definition C56_x (P : Prov) : xprog (ptag P) := xprog_of (fun _ => None) (fun _ => false) (fun _ => None) C56_prog C56_lowered.
Definition pairs {A} (l : list (tuple * A)) : list tuple := map fst l.
Lemma C56_source_ex : typed_source C3 N1 C54_sig (with_facts C56_prog C56_extra).
Proof.
  constructor.
  - intros r Ir. cbn in Ir. repeat (destruct Ir as [<-|Ir]); try (destruct Ir; fail); eexists; eexists; (split; [reflexivity|]).
    + typed_ex; lims.
    + typed_ex; lims.
    + typed_ex; lims.
    + match goal with |- typed_rule _ _ _ _ ?b => assert (L2 : limited N1 b 2) end.
      { eapply lim; [right; left; reflexivity|reflexivity|left; reflexivity|]. intros w J. each J; lims. }
      typed_ex; try exact L2; try lims. apply us_head. cbn. auto.
  - intros f If. cbn in If. repeat (destruct If as [<-|If]); try (destruct If; fail); (split; [cbn; tauto|split; [reflexivity|repeat constructor]]).
  - intros r p Ir Ip. cbn in Ir. repeat (destruct Ir as [<-|Ir]); try (destruct Ir; fail); cbn in Ip |- *; lia.
  - intros b Ib. cbn in Ib. repeat (destruct Ib as [<-|Ib]); try (destruct Ib; fail); reflexivity.
  - reflexivity.
  - reflexivity.
Qed.
Lemma C56_stratified_ex : PropsUnused.stratified (with_facts C56_prog C56_extra) C54_level.
Proof.
  intros r Ir. split.
  - intros q b R. cbn in Ir. repeat (destruct Ir as [<-|Ir]); try (destruct Ir; fail);
      destruct R as [a I F|a I F|d I|d a I G]; no_more I; try injection I as <-; cbn; split; intros; try discriminate; lia.
  - intros f If. cbn in Ir. repeat (destruct Ir as [<-|Ir]); try (destruct Ir; fail); cbn in If; destruct If.
Qed.
Lemma C56_stored_ex : forall (P : Prov) r t, stored (yE P) (e_get (x_edb (C56_ctx P)) r) t <-> exists f, In f C56_extra /\ r = f_pred f /\ t = vtup (f_args f).
Proof.
  intros P r t. unfold C56_ctx, add_dynamic, stored. cbn [x_edb]. rewrite e_get_aset. destruct (Nat.eqb_spec r 2) as [->|N].
  - cbn. split.
    + intros [(g & [])|(o & u & [K|[]] & J)]. injection K as <- <-. injection J as <-. eexists. split; [left; reflexivity|]. auto.
    + intros (f & [<-|[]] & _ & ->). right. exists None, (vtup [I32 3]). auto.
  - cbn. split; [intros [(g & [])|(o & u & [] & _)]|]. intros (f & [<-|[]] & K & _). contradiction.
Qed.
(** All conditions of C56 are met with unit tags; the run ends and the output
    relations hold paths, pairs without one, and distances. *)
Example C56_ex : exists g ss c', dependency_graph C56_prog = Some g /\ stratify g (sccs_of g) = Some (inr ss) /\
  lower_strata C3 N1 (fun _ => false) same_order C54_rules ss = Some (C56_lowered, []) /\
  execute (yE unit_prov) false 20 (Some (C56_x unit_prov)) (C56_ctx unit_prov) = Some c' /\
  (forall M, stable benv_none (with_facts C56_prog C56_extra) M -> forall p, In p [3; 4; 8] ->
    exists col, aget p (x_idb c') = Some col /\ forall t, (exists g, In (t, g) col) <-> exists vs, t = vtup vs /\ M p vs) /\
  option_map pairs (aget 3 (x_idb c')) = Some [vtup [I32 1; I32 2]; vtup [I32 1; I32 3]; vtup [I32 2; I32 3]] /\
  option_map pairs (aget 8 (x_idb c')) = Some [vtup [I32 1; I32 2]] /\
  option_map (@length _) (aget 4 (x_idb c')) = Some 6.
Proof.
  destruct (@C56_run_partial unit_prov unit nat (yE unit_prov) C3 N1 benv_none C56_prog C56_extra C54_sig C54_level same_order sccs_of
    (fun _ => None) (fun _ => false) (fun _ => None) (C56_ctx unit_prov)) as (g & ss & xs & G & S & LOW & _ & RUN).
  - intros ps r l. apply id_order_ok.
  - apply sccs_of_contract.
  - exact C3_names.
  - destruct C3_apart as [A1 A2 A3 A4 A5 A6 A7 A8 A9]. constructor; auto; intros; intros K; [apply (A7 i)|apply (A8 i)|apply (A9 p g)]; revert K; cbn -[Nat.mul]; lia.
  - reflexivity.
  - reflexivity.
  - exact C56_source_ex.
  - exact C56_stratified_ex.
  - split; cbn; congruence.
  - reflexivity.
  - reflexivity.
  - intros p. discriminate.
  - left. reflexivity.
  - apply C56_stored_ex.
  - assert (EX : C56_lowered = xs).
    { unfold C56_lowered. rewrite G, S. change (p_rules C56_prog) with C54_rules in LOW. rewrite LOW. reflexivity. }
    exists g, ss. eexists. split; [exact G|]. split; [exact S|]. split; [rewrite EX; exact LOW|]. split; [vm_compute; reflexivity|]. split.
    + intros M SM p Ip. eapply (RUN false 20); eauto.
      * rewrite <- EX. vm_compute. reflexivity.
      * cbn in Ip |- *. lia.
    + vm_compute. repeat split.
Qed.
(** With a provenance that has differences, as booleans have, a tuple stays in the
    relation when its negation holds: the pair (1, 2) is listed as unreachable, with
    the tag false. *)
Theorem C56_negation_refuted : exists c' : ctx bool_prov bool nat,
  execute (yE bool_prov) false 20 (Some (C56_x bool_prov)) (C56_ctx bool_prov) = Some c' /\
  (exists col, aget 4 (x_idb c') = Some col /\ In (vtup [I32 1; I32 2], false) col) /\
  forall M, stable benv_none (with_facts C56_prog C56_extra) M -> ~ M 4 [I32 1; I32 2].
Proof.
  eexists. split; [vm_compute; reflexivity|]. split; [eexists; split; [vm_compute; reflexivity|cbn; tauto]|].
  intros M SM K. destruct C56_ex as (g & ss & c' & _ & _ & _ & EX & ST & _). vm_compute in EX. injection EX as <-.
  destruct (ST M SM 4) as (col & A & H); [cbn; tauto|]. vm_compute in A. injection A as <-.
  destruct (proj2 (H (vtup [I32 1; I32 2]))) as (t & I); [eauto|]. cbn in I. repeat (destruct I as [I|I]; [discriminate I|]). destruct I.
Qed.
Print Assumptions C56_negation_refuted.
