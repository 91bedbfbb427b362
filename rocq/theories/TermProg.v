(** Lowered programs are placed as runs need it, and derive finitely many tuples if
    the program has a finite stable model.  Used by C57. *)
From Coq Require Import List ZArith Bool Arith Lia Permutation.
From Verif Require Import Order Value Prov ListAux SortedCol SortedColFacts ProvInst Schedulers Relation View Dataflow Denote DataflowFacts DenFacts
  Iteration IterationFacts Views Back Eval Ram BackSem PropsOpt Scc SccFacts PropsStrat PropsUnused Dedup Increm Exec PropsExec
  Plan PlanSem PlanFacts PlanFacts2 PropsPlan VarTuple VarTupleFacts B2R RamSem B2RFacts B2RFacts2 B2RSpec B2RRule B2RScope PropsB2R B2RStrata
  StrataSem StrataFacts PropsStrata PropsTotal TypedProg PropsTyped PropsCompile PermOrder B2RWf PlanShape StrataWf RunSem RunFacts PropsRunProg
  Terminate RunTotal.
Import ListNotations.
Set Implicit Arguments.
Local Open Scope nat_scope.

(** * Finite sets of tuples *)
Definition finite (S : tuple -> Prop) : Prop := exists l, forall t, S t -> In t l.
Lemma rden_finite : forall E fp ag M I d, frag d -> (forall r, In r (prefs d) -> finite (I r)) -> finite (rden E fp ag M I d).
Proof.
  intros E fp ag M I d. unfold finite. induction d; cbn [frag prefs rden]; intros F H; try contradiction.
  - exists [u]. intros t ->. left; auto.
  - apply H. left; auto.
  - exact (IHd F H).
  - destruct (IHd F H) as (l & L). exists l. intros t [K _]. auto.
  - destruct (IHd F H) as (l & L). exists (flat_map (fun u => match eval E e u with EOk t => [t] | _ => [] end) l).
    intros t (u & K & Q). apply in_flat_map. exists u. rewrite Q. split; [apply L, K|left; auto].
  - destruct (IHd F H) as (l & L). exists l. intros t [K _]. auto.
  - destruct F as [F1 F2]. destruct (IHd1 F1) as (l & L); [intros; apply H, in_app_iff; auto|]. exists l. intros t [K _]. auto.
  - destruct F as [F1 F2]. destruct (IHd1 F1) as (l1 & L1); [intros; apply H, in_app_iff; auto|]. destruct (IHd2 F2) as (l2 & L2); [intros; apply H, in_app_iff; auto|].
    exists (flat_map (fun t1 => flat_map (fun t2 => match tnth t1 0, tnth t1 1, tnth t2 1 with Some k, Some x, Some y => [TTup [k; x; y]] | _, _, _ => [] end) l2) l1).
    intros t (t1 & t2 & k & x & y & K1 & K2 & A1 & A2 & A3 & A4 & ->). apply in_flat_map. exists t1. split; [apply L1, K1|]. apply in_flat_map. exists t2. split; [apply L2, K2|].
    rewrite A1, A3, A4. left; auto.
  - destruct F as [F1 F2]. destruct (IHd1 F1) as (l1 & L1); [intros; apply H, in_app_iff; auto|]. destruct (IHd2 F2) as (l2 & L2); [intros; apply H, in_app_iff; auto|].
    exists (flat_map (fun t1 => map (fun t2 => TTup [t1; t2]) l2) l1). intros t (t1 & t2 & K1 & K2 & ->). apply in_flat_map. exists t1. split; [apply L1, K1|].
    apply in_map_iff. exists t2. auto.
  - destruct F as [F1 F2]. destruct (IHd1 F1) as (l & L); [intros; apply H; auto|]. exists l. intros t [K _]. auto.
  - destruct F as [F1 F2]. destruct (IHd1 F1) as (l & L); [intros; apply H; auto|]. exists l. intros t [K _]. auto.
Qed.
Lemma frag_hard : forall d, frag d -> hard d = [].
Proof.
  assert (S : forall d, ssl d -> hard d = []).
  { induction d; cbn; intros F; try contradiction; auto; try (rewrite IHd1, IHd2 by tauto; reflexivity). }
  induction d; cbn [frag hard]; intros F; try contradiction; auto; try (rewrite IHd1, IHd2 by tauto; reflexivity);
    rewrite IHd1 by tauto; rewrite S by tauto; reflexivity.
Qed.

Section Lowered.
  Variables (P : Prov) (IT X : Type) (E : rtenv P IT X).
  Variables (C : cenv) (N : penv) (B : benv) (Pr : program) (extra : list fact) (ss : list stratum) (sig : pred -> list ty).
  Variables (order : list pred -> rule -> list state -> list state) (xs : list rstratum).
  Variables (tag_of : fact -> option IT) (is_adt : pred -> bool) (sched_of : pred -> option scheduler).
  Notation inplace := (fun _ : rule => false).
  Notation AG := (fun _ : rels => no_ag).
  Notation Pr' := (with_facts Pr extra).
  Notation prog := (xprog_of tag_of is_adt sched_of Pr xs).
  Notation rel_of := (rel_of tag_of is_adt sched_of Pr).
  Notation xof := (xstratum_of tag_of is_adt sched_of Pr).
  Notation elem := (elem P).
  Hypothesis ORD : forall ps r l, Permutation (order ps r l) l.
  Hypothesis NM : names_ok C.
  Hypothesis NA : names_apart C (inp ss).
  Hypothesis IV : forall r, ce_iv C r = false.
  Hypothesis TP : typed_program C N sig Pr' ss.
  Hypothesis DC : forall q, In q (preds ss) <-> In q (map b_pred (p_rels Pr)).
  Hypothesis LOW : lower_strata C N inplace order (p_rules Pr) ss = Some (xs, []).
  Hypothesis ENV : forall m, l_env (c_lenv E m) = b_env B.
  Hypothesis NEG : (forall a b, pminus P a b = None) \/ forall r a, In r (p_rules Pr) -> ~ In (LNeg a) (r_body r).
  Lemma pok : program_ok C N B AG Pr' ss (typed_fact sig) order.
  Proof. exact (@typed_program_ok C N B AG Pr' ss sig order TP). Qed.
  Lemma lowered_stratified : PropsStrata.stratified xs.
  Proof. exact (@C54_stratified_partial C N B AG Pr' ss (typed_fact sig) inplace order xs ORD NA pok LOW). Qed.
  Lemma upd_frag : forall y n d, In y xs -> In (n, d) (rs_updates y) -> frag d.
  Proof. intros y n d Iy Iu. exact (proj1 (@updates_good P B C N AG Pr' ss sig order xs ORD NM NA IV TP LOW y n d Iy Iu)). Qed.

  (** * Finiteness of the relations made by the compiler *)
  Lemma all_finite : forall J, rmodel (b_env B) (b_fp B) AG (fact_rels Pr') xs J -> (forall p, In p (preds ss) -> finite (J p)) ->
    forall y r, In y xs -> In r (rs_rels y) -> finite (J r).
  Proof.
    intros J MJ FJ. pose proof pok as OK.
    destruct (@strata_low C N (p_reg Pr') inplace order ORD (p_rules Pr') ss xs [] (PropsStrata.reads OK) LOW) as (zf & V & T & F & NG0).
    assert (NG : forall x, In x (z_negs zf) -> exists y, In y xs /\ In x (rs_updates y) /\ In (fst x) (rs_rels y)).
    { intros x Ix. destruct (NG0 x Ix) as [[]|H]; exact H. }
    assert (DF : forall (Q : tuple -> Prop) d, frag d -> (forall t, Q t <-> rden (b_env B) (b_fp B) no_ag J J d t) -> (forall r, In r (prefs d) -> finite (J r)) -> finite Q).
    { intros Q d FR H G. destruct (@rden_finite (b_env B) (b_fp B) no_ag J J d FR G) as (l & L). exists l. intros t K. apply L, H, K. }
    assert (PERM : forall p gr, In (p, gr) (z_perms zf) -> finite (J (ce_perm C p gr))).
    { intros p gr Ip. assert (Hp : In p (preds ss)) by (destruct (iv_perm V _ _ Ip); auto). apply DF with (d := RProject (RRel p) (perm_expr gr)).
      - exact Logic.I.
      - intros t. exact (@J_perm C N B AG Pr' ss (typed_fact sig) inplace order xs J ORD NA OK LOW MJ zf V F p gr Ip t).
      - intros r [<-|[]]. apply FJ, Hp. }
    assert (NN : forall k r, nname C (inp ss) zf k r -> finite (J r)).
    { intros k r H. induction H as [k r H|k p g H1 H2|k i d H1 H2 H3 H4 IH]; [apply FJ, H|apply PERM, H2|].
      destruct (NG _ H2) as (y & Iy & Iu & _). eapply DF; [eapply upd_frag; eauto| |exact IH].
      exact (@J_neg C N B AG Pr' ss (typed_fact sig) inplace order xs J ORD NA OK LOW MJ zf V F NG _ _ H2). }
    intros y r Iy Ir. destruct (@at_all C N B AG Pr' ss (typed_fact sig) inplace order xs ORD NA OK zf V F y Iy) as (l1 & s & z & us & cur & pu & A).
    apply (proj1 (in_rels A _)) in Ir. destruct Ir as [Ir|[Ir|[(p & gr & -> & Ip & Ig)|Ir]]].
    - apply FJ. apply (before_ss NA OK LOW V F A), here_or_before. auto.
    - assert (PN : forall k q, pname C (inp (l1 ++ [s])) (inp l1) z k q -> finite (J q)).
      { intros k q H. induction H as [k q H|k p g H1 H2|k i d H1 H2 H3 IH H4]; [apply FJ, (before_ss NA OK LOW V F A), H|apply PERM, (at_perm A), H2|].
        eapply DF; [eapply upd_frag; [exact Iy|]; rewrite (at_upd A), !in_app_iff; eauto| |exact IH].
        exact (@J_temp C N B AG Pr' ss (typed_fact sig) inplace order xs J NA OK LOW MJ zf V F _ _ _ _ _ _ _ A _ _ H2). }
      apply in_map_iff in Ir. destruct Ir as ([n d] & En & Id). cbn in En. subst n. destruct (iv_tdef (at_inv A) _ _ Id) as (i & Li & -> & [S1 S2]).
      eapply PN. eapply pn_temp; eauto.
    - apply PERM, Ig.
    - apply in_map_iff in Ir. destruct Ir as ([n d] & En & Id). cbn in En. subst n. apply (at_cur A) in Id. destruct (iv_ndef V _ _ Id) as (i & Li & -> & [S1 S2]).
      eapply NN. eapply nn_temp; eauto.
  Qed.

  (** * Placement *)
  Lemma split_prog : forall dn s rest, prog = dn ++ s :: rest -> exists a y b, xs = a ++ y :: b /\ dn = map xof a /\ s = xof y.
  Proof.
    intros dn s rest H. unfold xprog_of in H. apply map_eq_app in H. destruct H as (a & l & Q & <- & H). apply map_eq_cons in H. destruct H as (y & b & -> & <- & _).
    exists a, y, b. auto.
  Qed.
  Lemma collect_refs : forall d r, frag d -> In r (collect d) -> In r (prefs d) \/ In r (nrefs d).
  Proof.
    assert (S : forall d r, ssl d -> In r (collect d) -> In r (prefs d)).
    { induction d; cbn [ssl collect prefs]; intros q F I; try contradiction; auto; rewrite in_app_iff in *; destruct F; intuition. }
    induction d; cbn [frag collect prefs nrefs]; intros q F I; try contradiction; auto; rewrite ?in_app_iff in *; destruct F as [F1 F2];
      destruct I as [I|I]; try (destruct (IHd1 _ F1 I); tauto); try (destruct (IHd2 _ F2 I); tauto); right; right; left; apply S; auto.
  Qed.
  Lemma rel_at : forall y r, In y xs -> In r (rs_rels y) -> computed prog (xof y) r \/ ximm prog r = true.
  Proof.
    intros y r Iy Ir. unfold computed.
    rewrite (@in_names IT Pr tag_of is_adt sched_of y r). destruct (ximm prog r); auto.
  Qed.
  Lemma reads_before : forall a y b n d r, xs = a ++ y :: b -> In (n, d) (rs_updates y) -> In r (collect d) -> In r (flat_map rs_rels (a ++ [y])).
  Proof.
    intros a y b n d r Q Iu Ir. assert (Iy : In y xs) by (rewrite Q; apply in_elt). destruct (proj2 (lowered_stratified _ _ _ Q) n d Iu) as (_ & H1 & H2).
    destruct (@collect_refs d r (@upd_frag y n d Iy Iu) Ir) as [K|K]; [apply H1, K|]. apply H2 in K. rewrite flat_map_app, in_app_iff. auto.
  Qed.
  Theorem lowered_placed : placed prog.
  Proof.
    constructor.
    - intros s [n d] Is Iu. destruct (@in_prog IT Pr xs tag_of is_adt sched_of s Is) as (y & Iy & ->). cbn [fst xs_updates xstratum_of] in *.
      destruct (@target P IT C N B AG Pr extra ss sig order xs tag_of is_adt sched_of ORD NM NA IV TP DC LOW y n d Iy Iu) as [K1 K2].
      rewrite (@imm_of IT C N B AG Pr extra ss sig order xs tag_of is_adt sched_of ORD NA TP LOW y n Iy K1). exact K2.
    - intros dn s rest [n d] r Q Iu Ir. destruct (split_prog _ _ _ Q) as (a & y & b & Qx & -> & ->). cbn [snd xs_updates xstratum_of] in *.
      pose proof (@reads_before _ _ _ _ _ _ Qx Iu Ir) as K. rewrite flat_map_app, in_app_iff in K. cbn in K. rewrite app_nil_r in K. destruct K as [K|K].
      + apply in_flat_map in K. destruct K as (y' & Iy' & K). assert (Iy : In y' xs) by (rewrite Qx; apply in_app_iff; auto).
        destruct (rel_at _ _ Iy K) as [H|H]; auto. right; right. exists (xof y'). split; auto. apply in_map, Iy'.
      + assert (Iy : In y xs) by (rewrite Qx; apply in_elt). destruct (rel_at _ _ Iy K); auto.
    - intros s [n d] r Is Iu Ir. destruct (@in_prog IT Pr xs tag_of is_adt sched_of s Is) as (y & Iy & ->). cbn [snd xs_updates xstratum_of] in *.
      rewrite (@frag_hard d (@upd_frag y n d Iy Iu)) in Ir. destruct Ir.
  Qed.

  (** * Finiteness of what a stratum derives *)
  Theorem lowered_finite : forall J, rmodel (b_env B) (b_fp B) AG (fact_rels Pr') xs J -> (forall p, In p (preds ss) -> finite (J p)) ->
    finite_strata E prog (fact_rels Pr').
  Proof.
    intros J MJ FJ Bs dn s rest M BF Q PM r Cr. destruct (split_prog _ _ _ Q) as (a & y & b & Qx & -> & ->).
    assert (AL : ag_local AG) by (intros J1 J2 agg p grp t _ _; tauto).
    assert (RD : forall a' y' b', xs = a' ++ y' :: b' -> incl a' a -> forall u q, In u (rs_updates y') -> In q (collect (snd u)) -> ~ computed prog (xof y') q -> M q <> None).
    { intros a' y' b' Qx' Ia [n d] q Iu Iq NC. cbn [snd] in Iq. pose proof (@reads_before _ _ _ _ _ _ Qx' Iu Iq) as K. rewrite flat_map_app, in_app_iff in K.
      assert (IM : ximm prog q = true -> M q <> None).
      { intros H. destruct (ximm_in _ _ H) as (x & Ix & Ex). unfold ximm in H. rewrite <- Ex in H.
        rewrite (@xfind_in IT prog x (@nodup_names IT C N B AG Pr extra ss sig order xs tag_of is_adt sched_of ORD NA TP LOW) Ix) in H.
        destruct (pm_ext PM _ Ix H) as (c & K' & _). rewrite Ex in K'. congruence. }
      cbn in K. rewrite app_nil_r in K. destruct K as [K|K].
      - apply in_flat_map in K. destruct K as (y'' & Iy & K). assert (Iy2 : In y'' xs) by (rewrite Qx'; apply in_app_iff; auto).
        destruct (rel_at _ _ Iy2 K) as [H|H]; auto. destruct (pm_int PM (in_map xof _ _ (Ia _ Iy)) H) as (c & K' & _). congruence.
      - assert (Iy : In y' xs) by (rewrite Qx'; apply in_elt). destruct (rel_at _ _ Iy K) as [H|H]; [contradiction|auto]. }
    assert (ST := lowered_stratified). rewrite Qx in ST.
    assert (MA : rmodel (b_env B) (b_fp B) AG (fact_rels Pr') a (holds M)).
    { intros y' q t Iy Iq. assert (Iy2 : In y' xs) by (rewrite Qx; apply in_app_iff; auto). pose proof Iy as Iy1. apply in_split in Iy1. destruct Iy1 as (a1 & a2 & Qa).
      apply (@stratum_least P IT X E C N B AG Pr extra ss sig order xs tag_of is_adt sched_of ORD NM NA IV TP DC LOW ENV NEG Bs M (pm_ext PM) BF y' Iy2); auto.
      - eapply (RD a1 y' (a2 ++ y :: b)); [rewrite Qx, Qa, <- app_assoc; reflexivity|]. rewrite Qa. intros x Ix. apply in_app_iff. auto.
      - intros q' K. exact (pm_int PM (in_map xof _ _ Iy) K). }
    assert (AGREE : forall q, In q (flat_map rs_rels a) -> forall t, holds M q t <-> J q t).
    { apply (@rmodel_unique (b_env B) (b_fp B) AG (fact_rels Pr') AL a); auto; [eapply stratified_prefix, ST|].
      intros y' q t Iy. apply MJ. rewrite Qx. apply in_app_iff; auto. }
    assert (Iy : In y xs) by (rewrite Qx; apply in_elt). assert (Ir : In r (rs_rels y)).
    { destruct Cr as [Cr _]. rewrite (@in_names IT Pr tag_of is_adt sched_of y r) in Cr. exact Cr. }
    destruct (all_finite MJ FJ y r Iy Ir) as (l & L). exists l. intros e D. apply L.
    destruct (ST a y b eq_refl) as [DJ UP].
    pose (Xr := fun (q : nat) (t : tuple) => (In q (rs_rels y) /\ J q t) \/ (~ In q (rs_rels y) /\ holds M q t)).
    assert (K : Xr r (fst e)); [|destruct K as [[_ K]|[K _]]; [exact K|contradiction]].
    refine (@der_least P IT X E C N B AG Pr extra ss sig order xs tag_of is_adt sched_of ORD NM NA IV TP LOW ENV NEG Bs M (pm_ext PM) BF y Iy _ Xr _ r e D).
    { eapply (RD a y b Qx), incl_refl. }
    assert (FIX := fun q t Iq => @model_fix (b_env B) (b_fp B) AG (fact_rels Pr') J xs MJ y q t Iy (fun n d I => proj1 (UP n d I)) Iq).
    constructor.
    - intros q Nq t. unfold Xr. tauto.
    - intros q t Iq F. left. split; auto. apply FIX; auto.
    - intros q d t Iu R. destruct (UP q d Iu) as (Iq & H1 & H2). left. split; auto. apply FIX; auto. right. exists d. split; auto.
      refine (proj1 (@rden_local (b_env B) (b_fp B) AG AL d (holds M) J Xr J _ _ t) R).
      + intros q' Iq' t'. apply AGREE, H2, Iq'.
      + intros q' Iq' t'. unfold Xr. apply H1 in Iq'. rewrite flat_map_app, in_app_iff in Iq'. cbn in Iq'. rewrite app_nil_r in Iq'.
        destruct (in_dec Nat.eq_dec q' (rs_rels y)) as [I|I]; [tauto|]. destruct Iq' as [K|K]; [|contradiction]. rewrite (AGREE _ K t'). tauto.
  Qed.
End Lowered.
