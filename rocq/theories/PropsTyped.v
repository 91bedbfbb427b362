(** C54 and C55 for typed programs: they are compiled, and the result has one
    model, the stable model of the program. *)
From Coq Require Import List ZArith Bool Arith Lia Permutation.
From Verif Require Import Value Back Eval Ram Dataflow BackSem Scc SccFacts Plan PlanSem PlanFacts PlanFacts2 PropsPlan PlanClash
  VarTuple VarTupleFacts B2R RamSem B2RFacts B2RFacts2 B2RSpec B2RRule B2RScope PropsB2R B2RStrata StrataSem StrataFacts PropsStrata
  B2RTotal B2RPlaced PropsTotal TypedProg.
Import ListNotations.
Set Implicit Arguments.

(** ** Types *)
Lemma eq_able_ty : forall v, ty_eq (vrank v) = true -> eq_able v = true.
Proof. intros v H. destruct v; cbn in *; auto; discriminate. Qed.
Lemma typed_fact_ok : forall sig p vs, typed_fact sig p vs -> length vs = length (sig p) /\ Forall (fun v => eq_able v = true) vs.
Proof.
  intros sig p vs H. unfold typed_fact in H. induction H as [|k v l l' [E K] H [IH1 IH2]]; cbn; auto. subst k. split; [congruence|].
  constructor; auto. apply eq_able_ty; auto.
Qed.
Lemma typed_atom_length : forall sig tau a, typed_atom sig tau a -> length (a_args a) = length (sig (a_pred a)).
Proof. intros sig tau a H. unfold typed_atom in H. symmetry. induction H; cbn; congruence. Qed.
Definition has_ty (tau : var -> ty) (v : var) (x : value) : Prop := vrank x = tau v /\ ty_eq (tau v) = true.
Lemma typed_args : forall sig tau s a, typed_atom sig tau a -> typed_fact sig (a_pred a) (tvals s (a_args a)) ->
  forall v, In v (avars a) -> has_ty tau v (s v).
Proof.
  intros sig tau s a. unfold typed_atom, typed_fact, avars, tvals. generalize (sig (a_pred a)). intros ks H. induction H as [|k t ks ts [E K] H IH]; cbn; intros F v J; [destruct J|].
  inversion F as [|? ? ? ? [F1 F2] F3]; subst. apply in_app_iff in J. destruct J as [J|J]; [|apply IH; auto].
  destruct t as [w|c]; cbn in J; [|destruct J]. destruct J as [->|[]]. split; auto.
Qed.
Lemma args_typed : forall sig tau s a, typed_atom sig tau a -> (forall v, In v (avars a) -> has_ty tau v (s v)) -> typed_fact sig (a_pred a) (tvals s (a_args a)).
Proof.
  intros sig tau s a. unfold typed_atom, typed_fact, avars, tvals. generalize (sig (a_pred a)). intros ks H. induction H as [|k t ks ts [E K] H IH]; cbn; intros F; constructor.
  - subst k. split; auto. destruct t as [w|c]; cbn; auto. destruct (F w); auto. left; auto.
  - apply IH. intros v J. apply F, in_or_app; auto.
Qed.
Lemma term_typed : forall tau s t, (forall v, In v (tvar t) -> has_ty tau v (s v)) -> vrank (tval s t) = term_ty tau t.
Proof. intros tau s [v|c] H; cbn; auto. destruct (H v); auto. left; auto. Qed.
Lemma as_int_rank : forall v k z, as_int v = Some (k, z) -> forall y, vrank (of_int k y) = vrank v.
Proof. intros v k z H y. destruct v; cbn in H; try discriminate; injection H as <- <-; reflexivity. Qed.
Lemma int_arith_rank : forall op k a b x, int_arith op k a b = EOk x -> exists y, x = of_int k y.
Proof.
  intros op k a b x H. unfold int_arith, saturating, checked in H. destruct op; try discriminate;
    repeat match type of H with (if ?b then _ else _) = _ => destruct b end; try discriminate; injection H as <-; eauto.
Qed.
Lemma aexpr_typed : forall tau E s e k x, typed_aexpr tau e k -> (forall v, In v (aexpr_vars e) -> has_ty tau v (s v)) ->
  aeval E s e = EOk x -> vrank x = k.
Proof.
  intros tau E s e k x H HV Ev. destruct H as [op a b k Ar NT Ta Tb|op a b Ar Te|a k Ta|a k Ta|a Ta|c a b k Tc Ta Tb]; cbn [aeval aexpr_vars] in *.
  - assert (Va : vrank (tval s a) = k) by (rewrite <- Ta; apply term_typed; intros v J; apply HV, in_or_app; auto).
    assert (Vb : vrank (tval s b) = k) by (rewrite <- Tb; apply term_typed; intros v J; apply HV, in_or_app; auto).
    assert (AE : arith E op (tval s a) (tval s b) = EOk x) by (destruct op; try discriminate; exact Ev). clear Ev.
    revert Va Vb AE. generalize (tval s a), (tval s b). intros v w Va Vb AE. unfold arith in AE.
    destruct (as_int v) as [[kv zv]|] eqn:Ev; [destruct (as_int w) as [[kw zw]|] eqn:Ew|].
    + destruct (ikind_eqb kv kw); [|discriminate]. destruct (int_arith_rank _ _ _ _ AE) as [y ->]. rewrite (as_int_rank _ Ev). auto.
    + exfalso. destruct v; cbn in Ev; try discriminate; destruct w; cbn in Ew, AE; try discriminate; rewrite <- Va in Vb; discriminate Vb.
    + rewrite <- Va in Vb. rewrite <- Va in NT. rewrite <- Va. clear Va. destruct v; cbn in Ev; try discriminate Ev; destruct w; try discriminate AE; try discriminate Vb; try discriminate NT;
        destruct op; try discriminate Ar; try discriminate AE; try (cbn in AE; destruct (e_float E _ _ _); [|discriminate AE]); injection AE as <-; reflexivity.
  - assert (BE : logic op (tval s a) (tval s b) = EOk x \/ cmp_op op (tval s a) (tval s b) = EOk x) by (destruct op; try discriminate; auto).
    destruct BE as [BE|BE].
    + unfold logic in BE. destruct op; try discriminate; destruct (tval s a); try discriminate; destruct (tval s b); try discriminate; injection BE as <-; reflexivity.
    + unfold cmp_op in BE. destruct op; match type of BE with (if ?b then _ else _) = _ => destruct b end; try discriminate; injection BE as <-; reflexivity.
  - cbn in Ev. injection Ev as <-. rewrite <- Ta. apply term_typed. intros v J. apply HV; auto.
  - assert (Va : vrank (tval s a) = k) by (rewrite <- Ta; apply term_typed; intros v J; apply HV; auto).
    revert Va Ev. generalize (tval s a). intros v Va Ev. cbn in Ev.
    assert (K : forall kk zz, as_int v = Some (kk, zz) -> (if isigned kk then checked kk (- zz) else EPanic) = EOk x -> vrank x = k).
    { intros kk zz E1 E2. destruct (isigned kk); [|discriminate]. unfold checked in E2. destruct (_ && _); [|discriminate]. injection E2 as <-. rewrite (as_int_rank _ E1). auto. }
    destruct v; cbn in Ev; try discriminate; try (injection Ev as <-; exact Va); eapply K; try reflexivity; exact Ev.
  - cbn in Ev. destruct (tval s a); try discriminate. injection Ev as <-. reflexivity.
  - destruct (tval s c); try discriminate. destruct b0; injection Ev as <-.
    + rewrite <- Ta. apply term_typed. intros v J. apply HV. rewrite !in_app_iff. auto.
    + rewrite <- Tb. apply term_typed. intros v J. apply HV. rewrite !in_app_iff. auto.
Qed.

(** ** Rules *)
Section Rules.
  Variables (C : cenv) (N : penv) (B : benv) (AG : rels -> nat -> nat -> rgrp -> tuple -> Prop) (P : program).
  Notation g := (p_reg P).
  Variables (sig : pred -> list ty) (inplace : rule -> bool) (order : list pred -> rule -> list state -> list state).
  Hypothesis ORD : forall ps r l, Permutation (order ps r l) l.
  Hypothesis NM : names_ok C.
  Hypothesis REG : forall p, g_foreign g p = pe_foreign N p.
  Notation Ty := (typed_fact sig).

  Lemma binds_typed : forall tau (I M : interp) body l s, (forall l, In l body -> typed_lit sig tau l) ->
    (forall a, In (LAtom a) body -> pe_foreign N (a_pred a) = false) -> (forall p vs, In p (pos_preds N body) -> I p vs -> Ty p vs) ->
    In l body -> lit_sat B g I M s l -> (forall w, In w (lit_needs N l) -> has_ty tau w (s w)) ->
    forall v, In v (lit_binds N l) -> has_ty tau v (s v).
  Proof.
    intros tau I M body l s HT HF HI Il SA HN v Iv. specialize (HT l Il). destruct l; cbn in Iv; try (destruct Iv; fail).
    - rewrite (HF a Il) in Iv. eapply typed_args; [exact HT| |exact Iv]. apply HI.
      + unfold pos_preds. apply in_flat_map. exists (LAtom a). split; auto. cbn. rewrite (HF a Il). left; auto.
      + cbn in SA. rewrite REG, (HF a Il) in SA. exact SA.
    - destruct Iv as [->|[]]. destruct HT as [HT1 HT2]. split; auto. cbn in SA. eapply aexpr_typed; [exact HT1| |exact SA]. exact HN.
    - destruct HT.
  Qed.
  Lemma limited_typed : forall tau (I M : interp) body s, (forall l, In l body -> typed_lit sig tau l) ->
    (forall a, In (LAtom a) body -> pe_foreign N (a_pred a) = false) -> (forall p vs, In p (pos_preds N body) -> I p vs -> Ty p vs) ->
    body_sat B g I M s body -> forall v, limited N body v -> has_ty tau v (s v).
  Proof.
    intros tau I M body s HT HF HI SA v L. induction L as [l v Il _ Iv _ IH]. eapply binds_typed; eauto.
  Qed.

  Variables (h : atom) (body : list lit).
  Hypothesis TR : typed_rule C N sig h body.

  Lemma tr_no_reduce : forall r, ~ In (LReduce r) body.
  Proof. intros r H. destruct (tr_types TR) as (tau & _ & HT). exact (HT _ H). Qed.
  Lemma tr_no_false : ~ In LFalse body.
  Proof. intros H. destruct (tr_types TR) as (tau & _ & HT). exact (HT _ H). Qed.
  Lemma tr_no_new : forall v e, In (LAssign v e) body -> is_new e = false.
  Proof. intros v e H. destruct (tr_types TR) as (tau & _ & HT). destruct (HT _ H) as [K _]. inversion K; reflexivity. Qed.
  Lemma tr_no_fp : forall a, In (LAtom a) body -> pe_foreign N (a_pred a) = false.
  Proof. intros a H. apply (tr_foreign TR); auto. Qed.
  Lemma tr_plannable : plannable N g body.
  Proof. constructor; [apply TR|exact REG|]. intros r H. destruct (@tr_no_reduce _ H). Qed.
  Lemma tr_noneg : no_neg_foreign N body.
  Proof. intros a H. apply (tr_foreign TR); auto. Qed.
  Lemma tr_tests : tests_before N body.
  Proof. intros l1 a l2 b E J Fa. rewrite tr_no_fp in Fa; [discriminate|]. rewrite E. apply in_or_app. right; left; auto. Qed.
  Lemma tr_head_lit : forall v, In v (avars h) -> exists l, In l body /\ In v (lit_vars l).
  Proof. intros v H. destruct (tr_head TR v H) as [l v0 Il _ Iv _]. exists l. split; auto. apply binds_vars with (N := N). exact Iv. Qed.
  Lemma tr_sources : few_sources N body.
  Proof.
    split.
    - rewrite (proj2 (length_zero_iff_nil _)); [lia|]. destruct (filter _ body) as [|l0 ls] eqn:E; auto. exfalso.
      assert (J : In l0 (filter (fun l => match l with LReduce _ => true | _ => false end) body)) by (rewrite E; left; auto).
      apply filter_In in J. destruct J as [J K]. destruct l0; try discriminate. destruct (@tr_no_reduce _ J).
    - intros a Ia Fa. rewrite tr_no_fp in Fa; [discriminate|exact Ia].
  Qed.
  Lemma tr_lowers : rule_lowers C N g h body.
  Proof.
    constructor; [exact tr_plannable|apply TR|exact tr_noneg|exact tr_tests| |exact tr_no_false|].
    - constructor.
      + intros a Ia Fa. rewrite tr_no_fp in Fa; [discriminate|exact Ia].
      + intros r Ir. destruct (@tr_no_reduce _ Ir).
      + intros v e w Iv Nv. rewrite (@tr_no_new _ _ Iv) in Nv. discriminate.
      + exact tr_head_lit.
      + rewrite (tr_plain TR); [exact Logic.I|left; auto].
    - right. right. left. exact tr_no_fp.
  Qed.

  Lemma pos_In : forall a, In (LAtom a) body -> In (a_pred a) (pos_preds N body).
  Proof. intros a H. unfold pos_preds. apply in_flat_map. exists (LAtom a). split; auto. cbn. rewrite tr_no_fp; auto. left; auto. Qed.
  Lemma neg_In : forall a, In (LNeg a) body -> In (a_pred a) (neg_preds body).
  Proof. intros a H. unfold neg_preds. apply in_flat_map. exists (LNeg a). split; auto. left; auto. Qed.
  Lemma holds_rel : forall (JI JM : rels) (I M : interp) (b : bool) tau a, typed_atom sig tau a ->
    holds_facts Ty (if b then JM else JI) (if b then M else I) SPlain (a_pred a) -> rel_ok JI JM I M b (a_pred a) (length (a_args a)).
  Proof.
    intros JI JM I M b tau a TA [H1 H2]. split.
    - intros t. destruct b; exact (H1 t).
    - intros vs J. rewrite (typed_atom_length TA). assert (K : Ty (a_pred a) vs) by (apply H2; destruct b; exact J). exact (typed_fact_ok K).
  Qed.

  Lemma tr_rule_ok : rule_ok C N B AG P Ty order h body.
  Proof.
    destruct (tr_types TR) as (tau & HH & HT). constructor.
    - exact tr_plannable.
    - apply TR.
    - exact tr_noneg.
    - exact tr_tests.
    - intros ps p Q. eapply few_sources_clash_free; [exact tr_sources|exact Q].
    - intros p Hp. apply (tr_plain TR). right. exact Hp.
    - exists (has_ty tau). intros JI JM I M RH. constructor.
      + intros a Ia _. split; [|split].
        * eapply holds_rel; [exact (HT _ Ia)|]. apply (rh_pos RH), pos_In, Ia.
        * apply (tr_consts TR). auto.
        * intros S1 S2 _. apply (tr_static TR a); auto.
      + intros a Ia. split; [|split].
        * eapply holds_rel; [exact (HT _ Ia)|]. apply (rh_neg RH), neg_In, Ia.
        * apply (tr_consts TR). auto.
        * intros S1 S2 _. apply (tr_static TR a); auto.
      + destruct (tr_dup TR) as [D|D]; auto.
      + apply TR.
      + intros v e l Ia Il Iv. destruct l; cbn in Iv; try (destruct Iv; fail).
        * rewrite tr_no_fp in Iv by exact Il. destruct (@tr_single _ _ _ _ _ TR _ _ _ Ia Il Iv).
        * destruct Iv as [->|[]]. pose proof (tr_once TR) as ND. clear - Ia Il ND.
          induction body as [|x b IH]; [destruct Ia|]. unfold assigned in ND. cbn [flat_map] in ND. fold (assigned b) in ND.
          assert (IA : forall e, In (LAssign v e) b -> In v (assigned b)) by (intros e' J; unfold assigned; apply in_flat_map; exists (LAssign v e'); cbn; auto).
          destruct Ia as [->|Ia], Il as [->|Il].
          -- reflexivity.
          -- inversion ND as [|? ? N1 N2]; subst. destruct (N1 (IA _ Il)).
          -- inversion ND as [|? ? N1 N2]; subst. destruct (N1 (IA _ Ia)).
          -- apply IH; auto. eapply NoDup_app_r; exact ND.
        * destruct (@tr_no_reduce _ Il).
      + intros v e w Ia Na. rewrite (@tr_no_new _ _ Ia) in Na. discriminate.
      + intros l s Il SA HN v Iv. refine (@binds_typed tau I M body l s HT tr_no_fp _ Il SA HN v Iv). intros p vs Hp. apply (rh_pos RH p Hp).
      + intros c a b s Ic HV. destruct (HT _ Ic) as [T1 T2].
        assert (Va : vrank (tval s a) = term_ty tau a) by (apply term_typed; intros v J; apply HV, in_or_app; auto).
        assert (Vb : vrank (tval s b) = term_ty tau b) by (apply term_typed; intros v J; apply HV, in_or_app; auto).
        assert (EA : eq_able (tval s a) = true) by (apply eq_able_ty; rewrite Va; exact T2).
        destruct c; cbn; auto. split; auto. unfold same_variant. apply Nat.eqb_eq. congruence.
      + intros v e Ia _. left. exact (@tr_used _ _ _ _ _ TR _ _ Ia).
      + intros a Ia Fa. rewrite tr_no_fp in Fa; [discriminate|exact Ia].
      + intros a ws Ia Fa. rewrite tr_no_fp in Fa; [discriminate|exact Ia].
      + intros r t Ir. destruct (@tr_no_reduce _ Ir).
      + intros r Ir. destruct (@tr_no_reduce _ Ir).
      + exact tr_head_lit.
      + unfold head_ok. rewrite (tr_plain TR); [exact Logic.I|left; auto].
    - intros JI JM I M vs RH (s & a & SA & [<-|[]] & _ & ->). apply args_typed with (tau := tau); auto. intros v Iv.
      refine (@limited_typed tau I M body s HT tr_no_fp _ SA v (tr_head TR v Iv)). intros p vs Hp. apply (rh_pos RH p Hp).
    - exact tr_no_new.
  Qed.
End Rules.

Section Program.
  Variables (C : cenv) (N : penv) (B : benv) (AG : rels -> nat -> nat -> rgrp -> tuple -> Prop) (P : program) (ss : list stratum).
  Variables (sig : pred -> list ty) (inplace : rule -> bool) (order : list pred -> rule -> list state -> list state).
  Hypothesis ORD : forall ps r l, Permutation (order ps r l) l.
  Hypothesis NM : names_ok C.
  Hypothesis TP : typed_program C N sig P ss.

  Lemma typed_program_ok : program_ok C N B AG P ss (typed_fact sig) order.
  Proof.
    constructor.
    - constructor; try apply TP. intros r l1 s l2 Ir E Hr. intros p Hp. apply in_app_iff in Hp. destruct Hp as [Hp|Hp].
      + exact (tp_neg TP r l1 s l2 Ir E Hr p Hp).
      + exfalso. destruct (tp_rules TP r Ir) as (h & body & -> & TR). cbn [r_body] in Hp. unfold red_preds in Hp. apply in_flat_map in Hp. destruct Hp as (l & Il & Hp).
        destruct l; try (destruct Hp; fail). exact (tr_no_reduce TR _ Il).
    - intros r Ir. destruct (tp_rules TP r Ir) as (h & body & -> & TR). exists h, body. split; auto. apply tr_rule_ok; auto. apply (tp_reg TP).
    - apply TP.
  Qed.
  Lemma typed_lowers : exists xs, lower_strata C N inplace order (p_rules P) ss = Some (xs, []).
  Proof.
    apply C55_placed with (g := p_reg P); auto.
    - intros r Ir. destruct (tp_rules TP r Ir) as (h & body & -> & TR). exists h, body. split; auto. eapply tr_lowers; eauto. apply (tp_reg TP).
    - intros r Ir a Ia. pose proof (tp_head TP r Ir) as Hs. destruct (tp_rules TP r Ir) as (h & body & -> & TR). cbn [r_body] in *. split.
      + unfold preds in Hs. apply in_flat_map in Hs. destruct Hs as (s & Is & Hs). apply in_split in Is. destruct Is as (l1 & l2 & Es).
        assert (K : In (a_pred a) (preds l1)) by (apply (tp_neg TP _ l1 s l2 Ir Es Hs); cbn [r_body]; eapply neg_In; eauto).
        rewrite Es. unfold preds in *. rewrite flat_map_app. apply in_or_app; auto.
      + destruct (tr_neg TR a Ia) as [K|K]; auto. right. split; auto. apply (tr_consts TR). auto.
  Qed.

  (** A typed program is lowered; the lowered strata have exactly one model, and it
      is a stable model of the program. *)
  Theorem C54_typed : names_apart C (fun p => In p (preds ss)) -> ag_local AG ->
    exists xs J, lower_strata C N inplace order (p_rules P) ss = Some (xs, []) /\
      rmodel (b_env B) (b_fp B) AG (fact_rels P) xs J /\ stable B P (decode C ss J) /\
      forall J', rmodel (b_env B) (b_fp B) AG (fact_rels P) xs J' -> forall p vs, decode C ss J p vs <-> decode C ss J' p vs.
  Proof.
    intros NA AL. destruct typed_lowers as (xs & LOW). destruct (C54_model_partial ORD NM NA AL typed_program_ok LOW) as (J & H1 & H2 & H3).
    exists xs, J. auto.
  Qed.
End Program.
Print Assumptions C54_typed.
