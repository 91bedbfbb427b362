(** More facts about the planner (Plan.v): foreign predicates, and the literals
    applied by every phase. *)
From Coq Require Import List ZArith Bool Arith Lia Permutation.
From Verif Require Import Value Back Eval BackSem Scc SccFacts Plan PlanSem PlanFacts.
Import ListNotations.
Set Implicit Arguments.

Ltac splits := repeat match goal with |- _ /\ _ => split end.

Section Foreign.
  Variables (B : benv) (M : interp) (N : penv) (V : list var).
  Hypothesis FN : fresh_names N V.
  Notation psem := (psem B M).

  Lemma fp_args : forall a, a_args a = fp_bound N a ++ map snd (fp_free N a).
  Proof. intros. unfold fp_bound, fp_free. rewrite map_skipn, enum_snd, firstn_skipn. auto. Qed.
  Lemma fp_free_fst : forall a, NoDup (map fst (fp_free N a)).
  Proof. intros. unfold fp_free. rewrite map_skipn, enum_fst. apply NoDup_skipn, seq_NoDup. Qed.
  Lemma fp_avars : forall a, avars a = flat_map tvar (fp_bound N a) ++ fp_free_vars N a.
  Proof.
    intros. unfold avars. rewrite (fp_args a). rewrite flat_map_app. f_equal. unfold fp_free_vars.
    induction (fp_free N a); cbn; auto. f_equal; auto.
  Qed.
  Lemma fp_free_vars_eq : forall a, fp_free_vars N a = flat_map tvar (skipn (pe_bounded N (a_pred a)) (a_args a)).
  Proof.
    intros. unfold fp_free_vars, fp_free. transitivity (flat_map tvar (map snd (skipn (pe_bounded N (a_pred a)) (enum (a_args a))))).
    - induction (skipn (pe_bounded N (a_pred a)) (enum (a_args a))); cbn; auto. f_equal; auto.
    - rewrite map_skipn, enum_snd. auto.
  Qed.
  Lemma const_vars : forall l, forallb is_const l = true -> flat_map tvar l = [].
  Proof. induction l as [|[v|c] l IH]; cbn; intros H; auto. discriminate. Qed.
  Lemma tvals_app : forall s l l', tvals s (l ++ l') = tvals s l ++ tvals s l'.
  Proof. intros. unfold tvals. apply map_app. Qed.
  Lemma tvals_vars : forall s vs, tvals s (map TVar vs) = map s vs.
  Proof. intros. unfold tvals. rewrite map_map. auto. Qed.
  Lemma tvals_length : forall s l, length (tvals s l) = length l.
  Proof. intros. unfold tvals. apply map_length. Qed.

  Lemma fp_ground_bv : forall a x, In x (bvars (fp_ground N a)) <-> In x (fp_free_vars N a).
  Proof.
    intros a x. unfold fp_ground. destruct (rename_free N a []) as [vs es] eqn:R.
    destruct (const_cons N (a_pred a) (fp_free N a) ++ eq_cons es) eqn:E; cbn [bvars]; rewrite dedup_In; [|tauto].
    unfold rename_free in R. apply rename_plain in R; auto. destruct R as [_ ->]. unfold fargs_vars, fp_free_vars. tauto.
  Qed.
  Lemma fp_join_bv : forall p a x, In x (bvars (fp_join N p a)) <-> In x (bvars p) \/ In x (fp_free_vars N a).
  Proof.
    intros p a x. unfold fp_join. destruct (rename_free N a (bvars p)) as [vs es] eqn:R.
    destruct (const_cons N (a_pred a) (fp_free N a) ++ eq_cons es) eqn:E; cbn [bvars]; rewrite vunion_In; [|tauto].
    unfold rename_free in R. apply rename_plain in R; auto. destruct R as [_ ->]. unfold fargs_vars, fp_free_vars. tauto.
  Qed.

  Lemma psem_fp_ground : forall I a s, incl (avars a) V -> forallb is_const (fp_bound N a) = true ->
    (psem I (fp_ground N a) s <-> b_fp B (a_pred a) (tvals s (a_args a))).
  Proof.
    intros I a s IV C. pose proof (const_vars _ C) as C'.
    assert (IF : incl (fargs_vars (fp_free N a)) V) by (intros v Hv; apply IV; rewrite fp_avars; apply in_or_app; right; exact Hv).
    unfold fp_ground. destruct (rename_free N a []) as [vs es] eqn:R. unfold rename_free in R. cbn [map] in R.
    pose proof (rename_NoDup N V FN _ _ _ _ _ R (fp_free_fst a) IF) as ND.
    assert (BC : forall s', tvals s' (fp_bound N a) = tvals s (fp_bound N a)).
    { intros s'. apply tvals_agree. rewrite C'. intros v []. }
    destruct (const_cons N (a_pred a) (fp_free N a) ++ eq_cons es) as [|c0 cs0] eqn:E.
    - apply rename_plain in R; auto. destruct R as [R1 R2]. rewrite <- R1, <- fp_args. cbn [PlanSem.psem bvars a_pred a_args].
      assert (EV : incl (avars a) (dedup vs)).
      { rewrite fp_avars, C'. cbn [app]. intros v Iv. apply dedup_In. rewrite R2. exact Iv. }
      split.
      + intros (s' & A & F). rewrite (tvals_agree s s'); auto. eapply agree_incl; eauto.
      + intros F. exists s. split; [apply agree_refl|]. exact F.
    - rewrite <- E. clear c0 cs0 E. cbn [PlanSem.psem bvars a_pred a_args].
      split.
      + intros (s' & A & (s'' & A' & F) & K). rewrite tvals_app, tvals_vars in F.
        rewrite (fp_args a), tvals_app.
        assert (Q : map s' vs = tvals s' (map snd (fp_free N a))).
        { eapply rename_sound; [exact R| |exact K]. intros v old k G. discriminate. }
        replace (tvals s (map snd (fp_free N a))) with (map s'' vs).
        * rewrite <- BC with (s' := s''). exact F.
        * transitivity (map s' vs). { apply map_ext_in. intros v Iv. symmetry. apply A'. apply dedup_In; auto. }
          rewrite Q. apply tvals_agree. intros v Iv. symmetry. apply A. apply dedup_In.
          unfold fp_free_vars. clear -Iv. induction (fp_free N a) as [|x l IH]; cbn in *; auto.
          rewrite in_app_iff in *. tauto.
      + intros F. set (s' := put (combine vs (tvals s (map snd (fp_free N a)))) s).
        assert (Q : map s' vs = tvals s (map snd (fp_free N a))).
        { apply put_map; auto. rewrite tvals_length, map_length. eapply rename_length; eauto. }
        exists s'. split; [|split].
        * eapply agree_incl; [eapply rename_kept; eauto|]. intros v Iv. apply IF. apply (proj1 (dedup_In _ _)) in Iv. exact Iv.
        * exists s'. split; [apply agree_refl|]. rewrite tvals_app, tvals_vars, Q, BC, <- tvals_app, <- fp_args. exact F.
        * eapply rename_complete; [exact R|exact Q|]. intros v old k _ G. discriminate.
  Qed.

  Lemma mget_self : forall l v old k, mget v (map (fun v => (v, (v, 0))) l) = Some (old, k) -> old = v.
  Proof.
    induction l as [|w l IH]; intros v old k H; cbn in H; [discriminate|].
    destruct (Nat.eqb_spec v w) as [->|D]; [congruence|eauto].
  Qed.

  Lemma psem_fp_join : forall I p a s, incl (bvars p) V -> incl (avars a) V -> incl (flat_map tvar (fp_bound N a)) (bvars p) ->
    (psem I (fp_join N p a) s <-> psem I p s /\ b_fp B (a_pred a) (tvals s (a_args a))).
  Proof.
    intros I p a s PV IV C.
    assert (IF : incl (fargs_vars (fp_free N a)) V) by (intros v Hv; apply IV; rewrite fp_avars; apply in_or_app; right; exact Hv).
    unfold fp_join. destruct (rename_free N a (bvars p)) as [vs es] eqn:R. unfold rename_free in R.
    pose proof (rename_NoDup N V FN _ _ _ _ _ R (fp_free_fst a) IF) as ND.
    destruct (const_cons N (a_pred a) (fp_free N a) ++ eq_cons es) as [|c0 cs0] eqn:E.
    - apply rename_plain in R; auto. destruct R as [R1 R2]. rewrite <- R1, <- fp_args. cbn [PlanSem.psem bvars a_pred a_args].
      assert (EV : incl (avars a) (vunion (bvars p) vs)).
      { rewrite fp_avars. intros v Iv. apply vunion_In. apply in_app_iff in Iv. destruct Iv as [Iv|Iv]; [left; auto|].
        right. rewrite R2. exact Iv. }
      split.
      + intros (s' & A & P & F). split.
        * eapply psem_agree; [|exact P]. apply agree_sym. eapply agree_incl; [exact A|]. intros v Iv. apply vunion_In; auto.
        * rewrite (tvals_agree s s'); auto. eapply agree_incl; eauto.
      + intros (P & F). exists s. split; [apply agree_refl|]. split; auto.
    - rewrite <- E. clear c0 cs0 E. cbn [PlanSem.psem bvars a_pred a_args].
      split.
      + intros (s' & A & (s'' & A' & P & F) & K). rewrite tvals_app, tvals_vars in F.
        assert (AP : agree (bvars p) s s'').
        { eapply agree_trans; [eapply agree_incl; [exact A|]|eapply agree_incl; [exact A'|]]; intros v Iv; apply vunion_In; auto. }
        split; [eapply psem_agree; [|exact P]; apply agree_sym; exact AP|].
        rewrite (fp_args a), tvals_app.
        assert (Q : map s' vs = tvals s' (map snd (fp_free N a))).
        { eapply rename_sound; [exact R| |exact K]. intros v old k G. apply mget_self in G. subst; auto. }
        replace (tvals s (map snd (fp_free N a))) with (map s'' vs).
        * rewrite (tvals_agree s s''); [exact F|]. eapply agree_incl; [exact AP|exact C].
        * transitivity (map s' vs). { apply map_ext_in. intros v Iv. symmetry. apply A'. apply vunion_In; auto. }
          rewrite Q. apply tvals_agree. intros v Iv. symmetry. apply A. apply vunion_In. right.
          unfold fp_free_vars. clear -Iv. induction (fp_free N a) as [|x l IH]; cbn in *; auto.
          rewrite in_app_iff in *. tauto.
      + intros (P & F). set (s' := put (combine vs (tvals s (map snd (fp_free N a)))) s).
        assert (Q : map s' vs = tvals s (map snd (fp_free N a))).
        { apply put_map; auto. rewrite tvals_length, map_length. eapply rename_length; eauto. }
        assert (AV : agree V s s') by (eapply rename_kept; eauto).
        exists s'. split; [|split].
        * eapply agree_incl; [exact AV|]. intros v Iv. apply (proj1 (vunion_In _ _ _)) in Iv. destruct Iv as [Iv|Iv]; [apply PV; auto|apply IF; exact Iv].
        * exists s'. split; [apply agree_refl|]. split.
          -- eapply psem_agree; [|exact P]. eapply agree_incl; eauto.
          -- rewrite tvals_app, tvals_vars, Q. rewrite (tvals_agree s' s (fp_bound N a)).
             ++ rewrite <- tvals_app, <- fp_args. exact F.
             ++ apply agree_sym. eapply agree_incl; [exact AV|]. eapply incl_tran; eauto.
        * eapply rename_complete; [exact R|exact Q|]. intros v old k Iv G. apply mget_self in G. subst old.
          symmetry. apply AV. apply IF. exact Iv.
  Qed.
End Foreign.

Lemma all_app : forall (P : lit -> Prop) L L', (forall l, In l (L ++ L') -> P l) <-> (forall l, In l L -> P l) /\ (forall l, In l L' -> P l).
Proof. intros. setoid_rewrite in_app_iff. firstorder. Qed.
Lemma all_map : forall A (f : A -> lit) (P : lit -> Prop) l, (forall x, In x (map f l) -> P x) <-> (forall x, In x l -> P (f x)).
Proof. intros. setoid_rewrite in_map_iff. split; intros H; [eauto|]. intros x (y & <- & I). auto. Qed.
Lemma all_one : forall (P : lit -> Prop) a, (forall l, In l [a] -> P l) <-> P a.
Proof. intros. cbn. split; [auto|]. intros H l [<-|[]]. auto. Qed.

(** ** Literals applied so far *)
Section Inv.
  Variables (g : registry) (N : penv).
  Variable body : list lit.
  Definition rule_vars : list var := flat_map lit_vars body.
  Hypothesis FN : fresh_names N rule_vars.
  Hypothesis FG : forall p, g_foreign g p = pe_foreign N p.
  Hypothesis OTHER : forall r, In (LReduce r) body -> rd_other r = [].

  Definition clit (c : con) : lit := match c with KBin c a b => LBin c a b | KNot a => LNot a end.
  Definition asg (x : var * aexpr) : lit := LAssign (fst x) (snd x).
  Variable q : qctx.

  (** The plans the planner builds before new entities, with the literals they
      conjoin. *)
  Inductive built : list lit -> plan -> Prop :=
  | b_unit : built [] (PUnit [])
  | b_ground a : In a (q_pos q) -> built [LAtom a] (ground a)
  | b_red r : In r (q_reduces q) -> built [LReduce r] (red r)
  | b_fpground a : In a (q_fp q) -> forallb is_const (fp_bound N a) = true -> built [LAtom a] (fp_ground N a)
  | b_assigns L p f bv l : built L p -> l = map snd (filter f (enum (q_assigns q))) ->
      (forall x, In x l -> is_new (snd x) = false /\ ~ In (fst x) (bvars p) /\ incl (aexpr_vars (snd x)) (bvars p)) ->
      bv = vunion (bvars p) (map fst l) -> built (L ++ map asg l) (PProject bv p l)
  | b_cons L p f cs : built L p -> cs = map snd (filter f (enum (q_cons q))) ->
      (forall c, In c cs -> incl (con_vars c) (bvars p)) -> cs <> [] -> built (L ++ map clit cs) (PFilter (bvars p) p cs)
  | b_join L p L' r : built L p -> built L' r -> built (L ++ L') (join p r)
  | b_fpconstr L p bv a : built L p -> In a (q_fp q) -> NoDup bv -> (forall v, In v bv <-> In v (bvars p)) -> incl (avars a) bv ->
      built (L ++ [LAtom a]) (PFpConstr bv p a)
  | b_fpjoin L p a : built L p -> In a (q_fp q) -> incl (flat_map tvar (fp_bound N a)) (bvars p) ->
      built (L ++ [LAtom a]) (fp_join N p a)
  | b_neg L p a : built L p -> In a (q_neg q) -> incl (avars a) (bvars p) ->
      built (L ++ [LNeg a]) (PAnti (bvars p) p (ground a)).

  Record inv0 (L : list lit) (p : plan) : Prop := {
    i_sem : forall B X M s, psem B M X p s <-> forall l, In l L -> lit_sat B g X M s l;
    i_up : forall l, In l L -> incl (lit_vars l) (bvars p);
    i_down : forall v, In v (bvars p) -> exists l, In l L /\ In v (lit_binds N l);
    i_body : incl L body }.
  Record inv (L : list lit) (p : plan) : Prop := { i_0 :> inv0 L p; i_built : built L p }.

  Lemma rule_vars_In : forall l, In l body -> incl (lit_vars l) rule_vars.
  Proof. intros l I v J. unfold rule_vars. apply in_flat_map. eauto. Qed.
  Lemma binds_vars : forall l, incl (lit_binds N l) (lit_vars l).
  Proof.
    intros l v I. destruct l; cbn in *; try tauto.
    - destruct (pe_foreign N (a_pred a)); auto. unfold avars.
      apply in_flat_map in I. destruct I as (t & It & Iv). apply in_flat_map. exists t. split; auto. eapply In_skipn; eauto.
    - unfold reduce_free. apply in_or_app; auto.
  Qed.
  Lemma inv_V : forall L p, inv0 L p -> incl (bvars p) rule_vars.
  Proof.
    intros L p H v I. destruct (i_down H v I) as (l & Il & Iv). eapply rule_vars_In; [apply (i_body H); exact Il|].
    apply binds_vars; auto.
  Qed.

  Lemma built_NoDup : forall L p, built L p -> NoDup (bvars p).
  Proof.
    induction 1; subst; cbn [bvars ground red join]; auto; try apply dedup_NoDup; try constructor.
    - unfold fp_ground. destruct (rename_free N a []) as [vs es]. destruct (const_cons _ _ _ ++ _); apply dedup_NoDup.
    - unfold fp_join. destruct (rename_free N a (bvars p)) as [vs es]. destruct (const_cons _ _ _ ++ _); apply dedup_NoDup.
  Qed.
  (** A new plan that is the old one with some literals conjoined. *)
  Lemma inv_add0 : forall L p L' p', inv0 L p -> incl L' body ->
    (forall B X M s, psem B M X p' s <-> psem B M X p s /\ forall l, In l L' -> lit_sat B g X M s l) ->
    incl (bvars p) (bvars p') -> (forall l, In l L' -> incl (lit_vars l) (bvars p')) ->
    (forall v, In v (bvars p') -> In v (bvars p) \/ exists l, In l L' /\ In v (lit_binds N l)) ->
    inv0 (L ++ L') p'.
  Proof.
    intros L p L' p' H IB S I1 I2 I3. constructor.
    - intros B X M s. rewrite S, all_app, (i_sem H). tauto.
    - intros l I. apply in_app_iff in I. destruct I as [I|I]; auto. eapply incl_tran; [apply (i_up H); auto|auto].
    - intros v I. destruct (I3 v I) as [J|(l & J & K)].
      + destruct (i_down H v J) as (l & Il & Iv). exists l. rewrite in_app_iff. auto.
      + exists l. rewrite in_app_iff. auto.
    - apply incl_app; auto. apply (i_body H).
  Qed.
  Lemma inv_add : forall L p L' p', inv L p -> built (L ++ L') p' -> incl L' body ->
    (forall B X M s, psem B M X p' s <-> psem B M X p s /\ forall l, In l L' -> lit_sat B g X M s l) ->
    incl (bvars p) (bvars p') -> (forall l, In l L' -> incl (lit_vars l) (bvars p')) ->
    (forall v, In v (bvars p') -> In v (bvars p) \/ exists l, In l L' /\ In v (lit_binds N l)) ->
    inv (L ++ L') p'.
  Proof. intros L p L' p' H HB. split; auto. eapply inv_add0; eauto. apply H. Qed.

  Lemma atom_sat : forall B X M a s, pe_foreign N (a_pred a) = false -> (lit_sat B g X M s (LAtom a) <-> X (a_pred a) (tvals s (a_args a))).
  Proof. intros B X M a s H. cbn [lit_sat]. rewrite FG, H. tauto. Qed.
  Lemma fp_sat : forall B X M a s, pe_foreign N (a_pred a) = true -> (lit_sat B g X M s (LAtom a) <-> b_fp B (a_pred a) (tvals s (a_args a))).
  Proof. intros B X M a s H. cbn [lit_sat]. rewrite FG, H. tauto. Qed.

  (** ** The context of the rule *)
  Lemma clit_vars : forall c, lit_vars (clit c) = con_vars c.
  Proof. intros []; auto. Qed.
  Lemma clit_sat : forall B X M s c, lit_sat B g X M s (clit c) <-> con_sat s c.
  Proof. intros B X M s []; cbn; tauto. Qed.

  (** No atom that only tests follows one that gives values. *)
  Fixpoint tests_first (l : list atom) : Prop :=
    match l with
    | [] => True
    | a :: l => tests_first l /\ (fp_free N a <> [] -> forall b, In b l -> fp_free N b <> [])
    end.

  Record q_ok : Prop := {
    qo_red : forall r, In r (q_reduces q) <-> In (LReduce r) body;
    qo_pos : forall a, In a (q_pos q) <-> In (LAtom a) body /\ pe_foreign N (a_pred a) = false;
    qo_neg : forall a, In a (q_neg q) <-> In (LNeg a) body;
    qo_asg : forall x, In x (q_assigns q) <-> In (asg x) body;
    qo_con : forall c, In c (q_cons q) <-> In (clit c) body;
    qo_fp : forall a, In a (q_fp q) <-> In (LAtom a) body /\ pe_foreign N (a_pred a) = true }.
  Hypothesis QO : q_ok.
  Hypothesis TF : tests_first (q_fp q).

  (** The applied indices are those of literals conjoined. *)
  Definition cov {A} (l : list A) (f : A -> lit) (ap : list nat) (L : list lit) : Prop :=
    forall i x, In i ap -> nth_error l i = Some x -> In (f x) L.
  Definition cover (ap : applied) (L : list lit) : Prop :=
    cov (q_assigns q) asg (ap_assigns ap) L /\ cov (q_cons q) clit (ap_cons ap) L /\ cov (q_fp q) LAtom (ap_fp ap) L.
  Lemma cov_app : forall A (l : list A) f ap L L', cov l f ap L -> cov l f ap (L ++ L').
  Proof. intros A l f ap L L' H i x I E. apply in_or_app. left. eapply H; eauto. Qed.
  Lemma cover_app : forall ap L L', cover ap L -> cover ap (L ++ L').
  Proof. intros ap L L' (H1 & H2 & H3). unfold cover. splits; apply cov_app; auto. Qed.

  Lemma cov_step : forall A (l : list A) (f : A -> lit) P ap L,
    cov l f ap L ->
    cov l f (ap ++ map fst (filter P (enum l))) (L ++ map f (map snd (filter P (enum l)))).
  Proof.
    intros A l f P ap L H i x I E. apply in_or_app. apply in_app_iff in I. destruct I as [I|I].
    - left. eapply H; eauto.
    - right. apply in_map_iff in I. destruct I as ([j y] & Ej & I). cbn in Ej. subst j.
      assert (x = y) as ->.
      { apply filter_In in I. destruct I as [I _]. apply enum_In in I. congruence. }
      apply in_map. apply (in_map snd) in I. exact I.
  Qed.

  Definition dead_assign (aa : list nat) (bv : list var) : Prop := forall i x, nth_error (q_assigns q) i = Some x ->
    In i aa \/ In (fst x) bv \/ is_new (snd x) = true \/ ~ incl (aexpr_vars (snd x)) bv.
  Definition dead_con (ac : list nat) (bv : list var) : Prop := forall i x, nth_error (q_cons q) i = Some x ->
    In i ac \/ ~ incl (con_vars x) bv.
  Definition dead_fp (af : list nat) (bv : list var) : Prop := forall i x, nth_error (q_fp q) i = Some x ->
    In i af \/ ~ incl (flat_map tvar (fp_bound N x)) bv.

  Lemma try_assigns_inv : forall fuel ap p L aa p', try_assigns fuel q (bvars p) ap p = Some (aa, p') ->
    inv L p -> cov (q_assigns q) asg ap L ->
    exists L', inv (L ++ L') p' /\ cov (q_assigns q) asg aa (L ++ L') /\ dead_assign aa (bvars p') /\
      length ap <= length aa /\ (length aa = length ap -> aa = ap /\ p' = p).
  Proof.
    induction fuel as [|fuel IH]; intros ap p L aa p' R H C; cbn [try_assigns] in R;
    match type of R with context [filter ?f ?l] => set (P := f) in R; change l with (enum (q_assigns q)) in R end.
    all: assert (Z : filter P (enum (q_assigns q)) = [] -> dead_assign ap (bvars p)).
    1,3: intros Z i x E; destruct (P (i, x)) eqn:EP;
         [exfalso; assert (I : In (i, x) (filter P (enum (q_assigns q)))) by (apply filter_In; split; [apply enum_In; auto|auto]);
          rewrite Z in I; exact I|];
         unfold P in EP; cbn [fst snd] in EP; rewrite !andb_false_iff, !negb_false_iff in EP;
         destruct EP as [[[EP|EP]|EP]|EP];
         [left; apply memb_In; auto|right; left; apply memb_In; auto|right; right; left; auto|
          right; right; right; intros J; apply subsetb_incl in J; exact (eq_true_false_abs _ J EP)].
    - destruct (filter P (enum (q_assigns q))) eqn:E; [|discriminate]. injection R as <- <-.
      exists []. rewrite app_nil_r. splits; auto.
    - destruct (filter P (enum (q_assigns q))) as [|x0 todo0] eqn:E.
      + injection R as <- <-. exists []. rewrite app_nil_r. splits; auto.
      + rewrite <- E in R. set (todo := filter P (enum (q_assigns q))) in *.
        assert (T : forall x, In x todo -> In (snd x) (q_assigns q) /\ incl (aexpr_vars (snd (snd x))) (bvars p)).
        { intros [i x] I. apply filter_In in I. destruct I as [I EP]. apply enum_In, nth_error_In in I. split; auto.
          unfold P in EP. cbn [fst snd] in *. rewrite !andb_true_iff in EP. apply subsetb_incl. tauto. }
        assert (T3 : forall x, In x todo -> is_new (snd (snd x)) = false /\ ~ In (fst (snd x)) (bvars p)).
        { intros [i x] I. apply filter_In in I. destruct I as [I EP].
          unfold P in EP. cbn [fst snd] in *. rewrite !andb_true_iff, !negb_true_iff, !memb_nIn in EP. tauto. }
        set (bv' := vunion (bvars p) (map (fun x => fst (snd x)) todo)) in R.
        assert (I1 : incl (bvars p) bv') by (intros v Iv; apply vunion_In; auto).
        assert (H' : inv (L ++ map asg (map snd todo)) (PProject bv' p (map snd todo))).
        { apply inv_add with (p := p); auto.
          - apply b_assigns with (f := P); auto; [apply H| |unfold bv'; rewrite map_map; auto].
            intros x I. apply in_map_iff in I. destruct I as (y & <- & I). splits; [apply T3|apply T3|apply T]; auto.
          - intros l I. apply in_map_iff in I. destruct I as (x & <- & I). apply in_map_iff in I. destruct I as (y & <- & I).
            apply (qo_asg QO), T, I.
          - intros B X M s. rewrite psem_project, all_map; auto; [tauto|]. intros x I. apply in_map_iff in I. destruct I as (y & <- & I).
            intros v [<-|Iv]; [|apply I1, (T y I), Iv]. apply vunion_In. right. apply in_map_iff. exists y. auto.
          - intros l I. apply in_map_iff in I. destruct I as (x & <- & I). apply in_map_iff in I. destruct I as (y & <- & I).
            cbn [asg lit_vars bvars]. intros v [<-|Iv]; [|apply I1, (T y I), Iv]. apply vunion_In. right. apply in_map_iff. exists y. auto.
          - cbn [bvars]. intros v Iv. apply (proj1 (vunion_In _ _ _)) in Iv. destruct Iv as [Iv|Iv]; auto. right.
            apply in_map_iff in Iv. destruct Iv as (y & <- & I). exists (asg (snd y)). split; [|cbn; auto].
            apply in_map, in_map, I. }
        change bv' with (bvars (PProject bv' p (map snd todo))) in R at 1.
        destruct (IH _ _ _ _ _ R H') as (L' & K1 & K2 & K3 & K4 & K5).
        { apply cov_step. exact C. }
        rewrite <- app_assoc in K1, K2.
        exists (map asg (map snd todo) ++ L').
        assert (LE : length ap + 1 <= length aa).
        { rewrite app_length, map_length in K4. rewrite E in K4. cbn [length] in K4. lia. }
        split; [exact K1|]. split; [exact K2|]. split; [exact K3|]. split; [lia|]. intros; lia.
  Qed.

  Lemma try_constraint_inv : forall ap p L ac p', try_constraint q ap p = (ac, p') ->
    inv L p -> cov (q_cons q) clit ap L ->
    exists L', inv (L ++ L') p' /\ cov (q_cons q) clit ac (L ++ L') /\ bvars p' = bvars p /\ dead_con ac (bvars p') /\
      length ap <= length ac /\ (length ac = length ap -> ac = ap /\ p' = p).
  Proof.
    intros ap p L ac p' R H C. unfold try_constraint in R.
    set (P := fun x : nat * con => negb (memb (fst x) ap) && subsetb (con_vars (snd x)) (bvars p)) in R.
    assert (Z : dead_con (ap ++ map fst (filter P (enum (q_cons q)))) (bvars p)).
    { intros i x E. rewrite in_app_iff. destruct (P (i, x)) eqn:EP.
      - left; right. apply in_map_iff. exists (i, x). split; auto. apply filter_In. split; [apply enum_In|]; auto.
      - unfold P in EP; cbn [fst snd] in EP; rewrite !andb_false_iff, !negb_false_iff in EP.
        destruct EP as [EP|EP]; [left; left; apply memb_In; auto|right; intros J; apply subsetb_incl in J; exact (eq_true_false_abs _ J EP)]. }
    destruct (filter P (enum (q_cons q))) as [|x0 todo0] eqn:E.
    - injection R as <- <-. exists []. cbn in Z. rewrite app_nil_r in *. splits; auto.
    - rewrite <- E in *. set (todo := filter P (enum (q_cons q))) in *. injection R as <- <-.
      assert (T : forall x, In x todo -> In (snd x) (q_cons q) /\ incl (con_vars (snd x)) (bvars p)).
      { intros [i x] I. apply filter_In in I. destruct I as [I EP]. apply enum_In, nth_error_In in I. split; auto.
        unfold P in EP. cbn [fst snd] in *. rewrite !andb_true_iff in EP. apply subsetb_incl. tauto. }
      exists (map clit (map snd todo)). split; [|split; [|split; [|split; [|split]]]].
      + apply inv_add with (p := p); auto.
        * apply b_cons with (f := P); auto; [apply H| |rewrite E; discriminate]. intros c I. apply in_map_iff in I. destruct I as (y & <- & I). apply T; auto.
        * intros l I. apply in_map_iff in I. destruct I as (x & <- & I). apply in_map_iff in I. destruct I as (y & <- & I).
          apply (qo_con QO), T, I.
        * intros B X M s. rewrite psem_filter, all_map.
          -- setoid_rewrite clit_sat. tauto.
          -- apply incl_refl.
          -- intros c I. apply in_map_iff in I. destruct I as (y & <- & I). apply T, I.
        * apply incl_refl.
        * intros l I. apply in_map_iff in I. destruct I as (x & <- & I). apply in_map_iff in I. destruct I as (y & <- & I).
          rewrite clit_vars. apply T, I.
      + apply cov_step. exact C.
      + reflexivity.
      + exact Z.
      + rewrite app_length. lia.
      + rewrite app_length, map_length, E. cbn. lia.
  Qed.

  (** Foreign predicates *)
  Lemma bounded_incl : forall bv l, forallb (term_bounded bv) l = true <-> incl (flat_map tvar l) bv.
  Proof.
    intros bv l. rewrite forallb_forall. split.
    - intros H v I. apply in_flat_map in I. destruct I as ([w|c] & I & J); cbn in J; [|tauto].
      destruct J as [<-|[]]. specialize (H _ I). apply memb_In. exact H.
    - intros H [v|c] I; cbn; auto. apply memb_In, H. apply in_flat_map. exists (TVar v). cbn; auto.
  Qed.

  Lemma apply_fp_inv : forall bv p L a, inv L p -> In a (q_fp q) -> NoDup bv -> incl bv (bvars p) ->
    (fp_free N a = [] -> incl (bvars p) bv) -> incl (flat_map tvar (fp_bound N a)) bv ->
    inv (L ++ [LAtom a]) (apply_fp N bv p a) /\ incl bv (bvars (apply_fp N bv p a)).
  Proof.
    intros bv p L a H Ja Nb I1 I2 IB. pose proof Ja as Ia. apply (qo_fp QO) in Ia. destruct Ia as [Ia Fa].
    pose proof (rule_vars_In _ Ia) as IV. cbn [lit_vars] in IV.
    pose proof (inv_V H) as PV.
    assert (BI : incl [LAtom a] body) by (intros l [<-|[]]; auto).
    unfold apply_fp. destruct (fp_free N a) as [|x0 l0] eqn:E.
    - assert (A : avars a = flat_map tvar (fp_bound N a)).
      { rewrite (fp_avars N a). unfold fp_free_vars. rewrite E. cbn. apply app_nil_r. }
      specialize (I2 eq_refl). split; [|apply incl_refl].
      apply inv_add with (p := p); auto.
      + apply b_fpconstr; auto; [apply H| |rewrite A; auto]. intros v. split; auto.
      + intros B X M s. rewrite psem_constr, all_one, fp_sat; auto; [tauto|]. rewrite A; auto.
      + intros l [<-|[]]. cbn [lit_vars bvars]. rewrite A; auto.
    - destruct (forallb is_const (fp_bound N a)) eqn:C.
      + assert (BI' : forall x, In x (bvars (PJoin (vunion (bvars p) (bvars (fp_ground N a))) p (fp_ground N a))) <-> In x (bvars p) \/ In x (fp_free_vars N a)).
        { intros x. cbn [bvars]. rewrite vunion_In, fp_ground_bv. tauto. }
        split; [|intros v Iv; apply BI'; auto].
        apply inv_add with (p := p); auto.
        * apply (@b_join L p [LAtom a] (fp_ground N a)); [apply H|]. apply b_fpground; auto.
        * intros B X M s. rewrite psem_join, all_one, fp_sat, (@psem_fp_ground B M N _ FN); auto; [tauto| |]; intros v Iv; apply vunion_In; auto.
        * intros v Iv. apply BI'; auto.
        * intros l [<-|[]] v Iv. apply BI'. cbn [lit_vars] in Iv. rewrite (fp_avars N a), (const_vars _ C) in Iv. auto.
        * intros v Iv. apply BI' in Iv. destruct Iv as [Iv|Iv]; auto. right. exists (LAtom a). split; [left; auto|].
          cbn. rewrite Fa. rewrite <- fp_free_vars_eq. exact Iv.
      + split; [|intros v Iv; apply fp_join_bv; auto].
        apply inv_add with (p := p); auto.
        * apply b_fpjoin; auto; [apply H|]. eapply incl_tran; eauto.
        * intros B X M s. rewrite (@psem_fp_join B M N _ FN), all_one, fp_sat; auto; [tauto|]. eapply incl_tran; eauto.
        * intros v Iv. apply fp_join_bv; auto.
        * intros l [<-|[]] v Iv. apply fp_join_bv. cbn [lit_vars] in Iv. rewrite (fp_avars N a) in Iv.
          apply in_app_iff in Iv. destruct Iv as [Iv|Iv]; auto.
        * intros v Iv. apply fp_join_bv in Iv. destruct Iv as [Iv|Iv]; auto. right. exists (LAtom a). split; [left; auto|].
          cbn. rewrite Fa. rewrite <- fp_free_vars_eq. exact Iv.
  Qed.

  Lemma fp_pass_inv : forall bv l ap p any L ap' p' any', fp_pass N bv l ap p any = (ap', p', any') ->
    NoDup bv -> inv L p -> incl bv (bvars p) -> (forall i a, In (i, a) l -> nth_error (q_fp q) i = Some a) ->
    tests_first (map snd l) -> (incl (bvars p) bv \/ (forall a, In a (map snd l) -> fp_free N a <> [])) ->
    cov (q_fp q) LAtom ap L ->
    exists L', inv (L ++ L') p' /\ cov (q_fp q) LAtom ap' (L ++ L').
  Proof.
    intros bv. induction l as [|[i a] l IH]; intros ap p any L ap' p' any' R Nb H I1 IL T S0 C; cbn [fp_pass] in R.
    - injection R as <- <- <-. exists []. rewrite app_nil_r. auto.
    - assert (IL' : forall i a, In (i, a) l -> nth_error (q_fp q) i = Some a) by (intros; apply IL; right; auto).
      cbn [map snd tests_first] in T. destruct T as [T1 T2].
      destruct (negb (memb i ap) && forallb (term_bounded bv) (fp_bound N a)) eqn:E.
      + rewrite andb_true_iff in E. destruct E as [E1 E2]. apply bounded_incl in E2.
        pose proof (IL i a (or_introl eq_refl)) as Ea.
        destruct (@apply_fp_inv bv p L a H) as [H1 H2]; auto.
        { eapply nth_error_In; eauto. }
        { intros Ef. destruct S0 as [S0|S0]; auto. exfalso. apply (S0 a); [left; auto|auto]. }
        destruct (IH _ _ _ _ _ _ _ R Nb H1 H2 IL' T1) as (L' & K1 & K2).
        * destruct (fp_free N a) eqn:Ef.
          -- destruct S0 as [S0|S0].
             ++ left. unfold apply_fp. rewrite Ef. cbn. apply incl_refl.
             ++ exfalso. apply (S0 a); [left; auto|auto].
          -- right. intros b Ib. apply T2; auto. discriminate.
        * intros j b J Eb. apply in_app_iff in J. apply in_or_app. destruct J as [J|[<-|[]]]; [left; eapply C; eauto|right].
          rewrite Ea in Eb. injection Eb as <-. left; auto.
        * rewrite <- app_assoc in K1, K2. eauto.
      + eapply IH; eauto. destruct S0 as [S0|S0]; [auto|]. right. intros b Ib. apply S0. right; auto.
  Qed.
  Lemma fp_pass_sat : forall bv l ap p any ap' p' any', fp_pass N bv l ap p any = (ap', p', any') ->
    incl ap ap' /\ (forall i a, In (i, a) l -> In i ap' \/ forallb (term_bounded bv) (fp_bound N a) = false) /\
    length ap <= length ap' /\ (length ap' = length ap -> ap' = ap /\ p' = p /\ any' = any) /\
    (length ap' <> length ap -> any' = true).
  Proof.
    intros bv. induction l as [|[i a] l IH]; intros ap p any ap' p' any' R; cbn [fp_pass] in R.
    - injection R as <- <- <-. splits; auto; try apply incl_refl; try tauto. intros i a [].
    - destruct (negb (memb i ap) && forallb (term_bounded bv) (fp_bound N a)) eqn:E.
      + destruct (IH _ _ _ _ _ _ R) as (K1 & K2 & K3 & K4 & K5). rewrite app_length in *. cbn [length] in *.
        split; [intros x Ix; apply K1, in_or_app; auto|]. split; [|split; [lia|split; [intros; lia|]]].
        * intros j b [J|J]; [|apply K2; auto]. injection J as <- <-. left. apply K1, in_or_app. right; left; auto.
        * intros D. destruct (Nat.eq_dec (length ap') (length ap + 1)) as [D'|D']; [apply (K4 D')|apply (K5 D')].
      + destruct (IH _ _ _ _ _ _ R) as (K1 & K2 & K3). split; auto. split; auto.
        intros j b [J|J]; [|apply K2; auto]. injection J as <- <-.
        rewrite andb_false_iff, negb_false_iff in E. destruct E as [E|E]; auto. left. apply K1, memb_In, E.
  Qed.
  Lemma fp_pass_noop : forall bv l ap p any,
    (forall i a, In (i, a) l -> In i ap \/ forallb (term_bounded bv) (fp_bound N a) = false) ->
    fp_pass N bv l ap p any = (ap, p, any).
  Proof.
    intros bv. induction l as [|[i a] l IH]; intros ap p any H; cbn [fp_pass]; auto.
    assert (E : negb (memb i ap) && forallb (term_bounded bv) (fp_bound N a) = false).
    { rewrite andb_false_iff, negb_false_iff. destruct (H i a (or_introl eq_refl)) as [J|J]; auto. left. apply memb_In; auto. }
    rewrite E. apply IH. intros; apply H; right; auto.
  Qed.
  Lemma fp_loop_eq : forall fuel bv ap p ap' p' any, fp_pass N bv (enum (q_fp q)) ap p false = (ap', p', any) ->
    fp_loop N (S fuel) q bv ap p = Some (ap', p').
  Proof.
    intros fuel bv ap p ap' p' any R. cbn [fp_loop]. rewrite R. destruct any; auto.
    destruct (fp_pass_sat _ _ _ _ _ R) as (K1 & K2 & _).
    pose proof (@fp_pass_noop bv (enum (q_fp q)) ap' p' false K2) as Z. destruct fuel; cbn [fp_loop]; rewrite Z; auto.
  Qed.

  (** ** The loop *)
  Definition dead (ap : applied) (p : plan) : Prop :=
    dead_assign (ap_assigns ap) (bvars p) /\ dead_con (ap_cons ap) (bvars p) /\ dead_fp (ap_fp ap) (bvars p).

  Lemma try_apply_inv : forall fuel ap p L ap' p', try_apply N fuel q ap p = Some (ap', p') ->
    inv L p -> cover ap L -> exists L', inv (L ++ L') p' /\ cover ap' (L ++ L') /\ dead ap' p'.
  Proof.
    induction fuel as [|fuel IH]; intros ap p L ap' p' R H (C1 & C2 & C3); cbn [try_apply] in R;
    (destruct (try_assigns (S (n_lits q)) q (bvars p) (ap_assigns ap) p) as [[aa p1]|] eqn:E1; [|discriminate];
     destruct (try_constraint q (ap_cons ap) p1) as [ac p2] eqn:E2;
     destruct (fp_pass N (bvars p2) (enum (q_fp q)) (ap_fp ap) p2 false) as [[af p3] any] eqn:E3;
     rewrite (@fp_loop_eq _ _ _ _ _ _ _ E3) in R;
     destruct (@try_assigns_inv _ _ _ _ _ _ E1 H C1) as (L1 & H1 & D1 & S1 & Le1 & Eq1);
     destruct (@try_constraint_inv _ _ _ _ _ E2 H1 (cov_app L1 C2)) as (L2 & H2 & D2 & B2 & S2 & Le2 & Eq2);
     destruct (@fp_pass_inv _ _ _ _ _ _ _ _ _ E3 (built_NoDup (i_built H2)) H2) as (L3 & H3 & D3);
     [apply incl_refl|intros i a I; apply enum_In; exact I|rewrite enum_snd; exact TF|left; apply incl_refl|
      apply cov_app, cov_app; exact C3|];
     destruct (@fp_pass_sat _ _ _ _ _ _ _ _ E3) as (_ & S3 & Le3 & Eq3 & _);
     assert (CV : cover (mkAp aa ac af) (((L ++ L1) ++ L2) ++ L3)) by
       (split; [apply cov_app, cov_app; exact D1|split; [apply cov_app; exact D2|exact D3]]);
     rewrite <- !app_assoc in CV, H3).
    all: destruct (negb (Nat.eqb (length aa) (length (ap_assigns ap)))
               || negb (Nat.eqb (length ac) (length (ap_cons ap)))
               || negb (Nat.eqb (length af) (length (ap_fp ap)))) eqn:EQ.
    - discriminate.
    - injection R as <- <-. rewrite !orb_false_iff, !negb_false_iff, !Nat.eqb_eq in EQ. destruct EQ as [[Q1 Q2] Q3].
      destruct (Eq1 Q1) as [-> ->]. destruct (Eq2 Q2) as [-> ->]. destruct (Eq3 Q3) as (-> & -> & _).
      exists (L1 ++ L2 ++ L3). split; [exact H3|]. split; [exact CV|]. split; [exact S1|]. split; [exact S2|].
      intros i x E. destruct (S3 i x (proj2 (enum_In _ _ _ _) E)) as [J|J]; [left; exact J|].
      right. intros K. apply bounded_incl in K. congruence.
    - destruct (IH _ _ _ _ _ R H3 CV) as (L' & K1 & K2 & K3). rewrite <- !app_assoc in K1, K2.
      exists (L1 ++ L2 ++ L3 ++ L'). auto.
    - injection R as <- <-. rewrite !orb_false_iff, !negb_false_iff, !Nat.eqb_eq in EQ. destruct EQ as [[Q1 Q2] Q3].
      destruct (Eq1 Q1) as [-> ->]. destruct (Eq2 Q2) as [-> ->]. destruct (Eq3 Q3) as (-> & -> & _).
      exists (L1 ++ L2 ++ L3). split; [exact H3|]. split; [exact CV|]. split; [exact S1|]. split; [exact S2|].
      intros i x E. destruct (S3 i x (proj2 (enum_In _ _ _ _) E)) as [J|J]; [left; exact J|].
      right. intros K. apply bounded_incl in K. congruence.
  Qed.

  Lemma ground_inv : forall a, In a (q_pos q) -> inv [LAtom a] (ground a).
  Proof.
    intros a J. pose proof J as I. apply (qo_pos QO) in I. destruct I as [I F]. split; [|apply b_ground; auto]. constructor.
    - intros B X M s. rewrite all_one, atom_sat; auto. apply psem_ground. intros v Iv. apply dedup_In; auto.
    - intros l [<-|[]] v Iv. apply dedup_In; auto.
    - intros v Iv. exists (LAtom a). split; [left; auto|]. cbn. rewrite F. cbn in Iv. apply (proj1 (dedup_In _ _)) in Iv. auto.
    - intros l [<-|[]]; auto.
  Qed.
  Lemma red_inv : forall r, In r (q_reduces q) -> inv [LReduce r] (red r).
  Proof.
    intros r J. pose proof J as I. apply (qo_red QO) in I. pose proof (OTHER _ I) as O. split; [|apply b_red; auto]. constructor.
    - intros B X M s. rewrite all_one. rewrite psem_red; auto. cbn. tauto.
    - intros l [<-|[]] v Iv. cbn in *. unfold reduce_free in Iv. rewrite O, app_nil_r in Iv. apply dedup_In; auto.
    - intros v Iv. exists (LReduce r). split; [left; auto|]. cbn in *. apply (proj1 (dedup_In _ _)) in Iv. auto.
    - intros l [<-|[]]; auto.
  Qed.
  Lemma join_inv : forall L p L' r, inv L p -> inv L' r -> inv (L ++ L') (join p r).
  Proof.
    intros L p L' r H H'. unfold join. apply inv_add with (p := p); auto.
    - apply b_join; [apply H|apply H'].
    - apply (i_body H').
    - intros B X M s. rewrite psem_join; [rewrite (i_sem H'); tauto| |]; intros v Iv; apply vunion_In; auto.
    - intros v Iv. apply vunion_In; auto.
    - intros l Il v Iv. apply vunion_In. right. eapply (i_up H'); eauto.
    - intros v Iv. cbn in Iv. apply (proj1 (vunion_In _ _ _)) in Iv. destruct Iv as [Iv|Iv]; auto. right. apply (i_down H'); auto.
  Qed.

  Lemma start_inv : forall arcs ap p n, start_plan N q arcs = Some (ap, p, n) ->
    exists L, inv L p /\ cover ap L /\ dead ap p /\ (forall r, In r (q_reduces q) -> In (LReduce r) L) /\
      (forall i a, In i (map snd (firstn n arcs)) -> nth_error (q_pos q) i = Some a -> In (LAtom a) L).
  Proof.
    intros arcs ap p n R. unfold start_plan in R.
    assert (C0 : forall L, cover no_ap L) by (intros L; unfold cover; splits; intros i x []).
    destruct (q_reduces q) as [|r rs] eqn:ER.
    - destruct arcs as [|[l0 i] arcs].
      + revert R. case_eq (q_fp q); [intros EF R|intros a0 fps EF R].
        * destruct (apply_all N q no_ap (PUnit [])) as [[ap1 p1]|] eqn:E; [|discriminate]. injection R as <- <- <-.
          destruct (@try_apply_inv _ _ _ ([]) _ _ E) as (L' & K1 & K2 & K3); auto.
          { split; [|apply b_unit]. constructor.
            - intros B X M s. cbn. split; [intros _ l []|]. intros _. exists s. split; auto. intros v [].
            - intros l [].
            - intros v [].
            - intros l []. }
          exists L'. split; [exact K1|]. split; [exact K2|]. split; [exact K3|]. split; [intros ? []|intros ? ? []].
        * rewrite <- EF in R. destruct (find (fun x => is_ground_fp N (snd x)) (enum (q_fp q))) as [[i a]|] eqn:Ef; [|discriminate].
          apply find_some in Ef. destruct Ef as [Ia Ga]. cbn [snd] in Ga. apply enum_In in Ia.
          destruct (apply_all N q (mkAp [] [] [i]) (fp_ground N a)) as [[ap1 p1]|] eqn:E; [|discriminate]. injection R as <- <- <-.
          pose proof (nth_error_In _ _ Ia) as Ka. pose proof Ka as Ja. apply (qo_fp QO) in Ja. destruct Ja as [Ja Fa].
          destruct (@try_apply_inv _ _ _ ([LAtom a]) _ _ E) as (L' & K1 & K2 & K3); auto.
          { split; [|apply b_fpground; auto]. constructor.
            - intros B X M s. rewrite all_one, fp_sat; auto. apply (@psem_fp_ground B M N _ FN); auto. apply (rule_vars_In _ Ja).
            - intros l [<-|[]] v Iv. apply fp_ground_bv. cbn in Iv. rewrite (fp_avars N a), (const_vars _ Ga) in Iv. exact Iv.
            - intros v Iv. apply fp_ground_bv in Iv. exists (LAtom a). split; [left; auto|]. cbn. rewrite Fa, <- fp_free_vars_eq. auto.
            - intros l [<-|[]]; auto. }
          { unfold cover; splits; cbn; try (intros j x []; fail). intros j x [<-|[]] Ex. rewrite Ia in Ex. injection Ex as <-. left; auto. }
          exists ([LAtom a] ++ L'). split; [exact K1|]. split; [exact K2|]. split; [exact K3|]. split; [intros ? []|intros ? ? []].
      + destruct (nth_error (q_pos q) i) as [a|] eqn:Ea; [|discriminate]. cbn [obnd] in R.
        destruct (apply_all N q no_ap (ground a)) as [[ap1 p1]|] eqn:E; [|discriminate]. injection R as <- <- <-.
        destruct (@try_apply_inv _ _ _ ([LAtom a]) _ _ E) as (L' & K1 & K2 & K3); auto.
        { apply ground_inv. eapply nth_error_In; eauto. }
        exists ([LAtom a] ++ L'). split; [exact K1|]. split; [exact K2|]. split; [exact K3|]. split; [intros r []|].
        intros j b [<-|[]] Eb. cbn in Eb. rewrite Ea in Eb. injection Eb as <-. left; auto.
    - assert (F : forall rs' L p0, incl rs' (q_reduces q) -> inv L p0 ->
        exists L', inv (L ++ L') (fold_left (fun p r => join p (red r)) rs' p0) /\ forall r, In r rs' -> In (LReduce r) L').
      { induction rs' as [|r' rs' IH]; intros L p0 I H; cbn [fold_left].
        - exists []. rewrite app_nil_r. split; auto.
        - destruct (IH (L ++ [LReduce r']) (join p0 (red r'))) as (L' & K1 & K2).
          + intros x Ix. apply I. right; auto.
          + apply join_inv; auto. apply red_inv, I. left; auto.
          + exists (LReduce r' :: L'). rewrite <- app_assoc in K1. split; auto.
            intros x [<-|Ix]; [left|right]; auto. }
      destruct (F rs [LReduce r] (red r)) as (L' & K1 & K2).
      { intros x Ix. rewrite ER. right; auto. }
      { apply red_inv. rewrite ER. left; auto. }
      destruct (apply_all N q no_ap (fold_left (fun p r => join p (red r)) rs (red r))) as [[ap1 p1]|] eqn:E; [|discriminate].
      injection R as <- <- <-.
      destruct (@try_apply_inv _ _ _ _ _ _ E K1 (C0 _)) as (L'' & J1 & J2 & J3).
      eexists. split; [exact J1|]. split; [exact J2|]. split; [exact J3|]. split; [|intros i a []].
      intros x [<-|Ix]; [left; auto|]. right. apply in_or_app. left. apply K2; auto.
  Qed.

  Lemma add_arcs_inv : forall arcs ap p L ap' p', add_arcs N q arcs ap p = Some (ap', p') -> inv L p -> cover ap L -> dead ap p ->
    exists L', inv (L ++ L') p' /\ cover ap' (L ++ L') /\ dead ap' p' /\
      (forall i a, In i (map snd arcs) -> nth_error (q_pos q) i = Some a -> In (LAtom a) L').
  Proof.
    induction arcs as [|[l0 i] arcs IH]; intros ap p L ap' p' R H C D; cbn [add_arcs] in R.
    - injection R as <- <-. exists []. rewrite app_nil_r. splits; auto; try apply C; try apply D.
    - destruct (nth_error (q_pos q) i) as [a|] eqn:Ea; [|discriminate].
      destruct (apply_all N q ap (join p (ground a))) as [[ap1 p1]|] eqn:E; [|discriminate].
      destruct (@try_apply_inv _ _ _ (L ++ [LAtom a]) _ _ E) as (L1 & K1 & K2 & K3).
      { apply join_inv; auto. apply ground_inv. eapply nth_error_In; eauto. }
      { apply cover_app; auto. }
      destruct (IH _ _ _ _ _ R K1 K2 K3) as (L2 & J1 & J2 & J3 & J4). rewrite <- !app_assoc in J1, J2.
      exists ([LAtom a] ++ L1 ++ L2). split; [exact J1|]. split; [exact J2|]. split; [exact J3|].
      intros j b [<-|I] Eb.
      + cbn [snd] in Eb. rewrite Ea in Eb. injection Eb as <-. left; auto.
      + apply in_or_app. right. apply in_or_app. right. eapply J4; eauto.
  Qed.

  (** Once every atom and reduce is in, all limited variables are bounded. *)
  Lemma limited_bounded : forall L p ap, inv L p -> cover ap L -> dead ap p ->
    (forall r, In r (q_reduces q) -> In (LReduce r) L) -> (forall a, In a (q_pos q) -> In (LAtom a) L) ->
    forall v, limited N body v -> In v (bvars p).
  Proof.
    intros L p ap H (C1 & C2 & C3) (D1 & D2 & D3) HR HP v Lv. induction Lv as [l v Il Nl Bv Hn IH].
    assert (UP : forall l, In l L -> In v (lit_binds N l) -> In v (bvars p)).
    { intros l' I' B'. apply (i_up H _ I'). apply binds_vars; auto. }
    destruct l; cbn in Bv; try tauto.
    - destruct (pe_foreign N (a_pred a)) eqn:F.
      + assert (Ia : In a (q_fp q)) by (apply (qo_fp QO); auto). apply In_nth_error in Ia. destruct Ia as (i & Ei).
        destruct (D3 i a Ei) as [J|J].
        * apply (UP (LAtom a)); [eapply C3; eauto|]. cbn. rewrite F. auto.
        * exfalso. apply J. intros w Iw. apply IH. cbn. rewrite F. exact Iw.
      + apply (UP (LAtom a)); [apply HP, (qo_pos QO); auto|]. cbn. rewrite F. auto.
    - assert (Ia : In (v0, e) (q_assigns q)) by (apply (qo_asg QO); auto). apply In_nth_error in Ia. destruct Ia as (i & Ei).
      destruct Bv as [->|[]]. destruct (D1 i _ Ei) as [J|[J|[J|J]]]; cbn [fst snd] in *.
      + apply (UP (LAssign v e)); [apply (C1 i (v, e)); auto|cbn; auto].
      + auto.
      + cbn in Nl. congruence.
      + exfalso. apply J. intros w Iw. apply IH. exact Iw.
    - apply (UP (LReduce r)); auto. apply HR, (qo_red QO); auto.
  Qed.

  (** Every other literal is in as well, except assignments of bounded variables. *)
  Definition skipped (K : list lit) (l : lit) : Prop :=
    exists v e, l = LAssign v e /\ is_new e = false /\ exists l', In l' K /\ In v (lit_binds N l').

  Hypothesis SAFE : safe N body.
  Hypothesis NEGF : forall a, In (LNeg a) body -> pe_foreign N (a_pred a) = false.

  Lemma add_negs_inv : forall l L p, inv L p -> incl l (q_neg q) ->
    (forall v, limited N body v -> In v (bvars p)) ->
    exists L', inv (L ++ L') (fold_left (fun p a => PAnti (bvars p) p (ground a)) l p) /\
      bvars (fold_left (fun p a => PAnti (bvars p) p (ground a)) l p) = bvars p /\
      (forall a, In a l -> In (LNeg a) L').
  Proof.
    induction l as [|a l IH]; intros L p H I LB; cbn [fold_left].
    - exists []. rewrite app_nil_r. splits; auto.
    - assert (Ia : In (LNeg a) body) by (apply (qo_neg QO), I; left; auto).
      assert (AV : incl (avars a) (bvars p)).
      { intros v Iv. apply LB. destruct (SAFE (LNeg a) v Ia Iv) as [J|[J _]]; auto. discriminate. }
      destruct (IH (L ++ [LNeg a]) (PAnti (bvars p) p (ground a))) as (L' & K1 & K2 & K3).
      + apply inv_add with (p := p); auto.
        * apply b_neg; auto; [apply H|apply I; left; auto].
        * intros l' [<-|[]]; auto.
        * intros B X M s. rewrite psem_anti, all_one; auto; [|apply incl_refl]. cbn [lit_sat other_sat]. rewrite FG, (NEGF _ Ia). tauto.
        * apply incl_refl.
        * intros l' [<-|[]]; auto.
      + intros x Ix. apply I. right; auto.
      + auto.
      + exists (LNeg a :: L'). rewrite <- app_assoc in K1. split; [exact K1|]. split; [exact K2|].
        intros b [<-|Ib]; [left|right]; auto.
  Qed.

  Lemma add_news_inv : forall L p, inv L p -> (forall v, limited N body v -> In v (bvars p)) ->
    exists L', inv0 (L ++ L') (add_news q p) /\ L' = map asg (news q) /\ (forall x, In x (q_assigns q) -> is_new (snd x) = true -> In (asg x) L').
  Proof.
    intros L p H LB. unfold add_news. destruct (news q) as [|x0 l0] eqn:E.
    - exists []. rewrite app_nil_r. split; [apply H|]. split; auto. intros x I J. exfalso.
      assert (Ix : In x (news q)) by (apply filter_In; auto). rewrite E in Ix. exact Ix.
    - rewrite <- E. set (bv' := vunion (map fst (news q)) (bvars p)).
      assert (T : forall x, In x (news q) -> In x (q_assigns q) /\ is_new (snd x) = true) by (intros x I; apply filter_In in I; auto).
      assert (T2 : forall x, In x (news q) -> incl (fst x :: aexpr_vars (snd x)) bv').
      { intros x Ix v [<-|Iv]; [apply vunion_In; left; apply in_map; auto|]. apply vunion_In.
        destruct (T x Ix) as [Ja Jn].
        destruct (SAFE (asg x) v) as [J|(_ & e & J & K)]; [apply (qo_asg QO); auto|exact Iv| |].
        - right. auto.
        - left. apply in_map_iff. exists (v, e). split; auto. apply filter_In. split; auto. apply (qo_asg QO); auto. }
      exists (map asg (news q)). split; [|split; [auto|]].
      + apply inv_add0 with (p := p); [apply H|..].
        * intros l I. apply in_map_iff in I. destruct I as (x & <- & I). apply (qo_asg QO), T, I.
        * intros B X M s. rewrite psem_project, all_map; auto; [tauto|]. intros v Iv; apply vunion_In; auto.
        * intros v Iv. apply vunion_In; auto.
        * intros l I. apply in_map_iff in I. destruct I as (x & <- & I). apply T2; auto.
        * cbn [bvars]. intros v Iv. apply (proj1 (vunion_In _ _ _)) in Iv. destruct Iv as [Iv|Iv]; auto. right.
          apply in_map_iff in Iv. destruct Iv as (x & <- & I). exists (asg x). split; [apply in_map; auto|cbn; auto].
      + intros x I J. apply in_map. apply filter_In; auto.
  Qed.

  Lemma get_query_plan_inv : forall arcs p, get_query_plan N q arcs = Some p ->
    (forall i, i < length (q_pos q) -> In i (map snd arcs)) ->
    exists K, inv0 K p /\ (exists L p0, built L p0 /\ p = add_news q p0 /\ K = L ++ map asg (news q) /\
        (forall v, limited N body v -> In v (bvars p0)) /\ incl L body) /\
      forall l, In l body -> In l K \/ l = LTrue \/ l = LFalse \/ skipped K l.
  Proof.
    intros arcs p R A. unfold get_query_plan in R.
    destruct (start_plan N q arcs) as [[[ap1 p1] n]|] eqn:E1; [|discriminate].
    destruct (add_arcs N q (skipn n arcs) ap1 p1) as [[ap2 p2]|] eqn:E2; [|discriminate]. injection R as <-.
    destruct (@start_inv _ _ _ _ E1) as (L1 & H1 & C1 & D1 & R1 & P1).
    destruct (@add_arcs_inv _ _ _ _ _ _ E2 H1 C1 D1) as (L2 & H2 & C2 & D2 & P2).
    assert (R2 : forall r, In r (q_reduces q) -> In (LReduce r) (L1 ++ L2)) by (intros; apply in_or_app; auto).
    assert (P3 : forall a, In a (q_pos q) -> In (LAtom a) (L1 ++ L2)).
    { intros a I. apply In_nth_error in I. destruct I as (i & Ei).
      assert (Li : i < length (q_pos q)) by (apply nth_error_Some; congruence). specialize (A i Li).
      rewrite <- (firstn_skipn n arcs), map_app, in_app_iff in A. apply in_or_app.
      destruct A as [A|A]; [left; eapply P1; eauto|right; eapply P2; eauto]. }
    pose proof (limited_bounded H2 C2 D2 R2 P3) as LB.
    destruct (@add_negs_inv (q_neg q) _ _ H2 (incl_refl _) LB) as (L3 & H3 & B3 & N3).
    fold (add_negs q p2) in H3, B3.
    destruct (@add_news_inv _ _ H3) as (L4 & H4 & EL4 & N4).
    { intros v Lv. rewrite B3. auto. }
    rewrite <- !app_assoc in H4.
    exists (L1 ++ L2 ++ L3 ++ L4). split; [exact H4|]. split.
    { exists ((L1 ++ L2) ++ L3), (add_negs q p2). split; [apply H3|]. split; auto. split; [rewrite EL4, !app_assoc; auto|].
      split; [intros v Lv; rewrite B3; auto|apply (i_body H3)]. }
    intros l Il.
    assert (IN : forall l, In l (L1 ++ L2) -> In l (L1 ++ L2 ++ L3 ++ L4)) by (intros l' I'; rewrite !in_app_iff in *; tauto).
    destruct C2 as (C21 & C22 & C23). destruct D2 as (D21 & D22 & D23).
    assert (LV : forall v, In v (lit_needs N l) -> is_new_lit l = false -> In v (bvars p2)).
    { intros v Iv Nl. destruct (SAFE l v Il Iv) as [J|[J _]]; [auto|congruence]. }
    destruct l; auto.
    - destruct (pe_foreign N (a_pred a)) eqn:F.
      + assert (Ia : In a (q_fp q)) by (apply (qo_fp QO); auto). apply In_nth_error in Ia. destruct Ia as (i & Ei).
        destruct (D23 i a Ei) as [J|J].
        * left. apply IN. eapply C23; eauto.
        * exfalso. apply J. intros w Iw. apply LV; auto. cbn. rewrite F. exact Iw.
      + left. apply IN, P3, (qo_pos QO); auto.
    - left. rewrite !in_app_iff. right; right; left. apply N3, (qo_neg QO); auto.
    - assert (Ia : In (v, e) (q_assigns q)) by (apply (qo_asg QO); auto). pose proof Ia as Ia'. apply In_nth_error in Ia. destruct Ia as (i & Ei).
      destruct (is_new e) eqn:EN.
      + left. rewrite !in_app_iff. right; right; right. apply (N4 (v, e)); auto.
      + destruct (D21 i _ Ei) as [J|[J|[J|J]]]; cbn [fst snd] in *.
        * left. apply IN. apply (C21 i (v, e)); auto.
        * right; right; right. exists v, e. split; auto. split; auto. destruct (i_down H2 _ J) as (l' & I' & B').
          exists l'. auto.
        * congruence.
        * exfalso. apply J. intros w Iw. apply LV; auto.
    - assert (Ic : In (KBin c t1 t2) (q_cons q)) by (apply (qo_con QO); auto). apply In_nth_error in Ic. destruct Ic as (i & Ei).
      destruct (D22 i _ Ei) as [J|J].
      + left. apply IN. apply (C22 i (KBin c t1 t2)); auto.
      + exfalso. apply J. intros w Iw. apply LV; auto.
    - assert (Ic : In (KNot t) (q_cons q)) by (apply (qo_con QO); auto). apply In_nth_error in Ic. destruct Ic as (i & Ei).
      destruct (D22 i _ Ei) as [J|J].
      + left. apply IN. apply (C22 i (KNot t)); auto.
      + exfalso. apply J. intros w Iw. apply LV; auto.
    - left. apply IN, R2, (qo_red QO); auto.
  Qed.
End Inv.
