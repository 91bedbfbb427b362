(** Facts about the planner (Plan.v) used by C52. *)
From Coq Require Import List ZArith Bool Arith Lia Permutation.
From Verif Require Import Value Back Eval BackSem Scc SccFacts Plan PlanSem.
Import ListNotations.

(** ** Sets and enumeration *)
Lemma dedup_from_In : forall l seen x, In x (dedup_from seen l) <-> In x l /\ ~ In x seen.
Proof.
  induction l as [|y l IH]; intros seen x; cbn [dedup_from]; [cbn; tauto|].
  destruct (memb y seen) eqn:Em.
  - rewrite IH. apply memb_In in Em. cbn [In]. split; [tauto|]. intros [[->|H] H']; tauto.
  - apply memb_nIn in Em. cbn [In]. rewrite IH. cbn [In]. split.
    + intros [->|(H & H')]; [tauto|]. split; [tauto|]. intros ?; apply H'; auto.
    + intros [[->|H] H']; [auto|]. destruct (Nat.eq_dec y x) as [->|D]; [auto|]. right. split; auto. intros [?|?]; auto.
Qed.
Lemma dedup_In : forall l x, In x (dedup l) <-> In x l.
Proof. intros. unfold dedup. rewrite dedup_from_In. cbn. tauto. Qed.
Lemma dedup_from_NoDup : forall l seen, NoDup (dedup_from seen l).
Proof.
  induction l as [|y l IH]; intros seen; cbn [dedup_from]; [constructor|].
  destruct (memb y seen); auto. constructor; auto. rewrite dedup_from_In. cbn. tauto.
Qed.
Lemma dedup_NoDup : forall l, NoDup (dedup l).
Proof. intros. apply dedup_from_NoDup. Qed.
Lemma dedup_from_id : forall l seen, NoDup l -> (forall x, In x l -> ~ In x seen) -> dedup_from seen l = l.
Proof.
  induction l as [|y l IH]; intros seen ND H; cbn [dedup_from]; auto. inversion ND as [|? ? NI ND']; subst.
  assert (E : memb y seen = false) by (apply memb_nIn, H; left; auto). rewrite E. f_equal. apply IH; auto.
  intros x I [->|J]; [auto|]. apply (H x); auto. right; auto.
Qed.
Lemma dedup_id : forall l, NoDup l -> dedup l = l.
Proof. intros. apply dedup_from_id; auto. Qed.
Lemma vunion_In : forall a b x, In x (vunion a b) <-> In x a \/ In x b.
Proof. intros. unfold vunion. rewrite dedup_In, in_app_iff. tauto. Qed.
Lemma subsetb_incl : forall a b, subsetb a b = true <-> incl a b.
Proof.
  intros. unfold subsetb. rewrite forallb_forall. unfold incl. split; intros H x I.
  - apply memb_In, H, I.
  - apply memb_In, H, I.
Qed.
Lemma set_eqb_spec : forall a b, set_eqb a b = true <-> (forall x, In x a <-> In x b).
Proof.
  intros. unfold set_eqb. rewrite andb_true_iff, !subsetb_incl. unfold incl. firstorder.
Qed.
Lemma enum_from_In : forall A (l : list A) k i x, In (i, x) (combine (seq k (length l)) l) <-> k <= i /\ nth_error l (i - k) = Some x.
Proof.
  induction l as [|a l IH]; intros k i x; cbn [length seq combine In].
  - split; [tauto|]. intros [_ H]. destruct (i - k); discriminate.
  - rewrite IH. split.
    + intros [H|[H1 H2]].
      * injection H as -> ->. rewrite Nat.sub_diag. auto.
      * split; [lia|]. replace (i - k) with (S (i - S k)) by lia. exact H2.
    + intros [H1 H2]. destruct (Nat.eq_dec i k) as [->|D].
      * rewrite Nat.sub_diag in H2. injection H2 as ->. auto.
      * right. split; [lia|]. replace (i - k) with (S (i - S k)) in H2 by lia. exact H2.
Qed.
Lemma enum_In : forall A (l : list A) i x, In (i, x) (enum l) <-> nth_error l i = Some x.
Proof. intros. unfold enum. rewrite enum_from_In, Nat.sub_0_r. split; [tauto|]. split; auto; lia. Qed.
Lemma combine_map : forall A B C (f : B -> C) (l : list A) (m : list B),
  combine l (map f m) = map (fun x => (fst x, f (snd x))) (combine l m).
Proof. induction l; intros [|b m]; cbn; auto. f_equal; auto. Qed.
Lemma enum_fst : forall A (l : list A), map fst (enum l) = seq 0 (length l).
Proof.
  intros. unfold enum. generalize 0. induction l as [|a l IH]; intros k; cbn; auto. f_equal; auto.
Qed.
Lemma enum_snd : forall A (l : list A), map snd (enum l) = l.
Proof.
  intros. unfold enum. generalize 0. induction l as [|a l IH]; intros k; cbn; auto. f_equal; auto.
Qed.
Lemma map_skipn : forall A B (f : A -> B) n l, map f (skipn n l) = skipn n (map f l).
Proof. induction n; intros [|a l]; cbn; auto. Qed.
Lemma In_skipn : forall A n (l : list A) x, In x (skipn n l) -> In x l.
Proof. intros. rewrite <- (firstn_skipn n l). apply in_or_app; auto. Qed.
Lemma In_firstn : forall A n (l : list A) x, In x (firstn n l) -> In x l.
Proof. intros. rewrite <- (firstn_skipn n l). apply in_or_app; auto. Qed.
Lemma NoDup_skipn : forall A n (l : list A), NoDup l -> NoDup (skipn n l).
Proof. induction n; intros [|a l] H; cbn; auto. inversion H; auto. Qed.

(** ** Substitutions *)
Lemma tval_agree : forall s s' t, agree (tvar t) s s' -> tval s t = tval s' t.
Proof. intros s s' [v|c] H; cbn; auto. apply H. left; auto. Qed.
Lemma tvals_agree : forall s s' l, agree (flat_map tvar l) s s' -> tvals s l = tvals s' l.
Proof.
  induction l as [|t l IH]; intros H; cbn; auto. f_equal.
  - apply tval_agree. intros v I. apply H. cbn. apply in_or_app; auto.
  - apply IH. intros v I. apply H. cbn. apply in_or_app; auto.
Qed.
Lemma agree_sym : forall V s s', agree V s s' -> agree V s' s.
Proof. intros V s s' H v I. symmetry. auto. Qed.
Lemma agree_trans : forall V s s' s'', agree V s s' -> agree V s' s'' -> agree V s s''.
Proof. intros V s s' s'' H H' v I. rewrite H; auto. Qed.
Lemma agree_incl : forall V W s s', agree V s s' -> incl W V -> agree W s s'.
Proof. intros V W s s' H I v J. auto. Qed.
Lemma agree_refl : forall V s, agree V s s.
Proof. intros V s v I. auto. Qed.

Lemma aeval_agree : forall E s s' e, agree (aexpr_vars e) s s' -> aeval E s e = aeval E s' e.
Proof.
  intros E s s' [op a b|op a|c a b|f l|f l] H; cbn [aeval aexpr_vars] in *.
  - rewrite (tval_agree s s' a), (tval_agree s s' b); auto; intros v I; apply H, in_or_app; auto.
  - rewrite (tval_agree s s' a); auto.
  - rewrite (tval_agree s s' a), (tval_agree s s' b), (tval_agree s s' c); auto;
      intros v I; apply H; rewrite !in_app_iff; auto.
  - rewrite (tvals_agree s s' l); auto.
  - rewrite (tvals_agree s s' l); auto.
Qed.
Lemma con_sat_agree : forall s s' c, agree (con_vars c) s s' -> con_sat s c -> con_sat s' c.
Proof.
  intros s s' [op a b|a] H; cbn [con_sat con_vars] in *.
  - rewrite (tval_agree s s' a), (tval_agree s s' b); auto; intros v I; apply H, in_or_app; auto.
  - rewrite (tval_agree s s' a); auto.
Qed.
Lemma assign_sat_agree : forall E s s' x, agree (fst x :: aexpr_vars (snd x)) s s' -> assign_sat E s x -> assign_sat E s' x.
Proof.
  intros E s s' [v e] H. unfold assign_sat. cbn [fst snd] in *. rewrite (aeval_agree E s s' e).
  - rewrite (H v); auto. left; auto.
  - intros w I. apply H. right; auto.
Qed.
Lemma lit_sat_agree : forall B g X M s s' l, agree (lit_vars l) s s' -> lit_sat B g X M s l -> lit_sat B g X M s' l.
Proof.
  intros B g X M s s' l H. destruct l; cbn [lit_sat other_sat lit_vars] in *.
  - unfold avars in H. rewrite (tvals_agree s s' (a_args a)); auto.
  - unfold avars in H. rewrite (tvals_agree s s' (a_args a)); auto.
  - intros A. rewrite <- (H v) by (left; auto). rewrite <- A. symmetry. apply aeval_agree. intros w I. apply H. right; auto.
  - rewrite (tval_agree s s' t1), (tval_agree s s' t2); auto; intros v I; apply H, in_or_app; auto.
  - rewrite (tval_agree s s' t); auto.
  - intros A. eapply b_agg_local; [|exact A]. exact H.
  - auto.
  - auto.
Qed.

(** ** Plans *)
Section Plans.
  Variables (B : benv) (M : interp).
  Notation psem := (psem B M).

  Lemma psem_agree : forall I p s s', agree (bvars p) s s' -> psem I p s -> psem I p s'.
  Proof.
    intros I p s s' H. destruct p; cbn [PlanSem.psem bvars] in *; intros (s0 & A & R); exists s0; split; auto;
      (eapply agree_trans; [apply agree_sym, H|exact A]).
  Qed.
  Lemma psem_join : forall I bv p q s, incl (bvars p) bv -> incl (bvars q) bv ->
    (psem I (PJoin bv p q) s <-> psem I p s /\ psem I q s).
  Proof.
    intros I bv p q s Hp Hq. cbn [PlanSem.psem bvars]. split.
    - intros (s' & A & P & Q). apply agree_sym in A. split; (eapply psem_agree; [|eassumption]); eapply agree_incl; eauto.
    - intros (P & Q). exists s. split; [apply agree_refl|]. auto.
  Qed.
  Lemma psem_filter : forall I bv p cs s, incl (bvars p) bv -> (forall c, In c cs -> incl (con_vars c) bv) ->
    (psem I (PFilter bv p cs) s <-> psem I p s /\ forall c, In c cs -> con_sat s c).
  Proof.
    intros I bv p cs s Hp Hc. cbn [PlanSem.psem bvars]. split.
    - intros (s' & A & P & Q). apply agree_sym in A. split; [eapply psem_agree; [|eassumption]; eapply agree_incl; eauto|].
      intros c Ic. eapply con_sat_agree; [|apply Q, Ic]. eapply agree_incl; eauto.
    - intros (P & Q). exists s. split; [apply agree_refl|]. auto.
  Qed.
  Lemma psem_project : forall I bv p l s, incl (bvars p) bv -> (forall x, In x l -> incl (fst x :: aexpr_vars (snd x)) bv) ->
    (psem I (PProject bv p l) s <-> psem I p s /\ forall x, In x l -> assign_sat (b_env B) s x).
  Proof.
    intros I bv p l s Hp Hc. cbn [PlanSem.psem bvars]. split.
    - intros (s' & A & P & Q). apply agree_sym in A. split; [eapply psem_agree; [|eassumption]; eapply agree_incl; eauto|].
      intros c Ic. eapply assign_sat_agree; [|apply Q, Ic]. eapply agree_incl; eauto.
    - intros (P & Q). exists s. split; [apply agree_refl|]. auto.
  Qed.
  Lemma psem_ground : forall I bv a s, incl (avars a) bv -> (psem I (PGround bv a) s <-> I (a_pred a) (tvals s (a_args a))).
  Proof.
    intros I bv a s H. cbn [PlanSem.psem bvars]. split.
    - intros (s' & A & R). rewrite (tvals_agree s s'); auto. eapply agree_incl; eauto.
    - intros R. exists s. split; [apply agree_refl|auto].
  Qed.
  Lemma psem_constr : forall I bv p a s, incl (bvars p) bv -> incl (avars a) bv ->
    (psem I (PFpConstr bv p a) s <-> psem I p s /\ b_fp B (a_pred a) (tvals s (a_args a))).
  Proof.
    intros I bv p a s Hp H. cbn [PlanSem.psem bvars]. split.
    - intros (s' & A & P & R). split.
      + apply agree_sym in A. eapply psem_agree; [|eassumption]; eapply agree_incl; eauto.
      + rewrite (tvals_agree s s'); auto. eapply agree_incl; eauto.
    - intros R. exists s. split; [apply agree_refl|auto].
  Qed.
  Lemma psem_anti : forall I bv p a s, incl (bvars p) bv -> incl (avars a) (bvars p) ->
    (psem I (PAnti bv p (ground a)) s <-> psem I p s /\ ~ M (a_pred a) (tvals s (a_args a))).
  Proof.
    intros I bv p a s Hp H. cbn [PlanSem.psem bvars ground]. split.
    - intros (s' & A & P & R). apply agree_sym in A. split; [eapply psem_agree; [|eassumption]; eapply agree_incl; eauto|].
      intros m. apply R. exists s'. split; [apply agree_refl|]. exists s'. split; [apply agree_refl|].
      rewrite (tvals_agree s' s); auto. eapply agree_incl; [exact A|]. eapply incl_tran; eauto.
    - intros (P & Q). exists s. split; [apply agree_refl|]. split; auto. intros (s' & A & s'' & A' & m). apply Q.
      rewrite (tvals_agree s s''); auto. intros v Iv. transitivity (s' v).
      + apply A. apply filter_In. split; [apply H; auto|]. apply existsb_exists. exists v. split; [apply dedup_In; auto|apply Nat.eqb_refl].
      + apply A'. apply dedup_In; auto.
  Qed.
  Lemma psem_red : forall I r s, rd_other r = [] ->
    (psem I (red r) s <-> b_agg B r (M (a_pred (rd_body r)))
                       (match rd_groupby r with Some a => M (a_pred a) | None => none_rel end) s).
  Proof.
    intros I r s H. cbn [PlanSem.psem bvars red]. split.
    - intros (s' & A & R). eapply b_agg_local; [|exact R]. intros v Iv. symmetry. apply A. apply dedup_In.
      unfold reduce_free in Iv. rewrite H, app_nil_r in Iv. auto.
    - intros R. exists s. split; [apply agree_refl|auto].
  Qed.
End Plans.

(** ** Renaming of the free arguments of foreign predicates *)
Section Rename.
  Variable N : penv.
  (** The variables of the rule; the made-up names are none of them and distinct. *)
  Variable V : list var.
  Record fresh_names : Prop := {
    fn_const : forall p i c, ~ In (pe_const N p i c) V;
    fn_ren : forall v k, In v V -> ~ In (pe_ren N v k) V;
    fn_const_inj : forall p i c j d, pe_const N p i c = pe_const N p j d -> i = j;
    fn_ren_inj : forall v k w j, In v V -> In w V -> pe_ren N v k = pe_ren N w j -> v = w /\ k = j;
    fn_disj : forall p i c v k, In v V -> pe_const N p i c <> pe_ren N v k }.
  Hypothesis FN : fresh_names.

  Definition fargs_vars (args : list (nat * term)) : list var := flat_map (fun x => tvar (snd x)) args.

  Lemma rename_sound : forall p s args m vs es, rename N p m args = (vs, es) ->
    (forall v old k, mget v m = Some (old, k) -> s old = s v) ->
    (forall c, In c (const_cons N p args ++ eq_cons es) -> con_sat s c) ->
    map s vs = tvals s (map snd args).
  Proof.
    intros p s. induction args as [|[i [v|c]] args IH]; intros m vs es R Hm Hc; cbn [rename] in R.
    - injection R as <- <-. reflexivity.
    - destruct (mget v m) as [[old k]|] eqn:G.
      + destruct (rename N p ((v, (pe_ren N v k, S k)) :: m) args) as [vs1 es1] eqn:R1. injection R as <- <-.
        assert (Q : s old = s (pe_ren N v k)).
        { apply (Hc (KBin CEq (TVar old) (TVar (pe_ren N v k)))). apply in_or_app. right. left; auto. }
        assert (Q' : s (pe_ren N v k) = s v) by (rewrite <- Q; eapply Hm; eauto).
        cbn [map snd tvals tval]. f_equal; [exact Q'|]. eapply IH; [exact R1| |].
        * intros w old' k' G'. cbn [mget] in G'. destruct (Nat.eqb_spec w v) as [->|D].
          -- injection G' as <- <-. exact Q'.
          -- eapply Hm; eauto.
        * intros c I. apply Hc. apply in_app_iff in I. apply in_or_app. destruct I as [I|I]; [left; exact I|right; right; exact I].
      + destruct (rename N p ((v, (v, 1)) :: m) args) as [vs1 es1] eqn:R1. injection R as <- <-.
        cbn [map snd tvals tval]. f_equal. eapply IH; [exact R1| |].
        * intros w old' k' G'. cbn [mget] in G'. destruct (Nat.eqb_spec w v) as [->|D].
          -- injection G' as <- <-. auto.
          -- eapply Hm; eauto.
        * intros c I. apply Hc. exact I.
    - destruct (rename N p m args) as [vs1 es1] eqn:R1. injection R as <- <-.
      cbn [map snd tvals tval]. f_equal.
      + apply (Hc (KBin CEq (TVar (pe_const N p i c)) (TConst c))). left; auto.
      + eapply IH; [exact R1|exact Hm|]. intros c' I. apply Hc. cbn. right. exact I.
  Qed.

  Lemma rename_shape : forall p args m vs es, rename N p m args = (vs, es) ->
    forall x, In x vs -> (exists i c, In (i, TConst c) args /\ x = pe_const N p i c) \/
      (In x (fargs_vars args) /\ mget x m = None) \/
      (exists v k, In v (fargs_vars args) /\ x = pe_ren N v k /\
         match mget v m with Some (_, k0) => k0 <= k | None => 1 <= k end).
  Proof.
    intros p. induction args as [|[i [v|c]] args IH]; intros m vs es R x I; cbn [rename] in R.
    - injection R as <- <-. destruct I.
    - destruct (mget v m) as [[old k]|] eqn:G.
      + destruct (rename N p ((v, (pe_ren N v k, S k)) :: m) args) as [vs1 es1] eqn:R1. injection R as <- <-.
        destruct I as [<-|I].
        * right; right. exists v, k. rewrite G. repeat split; auto. left; auto.
        * destruct (IH _ _ _ R1 x I) as [(j & c & J & ->)|[[J Gx]|(w & k' & J & -> & L)]].
          -- left. exists j, c. split; auto. right; auto.
          -- right; left. cbn [mget] in Gx. destruct (Nat.eqb_spec x v); [discriminate|]. split; auto. right; auto.
          -- right; right. exists w, k'. split; [right; auto|split; auto]. cbn [mget] in L.
             destruct (Nat.eqb_spec w v) as [->|D]; auto. rewrite G. lia.
      + destruct (rename N p ((v, (v, 1)) :: m) args) as [vs1 es1] eqn:R1. injection R as <- <-.
        destruct I as [<-|I].
        * right; left. split; [left; auto|auto].
        * destruct (IH _ _ _ R1 x I) as [(j & c & J & ->)|[[J Gx]|(w & k' & J & -> & L)]].
          -- left. exists j, c. split; auto. right; auto.
          -- right; left. cbn [mget] in Gx. destruct (Nat.eqb_spec x v); [discriminate|]. split; auto. right; auto.
          -- right; right. exists w, k'. split; [right; auto|split; auto]. cbn [mget] in L.
             destruct (Nat.eqb_spec w v) as [->|D]; auto. rewrite G. lia.
    - destruct (rename N p m args) as [vs1 es1] eqn:R1. injection R as <- <-.
      destruct I as [<-|I].
      + left. exists i, c. split; auto. left; auto.
      + destruct (IH _ _ _ R1 x I) as [(j & d & J & ->)|[[J Gx]|(w & k' & J & -> & L)]].
        * left. exists j, d. split; auto. right; auto.
        * right; left. split; auto.
        * right; right. exists w, k'. split; auto.
  Qed.

  Lemma rename_NoDup : forall p args m vs es, rename N p m args = (vs, es) ->
    NoDup (map fst args) -> incl (fargs_vars args) V -> NoDup vs.
  Proof.
    intros p. induction args as [|[i [v|c]] args IH]; intros m vs es R ND IV; cbn [rename] in R.
    - injection R as <- <-. constructor.
    - cbn [map fst] in ND. inversion ND as [|? ? NI ND']; subst.
      assert (Vv : In v V) by (apply IV; left; auto).
      assert (IV' : incl (fargs_vars args) V) by (intros w Iw; apply IV; right; auto).
      destruct (mget v m) as [[old k]|] eqn:G.
      + destruct (rename N p ((v, (pe_ren N v k, S k)) :: m) args) as [vs1 es1] eqn:R1. injection R as <- <-.
        constructor; [|eapply IH; eauto]. intros I.
        destruct (rename_shape p args _ _ _ R1 _ I) as [(j & c & J & E)|[[J Gx]|(w & k' & J & E & L)]].
        * apply (fn_disj FN p j c v k Vv). auto.
        * apply (fn_ren FN v k Vv). auto.
        * apply (fn_ren_inj FN) in E; auto. destruct E as [<- <-]. cbn [mget] in L. rewrite Nat.eqb_refl in L. lia.
      + destruct (rename N p ((v, (v, 1)) :: m) args) as [vs1 es1] eqn:R1. injection R as <- <-.
        constructor; [|eapply IH; eauto]. intros I.
        destruct (rename_shape p args _ _ _ R1 _ I) as [(j & c & J & E)|[[J Gx]|(w & k' & J & E & L)]].
        * apply (fn_const FN p j c). rewrite <- E; auto.
        * cbn [mget] in Gx. rewrite Nat.eqb_refl in Gx. discriminate.
        * apply (fn_ren FN w k'); auto. rewrite <- E; auto.
    - cbn [map fst] in ND. inversion ND as [|? ? NI ND']; subst.
      destruct (rename N p m args) as [vs1 es1] eqn:R1. injection R as <- <-.
      constructor; [|eapply IH; eauto]. intros I.
      destruct (rename_shape p args _ _ _ R1 _ I) as [(j & d & J & E)|[[J Gx]|(w & k' & J & E & L)]].
      + apply (fn_const_inj FN) in E. subst j. apply NI. apply (in_map fst) in J. exact J.
      + apply (fn_const FN p i c). apply IV. exact J.
      + apply (fn_disj FN p i c w k'); auto.
  Qed.

  (** With the values of the original arguments the constraints hold. *)
  Lemma rename_complete : forall p (s s' : subst) args m vs es, rename N p m args = (vs, es) ->
    map s' vs = tvals s (map snd args) ->
    (forall v old k, In v (fargs_vars args) -> mget v m = Some (old, k) -> s' old = s v) ->
    forall c, In c (const_cons N p args ++ eq_cons es) -> con_sat s' c.
  Proof.
    intros p s s'. induction args as [|[i [v|c]] args IH]; intros m vs es R Hv Hm c0 I; cbn [rename] in R.
    - injection R as <- <-. destruct I.
    - destruct (mget v m) as [[old k]|] eqn:G.
      + destruct (rename N p ((v, (pe_ren N v k, S k)) :: m) args) as [vs1 es1] eqn:R1. injection R as <- <-.
        cbn [map snd tvals tval] in Hv. injection Hv as Hv1 Hv2.
        change (const_cons N p ((i, TVar v) :: args)) with (const_cons N p args) in I.
        apply in_app_iff in I. cbn [eq_cons map In] in I.
        assert (C : c0 = KBin CEq (TVar old) (TVar (pe_ren N v k)) \/ In c0 (const_cons N p args ++ eq_cons es1)).
        { rewrite in_app_iff. destruct I as [I|[I|I]]; auto. }
        destruct C as [->|C].
        * cbn [con_sat cop_sat tval]. rewrite Hv1. apply (Hm v old k); auto. left; auto.
        * eapply IH; [exact R1|exact Hv2| |exact C]. intros w old' k' Iw G'. cbn [mget] in G'.
          destruct (Nat.eqb_spec w v) as [->|D].
          -- injection G' as <- <-. exact Hv1.
          -- eapply Hm; eauto. right; auto.
      + destruct (rename N p ((v, (v, 1)) :: m) args) as [vs1 es1] eqn:R1. injection R as <- <-.
        cbn [map snd tvals tval] in Hv. injection Hv as Hv1 Hv2.
        eapply IH; [exact R1|exact Hv2| |exact I]. intros w old' k' Iw G'. cbn [mget] in G'.
        destruct (Nat.eqb_spec w v) as [->|D].
        * injection G' as <- <-. exact Hv1.
        * eapply Hm; eauto. right; auto.
    - destruct (rename N p m args) as [vs1 es1] eqn:R1. injection R as <- <-.
      cbn [map snd tvals tval] in Hv. injection Hv as Hv1 Hv2. cbn in I. destruct I as [<-|I].
      + cbn. exact Hv1.
      + eapply IH; [exact R1|exact Hv2| |exact I]. intros w old' k' Iw G'. eapply Hm; eauto.
  Qed.

  (** Without constraints nothing was renamed. *)
  Lemma rename_plain : forall p args m vs es, rename N p m args = (vs, es) ->
    const_cons N p args ++ eq_cons es = [] -> map snd args = map TVar vs /\ vs = fargs_vars args.
  Proof.
    intros p. induction args as [|[i [v|c]] args IH]; intros m vs es R E; cbn [rename] in R.
    - injection R as <- <-. auto.
    - destruct (mget v m) as [[old k]|] eqn:G.
      + destruct (rename N p ((v, (pe_ren N v k, S k)) :: m) args) as [vs1 es1] eqn:R1. injection R as <- <-.
        apply app_eq_nil in E. destruct E as [_ E]. discriminate.
      + destruct (rename N p ((v, (v, 1)) :: m) args) as [vs1 es1] eqn:R1. injection R as <- <-.
        destruct (IH _ _ _ R1 E) as [H1 H2]. split; [cbn; rewrite H1; auto|].
        unfold fargs_vars in *. cbn. f_equal. exact H2.
    - destruct (rename N p m args) as [vs1 es1] eqn:R1. injection R as <- <-. discriminate.
  Qed.

  (** Substitutions with some values changed. *)
  Fixpoint put (xs : list (var * value)) (s : subst) (v : var) : value :=
    match xs with [] => s v | (w, a) :: xs => if Nat.eqb v w then a else put xs s v end.
  Lemma put_out : forall xs s v, ~ In v (map fst xs) -> put xs s v = s v.
  Proof.
    induction xs as [|[w a] xs IH]; intros s v H; cbn in *; auto.
    destruct (Nat.eqb_spec v w); [subst; tauto|]. apply IH. tauto.
  Qed.
  Lemma put_map : forall vs ws s, NoDup vs -> length vs = length ws -> map (put (combine vs ws) s) vs = ws.
  Proof.
    induction vs as [|v vs IH]; intros [|w ws] s ND L; cbn in L; try discriminate; auto.
    inversion ND as [|? ? NI ND']; subst. cbn [combine map put]. rewrite Nat.eqb_refl. f_equal.
    transitivity (map (put (combine vs ws) s) vs); [|apply IH; auto]. apply map_ext_in. intros x I.
    destruct (Nat.eqb_spec x v); [subst; tauto|auto].
  Qed.
  Lemma rename_length : forall p args m vs es, rename N p m args = (vs, es) -> length vs = length args.
  Proof.
    intros p. induction args as [|[i [v|c]] args IH]; intros m vs es R; cbn [rename] in R.
    - injection R as <- <-. auto.
    - destruct (mget v m) as [[old k]|].
      + destruct (rename N p ((v, (pe_ren N v k, S k)) :: m) args) eqn:R1. injection R as <- <-. cbn. f_equal. eauto.
      + destruct (rename N p ((v, (v, 1)) :: m) args) eqn:R1. injection R as <- <-. cbn. f_equal. eauto.
    - destruct (rename N p m args) eqn:R1. injection R as <- <-. cbn. f_equal. eauto.
  Qed.
  Lemma rename_kept : forall p (s : subst) args m vs es, rename N p m args = (vs, es) ->
    NoDup vs -> incl (fargs_vars args) V ->
    agree V s (put (combine vs (tvals s (map snd args))) s).
  Proof.
    intros p s args m vs es R ND IV v Vv.
    destruct (in_dec Nat.eq_dec v vs) as [I|I].
    2: { rewrite put_out; auto. intros J. apply I. apply in_map_iff in J. destruct J as ([a b] & <- & J).
         eapply in_combine_l; eauto. }
    assert (H : In (v, s v) (combine vs (tvals s (map snd args)))).
    { revert m vs es R ND I. induction args as [|[i [w|c]] args IH]; intros m vs es R ND I; cbn [rename] in R.
      - injection R as <- <-. destruct I.
      - assert (Vw : In w V) by (apply IV; left; auto).
        assert (IV' : incl (fargs_vars args) V) by (intros u Iu; apply IV; right; auto).
        destruct (mget w m) as [[old k]|].
        + destruct (rename N p ((w, (pe_ren N w k, S k)) :: m) args) as [vs1 es1] eqn:R1. injection R as <- <-.
          cbn. right. inversion ND; subst. eapply IH; eauto. destruct I as [<-|I]; auto.
          exfalso. apply (fn_ren FN w k); auto.
        + destruct (rename N p ((w, (w, 1)) :: m) args) as [vs1 es1] eqn:R1. injection R as <- <-.
          cbn. destruct I as [<-|I]; [left; auto|right]. inversion ND; subst. eapply IH; eauto.
      - assert (IV' : incl (fargs_vars args) V) by (intros u Iu; apply IV; exact Iu).
        destruct (rename N p m args) as [vs1 es1] eqn:R1. injection R as <- <-.
        cbn. right. inversion ND; subst. eapply IH; eauto. destruct I as [<-|I]; auto.
        exfalso. apply (fn_const FN p i c); auto. }
    revert H ND. generalize (tvals s (map snd args)). clear. intros ws. revert ws.
    induction vs as [|x vs IH]; intros [|w ws] H ND; cbn in *; try tauto. inversion ND as [|? ? NI ND']; subst.
    destruct H as [H|H].
    - injection H as -> ->. rewrite Nat.eqb_refl. auto.
    - destruct (Nat.eqb_spec v x) as [->|D]; [|eapply IH; eauto].
      exfalso. apply NI. eapply in_combine_l; eauto.
  Qed.
End Rename.
