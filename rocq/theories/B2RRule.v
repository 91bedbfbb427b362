(** Facts about the plans of rules, used by C53: every plan the planner builds
    meets what lowering asks for. *)
From Coq Require Import List ZArith Bool Arith Lia Permutation.
From Verif Require Import Value Back Eval Ram Dataflow Optimize BackSem Scc SccFacts Plan PlanSem PlanFacts PlanFacts2
  VarTuple VarTupleFacts B2R RamSem B2RFacts B2RFacts2 B2RSpec.
Import ListNotations.
Set Implicit Arguments.

Lemma from_vars_one : forall vs s, NoDup vs -> gtup (from_vars vs true) s = one_or_vtup (map s vs).
Proof.
  intros vs s ND. unfold from_vars. rewrite dedup_id by auto. destruct vs as [|x [|y l]]; try reflexivity.
  cbn [gtup one_or_vtup map]. rewrite gtup_map. reflexivity.
Qed.
Lemma nodupb_complete : forall l, NoDup l -> nodupb l = true.
Proof. intros l H. unfold nodupb. rewrite dedup_id by auto. apply Nat.eqb_refl. Qed.
Lemma consts_split : forall l, forallb is_const l = true -> exists cs, l = map TConst cs.
Proof.
  induction l as [|[v|c] l IH]; intros H; cbn in H; [exists []; auto|discriminate|].
  destruct (IH H) as [cs ->]. exists (c :: cs). reflexivity.
Qed.
Lemma NoDup_map_filter : forall A B (f : A -> B) P l, NoDup (map f l) -> NoDup (map f (filter P l)).
Proof.
  induction l as [|x l IH]; intros H; cbn in *; auto. inversion H as [|? ? N1 N2]; subst.
  destruct (P x); cbn; auto. constructor; auto. intros K. apply N1. apply in_map_iff in K. destruct K as (y & E & K).
  apply filter_In in K. apply in_map_iff. exists y. tauto.
Qed.
Lemma NoDup_flat_filter : forall A B (f : A -> list B) P l, NoDup (flat_map f l) -> NoDup (flat_map f (filter P l)).
Proof.
  induction l as [|x l IH]; intros H; cbn in *; auto. rewrite NoDup_app_iff in H. destruct H as (H1 & H2 & H3).
  destruct (P x); auto. cbn. apply NoDup_app_iff. split; auto. split; auto. intros y K J. apply (H3 y K).
  apply in_flat_map in J. destruct J as (z & J & Jz). apply filter_In in J. apply in_flat_map. exists z. tauto.
Qed.
Lemma flat_map_map : forall A B C (f : B -> list C) (h : A -> B) l, flat_map f (map h l) = flat_map (fun x => f (h x)) l.
Proof. induction l; cbn; congruence. Qed.

(** ** Renamed arguments *)
Section Ren.
  Variable N : penv.
  Lemma rename_var : forall p args m vs es, rename N p m args = (vs, es) ->
    forall v, In v (fargs_vars args) -> mget v m = None -> In v vs.
  Proof.
    intros p. induction args as [|[i [w|c]] args IH]; intros m vs es R v I G; cbn [rename] in R.
    - destruct I.
    - cbn in I. destruct (mget w m) as [[old k]|] eqn:Gw.
      + destruct (rename N p ((w, (pe_ren N w k, S k)) :: m) args) as [vs1 es1] eqn:R1. injection R as <- <-.
        destruct I as [->|I]; [congruence|]. right. eapply IH; eauto. cbn. destruct (Nat.eqb_spec v w); [congruence|auto].
      + destruct (rename N p ((w, (w, 1)) :: m) args) as [vs1 es1] eqn:R1. injection R as <- <-.
        destruct (Nat.eq_dec v w) as [->|D]; [left; auto|]. destruct I as [->|I]; [congruence|]. right. eapply IH; eauto.
        cbn. destruct (Nat.eqb_spec v w); [congruence|auto].
    - destruct (rename N p m args) as [vs1 es1] eqn:R1. injection R as <- <-. right. eapply IH; eauto.
  Qed.
  Lemma rename_eqs : forall p args m vs es, rename N p m args = (vs, es) ->
    forall o n, In (o, n) es -> In n vs /\ (In o vs \/ exists v k, mget v m = Some (o, k)).
  Proof.
    intros p. induction args as [|[i [w|c]] args IH]; intros m vs es R o n I; cbn [rename] in R.
    - injection R as <- <-. destruct I.
    - destruct (mget w m) as [[old k]|] eqn:Gw.
      + destruct (rename N p ((w, (pe_ren N w k, S k)) :: m) args) as [vs1 es1] eqn:R1. injection R as <- <-.
        destruct I as [I|I].
        * injection I as <- <-. split; [left; auto|]. right. eauto.
        * destruct (IH _ _ _ R1 _ _ I) as [J1 J2]. split; [right; auto|]. destruct J2 as [J2|(v & k' & J2)]; [left; right; auto|].
          cbn in J2. destruct (Nat.eqb v w); [injection J2 as <- <-; left; left; auto|right; eauto].
      + destruct (rename N p ((w, (w, 1)) :: m) args) as [vs1 es1] eqn:R1. injection R as <- <-.
        destruct (IH _ _ _ R1 _ _ I) as [J1 J2]. split; [right; auto|]. destruct J2 as [J2|(v & k' & J2)]; [left; right; auto|].
        cbn in J2. destruct (Nat.eqb v w); [injection J2 as <- <-; left; left; auto|right; eauto].
    - destruct (rename N p m args) as [vs1 es1] eqn:R1. injection R as <- <-.
      destruct (IH _ _ _ R1 _ _ I) as [J1 J2]. split; [right; auto|]. destruct J2 as [J2|J2]; [left; right; auto|right; auto].
  Qed.
  Lemma rename_consts : forall p args m vs es, rename N p m args = (vs, es) ->
    forall i c, In (i, TConst c) args -> In (pe_const N p i c) vs.
  Proof.
    intros p. induction args as [|[i [w|c]] args IH]; intros m vs es R j d I; cbn [rename] in R.
    - destruct I.
    - destruct I as [I|I]; [discriminate|]. destruct (mget w m) as [[old k]|] eqn:Gw.
      + destruct (rename N p ((w, (pe_ren N w k, S k)) :: m) args) as [vs1 es1] eqn:R1. injection R as <- <-. right. eauto.
      + destruct (rename N p ((w, (w, 1)) :: m) args) as [vs1 es1] eqn:R1. injection R as <- <-. right. eauto.
    - destruct (rename N p m args) as [vs1 es1] eqn:R1. injection R as <- <-. destruct I as [I|I]; [left; congruence|right; eauto].
  Qed.
  Lemma mget_in : forall l v x, mget v (map (fun v => (v, (v, 0))) l) = Some x -> In v l.
  Proof.
    induction l as [|w l IH]; intros v x H; cbn in H; [discriminate|].
    destruct (Nat.eqb_spec v w) as [->|D]; [left; auto|right; eauto].
  Qed.
  Lemma mget_none : forall l v, In v l -> mget v (map (fun v => (v, (v, 0))) l) <> None.
  Proof.
    induction l as [|w l IH]; intros v I; cbn; [destruct I|]. destruct (Nat.eqb_spec v w) as [->|D]; [discriminate|].
    destruct I as [->|I]; [congruence|]. apply IH; auto.
  Qed.
  Lemma const_cons_In : forall p args c, In c (const_cons N p args) ->
    exists i d, In (i, TConst d) args /\ c = KBin CEq (TVar (pe_const N p i d)) (TConst d).
  Proof.
    intros p args c H. unfold const_cons in H. apply in_flat_map in H. destruct H as ([i [v|d]] & I & J); cbn in J; [destruct J|].
    destruct J as [<-|[]]. eauto.
  Qed.
End Ren.

Section Rule.
  Variables (C : cenv) (N : penv) (g : registry) (B : benv).
  Variables (ag : nat -> nat -> rgrp -> tuple -> Prop) (JI JM : rels) (I M : interp).
  Variable T : var -> value -> Prop.
  Variables (h : atom) (body : list lit) (q : qctx).
  Hypothesis FN : fresh_names N (rule_vars body).
  Hypothesis FG : forall p, g_foreign g p = pe_foreign N p.
  Hypothesis OTHER : forall r, In (LReduce r) body -> rd_other r = [].
  Hypothesis QF : from_body N body = Some q.
  Hypothesis QO : q_ok N body q.
  Hypothesis NEGF : forall a, In (LNeg a) body -> pe_foreign N (a_pred a) = false.
  Hypothesis LO : lowerable C N g B ag JI JM I M T h body.
  Notation P := (psem B M I).
  Notation built := (built N q).
  Notation inv0 := (inv0 g N body).
  Notation okp := (okp C B ag JI JM I M).
  Notation hv := (avars h).

  Lemma from_body_cons : forall b q', from_body N b = Some q' ->
    flat_map (fun c => dedup (con_vars c)) (q_cons q') = flat_map compared b /\ map fst (q_assigns q') = assigned b.
  Proof.
    induction b as [|l b IH]; intros q' H; cbn [from_body] in H.
    - injection H as <-. auto.
    - destruct (from_body N b) as [q0|]; [|discriminate]. destruct (IH _ eq_refl) as [H1 H2]. unfold assigned in *.
      destruct l as [a|a|v e|c a b'|a|r| |]; try discriminate; try (injection H as <-; cbn [flat_map q_cons q_assigns map fst con_vars compared app]; rewrite H1, H2; auto; fail).
      destruct (pe_foreign N (a_pred a)); injection H as <-; cbn; auto.
  Qed.

  (** ** The meaning of built plans *)
  Lemma built_inv0 : forall L p, built L p -> inv0 L p.
  Proof.
    induction 1 as [|a J|r J|a J Ga|L p f bv l H1 IH E HX Ebv|L p f cs H1 IH E HX|L p L' r H1 IH1 H2 IH2|L p bv a H1 IH J Nb Eb Ia|L p a H1 IH J Ia|L p a H1 IH J Ia].
    - constructor.
      + intros B' X M' s. cbn. split; [intros _ l []|]. intros _. exists s. split; auto. intros v [].
      + intros l [].
      + intros v [].
      + intros l [].
    - apply (@ground_inv g N body FG q QO a J).
    - apply (@red_inv g N body OTHER q QO r J).
    - pose proof J as Ja. apply (qo_fp QO) in Ja. destruct Ja as [Ja Fa]. constructor.
      + intros B' X M' s. rewrite all_one, (fp_sat _ _ FG); auto. apply (@psem_fp_ground B' M' N _ FN); auto. apply (rule_vars_In _ _ Ja).
      + intros l [<-|[]] v Iv. apply fp_ground_bv. cbn in Iv. rewrite (fp_avars N a), (const_vars _ Ga) in Iv. exact Iv.
      + intros v Iv. apply fp_ground_bv in Iv. exists (LAtom a). split; [left; auto|]. cbn. rewrite Fa, <- fp_free_vars_eq. auto.
      + intros l [<-|[]]; auto.
    - assert (I1 : incl (bvars p) bv) by (subst bv; intros v Iv; apply vunion_In; auto).
      assert (I2 : forall x, In x l -> incl (fst x :: aexpr_vars (snd x)) bv).
      { intros x Ix v [<-|Iv]; [|apply I1, (HX x Ix), Iv]. subst bv. apply vunion_In. right. apply in_map; auto. }
      apply inv_add0 with (p := p); auto.
      + intros y Iy. apply in_map_iff in Iy. destruct Iy as (x & <- & Ix). apply (qo_asg QO). subst l. apply in_map_iff in Ix.
        destruct Ix as ([i y] & <- & Ix). apply filter_In in Ix. destruct Ix as [Ix _]. apply enum_In in Ix. eapply nth_error_In; eauto.
      + intros B' X M' s. rewrite psem_project, all_map; auto. tauto.
      + intros y Iy. apply in_map_iff in Iy. destruct Iy as (x & <- & Ix). exact (I2 x Ix).
      + cbn [bvars]. intros v Iv. subst bv. apply (proj1 (vunion_In _ _ _)) in Iv. destruct Iv as [Iv|Iv]; auto. right.
        apply in_map_iff in Iv. destruct Iv as (x & <- & Ix). exists (asg x). split; [apply in_map; auto|cbn; auto].
    - apply inv_add0 with (p := p); auto.
      + intros y Iy. apply in_map_iff in Iy. destruct Iy as (x & <- & Ix). apply (qo_con QO). subst cs. apply in_map_iff in Ix.
        destruct Ix as ([i y] & <- & Ix). apply filter_In in Ix. destruct Ix as [Ix _]. apply enum_In in Ix. eapply nth_error_In; eauto.
      + intros B' X M' s. rewrite psem_filter, all_map; auto; [|apply incl_refl]. setoid_rewrite clit_sat. tauto.
      + apply incl_refl.
      + intros y Iy. apply in_map_iff in Iy. destruct Iy as (x & <- & Ix). rewrite clit_vars. apply HX; auto.
    - unfold join. apply inv_add0 with (p := p); auto.
      + apply (i_body IH2).
      + intros B' X M' s. rewrite psem_join; [rewrite (i_sem IH2); tauto| |]; intros v Iv; apply vunion_In; auto.
      + intros v Iv. apply vunion_In; auto.
      + intros l Il v Iv. apply vunion_In. right. eapply (i_up IH2); eauto.
      + intros v Iv. cbn in Iv. apply (proj1 (vunion_In _ _ _)) in Iv. destruct Iv as [Iv|Iv]; auto. right. apply (i_down IH2); auto.
    - apply (qo_fp QO) in J. destruct J as [Ja Fa].
      apply inv_add0 with (p := p); auto.
      + intros l [<-|[]]; auto.
      + intros B' X M' s. rewrite psem_constr, all_one, (fp_sat _ _ FG); auto; [tauto|]. intros v; apply Eb.
      + intros v; apply Eb.
      + intros l [<-|[]]. auto.
      + intros v Iv. left. apply Eb; auto.
    - apply (qo_fp QO) in J. destruct J as [Ja Fa].
      apply inv_add0 with (p := p); auto.
      + intros l [<-|[]]; auto.
      + intros B' X M' s. rewrite (@psem_fp_join B' M' N _ FN), all_one, (fp_sat _ _ FG); auto; [tauto|eapply inv_V; eauto|apply (rule_vars_In _ _ Ja)].
      + intros v Iv. apply fp_join_bv; auto.
      + intros l [<-|[]] v Iv. apply fp_join_bv. cbn [lit_vars] in Iv. rewrite (fp_avars N a) in Iv.
        apply in_app_iff in Iv. destruct Iv as [Iv|Iv]; auto.
      + intros v Iv. apply fp_join_bv in Iv. destruct Iv as [Iv|Iv]; auto. right. exists (LAtom a). split; [left; auto|].
        cbn. rewrite Fa. rewrite <- fp_free_vars_eq. exact Iv.
    - apply (qo_neg QO) in J.
      apply inv_add0 with (p := p); auto.
      + intros l' [<-|[]]; auto.
      + intros B' X M' s. rewrite psem_anti, all_one; auto; [|apply incl_refl]. cbn [lit_sat other_sat]. rewrite FG, (NEGF _ J). tauto.
      + apply incl_refl.
      + intros l' [<-|[]]; auto.
  Qed.
  Lemma up : forall L p, built L p -> forall l, In l L -> incl (lit_vars l) (bvars p).
  Proof. intros L p H. apply (i_up (built_inv0 H)). Qed.
  Lemma down : forall L p, built L p -> forall v, In v (bvars p) -> exists l, In l L /\ In v (lit_binds N l).
  Proof. intros L p H. apply (i_down (built_inv0 H)). Qed.
  Lemma inb : forall L p, built L p -> incl L body.
  Proof. intros L p H. apply (i_body (built_inv0 H)). Qed.
  (** An assignment of a bounded variable has been applied. *)
  Lemma asg_done : forall L p w e, built L p -> In w (bvars p) -> In (LAssign w e) body -> In (LAssign w e) L.
  Proof.
    intros L p w e H Iw J. destruct (down H _ Iw) as (l & Il & Bl). rewrite <- (lo_single LO w e l J (inb H _ Il) Bl). exact Il.
  Qed.
  Lemma built_old : forall L p, built L p -> forall v e, In (LAssign v e) L -> is_new e = false.
  Proof.
    induction 1 as [|a J|r J|a J Ga|L p f bv l H1 IH E HX Ebv|L p f cs H1 IH E HX|L p L' r H1 IH1 H2 IH2|L p bv a H1 IH J Nb Eb Ia|L p a H1 IH J Ia|L p a H1 IH J Ia];
      intros v e K; try (apply in_app_iff in K; destruct K as [K|K]; eauto); try (destruct K as [K|[]]; discriminate); try destruct K.
    - apply in_map_iff in K. destruct K as (x & E' & Ix). unfold asg in E'. injection E' as <- <-. apply HX; auto.
    - apply in_map_iff in K. destruct K as (x & E' & Ix). destruct x; discriminate.
  Qed.

  (** ** Types *)
  Definition typed (p : plan) : Prop := forall s, P p s -> forall v, In v (bvars p) -> T v (s v).
  Lemma ty_add : forall L p L' p', inv0 L p -> typed p -> inv0 (L ++ L') p' ->
    (forall l, In l L' -> lit_binds N l = [] \/ incl (lit_needs N l) (bvars p)) -> typed p'.
  Proof.
    intros L p L' p' H1 Hp H2 HL s Hs v Iv. pose proof (proj1 (i_sem H2 _ _ _ _) Hs) as Sat. rewrite all_app in Sat. destruct Sat as [S1 S2].
    apply (i_sem H1) in S1. destruct (i_down H2 _ Iv) as (l & Il & Bl). apply in_app_iff in Il. destruct Il as [Il|Il].
    - apply Hp; auto. apply (i_up H1 _ Il). apply binds_vars in Bl. exact Bl.
    - destruct (HL l Il) as [Z|Z]; [rewrite Z in Bl; destruct Bl|].
      eapply (lo_typed LO); [apply (i_body H2), in_or_app; right; exact Il|apply S2; auto| |exact Bl].
      intros w Iw. apply Hp; [exact S1|]. apply Z; auto.
  Qed.
  Lemma built_typed : forall L p, built L p -> typed p.
  Proof.
    intros L p H. pose proof H as H0.
    induction H as [|a J|r J|a J Ga|L p f bv l H1 IH E HX Ebv|L p f cs H1 IH E HX|L p L' r H1 IH1 H2 IH2|L p bv a H1 IH J Nb Eb Ia|L p a H1 IH J Ia|L p a H1 IH J Ia].
    - intros s _ v [].
    - apply (@ty_add [] (PUnit []) [LAtom a] (ground a)); [apply built_inv0, b_unit|intros s _ v []|apply built_inv0; auto|].
      intros l [<-|[]]. right. cbn. apply (qo_pos QO) in J. destruct J as [_ ->]. intros v [].
    - apply (@ty_add [] (PUnit []) [LReduce r] (red r)); [apply built_inv0, b_unit|intros s _ v []|apply built_inv0; auto|].
      intros l [<-|[]]. right. intros v [].
    - apply (@ty_add [] (PUnit []) [LAtom a] (fp_ground N a)); [apply built_inv0, b_unit|intros s _ v []|apply built_inv0; auto|].
      intros l [<-|[]]. right. cbn. apply (qo_fp QO) in J. destruct J as [_ ->]. fold (fp_bound N a). rewrite (const_vars _ Ga). intros v [].
    - eapply ty_add; [apply (built_inv0 H1)|auto|apply built_inv0; exact H0|]. intros y Iy. apply in_map_iff in Iy. destruct Iy as (x & <- & Ix).
      right. apply (HX x Ix).
    - eapply ty_add; [apply (built_inv0 H1)|auto|apply built_inv0; exact H0|]. intros y Iy. apply in_map_iff in Iy. destruct Iy as (x & <- & Ix).
      left. destruct x; reflexivity.
    - intros s Hs v Iv. pose proof (proj1 (i_sem (built_inv0 H0) _ _ _ _) Hs) as Sat. rewrite all_app in Sat. destruct Sat as [S1 S2].
      apply (i_sem (built_inv0 H1)) in S1. apply (i_sem (built_inv0 H2)) in S2. cbn [join bvars] in Iv.
      apply (proj1 (vunion_In _ _ _)) in Iv. destruct Iv as [Iv|Iv]; [apply IH1|apply IH2]; auto.
    - eapply ty_add; [apply (built_inv0 H1)|auto|apply built_inv0; exact H0|]. intros l [<-|[]]. right. cbn. apply (qo_fp QO) in J. destruct J as [_ ->].
      fold (fp_bound N a). intros v Iv. apply Eb, Ia. rewrite (fp_avars N a). apply in_or_app; auto.
    - eapply ty_add; [apply (built_inv0 H1)|auto|apply built_inv0; exact H0|]. intros l [<-|[]]. right. cbn. apply (qo_fp QO) in J. destruct J as [_ ->]. exact Ia.
    - eapply ty_add; [apply (built_inv0 H1)|auto|apply built_inv0; exact H0|]. intros l [<-|[]]. left. reflexivity.
  Qed.

  (** ** Variables that later literals or the head look at *)
  Inductive needed (L : list lit) : var -> Prop :=
  | nd_head v : In v hv -> needed L v
  | nd_lit l v : In l body -> ~ In l L -> is_asg l = false -> In v (lit_vars l) -> needed L v
  | nd_asg w e v : In (LAssign w e) body -> ~ In (LAssign w e) L -> needed L w -> In v (aexpr_vars e) -> needed L v.

  Definition lits_dec (l : lit) (L : list lit) : {In l L} + {~ In l L} := in_dec lit_eq_dec l L.

  Lemma needed_step : forall L LL S, (forall l, In l LL -> In l L \/ incl (lit_vars l) S) ->
    (forall w e, In w S -> In (LAssign w e) body -> In (LAssign w e) LL) ->
    forall v, needed L v -> needed LL v \/ In v S.
  Proof.
    intros L LL S H1 H2 v H. induction H as [v Iv|l v Il NL A Iv|w e v Iw NL H IH Iv].
    - left. apply nd_head; auto.
    - destruct (lits_dec l LL) as [D|D]; [|left; eapply nd_lit; eauto]. right. destruct (H1 _ D) as [K|K]; [tauto|auto].
    - destruct (lits_dec (LAssign w e) LL) as [D|D].
      + right. destruct (H1 _ D) as [K|K]; [tauto|]. apply K. right; auto.
      + destruct IH as [IH|IH]; [left; eapply nd_asg; eauto|]. exfalso. apply D. apply H2; auto.
  Qed.
  Lemma needed_asgs : forall L p l, built L p -> (forall x, In x l -> incl (aexpr_vars (snd x)) (bvars p)) ->
    forall v, needed L v -> needed (L ++ map asg l) v \/
      exists x, In x l /\ In v (aexpr_vars (snd x)) /\ needed (L ++ map asg l) (fst x).
  Proof.
    intros L p l Hb HX v H. induction H as [v Iv|y v Iy NL A Iv|w e v Iw NL H IH Iv].
    - left. apply nd_head; auto.
    - left. eapply nd_lit; eauto. intros K. apply in_app_iff in K. destruct K as [K|K]; [tauto|].
      apply in_map_iff in K. destruct K as (x & <- & Ix). discriminate.
    - destruct IH as [IH|(x & Ix & Jx & IH)].
      + destruct (lits_dec (LAssign w e) (map asg l)) as [D|D].
        * right. apply in_map_iff in D. destruct D as (x & E & Ix). unfold asg in E. injection E as <- <-. eauto.
        * left. eapply nd_asg; eauto. rewrite in_app_iff. tauto.
      + exfalso. apply NL. eapply asg_done; eauto. eapply HX; eauto.
  Qed.
  Lemma used_needed : forall L p l, built L p -> (forall x, In x l -> incl (aexpr_vars (snd x)) (bvars p)) ->
    forall v, used hv body v -> ~ In v (bvars p) -> needed (L ++ map asg l) v.
  Proof.
    intros L p l Hb HX v H. induction H as [v Iv|y v Iy A Iv|w e v Iw H IH Iv]; intros NB.
    - apply nd_head; auto.
    - eapply nd_lit; eauto. intros K. apply in_app_iff in K. destruct K as [K|K]; [apply NB; eapply up; eauto|].
      apply in_map_iff in K. destruct K as (x & <- & Ix). discriminate.
    - assert (ND : ~ In (LAssign w e) (L ++ map asg l)).
      { intros K. apply NB. apply in_app_iff in K. destruct K as [K|K].
        - eapply up; eauto. right; auto.
        - apply in_map_iff in K. destruct K as (x & E & Ix). unfold asg in E. injection E as <- <-. eapply HX; eauto. }
      eapply nd_asg; eauto. apply IH. intros K. apply ND. apply in_or_app. left. eapply asg_done; eauto.
  Qed.

  (** ** Plans are as lowering wants them *)
  Definition all_nd : Prop := forall a, In (LAtom a) body -> pe_foreign N (a_pred a) = false -> NoDup (avars a).

  Lemma direct_fp_ground : forall a, direct_atom (fp_ground N a) = None.
  Proof. intros a. unfold fp_ground. destruct (rename_free N a []) as [vs es]. destruct (const_cons _ _ _ ++ _); reflexivity. Qed.
  Lemma direct_fp_join : forall p a, direct_atom (fp_join N p a) = None.
  Proof. intros p a. unfold fp_join. destruct (rename_free N a (bvars p)) as [vs es]. destruct (const_cons _ _ _ ++ _); reflexivity. Qed.
  Lemma built_atom : forall L p, built L p -> atom_bound p.
  Proof.
    intros L p H. split; [eapply built_NoDup; eauto|].
    induction H as [|a J|r J|a J Ga|L p f bv l H1 IH E HX Ebv|L p f cs H1 IH E HX|L p L' r H1 IH1 H2 IH2|L p bv a H1 IH J Nb Eb Ia|L p a H1 IH J Ia|L p a H1 IH J Ia];
      intros a' D; cbn [direct_atom join red] in D; try discriminate.
    - cbn in D. injection D as <-. intros v. cbn. symmetry. apply dedup_In.
    - rewrite direct_fp_ground in D. discriminate.
    - cbn [bvars]. auto.
    - rewrite direct_fp_join in D. discriminate.
  Qed.

  (** Foreign predicates *)
  Lemma fp_bound_length : forall a, In (LAtom a) body -> pe_foreign N (a_pred a) = true -> length (fp_bound N a) = ce_bounded C (a_pred a).
  Proof. intros a H F. destruct (lo_bounded LO _ H F) as [-> L]. unfold fp_bound. apply firstn_length_le; auto. Qed.
  Lemma fp_ws_length : forall a vs m es ws, In (LAtom a) body -> pe_foreign N (a_pred a) = true -> rename N (a_pred a) m (fp_free N a) = (vs, es) ->
    b_fp B (a_pred a) ws -> length ws = length (fp_bound N a ++ map TVar vs).
  Proof.
    intros a vs m es ws H F R Hw. destruct (lo_fp LO _ _ H F Hw) as [-> _]. rewrite (fp_args N a) at 1.
    rewrite !app_length, !map_length, (rename_length N _ _ _ _ _ R). reflexivity.
  Qed.
  Lemma fp_cons_typed : forall p a m vs es cs (s s' : subst), In (LAtom a) body -> pe_foreign N (a_pred a) = true ->
    rename N (a_pred a) m (fp_free N a) = (vs, es) -> cs = const_cons N (a_pred a) (fp_free N a) ++ eq_cons es ->
    p = a_pred a -> b_fp B p (tvals s' (fp_bound N a ++ map TVar vs)) -> agree vs s s' ->
    forall c, In c cs -> con_typed s c.
  Proof.
    intros p a m vs es cs s s' Ja F R -> -> Hf A c Ic.
    assert (EQ : forall v, In v vs -> eq_able (s v) = true).
    { intros v Iv. rewrite (A v Iv). destruct (lo_fp LO _ _ Ja F Hf) as [_ Fa]. rewrite Forall_forall in Fa. apply Fa.
      rewrite tvals_app, tvals_vars. apply in_or_app. right. apply in_map; auto. }
    apply in_app_iff in Ic. destruct Ic as [Ic|Ic].
    - apply const_cons_In in Ic. destruct Ic as (i & d & Id & ->). cbn. intros _. apply EQ. eapply rename_consts; eauto.
    - unfold eq_cons in Ic. apply in_map_iff in Ic. destruct Ic as ([o n] & <- & Ic). cbn. intros ->. apply EQ. eapply rename_eqs; eauto.
  Qed.
  Lemma fp_free_V : forall a, In (LAtom a) body -> incl (fargs_vars (fp_free N a)) (rule_vars body).
  Proof. intros a J v Hv. apply (rule_vars_In _ _ J). cbn. rewrite (fp_avars N a). apply in_or_app; right; exact Hv. Qed.

  Lemma fp_ground_okp : forall a dup gv, In a (q_fp q) -> forallb is_const (fp_bound N a) = true -> okp dup gv (fp_ground N a).
  Proof.
    intros a dup gv J Ga. apply (qo_fp QO) in J. destruct J as [Ja Fa]. unfold fp_ground. destruct (rename_free N a []) as [vs es] eqn:R.
    unfold rename_free in R. cbn [map] in R.
    assert (G : forall dup gv, okp dup gv (PFpGround (dedup vs) (mkAtom (a_pred a) (fp_bound N a ++ map TVar vs)))).
    { intros dup' gv'. cbn [B2RFacts2.okp a_args a_pred]. destruct (consts_split _ Ga) as [cs Ecs]. exists cs, vs. rewrite <- Ecs. split; auto.
      split; [rewrite <- (fp_bound_length a Ja Fa), Ecs, map_length; auto|]. split.
      - eapply (rename_NoDup N _ FN); eauto; [apply fp_free_fst|apply fp_free_V; auto].
      - split; [intros v Iv; exact (proj1 (dedup_In _ _) Iv)|]. intros ws Hw. eapply fp_ws_length; eauto. }
    destruct (const_cons N (a_pred a) (fp_free N a) ++ eq_cons es) as [|c0 cs0] eqn:E; [apply G|]. rewrite <- E.
    cbn [B2RFacts2.okp bvars]. split; [|split; [|split; [|exact (G dup gv)]]].
    - intros v Iv. apply (proj1 (dedup_In _ _)) in Iv. apply dedup_In. eapply rename_var; eauto.
    - intros c Ic v Iv. apply dedup_In. apply in_app_iff in Ic. destruct Ic as [Ic|Ic].
      + apply const_cons_In in Ic. destruct Ic as (i & d & Id & ->). cbn in Iv. destruct Iv as [<-|[]]. eapply rename_consts; eauto.
      + unfold eq_cons in Ic. apply in_map_iff in Ic. destruct Ic as ([o n] & <- & Ic). destruct (@rename_eqs N _ _ _ _ _ R _ _ Ic) as [K1 K2].
        cbn in Iv. destruct Iv as [<-|[<-|[]]]; auto. destruct K2 as [K2|(v & k & K2)]; [auto|discriminate].
    - intros s c (s' & A & Hf) Ic. eapply fp_cons_typed; eauto. eapply agree_incl; [exact A|]. intros v Iv. cbn. apply dedup_In; auto.
  Qed.
  Lemma fp_join_okp : forall L p a dup gv, built L p -> In a (q_fp q) -> incl (flat_map tvar (fp_bound N a)) (bvars p) ->
    okp false (bvars p) p -> okp dup gv (fp_join N p a).
  Proof.
    intros L p a dup gv Hb J IB Hp. apply (qo_fp QO) in J. destruct J as [Ja Fa]. unfold fp_join.
    destruct (rename_free N a (bvars p)) as [vs es] eqn:R. unfold rename_free in R.
    pose proof (inv_V (built_inv0 Hb)) as PV.
    assert (G : forall dup gv, okp dup gv (PFpJoin (vunion (bvars p) vs) p (mkAtom (a_pred a) (fp_bound N a ++ map TVar vs)))).
    { intros dup' gv'. cbn [B2RFacts2.okp a_args a_pred]. exists (fp_bound N a), vs. split; auto.
      split; [apply fp_bound_length; auto|]. split; [eapply (rename_NoDup N _ FN); eauto; [apply fp_free_fst|apply fp_free_V; auto]|].
      split; [exact IB|]. split; [|split; [|split; [|exact Hp]]].
      - intros v Iv Jv. destruct (rename_shape N _ _ _ _ _ R v Iv) as [(i & c & Ic & E)|[[_ E]|(w & k & Iw & E & _)]].
        + apply (fn_const _ _ FN (a_pred a) i c). rewrite <- E. auto.
        + revert E. apply mget_none. exact Jv.
        + apply (fn_ren _ _ FN w k); [eapply fp_free_V; eauto|]. rewrite <- E. auto.
      - intros v Iv. apply (proj1 (vunion_In _ _ _)) in Iv. apply in_or_app. exact Iv.
      - intros ws Hw. eapply fp_ws_length; eauto. }
    destruct (const_cons N (a_pred a) (fp_free N a) ++ eq_cons es) as [|c0 cs0] eqn:E; [apply G|]. rewrite <- E.
    cbn [B2RFacts2.okp bvars]. split; [|split; [|split; [|exact (G dup gv)]]].
    - intros v Iv. apply (proj1 (vunion_In _ _ _)) in Iv. apply vunion_In. destruct Iv as [Iv|Iv]; auto.
      destruct (mget v (map (fun v => (v, (v, 0))) (bvars p))) as [x|] eqn:Gv; [left; eapply mget_in; eauto|right; eapply rename_var; eauto].
    - intros c Ic v Iv. apply vunion_In. apply in_app_iff in Ic. destruct Ic as [Ic|Ic].
      + apply const_cons_In in Ic. destruct Ic as (i & d & Id & ->). cbn in Iv. destruct Iv as [<-|[]]. right. eapply rename_consts; eauto.
      + unfold eq_cons in Ic. apply in_map_iff in Ic. destruct Ic as ([o n] & <- & Ic). destruct (@rename_eqs N _ _ _ _ _ R _ _ Ic) as [K1 K2].
        cbn in Iv. destruct Iv as [<-|[<-|[]]]; auto. destruct K2 as [K2|(v & k & K2)]; auto. left.
        rewrite (mget_self _ _ K2). eapply mget_in; eauto.
    - intros s c (s' & A & _ & Hf) Ic. eapply fp_cons_typed; eauto. eapply agree_incl; [exact A|]. intros v Iv. cbn. apply vunion_In; auto.
  Qed.

  Lemma ordered_id : forall l bv bv', (forall x, In x l -> incl (aexpr_vars (snd x)) bv) -> incl bv bv' -> ordered bv' l.
  Proof.
    induction l as [|x l IH]; intros bv bv' H HI; cbn; auto. split; [eapply incl_tran; [apply H; left; auto|auto]|].
    apply IH with (bv := bv); [intros; apply H; right; auto|]. intros v Iv. right; auto.
  Qed.

  (** Assignments on top of a plan. *)
  Lemma assigns_okp : forall L p l bv dup gv, built L p -> incl l (q_assigns q) -> NoDup (map fst l) ->
    (forall x, In x l -> ~ In (fst x) (bvars p) /\ incl (aexpr_vars (snd x)) (bvars p)) ->
    (forall v, In v bv <-> In v (bvars p) \/ In v (map fst l)) ->
    (forall v, In v bv -> needed (L ++ map asg l) v -> In v gv) ->
    (forall gv, (forall v, In v (bvars p) -> needed L v -> In v gv) -> okp dup gv p) ->
    okp dup gv (PProject bv p l).
  Proof.
    intros L p l bv dup gv Hb Hi ND HX Hbv Hg IH. cbn [B2RFacts2.okp].
    assert (HX2 : forall x, In x l -> incl (aexpr_vars (snd x)) (bvars p)) by (intros; apply HX; auto).
    split; [intros v Iv; apply in_or_app, Hbv; auto|]. split; auto. split; [intros x Ix; apply HX; auto|].
    split; [exists l; split; [apply Permutation_refl|]; eapply ordered_id; eauto; apply incl_refl|]. split.
    - intros x Ix. unfold total_on. destruct (is_new (snd x)) eqn:En; [auto|].
      assert (Jx : In (LAssign (fst x) (snd x)) body) by (apply (qo_asg QO x), Hi; auto).
      destruct (lo_total LO _ _ Jx En) as [U|U].
      + left. apply Hg; [apply Hbv; right; apply in_map; auto|]. eapply used_needed; eauto. apply HX; auto.
      + right; right. split; [apply HX; auto|]. intros s Hs. apply U. intros w Iw. apply (built_typed Hb s Hs). eapply HX2; eauto.
    - apply IH. intros v Iv Nv. apply filter_In. split; [|apply memb_In; auto]. apply in_or_app.
      destruct (needed_asgs l Hb HX2 Nv) as [K|(x & Ix & Jx & K)].
      + left. apply Hg; auto. apply Hbv; auto.
      + right. apply in_flat_map. exists x. split; auto. apply filter_In. split; auto. apply memb_In, Hg; auto.
        apply Hbv. right. apply in_map; auto.
  Qed.

  Lemma filt_assigns : forall f, NoDup (map fst (map snd (filter f (enum (q_assigns q))))) /\ incl (map snd (filter f (enum (q_assigns q)))) (q_assigns q).
  Proof.
    intros f. split.
    - rewrite map_map. apply NoDup_map_filter. rewrite <- map_map, enum_snd. rewrite (proj2 (from_body_cons _ QF)). apply (lo_once LO).
    - intros x Ix. apply in_map_iff in Ix. destruct Ix as ([i y] & <- & Ix). apply filter_In in Ix. destruct Ix as [Ix _].
      apply enum_In in Ix. eapply nth_error_In; eauto.
  Qed.

  Lemma built_okp : forall L p, built L p -> clash_free p = true -> forall dup gv, (dup = true -> all_nd) ->
    (forall v, In v (bvars p) -> needed L v -> In v gv) -> okp dup gv p.
  Proof.
    induction 1 as [|a J|r J|a J Ga|L p f bv l H1 IH E HX Ebv|L p f cs H1 IH E HX|L p L' r H1 IH1 H2 IH2|L p bv a H1 IH J Nb Eb Ia|L p a H1 IH J Ia|L p a H1 IH J Ia];
      intros CF dup gv HD HG.
    - exact Logic.I.
    - apply (qo_pos QO) in J. destruct J as [Ja Fa]. cbn. split; [intros v; symmetry; apply dedup_In|]. split; [apply (lo_pos LO); auto|].
      destruct dup; auto. right. apply HD; auto.
    - cbn. intros t. assert (Ir' : In (LReduce r) body) by (apply (qo_red QO); auto).
      destruct (lo_redvars LO r Ir') as (ND1 & ND2 & ND3).
      replace (reduce_grp r) with (red_grouping r) by (unfold red_grouping, reduce_grp; destruct (rd_group r), (rd_groupby r); reflexivity).
      rewrite (lo_red LO r t Ir').
      assert (RT : forall s, gtup (reduce_goal r) s = red_tuple r s).
      { intros s. unfold red_tuple, reduce_goal, red_grouping. destruct (rd_group r) eqn:Eg.
        - apply from_vars_one; auto.
        - destruct (rd_groupby r); cbn [gtup map]; rewrite (from_vars_one _ ND1), (from_vars_one _ ND2), ?(from_vars_one _ ND3); reflexivity. }
      split; intros (s & Hs & ->); exists s; split; auto.
    - apply fp_ground_okp; auto.
    - destruct (filt_assigns f) as [F1 F2]. rewrite <- E in F1, F2. apply assigns_okp with (L := L); auto.
      + intros x Ix. split; apply HX; auto.
      + intros v. subst bv. apply vunion_In.
    - cbn [B2RFacts2.okp]. split; [apply incl_refl|]. split; auto. split.
      + intros s c Hs Ic. assert (Ic' : In (clit c) body).
        { apply (qo_con QO). rewrite E in Ic. apply in_map_iff in Ic. destruct Ic as ([i y] & <- & Ix). apply filter_In in Ix.
          destruct Ix as [Ix _]. apply enum_In in Ix. eapply nth_error_In; eauto. }
        destruct c as [c a b|a]; [|exact Logic.I]. apply (lo_cmp LO); auto. intros v Iv. apply (built_typed H1 s Hs). apply (HX _ Ic). exact Iv.
      + apply IH; auto.
        * intros Hd. destruct dup; [auto|]. cbn in Hd. apply negb_true_iff in Hd. destruct (lo_dup LO) as [K|K]; auto. exfalso.
          rewrite <- (proj1 (from_body_cons _ QF)) in K. rewrite nodupb_complete in Hd; [discriminate|]. rewrite E, flat_map_map.
          apply NoDup_flat_filter. rewrite <- (flat_map_map (fun c => dedup (con_vars c)) snd), enum_snd. exact K.
        * intros v Iv Nv. apply in_or_app. destruct (@needed_step L (L ++ map clit cs) (flat_map con_vars cs)) with (v := v) as [K|K]; auto.
          -- intros l Il. apply in_app_iff in Il. destruct Il as [Il|Il]; auto. right. apply in_map_iff in Il. destruct Il as (c & <- & Ic).
             rewrite clit_vars. intros w Iw. apply in_flat_map. eauto.
          -- intros w e Iw Jw. apply in_flat_map in Iw. destruct Iw as (c & Ic & Iw). apply in_or_app. left. eapply asg_done; eauto. eapply HX; eauto.
    - cbn [clash_free join] in CF. rewrite !andb_true_iff, negb_true_iff in CF. destruct CF as [[CF1 CF2] CF3].
      cbn [B2RFacts2.okp join]. split; [intros v Iv; apply (proj1 (vunion_In _ _ _)) in Iv; apply in_or_app; auto|].
      split; [eapply built_atom; eauto|]. split; [eapply built_atom; eauto|]. split.
      + intros E1 E2 E3 E4. exfalso. unfold clash in CF1. rewrite E2, E3 in CF1. destruct (join_vars p r); [auto|congruence].
      + cbn [join bvars] in HG. split.
        * apply IH1; auto; [discriminate|]. intros v Iv Nv. apply filter_In. split; auto. apply orb_true_iff. rewrite !memb_In.
          destruct (@needed_step L (L ++ L') (bvars r)) with (v := v) as [K|K]; auto.
          -- intros l Il. apply in_app_iff in Il. destruct Il as [Il|Il]; auto. right. eapply up; eauto.
          -- intros w e Iw Jw. apply in_or_app. right. eapply asg_done; eauto.
          -- left. apply HG; auto. apply vunion_In; auto.
        * apply IH2; auto; [discriminate|]. intros v Iv Nv. apply filter_In. split; auto. apply orb_true_iff. rewrite !memb_In.
          destruct (@needed_step L' (L ++ L') (bvars p)) with (v := v) as [K|K]; auto.
          -- intros l Il. apply in_app_iff in Il. destruct Il as [Il|Il]; auto. right. eapply up; eauto.
          -- intros w e Iw Jw. apply in_or_app. left. eapply asg_done; eauto.
          -- left. apply HG; auto. apply vunion_In; auto.
    - cbn [B2RFacts2.okp]. split; [intros v; apply Eb|]. split; [intros v Iv; apply Eb; auto|]. apply IH; auto. discriminate.
    - eapply fp_join_okp; eauto. apply IH; auto; [|discriminate]. revert CF. unfold fp_join. destruct (rename_free N a (bvars p)) as [vs es].
      destruct (const_cons _ _ _ ++ _); cbn; auto.
    - cbn [clash_free] in CF. rewrite andb_true_iff in CF. destruct CF as [CF1 _].
      cbn [B2RFacts2.okp ground]. split; [apply incl_refl|]. split; [eapply built_atom; eauto|]. split.
      + split; [apply dedup_NoDup|]. split; [intros v; symmetry; apply dedup_In|]. apply (lo_neg LO), (qo_neg QO); auto.
      + apply IH; auto; [discriminate|]. intros v Iv Nv. apply filter_In. split; auto. apply orb_true_iff. rewrite !memb_In.
        destruct (@needed_step L (L ++ [LNeg a]) (avars a)) with (v := v) as [K|K]; auto.
        * intros l Il. apply in_app_iff in Il. destruct Il as [Il|[<-|[]]]; auto. right. apply incl_refl.
        * intros w e Iw Jw. apply in_or_app. left. eapply asg_done; eauto.
        * right. cbn [bvars]. apply dedup_In; auto.
  Qed.

  (** The whole plan. *)
  Lemma plan_okp : forall L p0 p K, built L p0 -> p = add_news q p0 -> K = L ++ map asg (news q) ->
    (forall v, limited N body v -> In v (bvars p0)) ->
    (forall l, In l body -> In l K \/ l = LTrue \/ l = LFalse \/ skipped N K l) ->
    incl K body -> clash_free p = true -> forall gv, incl hv gv -> okp false gv p.
  Proof.
    intros L p0 p K Hb -> -> LB Cov IK CF gv Hg.
    assert (Top : forall v, needed (L ++ map asg (news q)) v -> In v gv).
    { intros v Nv. apply Hg. induction Nv as [v Iv|l v Il NL A Iv|w e v Iw NL H IH Iv]; auto; exfalso.
      - destruct (Cov l Il) as [K|[->|[->|(w & e & -> & _)]]]; [tauto|destruct Iv|destruct Iv|discriminate].
      - destruct (Cov _ Iw) as [K|[K|[K|(w' & e' & E & _ & l' & Il' & Bl')]]]; [tauto|discriminate|discriminate|].
        injection E as <- <-. apply NL. rewrite <- (lo_single LO w e l' Iw (IK _ Il') Bl'). exact Il'. }
    revert CF Top Cov IK. unfold add_news. case_eq (news q); [intros En|intros x0 l0 En]; intros CF Top Cov IK.
    - eapply built_okp; eauto; [discriminate|]. intros v _ Nv. apply Top. cbn. rewrite app_nil_r. exact Nv.
    - rewrite <- En in *. clear x0 l0 En.
      assert (IN : incl (news q) (q_assigns q)) by (intros x Ix; apply filter_In in Ix; tauto).
      assert (HN : forall x, In x (news q) -> is_new (snd x) = true) by (intros x Ix; apply filter_In in Ix; tauto).
      apply assigns_okp with (L := L); auto.
      + unfold news. apply NoDup_map_filter. rewrite (proj2 (from_body_cons _ QF)). apply (lo_once LO).
      + intros x Ix. assert (Jx : In (LAssign (fst x) (snd x)) body) by (apply (qo_asg QO x), IN; auto). split.
        * intros K. pose proof (asg_done _ _ Hb K Jx) as D. apply (built_old Hb) in D. rewrite (HN x Ix) in D. discriminate.
        * intros w Iw. apply LB. eapply (lo_new LO); eauto.
      + intros v. rewrite (vunion_In (map fst (news q)) (bvars p0) v). tauto.
      + intros gv' Hg'. eapply built_okp; eauto. discriminate.
  Qed.
End Rule.

(** ** Heads *)
Lemma gdedup_leaves : forall g, leaves (gdedup g) = variables g.
Proof. intros g. unfold gdedup. rewrite from_vars_leaves. apply dedup_id, variables_NoDup. Qed.
Lemma gdedup_incl : forall g v, In v (leaves (gdedup g)) <-> In v (leaves g).
Proof. intros g v. rewrite gdedup_leaves. apply variables_In. Qed.

Lemma NoDup_firstn : forall A n (l : list A), NoDup l -> NoDup (firstn n l).
Proof. intros A n l H. rewrite <- (firstn_skipn n l) in H. apply NoDup_app_iff in H. tauto. Qed.

Lemma pair_leaves : forall n l v, In v (leaves (GT [from_vars (firstn n l) true; from_vars (skipn n l) true])) <-> In v l.
Proof.
  intros n l v. cbn [leaves flat_map]. rewrite app_nil_r, in_app_iff, !from_vars_leaves.
  rewrite <- (firstn_skipn n l) at 3. rewrite in_app_iff.
  rewrite (dedup_In (firstn n l) v), (dedup_In (skipn n l) v). tauto.
Qed.

Lemma term_tuples_eval : forall E g s t l es, omap (term_expr g) l = Some es -> holds g s t ->
  emap (fun x => eval E x t) es = EOk (map TVal (tvals s l)).
Proof.
  intros E g s t l es A H. apply omap_Forall2 in A. apply emap_Forall2.
  induction A as [|x y l l' Hx A IH]; [constructor|]. change (tvals s (x :: l)) with (tval s x :: tvals s l). cbn [map].
  constructor; auto. eapply term_expr_eval; eauto.
Qed.

Section Head.
  Variables (C : cenv) (B : benv).
  Lemma head_tuple_vars : forall h g c, head_tuple C h = Some (g, c) -> forall v, In v (leaves g) <-> In v (avars h).
  Proof.
    intros h g c H v. unfold head_tuple in H. destruct (ce_shape C (a_pred h)) as [|n|n].
    - injection H as <- _. cbn [leaves]. rewrite leaves_map. tauto.
    - destruct n as [|n].
      + injection H as <- _. rewrite from_vars_leaves. apply dedup_In.
      + unfold cut in H. destruct (S n <=? length (avars h)); [|discriminate]. cbn [obnd fst snd] in H. injection H as <- _.
        exact (pair_leaves (S n) (avars h) v).
    - unfold cut in H. destruct (n <=? length (avars h)); [|discriminate]. cbn [obnd fst snd] in H. injection H as <- _.
      apply pair_leaves.
  Qed.
  (** Without constants, the tuple of the head is its layout. *)
  Lemma head_tuple_layout : forall h g, head_tuple C h = Some (g, false) -> head_ok C h ->
    forall s, gtup g s = layout (ce_shape C (a_pred h)) (tvals s (a_args h)).
  Proof.
    intros h g H HK s. unfold head_tuple in H. unfold head_ok in HK.
    assert (TV : existsb is_const (a_args h) = false -> tvals s (a_args h) = map s (avars h)).
    { intros K. rewrite (no_consts _ K) at 1. apply tvals_vars. }
    destruct (ce_shape C (a_pred h)) as [|n|n].
    - injection H as <- Hc. cbn [gtup layout]. rewrite gtup_map, (TV Hc). reflexivity.
    - destruct HK as [Hc ND]. rewrite (TV Hc). destruct n as [|n].
      + injection H as <-. apply from_vars_one; auto.
      + unfold cut in H. destruct (S n <=? length (avars h)); [|discriminate]. cbn [obnd fst snd] in H. injection H as <-.
        cbn [gtup map layout]. change (match avars h with [] => [] | a :: l => a :: firstn n l end) with (firstn (S n) (avars h)).
        change (match avars h with [] => [] | a :: l => skipn n l end) with (skipn (S n) (avars h)). rewrite !from_vars_one by (apply NoDup_firstn || apply NoDup_skipn; auto).
        rewrite firstn_map, map_skipn. reflexivity.
    - destruct HK as [Hc ND]. rewrite (TV Hc). unfold cut in H. destruct (n <=? length (avars h)); [|discriminate].
      cbn [obnd fst snd] in H. injection H as <-.
      cbn [gtup map layout]. rewrite !from_vars_one by (apply NoDup_firstn || apply NoDup_skipn; auto).
      rewrite firstn_map, map_skipn. reflexivity.
  Qed.
  Lemma head_tuple_const : forall h g, head_tuple C h = Some (g, true) -> ce_shape C (a_pred h) = SPlain.
  Proof.
    intros h g H. unfold head_tuple in H. destruct (ce_shape C (a_pred h)) as [|n|n]; auto.
    - destruct n; [discriminate|]. unfold obnd in H. destruct (cut (S n) (avars h)); discriminate.
    - unfold obnd in H. destruct (cut n (avars h)); discriminate.
  Qed.

  Variable ag : nat -> nat -> rgrp -> tuple -> Prop.
  Variables (JI JM : rels) (I M : interp) (Z : bstate).
  Notation E := (b_env B).
  Notation D := (D B ag JM JI).
  Notation P := (psem B M I).
  Hypothesis TEMPS : forall n d, In (n, d) (z_temps Z) -> forall t, JI n t <-> B2RFacts.D B ag JM JI d t.
  Hypothesis NEGS : forall n d, In (n, d) (z_negs Z) -> forall t, JM n t <-> B2RFacts.D B ag JM JM d t.
  Hypothesis PERMS : forall b p g, In (p, g) (z_perms Z) -> forall t,
    jr JI JM b (ce_perm C p g) t <-> exists u, jr JI JM b p u /\ eval E (perm_expr g) u = EOk t.
  Hypothesis CINJ : forall i j c c', ce_const C i c = ce_const C j c' -> i = j.
  Hypothesis SORT : forall l, Permutation (ce_sort C l) l.
  Hypothesis HASH : forall l, Permutation (ce_hash C l) l.

  Lemma update_ok : forall h p inplace z0 n d z, update_df C h p inplace z0 = Some ((n, d), z) -> ext z Z ->
    head_ok C h -> incl (avars h) (bvars p) ->
    (forall gv, incl (avars h) gv -> okp C B ag JI JM I M false gv p) ->
    n = a_pred h /\ forall t, D d t <-> exists s, P p s /\ t = layout (ce_shape C (a_pred h)) (tvals s (a_args h)).
  Proof.
    intros h p inplace z0 n d z H X HK HI HO. unfold update_df, sbind, sopt, sret in H.
    destruct (head_tuple C h) as [[gh c]|] eqn:Eh; [|discriminate]. cbn [fst snd] in H.
    destruct (plan_df C p (gdedup gh) (mkBp false false inplace) z0) as [[d0 z1]|] eqn:Ep; [|discriminate].
    assert (LV : forall v, In v (leaves (gdedup gh)) <-> In v (avars h)).
    { intros v. rewrite gdedup_incl. eapply head_tuple_vars; eauto. }
    assert (S0 : ext z1 Z -> forall t, D d0 t <-> exists s, P p s /\ t = gtup (gdedup gh) s).
    { intros X1. assert (ND : NoDup (leaves (gdedup gh))) by (rewrite gdedup_leaves; apply variables_NoDup).
      refine (proj2 (@plan_ok C B ag JI JM I M Z TEMPS NEGS PERMS CINJ SORT HASH p false (leaves (gdedup gh)) _
        (gdedup gh) _ _ _ _ Ep X1 eq_refl _ _ (fun _ => ND)) ND).
      - apply HO. intros v Iv. apply LV; auto.
      - intros v Iv. apply HI, LV, Iv.
      - apply incl_refl. }
    assert (PJ : forall e (w : subst -> tuple), (forall s, eval E e (gtup (gdedup gh) s) = EOk (w s)) -> ext z1 Z ->
      forall t, D (RProject d0 e) t <-> exists s, P p s /\ t = w s).
    { intros e w Hw X1 t. unfold B2RFacts.D. cbn [rden]. split.
      - intros (u & Du & Ev). apply (S0 X1) in Du. destruct Du as (s & Hs & ->). exists s. split; auto. rewrite Hw in Ev. congruence.
      - intros (s & Hs & ->). exists (gtup (gdedup gh) s). split; [apply (S0 X1); eauto|apply Hw]. }
    assert (FIN : forall d' z', Some (a_pred h, if ce_magic C (a_pred h) then ROverwrite d' else d', z') = Some (n, d, z) ->
      (ext z' Z -> forall t, D d' t <-> exists s, P p s /\ t = layout (ce_shape C (a_pred h)) (tvals s (a_args h))) ->
      n = a_pred h /\ forall t, D d t <-> exists s, P p s /\ t = layout (ce_shape C (a_pred h)) (tvals s (a_args h))).
    { intros d' z' E' K. injection E' as <- <- <-. split; auto. intros t. rewrite <- (K X). destruct (ce_magic C (a_pred h)); cbn; tauto. }
    destruct c.
    - destruct (head_proj (gdedup gh) h) as [e|] eqn:Ee; [|discriminate]. eapply FIN; [exact H|]. intros X1. apply PJ; auto.
      intros s. unfold head_proj in Ee. destruct (omap (term_expr (gdedup gh)) (a_args h)) as [es|] eqn:Eo; [|discriminate].
      cbn in Ee. injection Ee as <-. rewrite (head_tuple_const _ Eh). cbn [layout]. cbn [eval].
      change (ebind (emap (fun x => eval E x (gtup (gdedup gh) s)) es) (fun ts => EOk (TTup ts)) = EOk (vtup (tvals s (a_args h)))).
      assert (Em : emap (fun x => eval E x (gtup (gdedup gh) s)) es = EOk (map TVal (tvals s (a_args h)))).
      { eapply term_tuples_eval; [exact Eo|apply holds_gtup]. }
      rewrite Em. reflexivity.
    - destruct (gt_eqb gh (gdedup gh)) eqn:Eg.
      + eapply FIN; [exact H|]. intros X1 t. apply gt_eqb_eq in Eg. rewrite (S0 X1), <- Eg.
        split; intros (s & Hs & ->); exists s; split; auto; [|symmetry]; apply head_tuple_layout; auto.
      + destruct (projection (gdedup gh) gh) as [e|] eqn:Ee; [|discriminate]. eapply FIN; [exact H|]. intros X1. apply PJ; auto.
        intros s. rewrite (@projection_eval E _ s _ _ _ Ee (holds_gtup _ s)). f_equal. apply head_tuple_layout; auto.
  Qed.
End Head.
