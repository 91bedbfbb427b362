(** Lemmas about formulas with aggregations (FrontAgg.v): their contexts mean what they
    mean.  Used by C74. *)
From Coq Require Import List ZArith Bool Arith Lia.
From Verif Require Import Value ListAux Back Eval BackSem Scc Plan PlanSem PlanFacts Front FrontSem FrontFacts PropsFront FlatFacts Bound FrontAgg AggSem AggFacts.
Import ListNotations.

Section Forms.
  Variables (A : aggregator) (B : benv) (g : registry) (M : interp) (foreign : pred -> bool) (nb ar : pred -> nat) (wc : nat -> var).
  Notation bv := (grounds foreign nb ar).
  Notation cvars := (ctx_vars foreign nb ar).
  Notation csem := (csem A B g M foreign nb ar wc).
  Notation gsem := (gsem A B g M foreign nb ar wc).
  Notation jreg := (jreg A B g M foreign nb ar wc).
  Notation greg := (greg A B g M foreign nb ar wc).
  Notation jok := (jok foreign nb ar).
  Notation gok := (gok foreign nb ar).
  Notation aholds := (aholds A B g M wc bv).
  Hypothesis A_ext : extensional A.

  Lemma aholds_conj : forall X hv s l, aholds X hv s (AConj l) <-> forall f, In f l -> aholds X hv s f.
  Proof. intros X hv s l. exact (all_of_iff _ (aholds X hv s) l). Qed.
  Lemma aholds_disj : forall X hv s l, aholds X hv s (ADisj l) <-> exists f, In f l /\ aholds X hv s f.
  Proof. intros X hv s l. exact (some_of_iff _ (aholds X hv s) l). Qed.
  Lemma csem_join : forall X hv s l, csem X hv s (jjoin l) <-> forall c, In c l -> csem X hv s c.
  Proof.
    intros X hv s l. unfold jjoin. rewrite csem_eq. split.
    - intros [H1 H2] [pos neg aggs] I. apply csem_eq. split.
      + intros f J. apply H1. apply in_app_or in J. apply in_or_app. destruct J; [left|right]; apply in_flat_map; exists (mkJ pos neg aggs); auto.
      + intros a J. apply H2. apply in_flat_map. exists (mkJ pos neg aggs); auto.
    - intros H. split.
      + intros f J. apply in_app_or in J. destruct J as [J|J]; apply in_flat_map in J; destruct J as ([pos neg aggs] & I & J); apply (proj1 (proj1 (csem_eq _ _ _ _ _ _ _ _ _ _ _ _ _ _) (H _ I))); apply in_or_app; auto.
      + intros a J. apply in_flat_map in J. destruct J as ([pos neg aggs] & I & J). apply (proj2 (proj1 (csem_eq _ _ _ _ _ _ _ _ _ _ _ _ _ _) (H _ I))); auto.
  Qed.
  Lemma from_red : forall lv op args bs body wh cs, from_aform (ARed lv op args bs body wh) = Some cs ->
    exists b wh', from_aform body = Some b /\ cs = [mkJ [] [] [mkA lv op args bs b wh']] /\
      match wh with None => wh' = None | Some (vs, w) => exists w', from_aform w = Some w' /\ wh' = Some (vs, w') end.
  Proof.
    intros lv op args bs body wh cs H. cbn [from_aform] in H. destruct (from_aform body) as [b|]; [|discriminate H]. cbn [obnd] in H. destruct wh as [[vs w]|].
    - destruct (from_aform w) as [w'|]; [|discriminate H]. cbn [obnd] in H. injection H as <-. exists b, (Some (vs, w')). split; auto. split; auto. exists w'. auto.
    - cbn [obnd] in H. injection H as <-. exists b, None. auto.
  Qed.

  Lemma dnf_agg : forall f, afull f = true -> forall cs, from_aform f = Some cs -> forall X hv s, aholds X hv s f <-> exists c, In c cs /\ csem X hv s c.
  Proof.
    assert (ONE : forall X hv s f c, In f (j_pos c ++ j_neg c) -> j_pos c ++ j_neg c = [f] -> j_aggs c = [] -> (fholds B g X M s f <-> exists c', In c' [c] /\ csem X hv s c')).
    { intros X hv s f [pos neg aggs] _ E1 E2. cbn [j_pos j_neg j_aggs] in *. subst aggs. split.
      - intros K. eexists. split; [left; reflexivity|]. apply csem_eq. split; [|intros a []]. intros h I. rewrite E1 in I. destruct I as [<-|[]]. exact K.
      - intros (c' & [<-|[]] & K). apply csem_eq in K. apply K. rewrite E1. left; auto. }
    intros f. pattern f. apply aform_ind2; clear f.
    - intros p l _ cs H X hv s. injection H as <-. apply (ONE X hv s (FAtom p l)); [left|..]; reflexivity.
    - intros p l _ cs H X hv s. injection H as <-. apply (ONE X hv s (FNeg p l)); [left|..]; reflexivity.
    - intros e _ cs H X hv s. injection H as <-. apply (ONE X hv s (FCons e)); [left|..]; reflexivity.
    - intros l IH F cs H X hv s. cbn [from_aform] in H. destruct (oall (map from_aform l)) as [css|] eqn:E; [|discriminate]. cbn in H. injection H as <-.
      apply oall_map in E. assert (F' : Forall (fun f => afull f = true) l).
      { apply Forall_forall. destruct l; [discriminate F|]. cbn [afull] in F. rewrite forallb_forall in F. exact F. }
      assert (NE : css <> []) by (destruct E; [discriminate F|discriminate]). clear F.
      pose proof (F2_forall_l IH (F2_forall_l F' E)) as K. clear IH F' E.
      rewrite aholds_conj. split.
      + intros H. assert (J : exists sel, Forall2 (fun c cs => In c cs) sel css /\ Forall (csem X hv s) sel).
        { clear NE. induction K as [|f cs l css (K1 & K2 & K3) K IHK]; [exists []; split; constructor|].
          destruct IHK as (sel & S1 & S2); [intros; apply H; right; auto|].
          destruct (proj1 (K1 K2 cs K3 X hv s)) as (c & C1 & C2); [apply H; left; auto|].
          exists (c :: sel). split; constructor; auto. }
        destruct J as (sel & S1 & S2). exists (jjoin sel). split.
        * apply in_map. apply multi_product_in; auto.
        * apply csem_join. rewrite Forall_forall in S2. exact S2.
      + intros (c & I & C) f If. apply in_map_iff in I. destruct I as (sel & <- & I). apply multi_product_in in I; auto. clear NE. rewrite csem_join in C.
        revert sel I C. induction K as [|f' cs l css (K1 & K2 & K3) K IHK]; intros sel I C; [destruct If|].
        inversion I as [|c cs' sel' css' C1 C2]; subst. destruct If as [->|If].
        * apply (K1 K2 cs K3). exists c. split; auto. apply C. left; auto.
        * apply IHK with sel'; auto. intros c' Ic. apply C. right; auto.
    - intros l IH F cs H X hv s. cbn [from_aform] in H. destruct (oall (map from_aform l)) as [css|] eqn:E; [|discriminate]. cbn in H. injection H as <-.
      apply oall_map in E. assert (F' : Forall (fun f => afull f = true) l).
      { apply Forall_forall. cbn [afull] in F. rewrite forallb_forall in F. exact F. }
      pose proof (F2_forall_l IH (F2_forall_l F' E)) as K. clear IH F' E F. rewrite aholds_disj. split.
      + intros (f & I & H). destruct (F2_in_l _ K I) as (cs & J & K1 & K2 & K3). destruct (proj1 (K1 K2 cs K3 X hv s) H) as (c & C1 & C2).
        exists c. split; auto. apply in_concat. eauto.
      + intros (c & I & C). apply in_concat in I. destruct I as (cs & J & I). destruct (F2_in_r _ K J) as (f & If & K1 & K2 & K3). exists f. split; auto. apply (K1 K2 cs K3). eauto.
    - intros a b _ _ _ cs H. discriminate H.
    - intros lv op args bs body wh IHb IHw F cs H X hv s. destruct (from_red _ _ _ _ _ _ _ H) as (b & wh' & Eb & -> & W). clear H. cbn [afull] in F. apply andb_true_iff in F. destruct F as [Fb Fw].
      pose proof (fun s' => IHb Fb b Eb M (bs ++ args) s') as HB.
      assert (RT : (exists c, In c [mkJ [] [] [mkA lv op args bs b wh']] /\ csem X hv s c) <-> gsem hv s (mkA lv op args bs b wh')).
      { split; [intros (c & [<-|[]] & K); apply csem_eq in K; apply K; left; auto|]. intros K. eexists. split; [left; reflexivity|]. apply csem_eq. split; [intros f []|]. intros a [<-|[]]. exact K. }
      rewrite RT. clear RT.
      assert (EBV : bv body = cvars b) by (unfold grounds; rewrite Eb; reflexivity).
      assert (INS : forall G t, (exists s', agree G s s' /\ aholds M (bs ++ args) s' body /\ t = map s' (args ++ bs)) <-> exists s', agree G s s' /\ some_of (csem M (bs ++ args) s') b /\ t = map s' (args ++ bs)).
      { intros G t. split; intros (s' & H1 & H2 & H3); exists s'; split; auto; split; auto.
        - apply some_of_iff. apply HB; auto.
        - apply HB. apply some_of_iff; auto. }
      assert (AGG : forall G ws, A op (length args) (fun t => exists s', agree G s s' /\ aholds M (bs ++ args) s' body /\ t = map s' (args ++ bs)) ws <->
        A op (length args) (fun t => exists s', agree G s s' /\ some_of (csem M (bs ++ args) s') b /\ t = map s' (args ++ bs)) ws).
      { intros G ws. split; apply A_ext; intros t; rewrite INS; reflexivity. }
      destruct wh as [[vs w]|]; cbn [AggSem.aholds AggFacts.gsem].
      + destruct W as (w' & Ew & ->). assert (EWV : bv w = cvars w') by (unfold grounds; rewrite Ew; reflexivity).
        assert (EE : explicit bv w body = cexplicit foreign nb ar w' b) by (unfold explicit, cexplicit; rewrite EBV, EWV; reflexivity). rewrite EE, AGG, EWV.
        pose proof (fun s' => IHw vs w eq_refl Fw w' Ew M vs s') as HW.
        split; intros [(s' & H1 & H2) H3]; split; auto; exists s'; split; auto.
        * apply some_of_iff. apply HW; auto.
        * apply HW. apply some_of_iff; auto.
      + subst wh'. assert (EE : implicit bv hv args bs body = cimplicit foreign nb ar hv args bs b) by (unfold implicit, cimplicit; rewrite EBV; reflexivity). rewrite EE, AGG.
        split; intros [[H1|(t & H1)] H2]; split; auto; right; exists t; apply INS; auto.
    - intros id neg op bs body wh _ cs H. discriminate H.
  Qed.

  (** *** Conditions *)
  Lemma jvars_join : forall l v, In v (jvars wc (jjoin l)) -> exists c, In c l /\ In v (jvars wc c).
  Proof.
    intros l v I. unfold jjoin in I. cbn [jvars] in I. rewrite !in_app_iff in I.
    destruct I as [I|[I|I]]; apply in_flat_map in I; destruct I as (x & J & I); apply in_flat_map in J; destruct J as ([pos neg aggs] & J1 & J2); exists (mkJ pos neg aggs); split; auto; cbn [jvars]; rewrite !in_app_iff;
      [left|right; left|right; right]; apply in_flat_map; eauto.
  Qed.
  Lemma from_in : forall l css sel, Forall2 (fun f cs => from_aform f = Some cs) l css -> In sel (multi_product css) -> forall c, In c sel -> exists f cs, In f l /\ from_aform f = Some cs /\ In c cs.
  Proof.
    intros l css sel E I c J. destruct css as [|cs0 css]; [destruct I|]. apply multi_product_in in I; [|discriminate].
    destruct (F2_in_l _ I J) as (cs & K1 & K2). destruct (F2_in_r _ E K1) as (f & K3 & K4). eauto.
  Qed.
  Lemma from_vars : forall f cs, from_aform f = Some cs -> forall c v, In c cs -> In v (jvars wc c) -> In v (aform_vars wc f).
  Proof.
    intros f. pattern f. apply aform_ind2; clear f.
    - intros p l cs H c v I J. injection H as <-. destruct I as [<-|[]]. cbn [jvars flat_map form_vars aform_vars] in *. rewrite !app_nil_r in J. exact J.
    - intros p l cs H c v I J. injection H as <-. destruct I as [<-|[]]. cbn [jvars flat_map form_vars aform_vars app] in *. rewrite !app_nil_r in J. exact J.
    - intros e cs H c v I J. injection H as <-. destruct I as [<-|[]]. cbn [jvars flat_map form_vars aform_vars] in *. rewrite !app_nil_r in J. exact J.
    - intros l IH cs H c v I J. cbn [from_aform] in H. destruct (oall (map from_aform l)) as [css|] eqn:E; [|discriminate]. cbn in H. injection H as <-. apply oall_map in E.
      apply in_map_iff in I. destruct I as (sel & <- & I). apply jvars_join in J. destruct J as (c & Ic & J). destruct (from_in _ _ _ E I c Ic) as (f & cs & If & Ef & Icc).
      cbn [aform_vars]. apply in_flat_map. exists f. split; auto. rewrite Forall_forall in IH. eapply IH; eauto.
    - intros l IH cs H c v I J. cbn [from_aform] in H. destruct (oall (map from_aform l)) as [css|] eqn:E; [|discriminate]. cbn in H. injection H as <-. apply oall_map in E.
      apply in_concat in I. destruct I as (cs & I1 & I2). destruct (F2_in_r _ E I1) as (f & If & Ef). cbn [aform_vars]. apply in_flat_map. exists f. split; auto. rewrite Forall_forall in IH. eapply IH; eauto.
    - intros a b _ _ cs H. discriminate H.
    - intros lv op args bs body wh IHb IHw cs H c v I J. destruct (from_red _ _ _ _ _ _ _ H) as (b & wh' & Eb & -> & W). destruct I as [<-|[]]. cbn [jvars flat_map app] in J. rewrite app_nil_r in J.
      cbn [gvars] in J. cbn [aform_vars]. rewrite !in_app_iff in *. destruct J as [J|[J|[J|[J|J]]]]; auto.
      + apply in_flat_map in J. destruct J as (c & Ic & J). right. right. right. left. eapply IHb; eauto.
      + destruct wh as [[vs w]|]; [|subst wh'; destruct J]. destruct W as (w' & Ew & ->). right. right. right. right. apply in_app_or in J. apply in_or_app. destruct J as [J|J]; [auto|].
        apply in_flat_map in J. destruct J as (c & Ic & J). right. eapply IHw; eauto.
    - intros id neg op bs body wh cs H. discriminate H.
  Qed.
  Lemma from_ok : forall f cs, from_aform f = Some cs -> aneg_wild_free f = true -> shared bv f = true -> forall c, In c cs -> jok c.
  Proof.
    intros f. pattern f. apply aform_ind2; clear f.
    - intros p l cs H N S0 c I. injection H as <-. destruct I as [<-|[]]. apply jok_eq. split; [reflexivity|]. split; [reflexivity|]. intros a [].
    - intros p l cs H N S0 c I. injection H as <-. destruct I as [<-|[]]. apply jok_eq. split; [reflexivity|]. split; [|intros a []]. cbn [aneg_wild_free] in N. cbn [forallb neg_wild_free]. rewrite N. reflexivity.
    - intros e cs H N S0 c I. injection H as <-. destruct I as [<-|[]]. apply jok_eq. split; [reflexivity|]. split; [reflexivity|]. intros a [].
    - intros l IH cs H N S0 c I. cbn [from_aform] in H. destruct (oall (map from_aform l)) as [css|] eqn:E; [|discriminate]. cbn in H. injection H as <-. apply oall_map in E.
      apply in_map_iff in I. destruct I as (sel & <- & I). cbn [aneg_wild_free shared] in N, S0. rewrite forallb_forall in N, S0. rewrite Forall_forall in IH.
      assert (K : forall c, In c sel -> jok c). { intros c Ic. destruct (from_in _ _ _ E I c Ic) as (f & cs & If & Ef & Icc). eapply IH; eauto. }
      unfold jjoin. apply jok_eq. split; [|split].
      + apply forallb_forall. intros f J. apply in_flat_map in J. destruct J as ([pos neg aggs] & J1 & J2). pose proof (K _ J1) as K1. apply jok_eq in K1. destruct K1 as (K1 & _). rewrite forallb_forall in K1. auto.
      + apply forallb_forall. intros f J. apply in_flat_map in J. destruct J as ([pos neg aggs] & J1 & J2). pose proof (K _ J1) as K1. apply jok_eq in K1. destruct K1 as (_ & K1 & _). rewrite forallb_forall in K1. auto.
      + intros a J. apply in_flat_map in J. destruct J as ([pos neg aggs] & J1 & J2). pose proof (K _ J1) as K1. apply jok_eq in K1. destruct K1 as (_ & _ & K1). auto.
    - intros l IH cs H N S0 c I. cbn [from_aform] in H. destruct (oall (map from_aform l)) as [css|] eqn:E; [|discriminate]. cbn in H. injection H as <-. apply oall_map in E.
      apply in_concat in I. destruct I as (cs & I1 & I2). destruct (F2_in_r _ E I1) as (f & If & Ef). cbn [aneg_wild_free shared] in N, S0. rewrite forallb_forall in N, S0. rewrite Forall_forall in IH. eapply IH; eauto.
    - intros a b _ _ cs H. discriminate H.
    - intros lv op args bs body wh IHb IHw cs H N S0 c I. destruct (from_red _ _ _ _ _ _ _ H) as (b & wh' & Eb & -> & W). destruct I as [<-|[]]. apply jok_eq. split; [reflexivity|]. split; [reflexivity|].
      intros a [<-|[]]. cbn [aneg_wild_free shared] in N, S0. apply andb_true_iff in N. destruct N as [N1 N2]. apply andb_true_iff in S0. destruct S0 as [S1 S2]. cbn [AggFacts.gok]. split.
      + apply all_of_iff. eapply IHb; eauto.
      + destruct wh as [[vs w]|]; [|subst wh'; exact Logic.I]. destruct W as (w' & Ew & ->). apply andb_true_iff in S2. destruct S2 as [S2 S3]. split; [apply all_of_iff; eapply IHw; eauto|].
        intros E. unfold explicit, cexplicit, grounds in *. rewrite Eb, Ew, E in S3. discriminate S3.
    - intros id neg op bs body wh cs H. discriminate H.
  Qed.
  Notation exprs_regular := (exprs_regular A B g M wc bv).
  Notation aggs_regular := (aggs_regular A B g M wc bv).
  Lemma exprs_conj : forall X hv s l, exprs_regular X hv s (AConj l) <-> forall f, In f l -> exprs_regular X hv s f.
  Proof. intros X hv s l. exact (all_of_iff _ (exprs_regular X hv s) l). Qed.
  Lemma exprs_disj : forall X hv s l, exprs_regular X hv s (ADisj l) <-> forall f, In f l -> aholds X hv s f -> exprs_regular X hv s f.
  Proof. intros X hv s l. exact (all_of_iff _ (fun f => aholds X hv s f -> exprs_regular X hv s f) l). Qed.
  Lemma from_exprs : forall f cs, afull f = true -> from_aform f = Some cs -> forall X hv s, exprs_regular X hv s f -> forall c, In c cs -> csem X hv s c ->
    forall h e, In h (j_pos c ++ j_neg c) -> In e (fexprs h) -> regular (b_env B) s e.
  Proof.
    intros f. pattern f. apply aform_ind2; clear f.
    - intros p l cs _ H X hv s R c I _ h e J K. injection H as <-. destruct I as [<-|[]]. destruct J as [<-|[]]. apply R. exact K.
    - intros p l cs _ H X hv s R c I _ h e J K. injection H as <-. destruct I as [<-|[]]. destruct J as [<-|[]]. apply R. exact K.
    - intros x cs _ H X hv s R c I _ h e J K. injection H as <-. destruct I as [<-|[]]. destruct J as [<-|[]]. apply R. exact K.
    - intros l IH cs F H X hv s R c I C h e J K. cbn [from_aform] in H. destruct (oall (map from_aform l)) as [css|] eqn:E; [|discriminate]. cbn in H. injection H as <-. apply oall_map in E.
      assert (F' : forall f, In f l -> afull f = true). { destruct l; [discriminate F|]. cbn [afull] in F. rewrite forallb_forall in F. exact F. }
      apply in_map_iff in I. destruct I as (sel & <- & I). rewrite csem_join in C. rewrite exprs_conj in R. rewrite Forall_forall in IH.
      assert (JJ : exists c, In c sel /\ In h (j_pos c ++ j_neg c)).
      { unfold jjoin in J. cbn [j_pos j_neg] in J. apply in_app_or in J. destruct J as [J|J]; apply in_flat_map in J; destruct J as (c & J1 & J2); exists c; split; auto; apply in_or_app; auto. }
      destruct JJ as (c & Ic & Ih). destruct (from_in _ _ _ E I c Ic) as (f & cs & If & Ef & Icc). eapply IH; eauto.
    - intros l IH cs F H X hv s R c I C h e J K. cbn [from_aform] in H. destruct (oall (map from_aform l)) as [css|] eqn:E; [|discriminate]. cbn in H. injection H as <-. apply oall_map in E.
      assert (F' : forall f, In f l -> afull f = true). { cbn [afull] in F. rewrite forallb_forall in F. exact F. }
      apply in_concat in I. destruct I as (cs & I1 & I2). destruct (F2_in_r _ E I1) as (f & If & Ef). rewrite exprs_disj in R. rewrite Forall_forall in IH.
      eapply IH; eauto. apply R; auto. apply (dnf_agg f (F' f If) cs Ef). eauto.
    - intros a b _ _ cs _ H. discriminate H.
    - intros lv op args bs body wh _ _ cs _ H X hv s _ c I _ h e J K. destruct (from_red _ _ _ _ _ _ _ H) as (b & wh' & Eb & -> & W). destruct I as [<-|[]]. destruct J.
    - intros id neg op bs body wh cs _ H. discriminate H.
  Qed.
  Lemma aggs_all : forall l, (fix all l := match l with [] => True | f :: l => aggs_regular f /\ all l end) l <-> forall f, In f l -> aggs_regular f.
  Proof. intros l. exact (all_of_iff _ aggs_regular l). Qed.
  Lemma from_greg : forall f cs, afull f = true -> from_aform f = Some cs -> aggs_regular f -> forall c a, In c cs -> In a (j_aggs c) -> greg a.
  Proof.
    intros f. pattern f. apply aform_ind2; clear f.
    - intros p l cs _ H R c a I J. injection H as <-. destruct I as [<-|[]]. destruct J.
    - intros p l cs _ H R c a I J. injection H as <-. destruct I as [<-|[]]. destruct J.
    - intros x cs _ H R c a I J. injection H as <-. destruct I as [<-|[]]. destruct J.
    - intros l IH cs F H R c a I J. cbn [from_aform] in H. destruct (oall (map from_aform l)) as [css|] eqn:E; [|discriminate]. cbn in H. injection H as <-. apply oall_map in E.
      assert (F' : forall f, In f l -> afull f = true). { destruct l; [discriminate F|]. cbn [afull] in F. rewrite forallb_forall in F. exact F. }
      apply in_map_iff in I. destruct I as (sel & <- & I). pose proof (proj1 (aggs_all l) R) as R0. rewrite Forall_forall in IH.
      unfold jjoin in J. cbn [j_aggs] in J. apply in_flat_map in J. destruct J as (c & Ic & J). destruct (from_in _ _ _ E I c Ic) as (f & cs & If & Ef & Icc). eapply IH; eauto.
    - intros l IH cs F H R c a I J. cbn [from_aform] in H. destruct (oall (map from_aform l)) as [css|] eqn:E; [|discriminate]. cbn in H. injection H as <-. apply oall_map in E.
      assert (F' : forall f, In f l -> afull f = true). { cbn [afull] in F. rewrite forallb_forall in F. exact F. }
      apply in_concat in I. destruct I as (cs & I1 & I2). destruct (F2_in_r _ E I1) as (f & If & Ef). pose proof (proj1 (aggs_all l) R) as R0. rewrite Forall_forall in IH. eapply IH; eauto.
    - intros a b _ _ cs _ H. discriminate H.
    - intros lv op args bs body wh IHb IHw cs F H R c a I J. destruct (from_red _ _ _ _ _ _ _ H) as (b & wh' & Eb & -> & W). destruct I as [<-|[]]. destruct J as [<-|[]].
      cbn [afull] in F. apply andb_true_iff in F. destruct F as [Fb Fw]. cbn [AggSem.aggs_regular] in R. destruct R as (R1 & R2 & R3). cbn [AggFacts.greg].
      assert (JR : forall w w' hv, afull w = true -> from_aform w = Some w' -> (forall s, aholds M hv s w -> exprs_regular M hv s w) -> (forall c a, In c w' -> In a (j_aggs c) -> greg a) -> all_of (jreg M hv) w').
      { intros w w' hv Fw0 Ew Q1 Q2. apply all_of_iff. intros [pos neg aggs] Ic. apply jreg_eq. split; [|intros a Ia; eapply Q2; eauto].
        intros s C h e J K. eapply (from_exprs w w' Fw0 Ew M hv s); eauto. apply Q1. apply (dnf_agg w Fw0 w' Ew). eauto. }
      split; [eapply JR; eauto|]. destruct wh as [[vs w]|]; [|subst wh'; exact Logic.I]. destruct W as (w' & Ew & ->). destruct R3 as [R3 R4]. eapply JR; eauto.
    - intros id neg op bs body wh cs _ H. discriminate H.
  Qed.
  Lemma from_jreg : forall f cs X hv, afull f = true -> from_aform f = Some cs -> aggs_regular f -> (forall s, aholds X hv s f -> exprs_regular X hv s f) -> forall c, In c cs -> jreg X hv c.
  Proof.
    intros f cs X hv F H R Q [pos neg aggs] I. apply jreg_eq. split; [|intros a Ia; eapply from_greg; eauto].
    intros s C h e J K. eapply (from_exprs f cs F H X hv s); eauto. apply Q. apply (dnf_agg f F cs H). eauto.
  Qed.
End Forms.
