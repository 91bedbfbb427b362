(** C74 for programs: the stable models of a compiled program with aggregations are those
    of the program. *)
From Coq Require Import List ZArith Bool Arith Lia.
From Coq.Arith Require Import Cantor.
From Verif Require Import Value ListAux Back Eval BackSem Scc Plan PlanSem PlanFacts Front FrontSem FrontFacts PropsFront FlatFacts PropsFlat Bound PropsBound FrontAgg AggSem AggFacts AggFacts2 PropsFrontAgg.
From Coq Require Import Permutation.
Import ListNotations.

(** ** Specification *)
(** The relations of the atoms that are not negated. *)
Fixpoint aform_preds (f : aform) : list pred :=
  match f with
  | AAtom p _ => [p]
  | ANeg _ _ | ACons _ => []
  | AConj l | ADisj l => flat_map aform_preds l
  | AImp a b => aform_preds a ++ aform_preds b
  | ARed _ _ _ _ body wh | AAll _ _ _ _ body wh => aform_preds body ++ match wh with None => [] | Some (_, w) => aform_preds w end
  end.
(** A set of facts that has the facts of the program and is closed under its rules, whose
    negations and aggregations are read off [M]. *)
Definition aclosed (A : aggregator) (B : benv) (nb ar : pred -> nat) (wc : nat -> var) (F : aprogram) (M X : interp) : Prop :=
  (forall f, In f (ap_facts F) -> X (f_pred f) (f_args f)) /\
  (forall r p t, In r (ap_rules F) -> agg_consequence A B (ap_reg F) M wc (grounds (g_foreign (ap_reg F)) nb ar) X r p t -> X p t).
Definition temporary (nm : nat -> path -> pred) (p : pred) : Prop := exists i q, p = nm i q.
(** Conditions: names are apart, expressions are regular, rules create no entities. *)
Record agg_source (A : aggregator) (B : benv) (nb ar : pred -> nat) (fr wc : nat -> var) (nm : nat -> path -> pred) (F : aprogram) (M : interp) : Prop := mkAS {
  as_names : forall i j p q, nm i p = nm j q -> i = j /\ p = q;
  as_decided : forall p, temporary nm p \/ ~ temporary nm p;
  as_fresh : forall i j, fr i = fr j -> i = j;
  as_facts : forall f, In f (ap_facts F) -> ~ temporary nm (f_pred f);
  as_rules : forall r, In r (ap_rules F) ->
    (forall v i, In v (head_vars (ar_head r) ++ aform_vars wc (ar_body r)) -> v <> fr i) /\
    afull (ar_body r) = true /\ aneg_wild_free (ar_body r) = true /\ shared (grounds (g_foreign (ap_reg F)) nb ar) (ar_body r) = true /\
    (forall p, In p (map fst (fhead_atoms (ar_head r)) ++ aform_preds (ar_body r)) -> ~ temporary nm p) /\
    aggs_regular A B (ap_reg F) M wc (grounds (g_foreign (ap_reg F)) nb ar) (ar_body r) /\
    forall X : interp, (forall p t, X p t -> M p t) -> forall s, aholds A B (ap_reg F) M wc (grounds (g_foreign (ap_reg F)) nb ar) X (head_vars (ar_head r)) s (ar_body r) ->
      exprs_regular A B (ap_reg F) M wc (grounds (g_foreign (ap_reg F)) nb ar) X (head_vars (ar_head r)) s (ar_body r) /\
      forall a e, In a (fhead_atoms (ar_head r)) -> In e (snd a) -> regular (b_env B) s e }.
Definition no_entities (B : benv) (P : program) : Prop :=
  forall r s p t, In r (p_rules P) -> yields B (p_reg P) r s p t -> exists a, In a (head_atoms (r_head r)) /\ p = a_pred a /\ t = tvals s (a_args a).

(** ** The atoms of compiled rules *)
Definition no_atom (ls : list lit) : Prop := forall a, ~ In (LAtom a) ls.
Lemma no_atom_app : forall a b, no_atom a -> no_atom b -> no_atom (a ++ b).
Proof. intros a b H K x I. apply in_app_or in I. destruct I; [eapply H|eapply K]; eauto. Qed.
Lemma no_atom_cons : forall l ls, (forall a, l <> LAtom a) -> no_atom ls -> no_atom (l :: ls).
Proof. intros l ls H K a [E|I]; [eapply H; eauto|eapply K; eauto]. Qed.
Lemma inverses_no_atom : forall v op a b, no_atom (inverses v op a b).
Proof. intros v op a b x I. destruct op; cbn in I; try contradiction; destruct a; cbn in I; try contradiction; destruct b; cbn in I; intuition discriminate. Qed.
Lemma flat_no_atom : forall fr e n, no_atom (snd (fst (flat fr e n))).
Proof.
  intros fr e. assert (ARGS : forall l, Forall (fun e => forall n, no_atom (snd (fst (flat fr e n)))) l -> forall n, no_atom (snd (fst (flat_args fr l n)))).
  { intros l F. induction F as [|x l Hx F IH]; intros n; [intros a []|]. cbn [flat_args]. specialize (Hx n). destruct (flat fr x n) as [[t l1] n1]. specialize (IH n1). destruct (flat_args fr l n1) as [[ts l2] n2]. apply no_atom_app; auto. }
  induction e using expr_ind2; intros n.
  - intros a [].
  - intros a [].
  - intros a [].
  - cbn [flat]. specialize (IHe1 (S n)). destruct (flat fr e1 (S n)) as [[ta la] n1]. specialize (IHe2 n1). destruct (flat fr e2 n1) as [[tb lb] n2]. cbn [fst snd] in *.
    apply no_atom_cons; [discriminate|]. apply no_atom_app; [apply inverses_no_atom|]. apply no_atom_app; auto.
  - cbn [flat]. specialize (IHe (S n)). destruct (flat fr e (S n)) as [[ta la] n1]. apply no_atom_cons; [discriminate|auto].
  - cbn [flat]. specialize (IHe1 (S n)). destruct (flat fr e1 (S n)) as [[ta la] n1]. specialize (IHe2 n1). destruct (flat fr e2 n1) as [[tb lb] n2]. specialize (IHe3 n2). destruct (flat fr e3 n2) as [[tc lc] n3]. cbn [fst snd] in *.
    apply no_atom_cons; [discriminate|]. apply no_atom_app; [auto|]. apply no_atom_app; auto.
  - rewrite flat_call. specialize (ARGS l H (S n)). destruct (flat_args fr l (S n)) as [[ts ls] n1]. apply no_atom_cons; [discriminate|auto].
  - rewrite flat_new. specialize (ARGS l H (S n)). destruct (flat_args fr l (S n)) as [[ts ls] n1]. apply no_atom_cons; [discriminate|auto].
Qed.
Lemma flat_args_no_atom : forall fr l n, no_atom (snd (fst (flat_args fr l n))).
Proof.
  intros fr l. induction l as [|x l IH]; intros n; [intros a []|]. cbn [flat_args]. pose proof (flat_no_atom fr x n) as Hx. destruct (flat fr x n) as [[t l1] n1]. specialize (IH n1). destruct (flat_args fr l n1) as [[ts l2] n2]. apply no_atom_app; auto.
Qed.
Lemma flat_heads_no_atom : forall fr l n, no_atom (snd (fst (flat_heads fr l n))).
Proof.
  intros fr l. induction l as [|[p es] l IH]; intros n; [intros a []|]. cbn [flat_heads]. pose proof (flat_args_no_atom fr es n) as Hx. destruct (flat_args fr es n) as [[t l1] n1]. specialize (IH n1). destruct (flat_heads fr l n1) as [[ts l2] n2]. apply no_atom_app; auto.
Qed.
Lemma flat_head_no_atom : forall fr hd h ls n, flat_head fr hd = Some (h, ls, n) -> no_atom ls.
Proof.
  intros fr hd h ls n H. destruct hd as [[p es]|l|b l]; cbn [flat_head] in H; [|discriminate H|].
  - pose proof (flat_args_no_atom fr es 0) as K. destruct (flat_args fr es 0) as [[ts l1] n1]. injection H as <- <- <-. exact K.
  - pose proof (flat_heads_no_atom fr (b :: l) 0) as K. destruct (flat_heads fr (b :: l) 0) as [[[|h1 hs] l1] n1]; [discriminate H|]. injection H as <- <- <-. exact K.
Qed.
Lemma flat_lits_atoms : forall fr l n ls n', flat_lits fr l n = Some (ls, n') -> forall a, In (LAtom a) ls -> exists es, In (FAtom (a_pred a) es) l.
Proof.
  intros fr l. induction l as [|f l IH]; intros n ls n' H a I; cbn [flat_lits] in H; [injection H as <- <-; destruct I|].
  destruct (flat_lit fr f n) as [[l1 n1]|] eqn:Q1; [|discriminate H]. cbn [obnd fst snd] in H. destruct (flat_lits fr l n1) as [[l2 n2]|] eqn:Q2; [|discriminate H]. cbn [obnd fst snd] in H. injection H as <- <-.
  apply in_app_or in I. destruct I as [I|I]; [|destruct (IH _ _ _ Q2 a I) as (es & J); exists es; right; auto].
  destruct f as [p es|p es|e| | |]; cbn [flat_lit] in Q1; try discriminate Q1.
  - pose proof (flat_args_no_atom fr es n) as K. destruct (flat_args fr es n) as [[ts l1'] n1']. injection Q1 as <- <-. destruct I as [I|I]; [injection I as <-; exists es; left; reflexivity|]. exfalso. exact (K a I).
  - pose proof (flat_args_no_atom fr es n) as K. destruct (flat_args fr es n) as [[ts l1'] n1']. injection Q1 as <- <-. destruct I as [I|I]; [discriminate I|]. exfalso. exact (K a I).
  - destruct e as [| | |op x y|op x| | |]; try discriminate Q1.
    + destruct (cop_of op); [|discriminate Q1]. cbn [obnd] in Q1. pose proof (flat_no_atom fr x n) as K1. destruct (flat fr x n) as [[tx lx] nx]. pose proof (flat_no_atom fr y nx) as K2. destruct (flat fr y nx) as [[ty ly] ny].
      injection Q1 as <- <-. destruct I as [I|I]; [discriminate I|]. exfalso. apply in_app_or in I. destruct I as [I|I]; [exact (K1 a I)|exact (K2 a I)].
    + destruct op; try discriminate Q1. pose proof (flat_no_atom fr x n) as K1. destruct (flat fr x n) as [[tx lx] nx]. injection Q1 as <- <-. destruct I as [I|I]; [discriminate I|]. exfalso. exact (K1 a I).
Qed.
Definition fpred (f : formula) : list pred := match f with FAtom p _ => [p] | _ => [] end.
Fixpoint gpreds (a : actx) : list pred :=
  match a with mkA _ _ _ _ body wh => flat_map jpreds body ++ match wh with None => [] | Some (_, w) => flat_map jpreds w end end
with jpreds (c : jctx) : list pred := match c with mkJ pos neg aggs => flat_map fpred (pos ++ neg) ++ flat_map gpreds aggs end.

Section Atoms.
  Variables (foreign : pred -> bool) (nb ar : pred -> nat) (fr wc : nat -> var) (nm : path -> pred).
  Definition of_preds (l : list pred) (r : rule) : Prop := forall a, In (LAtom a) (r_body r) -> In (a_pred a) l.
  Definition atoms_P (a : actx) : Prop := forall pi ci ai hv n r ts n', lower_agg foreign nb ar fr wc nm a pi ci ai hv n = Some (r, ts, n') -> forall t, In t ts -> of_preds (gpreds a) t.
  Definition atoms_Q (c : jctx) : Prop := forall pi ci hv h extra n r ts n', no_atom extra -> lower_conj foreign nb ar fr wc nm c pi ci hv h extra n = Some (r, ts, n') ->
    of_preds (jpreds c) r /\ forall t, In t ts -> of_preds (jpreds c) t.
  Lemma of_preds_mono : forall l l' r, (forall p, In p l -> In p l') -> of_preds l r -> of_preds l' r.
  Proof. intros l l' r H K a I. auto. Qed.
  Lemma atoms_conjs : forall l, Forall atoms_Q l -> forall extra pi hv h ci n rs ts n', no_atom extra -> lower_conjs foreign nb ar fr wc nm extra l pi hv h ci n = Some (rs, ts, n') ->
    forall r, In r (rs ++ ts) -> of_preds (flat_map jpreds l) r.
  Proof.
    intros l F extra. induction F as [|c l Hc F IH]; intros pi hv h ci n rs ts n' NE H r I; [injection H as <- <- <-; destruct I|].
    rewrite lower_conjs_eq in H. destruct (lower_conj foreign nb ar fr wc nm c pi ci hv h extra n) as [[[r1 ts1] n1]|] eqn:E1; [|discriminate H]. cbn [obnd] in H.
    destruct (lower_conjs foreign nb ar fr wc nm extra l pi hv h (S ci) n1) as [[[rs2 us] n2]|] eqn:E2; [|discriminate H]. cbn [obnd] in H. injection H as <- <- <-.
    destruct (Hc _ _ _ _ _ _ _ _ _ NE E1) as [C1 C2]. pose proof (IH _ _ _ _ _ _ _ _ NE E2) as D.
    assert (M1 : forall x, of_preds (jpreds c) x -> of_preds (flat_map jpreds (c :: l)) x) by (intros x; apply of_preds_mono; intros p J; cbn [flat_map]; apply in_or_app; auto).
    assert (M2 : forall x, of_preds (flat_map jpreds l) x -> of_preds (flat_map jpreds (c :: l)) x) by (intros x; apply of_preds_mono; intros p J; cbn [flat_map]; apply in_or_app; auto).
    destruct I as [<-|I]; [auto|]. apply in_app_or in I. destruct I as [I|I]; [apply M2, D, in_or_app; auto|]. apply in_app_or in I. destruct I as [I|I]; [auto|apply M2, D, in_or_app; auto].
  Qed.
  Lemma no_atom_nil : no_atom [].
  Proof. intros a []. Qed.
  Lemma atoms_ok : (forall a, atoms_P a) /\ forall c, atoms_Q c.
  Proof.
    assert (HP : forall lv op args bs body wh, Forall atoms_Q body -> (forall vs w, wh = Some (vs, w) -> Forall atoms_Q w) -> atoms_P (mkA lv op args bs body wh)).
    { intros lv op args bs body wh FB FW pi ci ai hv n r ts n' H t I. apply lower_agg_inv in H.
      destruct H as (bv & j & o & ga & tw & n1 & rs & us & E1 & EB & _ & -> & W). apply in_app_or in I. destruct I as [I|I].
      - destruct wh as [[vs w]|]; [|destruct W as (_ & _ & _ & -> & _); destruct I]. destruct W as (gv & ws & uw & _ & _ & _ & _ & -> & EW).
        eapply of_preds_mono; [|eapply (atoms_conjs w (FW vs w eq_refl)); [apply no_atom_nil|exact EW|exact I]]. intros p J. cbn [gpreds]. apply in_or_app; auto.
      - eapply of_preds_mono; [|eapply (atoms_conjs body FB); [apply no_atom_nil|exact EB|exact I]]. intros p J. cbn [gpreds]. apply in_or_app; auto. }
    assert (HQ : forall pos neg aggs, Forall atoms_P aggs -> atoms_Q (mkJ pos neg aggs)).
    { intros pos neg aggs F pi ci hv h extra n r ts n' NE H. rewrite lower_conj_eq in H.
      destruct (lower_aggs foreign nb ar fr wc nm pi ci hv aggs 0 n) as [[[reds ts1] n1]|] eqn:EA; [|discriminate H]. cbn [obnd] in H.
      destruct (flat_lits fr pos n1) as [[lx nx]|] eqn:Qx; [|discriminate H]. cbn [obnd fst snd] in H. destruct (flat_lits fr neg nx) as [[ly ny]|] eqn:Qy; [|discriminate H]. cbn [obnd fst snd] in H. injection H as <- <- <-.
      assert (AA : no_atom reds /\ forall t, In t ts1 -> of_preds (flat_map gpreds aggs) t).
      { clear - F EA. revert EA. generalize 0 as ai. revert n reds ts1 n1. induction F as [|a l Ha F IH]; intros n reds ts1 n1 ai EA; [injection EA as <- <- <-; split; [apply no_atom_nil|intros t []]|].
        rewrite lower_aggs_eq in EA. destruct (lower_agg foreign nb ar fr wc nm a pi ci ai hv n) as [[[r ts] m]|] eqn:E1; [|discriminate EA]. cbn [obnd] in EA.
        destruct (lower_aggs foreign nb ar fr wc nm pi ci hv l (S ai) m) as [[[ls us] m2]|] eqn:E2; [|discriminate EA]. cbn [obnd] in EA. injection EA as <- <- <-. destruct (IH _ _ _ _ _ E2) as [I1 I2].
        split; [apply no_atom_cons; [discriminate|auto]|]. intros t I. apply in_app_or in I. destruct I as [I|I].
        - eapply of_preds_mono; [|eapply Ha; eauto]. intros p J. cbn [flat_map]. apply in_or_app; auto.
        - eapply of_preds_mono; [|eapply I2; eauto]. intros p J. cbn [flat_map]. apply in_or_app; auto. }
      destruct AA as [A1 A2]. split.
      - intros a I. cbn [r_body] in I. cbn [jpreds]. rewrite !in_app_iff in I. destruct I as [I|[I|[I|I]]].
        + destruct (flat_lits_atoms _ _ _ _ _ Qx a I) as (es & J). apply in_or_app; left. apply in_flat_map. exists (FAtom (a_pred a) es). split; [apply in_or_app; auto|left; auto].
        + destruct (flat_lits_atoms _ _ _ _ _ Qy a I) as (es & J). apply in_or_app; left. apply in_flat_map. exists (FAtom (a_pred a) es). split; [apply in_or_app; auto|left; auto].
        + exfalso. exact (A1 a I).
        + exfalso. exact (NE a I).
      - intros t I. eapply of_preds_mono; [|eapply A2; eauto]. intros p J. cbn [jpreds]. apply in_or_app; auto. }
    split; [apply (actx_ind2 _ _ HP HQ)|apply (jctx_ind2 _ _ HP HQ)].
  Qed.
End Atoms.
Lemma from_preds : forall f cs, from_aform f = Some cs -> forall c p, In c cs -> In p (jpreds c) -> In p (aform_preds f).
Proof.
  intros f. pattern f. apply aform_ind2; clear f.
  - intros p l cs H c q I J. injection H as <-. destruct I as [<-|[]]. exact J.
  - intros p l cs H c q I J. injection H as <-. destruct I as [<-|[]]. destruct J.
  - intros e cs H c q I J. injection H as <-. destruct I as [<-|[]]. destruct J.
  - intros l IH cs H c q I J. cbn [from_aform] in H. destruct (oall (map from_aform l)) as [css|] eqn:E; [|discriminate]. cbn in H. injection H as <-. apply oall_map in E.
    apply in_map_iff in I. destruct I as (sel & <- & I). rewrite Forall_forall in IH.
    assert (JJ : exists c, In c sel /\ In q (jpreds c)).
    { unfold jjoin in J. cbn [jpreds] in J. apply in_app_or in J. destruct J as [J|J].
      - apply in_flat_map in J. destruct J as (x & J1 & J2). apply in_app_or in J1. destruct J1 as [J1|J1]; apply in_flat_map in J1; destruct J1 as ([pos neg aggs] & K1 & K2); exists (mkJ pos neg aggs); split; auto; cbn [jpreds]; apply in_or_app; left; apply in_flat_map; exists x; split; auto; apply in_or_app; auto.
      - apply in_flat_map in J. destruct J as (x & J1 & J2). apply in_flat_map in J1. destruct J1 as ([pos neg aggs] & K1 & K2). exists (mkJ pos neg aggs). split; auto. cbn [jpreds]. apply in_or_app; right. apply in_flat_map. eauto. }
    destruct JJ as (c & Ic & Jc). destruct (from_in _ _ _ E I c Ic) as (f & cs & If & Ef & Icc). cbn [aform_preds]. apply in_flat_map. exists f. split; auto. eapply IH; eauto.
  - intros l IH cs H c q I J. cbn [from_aform] in H. destruct (oall (map from_aform l)) as [css|] eqn:E; [|discriminate]. cbn in H. injection H as <-. apply oall_map in E.
    apply in_concat in I. destruct I as (cs & I1 & I2). destruct (F2_in_r _ E I1) as (f & If & Ef). cbn [aform_preds]. apply in_flat_map. exists f. split; auto. rewrite Forall_forall in IH. eapply IH; eauto.
  - intros a b _ _ cs H. discriminate H.
  - intros lv op args bs body wh IHb IHw cs H c q I J. destruct (from_red _ _ _ _ _ _ _ H) as (b & wh' & Eb & -> & W). destruct I as [<-|[]]. cbn [jpreds flat_map app] in J. rewrite app_nil_r in J.
    cbn [gpreds] in J. cbn [aform_preds]. apply in_app_or in J. apply in_or_app. destruct J as [J|J].
    + apply in_flat_map in J. destruct J as (c & Ic & J). left. eapply IHb; eauto.
    + destruct wh as [[vs w]|]; [|subst wh'; destruct J]. destruct W as (w' & Ew & ->). apply in_flat_map in J. destruct J as (c & Ic & J). right. eapply IHw; eauto.
  - intros id neg op bs body wh cs H. discriminate H.
Qed.

(** ** Programs *)
(** What is known of the compiled rules of a rule. *)
Lemma rule_parts : forall B g X M foreign nb ar fr wc nm r main temps, lower_rule foreign nb ar fr wc nm r = Some (main, temps) ->
  (forall x, In x (main ++ temps) -> of_preds (aform_preds (ar_body r)) x) /\
  (forall x, In x temps -> exists q a, r_head x = HAtom a /\ a_pred a = nm q) /\
  (forall x s a, In x main -> body_sat B g X M s (r_body x) -> In a (head_atoms (r_head x)) -> In (a_pred a) (map fst (fhead_atoms (ar_head r)))).
Proof.
  intros B g X M foreign nb ar fr wc nm [hd body] main temps H. unfold lower_rule in H. cbn [ar_head ar_body] in *. destruct (from_aform body) as [cs|] eqn:D; [|discriminate H]. cbn [obnd] in H.
  destruct (flat_head fr hd) as [[[h extra] n]|] eqn:Qh; [|discriminate H]. cbn [obnd] in H.
  destruct (lower_conjs foreign nb ar fr wc nm extra cs [] (ehead_vars hd) h 0 n) as [[[rs us] n']|] eqn:E; [|discriminate H]. cbn [obnd] in H. injection H as <- <-.
  destruct (heads_conjs foreign nb ar fr wc nm cs (all_heads_Q foreign nb ar fr wc nm cs) _ _ _ _ _ _ _ _ _ E) as [C1 C2].
  split; [|split].
  - intros x I. eapply of_preds_mono; [|eapply (atoms_conjs foreign nb ar fr wc nm cs); [apply Forall_forall; intros c _; apply atoms_ok|eapply flat_head_no_atom; eauto|exact E|exact I]].
    intros p J. apply in_flat_map in J. destruct J as (c & Ic & J). eapply from_preds; eauto.
  - intros x I. destruct (C2 x I) as (? & ? & ? & _ & y & a & Ea & Ep). eauto.
  - intros x s a I S0 Ia. rewrite (C1 x I) in Ia.
    assert (EX : exists ls, r_body x = ls ++ extra).
    { clear - E I. revert E I. generalize 0 as ci. generalize n as m. revert rs us n'. induction cs as [|c cs IH]; intros rs us n' m ci E I; [injection E as <- <- <-; destruct I|].
      rewrite lower_conjs_eq in E. destruct (lower_conj foreign nb ar fr wc nm c [] ci (ehead_vars hd) h extra m) as [[[r1 ts1] n1]|] eqn:E1; [|discriminate E]. cbn [obnd] in E.
      destruct (lower_conjs foreign nb ar fr wc nm extra cs [] (ehead_vars hd) h (S ci) n1) as [[[rs2 us2] n2]|] eqn:E2; [|discriminate E]. cbn [obnd] in E. injection E as <- <- <-.
      destruct I as [<-|I]; [|eapply IH; eauto]. destruct c as [pos neg aggs]. rewrite lower_conj_eq in E1.
      destruct (lower_aggs foreign nb ar fr wc nm [] ci (ehead_vars hd) aggs 0 m) as [[[reds ts2] n3]|]; [|discriminate E1]. cbn [obnd] in E1.
      destruct (flat_lits fr pos n3) as [y|]; [|discriminate E1]. cbn [obnd] in E1. destruct (flat_lits fr neg (snd y)) as [z|]; [|discriminate E1]. cbn [obnd] in E1. injection E1 as <- _ _.
      exists (fst y ++ fst z ++ reds). cbn [r_body]. rewrite <- !app_assoc. reflexivity. }
    destruct EX as (ls & EX). rewrite EX in S0. assert (Se : sat B g X M s extra) by (intros l J; apply S0, in_or_app; auto).
    destruct (@head_sound fr B g X M s hd h extra n Qh Se a Ia) as (b & J1 & J2 & _). rewrite J2. apply in_map; auto.
Qed.
Lemma lower_rules_in : forall nb ar fr wc nm foreign l i rs, lower_rules nb ar fr wc nm foreign i l = Some rs ->
  (forall x, In x rs -> exists k r main temps, nth_error l k = Some r /\ lower_rule foreign nb ar fr wc (nm (i + k)) r = Some (main, temps) /\ In x (main ++ temps)) /\
  (forall k r, nth_error l k = Some r -> exists main temps, lower_rule foreign nb ar fr wc (nm (i + k)) r = Some (main, temps) /\ forall x, In x (main ++ temps) -> In x rs).
Proof.
  intros nb ar fr wc nm foreign l. induction l as [|r l IH]; intros i rs H; cbn [lower_rules] in H.
  - injection H as <-. split; [intros x []|]. intros [|k] r E; discriminate E.
  - destruct (lower_rule foreign nb ar fr wc (nm i) r) as [[main temps]|] eqn:E1; [|discriminate H]. cbn [obnd fst snd] in H.
    destruct (lower_rules nb ar fr wc nm foreign (S i) l) as [rs'|] eqn:E2; [|discriminate H]. cbn [obnd] in H. injection H as <-. destruct (IH _ _ E2) as [I1 I2]. split.
    + intros x I. apply in_app_or in I. destruct I as [I|I].
      * exists 0, r, main, temps. rewrite Nat.add_0_r. auto.
      * destruct (I1 x I) as (k & r' & main' & temps' & K1 & K2 & K3). exists (S k), r', main', temps'. rewrite Nat.add_succ_r. auto.
    + intros [|k] r' E; cbn [nth_error] in E.
      * injection E as <-. exists main, temps. rewrite Nat.add_0_r. split; auto. intros x I. apply in_or_app; auto.
      * destruct (I2 k r' E) as (main' & temps' & K1 & K2). exists main', temps'. rewrite Nat.add_succ_r. split; auto. intros x I. apply in_or_app; auto.
Qed.

Lemma der_step : forall B P M (X : interp) r p t, In r (p_rules P) -> (forall q u, X q u -> der B P M q u) -> head_consequence B (p_reg P) X M r p t -> der B P M p t.
Proof.
  intros B P M X r p t I HX (s & a & S0 & Ia & -> & ->). eapply der_rule with (r := r) (s := s); auto.
  - intros b J F. apply HX. specialize (S0 _ J). cbn [lit_sat] in S0. rewrite F in S0. exact S0.
  - intros l J. specialize (S0 _ J). destruct l; auto. cbn [lit_sat other_sat] in *. intros F. rewrite F in S0. exact S0.
  - constructor. exact Ia.
Qed.
Lemma der_consequence : forall B P M, no_entities B P -> forall p t, der B P M p t ->
  (exists f, In f (p_facts P) /\ p = f_pred f /\ t = f_args f) \/ exists r, In r (p_rules P) /\ head_consequence B (p_reg P) (der B P M) M r p t.
Proof.
  intros B P M NE p t H. destruct H as [f I|r s p t I H1 H2 Y]; [left; eauto|]. right. exists r. split; auto. destruct (NE _ _ _ _ I Y) as (a & Ia & -> & ->). exists s, a. split; [|split; auto].
  intros l J. destruct l as [b| | | | | | |]; try apply (H2 _ J). cbn [lit_sat]. destruct (g_foreign (p_reg P) (a_pred b)) eqn:F; [|apply H1; auto]. exact (H2 _ J F).
Qed.

(** The stable models of a compiled program: the temporary relations have what their rules
    yield, the others have what the rules with aggregations yield. *)
Theorem C74_program_partial : forall A B nb ar fr wc nm F M P,
  extensional A -> (forall r X Y s, b_agg B r X Y s <-> agg_meaning A r X Y s) -> agg_source A B nb ar fr wc nm F M ->
  compile_agg nb ar fr wc nm F = Some P -> no_entities B P ->
  (stable B P M <->
   (forall p t, temporary nm p -> (M p t <-> exists r, In r (p_rules P) /\ head_consequence B (p_reg P) M M r p t)) /\
   (forall p t, ~ temporary nm p -> (M p t <-> forall X, aclosed A B nb ar wc F M X -> X p t))).
Proof.
  intros A B nb ar fr wc nm F M P AE BA [NM DEC FI NF RU] CO NE. unfold compile_agg in CO. set (foreign := g_foreign (ap_reg F)) in *.
  destruct (lower_rules nb ar fr wc nm foreign 0 (ap_rules F)) as [rs|] eqn:EL; [|discriminate CO]. cbn [obnd] in CO. injection CO as <-. cbn [p_rules p_reg p_facts] in *.
  set (P := mkProg (ap_rels F) (ap_outputs F) (ap_facts F) rs (ap_reg F)) in *.
  destruct (lower_rules_in _ _ _ _ _ _ _ _ _ EL) as [L1 L2]. cbn [Nat.add] in L1, L2.
  assert (NM' : forall i p q, nm i p = nm i q -> p = q) by (intros i p q E; apply (NM i i p q E)).
  (* the rules of a temporary relation *)
  assert (OWN : forall X k r main temps q x t, nth_error (ap_rules F) k = Some r -> lower_rule foreign nb ar fr wc (nm k) r = Some (main, temps) -> In x rs ->
    head_consequence B (ap_reg F) X M x (nm k q) t -> In x temps).
  { intros X k r main temps q x t K1 K2 Ix (s & a & S0 & Ia & Ep & Et). destruct (L1 x Ix) as (k' & r' & main' & temps' & K1' & K2' & I').
    destruct (rule_parts B (ap_reg F) X M _ _ _ _ _ _ _ _ _ K2') as (_ & R2 & R3). apply in_app_or in I'. destruct I' as [I'|I'].
    - exfalso. assert (Ir : In r' (ap_rules F)) by (eapply nth_error_In; eauto). destruct (RU r' Ir) as (_ & _ & _ & _ & NT & _). apply (NT (nm k q)); [|exists k, q; auto]. apply in_or_app; left. rewrite Ep. eapply R3; eauto.
    - destruct (R2 x I') as (q' & a' & Eh & Ea). rewrite Eh in Ia. destruct Ia as [<-|[]]. rewrite Ea in Ep. destruct (NM _ _ _ _ Ep) as [<- _]. rewrite K1 in K1'. injection K1' as <-. rewrite K2 in K2'. injection K2' as <- <-. exact I'. }
  assert (DEF : (forall p t, temporary nm p -> (M p t <-> exists r, In r rs /\ head_consequence B (ap_reg F) M M r p t)) ->
    forall k r main temps, nth_error (ap_rules F) k = Some r -> lower_rule foreign nb ar fr wc (nm k) r = Some (main, temps) -> defined_by B (ap_reg F) M (nm k) temps).
  { intros TD k r main temps K1 K2 q t. rewrite TD by (exists k, q; auto). split.
    - intros (x & Ix & Hx). exists x. split; auto. eapply OWN; eauto.
    - intros (x & Ix & Hx). exists x. split; auto. destruct (L2 k r K1) as (main' & temps' & K2' & I'). rewrite K2 in K2'. injection K2' as <- <-. apply I', in_or_app; auto. }
  (* main rules *)
  assert (SOUND : (forall p t, temporary nm p -> (M p t <-> exists r, In r rs /\ head_consequence B (ap_reg F) M M r p t)) ->
    forall X x p t, In x rs -> ~ temporary nm p -> head_consequence B (ap_reg F) X M x p t -> exists r, In r (ap_rules F) /\ agg_consequence A B (ap_reg F) M wc (grounds foreign nb ar) X r p t).
  { intros TD X x p t Ix NT Hx. destruct (L1 x Ix) as (k & r & main & temps & K1 & K2 & I'). assert (Ir : In r (ap_rules F)) by (eapply nth_error_In; eauto). destruct (RU r Ir) as (R1 & R2 & R3 & R4 & R5 & R6 & R7).
    exists r. split; auto. apply in_app_or in I'. destruct I' as [I'|I'].
    - eapply C74_sound_partial; eauto.
    - exfalso. apply NT. destruct (rule_parts B (ap_reg F) X M _ _ _ _ _ _ _ _ _ K2) as (_ & Q2 & _). destruct (Q2 x I') as (q & a & Eh & Ea). destruct Hx as (s & b & _ & Ib & -> & _). rewrite Eh in Ib. destruct Ib as [<-|[]]. exists k, q. exact Ea. }
  assert (COMPLETE : (forall p t, temporary nm p -> (M p t <-> exists r, In r rs /\ head_consequence B (ap_reg F) M M r p t)) ->
    forall (X : interp) r p t, (forall p t, X p t -> M p t) -> In r (ap_rules F) -> agg_consequence A B (ap_reg F) M wc (grounds foreign nb ar) X r p t -> exists x, In x rs /\ head_consequence B (ap_reg F) X M x p t).
  { intros TD X r p t SX Ir Hr. destruct (RU r Ir) as (R1 & R2 & R3 & R4 & R5 & R6 & R7). destruct (In_nth_error _ _ Ir) as (k & K1). destruct (L2 k r K1) as (main & temps & K2 & I').
    destruct (C74_complete_partial A B (ap_reg F) X M foreign nb ar fr wc (nm k) r main temps AE BA (NM' k) FI R1 R2 R3 R4 R6 (R7 X SX) K2 (DEF TD k r main temps K1 K2) p t Hr) as (x & Ix & Hx).
    exists x. split; auto. apply I', in_or_app; auto. }
  assert (NTA : forall x a, In x rs -> In (LAtom a) (r_body x) -> ~ temporary nm (a_pred a)).
  { intros x a Ix Ia. destruct (L1 x Ix) as (k & r & main & temps & K1 & K2 & I'). assert (Ir : In r (ap_rules F)) by (eapply nth_error_In; eauto). destruct (RU r Ir) as (_ & _ & _ & _ & NT & _).
    apply NT. apply in_or_app; right. destruct (rule_parts B (ap_reg F) M M _ _ _ _ _ _ _ _ _ K2) as (Q1 & _). exact (Q1 x I' a Ia). }
  (* a consequence depends on the source relations only *)
  assert (CHG : forall (X Y : interp) x p t, In x rs -> (forall q u, ~ temporary nm q -> X q u -> Y q u) -> head_consequence B (ap_reg F) X M x p t -> head_consequence B (ap_reg F) Y M x p t).
  { intros X Y x p t Ix XY (s & a & S0 & Ia & -> & ->). exists s, a. split; [|split; auto]. intros l J. specialize (S0 l J). destruct l as [b| | | | | | |]; try exact S0. cbn [lit_sat] in *. destruct (g_foreign (ap_reg F) (a_pred b)); auto. apply XY; auto. eapply NTA; eauto. }
  split.
  - intros ST.
    assert (TD : forall p t, temporary nm p -> (M p t <-> exists r, In r rs /\ head_consequence B (ap_reg F) M M r p t)).
    { intros p t TP. split.
      - intros H. apply ST in H. destruct (der_consequence B P M NE p t H) as [(f & I & -> & ->)|(x & Ix & Hx)]; [exfalso; apply (NF f I); exact TP|]. exists x. split; auto. eapply CHG; [exact Ix| |exact Hx]. intros q u _ D. apply ST; auto.
      - intros (x & Ix & Hx). apply ST. apply (der_step B P M M x p t); auto. intros q u D. apply ST; auto. }
    split; auto. intros p t NT. split.
    + intros H X [CF CR]. apply ST in H. revert NT. induction H as [f I|x s p t I H1 IH H2 Y]; intros NT; [apply CF; auto|].
      destruct (NE _ _ _ _ I Y) as (a & Ia & Ep & Et). subst p t. destruct (SOUND TD X x (a_pred a) (tvals s (a_args a)) I NT) as (r & Ir & Hr); [|eapply CR; eauto].
      exists s, a. split; [|split; auto]. intros l J. destruct l as [b| | | | | | |]; try apply (H2 _ J). cbn [lit_sat]. destruct (g_foreign (ap_reg F) (a_pred b)) eqn:Fb; [exact (H2 _ J Fb)|]. apply IH; auto. eapply NTA; eauto.
    + intros H. apply H. split.
      * intros f I. apply ST. apply (der_fact B P M f I).
      * intros r q u Ir Hr. apply ST. destruct (COMPLETE TD M r q u (fun _ _ h => h) Ir Hr) as (x & Ix & Hx). apply (der_step B P M M x q u); auto. intros q' u' D. apply ST; auto.
  - intros [TD LE]. assert (DM : forall p t, der B P M p t -> M p t).
    { intros p t H. induction H as [f I|x s p t I H1 IH H2 Y].
      - apply LE; [apply NF; exact I|]. intros X [CF _]. apply CF; auto.
      - destruct (NE _ _ _ _ I Y) as (a & Ia & Ep & Et). subst p t.
        assert (HC : head_consequence B (ap_reg F) M M x (a_pred a) (tvals s (a_args a))).
        { exists s, a. split; [|split; auto]. intros l J. destruct l as [b| | | | | | |]; try apply (H2 _ J). cbn [lit_sat]. destruct (g_foreign (ap_reg F) (a_pred b)) eqn:Fb; [exact (H2 _ J Fb)|]. apply IH; auto. }
        destruct (L1 x I) as (k & r & main & temps & K1 & K2 & I'). apply in_app_or in I'. destruct I' as [I'|I'].
        + assert (Ir : In r (ap_rules F)) by (eapply nth_error_In; eauto). destruct (RU r Ir) as (_ & _ & _ & _ & NT & _).
          assert (NTp : ~ temporary nm (a_pred a)). { apply NT. apply in_or_app; left. destruct (rule_parts B (ap_reg F) M M _ _ _ _ _ _ _ _ _ K2) as (_ & _ & Q3). destruct HC as (s' & a' & S' & Ia' & Ep & _). rewrite Ep. eapply Q3; eauto. }
          apply LE; auto. intros X CX. destruct (SOUND TD X x (a_pred a) (tvals s (a_args a)) I NTp) as (r' & Ir' & Hr'); [|destruct CX as [_ CR]; eapply CR; eauto].
          eapply CHG; [exact I| |exact HC]. intros q u NTq Hq. apply (LE q u NTq); auto.
        + destruct (rule_parts B (ap_reg F) M M _ _ _ _ _ _ _ _ _ K2) as (_ & Q2 & _). destruct (Q2 x I') as (q & a' & Eh & Ea). pose proof Ia as Ia2. rewrite Eh in Ia2. destruct Ia2 as [<-|[]].
          apply TD; [exists k, q; exact Ea|]. exists x. split; auto. }
    assert (SRC : forall p t, ~ temporary nm p -> M p t -> der B P M p t).
    { intros p t NT H. apply (proj1 (LE p t NT) H). split; [intros f I; apply (der_fact B P M f I)|]. intros r q u Ir Hr. destruct (COMPLETE TD (der B P M) r q u DM Ir Hr) as (x & Ix & Hx). apply (der_step B P M (der B P M) x q u); auto. }
    intros p t. split; [|apply DM]. intros H. destruct (DEC p) as [TP|NT]; [|auto].
    destruct (proj1 (TD p t TP) H) as (x & Ix & Hx). apply (der_step B P M (der B P M) x p t); auto. eapply CHG; [exact Ix| |exact Hx]. intros q u. apply SRC.
Qed.
Print Assumptions C74_program_partial.

(** *** Example *)
(** Names of temporaries: numbers from 10 on. *)
Fixpoint ex_enc (p : path) : nat :=
  match p with [] => 0 | (a, b, c) :: q => S (to_nat (2 * to_nat (a, b) + (if c then 1 else 0), ex_enc q)) end.
Definition ex_nm (i : nat) (p : path) : pred := 10 + to_nat (i, ex_enc p).
Lemma to_nat_inj : forall x y, to_nat x = to_nat y -> x = y.
Proof. intros x y H. rewrite <- (cancel_of_to x), <- (cancel_of_to y), H. reflexivity. Qed.
Lemma ex_enc_inj : forall p q, ex_enc p = ex_enc q -> p = q.
Proof.
  induction p as [|[[a b] c] p IH]; intros [|[[a' b'] c'] q] H; cbn [ex_enc] in H; try discriminate H; auto.
  apply Nat.succ_inj, to_nat_inj in H. pose proof (f_equal fst H) as H1. pose proof (f_equal snd H) as H2. cbn [fst snd] in H1, H2. clear H. apply IH in H2. subst q.
  assert (E : to_nat (a, b) = to_nat (a', b') /\ c = c') by (destruct c, c'; split; try reflexivity; lia). destruct E as [E ->]. apply to_nat_inj in E. congruence.
Qed.
Lemma ex_nm_inj : forall i j p q, ex_nm i p = ex_nm j q -> i = j /\ p = q.
Proof. intros i j p q H. unfold ex_nm in H. assert (E : to_nat (i, ex_enc p) = to_nat (j, ex_enc q)) by lia. apply to_nat_inj in E. pose proof (f_equal fst E) as E1. pose proof (f_equal snd E) as E2. split; [exact E1|]. apply ex_enc_inj; exact E2. Qed.
Lemma ex_enc_onto : forall n, exists p, ex_enc p = n.
Proof.
  intros n. induction n as [n IH] using (well_founded_induction lt_wf). destruct n as [|n]; [exists []; reflexivity|].
  destruct (of_nat n) as [h t] eqn:E. assert (En : to_nat (h, t) = n) by (rewrite <- E; apply cancel_to_of). pose proof (to_nat_non_decreasing h t) as L.
  destruct (IH t ltac:(lia)) as (q & Eq). destruct (of_nat (Nat.div2 h)) as [a b] eqn:Eh. assert (Eab : to_nat (a, b) = Nat.div2 h) by (rewrite <- Eh; apply cancel_to_of).
  exists ((a, b, Nat.odd h) :: q). cbn [ex_enc]. rewrite Eq, Eab. pose proof (Nat.div2_odd h) as D. change (if Nat.odd h then 1 else 0) with (Nat.b2n (Nat.odd h)). rewrite <- D, En. reflexivity.
Qed.
Lemma ex_temporary : forall p, temporary ex_nm p <-> 10 <= p.
Proof.
  intros p. split.
  - intros (i & q & ->). unfold ex_nm. lia.
  - intros L. destruct (of_nat (p - 10)) as [i n] eqn:E. destruct (ex_enc_onto n) as (q & Eq). exists i, q. unfold ex_nm. rewrite Eq, <- E, cancel_to_of. lia.
Qed.
(** The aggregator [0] counts. *)
Definition ex_count : aggregator := fun op k S ws => op = 0 /\ exists l, NoDup l /\ (forall t, In t l <-> S t) /\ ws = [USize (Z.of_nat (length l))].
Lemma ex_count_ext : extensional ex_count.
Proof. intros op k S S' ws H (-> & l & N & I & ->). split; auto. exists l. split; auto. split; auto. intros t. rewrite <- H. apply I. Qed.
Definition ex_benv : benv.
Proof.
  refine (mkBenv C60_env (fun _ _ => False) (fun r X Y s => agg_meaning ex_count r X Y s) _ _ (fun _ _ _ _ => False) (fun _ _ _ _ => False)).
  - intros r X X' Y Y' s HX HY [G C]. split.
    + unfold grouped in *. destruct (rd_group r); auto. destruct (rd_groupby r); [apply HY; auto|]. destruct G as (t & G). exists t. apply HX; auto.
    + eapply ex_count_ext; [|exact C]. intros t. apply HX.
  - intros r X Y s s' H [G C].
    assert (E1 : map s (rd_group r) = map s' (rd_group r)) by (apply map_ext_in; intros v I; apply H; unfold reduce_free, reduce_vars; rewrite !in_app_iff; auto).
    assert (E2 : map s (rd_other r) = map s' (rd_other r)) by (apply map_ext_in; intros v I; apply H; unfold reduce_free, reduce_vars; rewrite !in_app_iff; auto).
    assert (E3 : map s (rd_left r) = map s' (rd_left r)) by (apply map_ext_in; intros v I; apply H; unfold reduce_free, reduce_vars; rewrite !in_app_iff; auto).
    unfold agg_meaning, grouped in *. rewrite map_app in *. rewrite <- E1, <- E2, <- E3. split; auto.
Defined.
Definition ex_reg : registry := mkReg (fun _ => false) (fun _ => false) (fun _ => false) [].
(** p(1, 10), p(1, 20), p(2, 10); h(x, n) = n := count(y: p(x, y)). *)
Definition ex_facts : list fact := [mkFact 1 [I32 1; I32 10]; mkFact 1 [I32 1; I32 20]; mkFact 1 [I32 2; I32 10]].
Definition ex_rule : arule := mkArule (FHAtom (9, [EVar 0; EVar 2])) (ARed [LV 2] 0 [] [1] (AAtom 1 [EVar 0; EVar 1]) None).
Definition ex_prog : aprogram := mkAprog [] [9] ex_facts [ex_rule] ex_reg.
Definition ex_T : pred := ex_nm 0 [(0, 0, true)].
Definition ex_fr (n : nat) : var := 100 + 2 * n.
Definition ex_wc (n : nat) : var := 101 + 2 * n.
Definition ex_out : list (list value) := [[I32 1; USize 2]; [I32 2; USize 1]].
Definition ex_M : interp := fun p t => ((p = 1 \/ p = ex_T) /\ In t (map f_args ex_facts)) \/ (p = 9 /\ In t ex_out).
Definition ex_P : program := mkProg [] [9] ex_facts
  [mkRule (HAtom (mkAtom 9 [TVar 0; TVar 2])) [LReduce (mkReduce 0 [2] [0] [] [] [1] (mkAtom ex_T [TVar 0; TVar 1]) None)];
   mkRule (HAtom (mkAtom ex_T [TVar 0; TVar 1])) [LAtom (mkAtom 1 [TVar 0; TVar 1])]] ex_reg.
Example C74_ex_compiles : compile_agg (fun _ => 0) (fun _ => 0) ex_fr ex_wc ex_nm ex_prog = Some ex_P.
Proof. vm_compute. reflexivity. Qed.
Example C74_ex_no_entities : no_entities ex_benv ex_P.
Proof.
  intros r s p t I Y. destruct Y as [a Ia|v f l Ia|v f l q t Ia Hf _ _|a q t Ia Ha _ _ _]; eauto; exfalso.
  - destruct I as [<-|[<-|[]]]; cbn in Ia; intuition discriminate.
  - discriminate Hf.
  - discriminate Ha.
Qed.
Lemma ex_T_10 : 10 <= ex_T.
Proof. unfold ex_T, ex_nm. lia. Qed.
Example C74_ex_source : agg_source ex_count ex_benv (fun _ => 0) (fun _ => 0) ex_fr ex_wc ex_nm ex_prog ex_M.
Proof.
  constructor.
  - apply ex_nm_inj.
  - intros p. rewrite ex_temporary. lia.
  - intros i j. unfold ex_fr. lia.
  - intros f I. rewrite ex_temporary. cbn in I. intuition (subst; cbn in *; lia).
  - intros r [<-|[]]. split; [|split; [reflexivity|split; [reflexivity|split; [reflexivity|split; [|split]]]]].
    + intros v i I. unfold ex_fr. cbn in I. intuition lia.
    + intros p I. rewrite ex_temporary. cbn in I. intuition lia.
    + cbn. split; [|split; exact Logic.I]. intros s _ e [<-|[<-|[]]]; cbn; eauto.
    + intros X _ s _. split; [exact Logic.I|]. intros a e [<-|[]] [<-|[<-|[]]]; cbn; eauto.
Qed.
Ltac ex_fin := intros; repeat match goal with H : _ \/ _ |- _ => destruct H end; try contradiction; solve [subst; auto | congruence | left; congruence | right; left; congruence | right; right; left; congruence].
Definition ex_sub (x y n : value) : subst := fun v => match v with 0 => x | 1 => y | _ => n end.
Lemma ex_groups : forall x, (exists t, In (x :: t) (map f_args ex_facts)) -> x = I32 1 \/ x = I32 2.
Proof. intros x (t & H). cbn in H. intuition congruence. Qed.
Example C74_ex_stable : stable ex_benv ex_P ex_M.
Proof.
  assert (MT : forall t, ex_M ex_T t <-> In t (map f_args ex_facts)).
  { intros t. unfold ex_M. split; [|auto]. intros [[_ H]|[H _]]; auto. pose proof ex_T_10. lia. }
  assert (M9 : forall t, ex_M 9 t <-> In t ex_out).
  { intros t. unfold ex_M. split; [|auto]. intros [[[H|H] _]|[_ H]]; auto; pose proof ex_T_10; lia. }
  assert (CNT : forall l x, (forall t, In t l <-> ex_M ex_T ([x] ++ t)) -> (x = I32 1 -> forall t, In t l <-> In t [[I32 10]; [I32 20]]) /\ (x = I32 2 -> forall t, In t l <-> In t [[I32 10]])).
  { intros l x H. split; intros -> t; rewrite H, MT; cbn; split; ex_fin. }
  intros p t. split.
  - intros [[[->| ->] H]|[-> H]].
    + apply in_map_iff in H. destruct H as (f & <- & H). assert (E : f_pred f = 1) by (cbn in H; intuition (subst; reflexivity)). rewrite <- E. apply (der_fact ex_benv ex_P ex_M f H).
    + assert (ET : exists x y, t = [x; y]) by (cbn in H; intuition (subst; eauto)). destruct ET as (x & y & ->).
      apply (der_rule ex_benv ex_P ex_M (nth 1 (p_rules ex_P) (mkRule (HAtom (mkAtom 0 [])) [])) (ex_sub x y x) ex_T [x; y]).
      * right; left; reflexivity.
      * intros a [E|[]] _. injection E as <-. apply in_map_iff in H. destruct H as (f & E & H). change (der ex_benv ex_P ex_M 1 [x; y]). rewrite <- E. assert (Ef : f_pred f = 1) by (cbn in H; intuition (subst; reflexivity)). rewrite <- Ef. apply (der_fact ex_benv ex_P ex_M f H).
      * intros l [<-|[]] E. discriminate E.
      * apply (y_head ex_benv ex_reg _ (ex_sub x y x) (mkAtom ex_T [TVar 0; TVar 1])). left; reflexivity.
    + assert (ET : exists x n, t = [x; n]) by (cbn in H; intuition (subst; eauto)). destruct ET as (x & n & ->).
      apply (der_rule ex_benv ex_P ex_M (nth 0 (p_rules ex_P) (mkRule (HAtom (mkAtom 0 [])) [])) (ex_sub x x n) 9 [x; n]).
      * left; reflexivity.
      * intros a [E|[]] _. discriminate E.
      * intros l [<-|[]]. change (agg_meaning ex_count (mkReduce 0 [2] [0] [] [] [1] (mkAtom ex_T [TVar 0; TVar 1]) None) (ex_M ex_T) none_rel (ex_sub x x n)).
        destruct H as [H|[H|[]]]; injection H as <- <-.
        -- split; [exists [I32 10]; apply MT; left; reflexivity|]. split; [reflexivity|]. exists [[I32 10]; [I32 20]]. split; [repeat constructor; cbn; intuition congruence|]. split; [|reflexivity].
           intros t. cbn [map ex_sub rd_group app]. rewrite MT. cbn. split; ex_fin.
        -- split; [exists [I32 10]; apply MT; right; right; left; reflexivity|]. split; [reflexivity|]. exists [[I32 10]]. split; [repeat constructor; cbn; intuition congruence|]. split; [|reflexivity].
           intros t. cbn [map ex_sub rd_group app]. rewrite MT. cbn. split; ex_fin.
      * apply (y_head ex_benv ex_reg _ (ex_sub x x n) (mkAtom 9 [TVar 0; TVar 2])). left; reflexivity.
  - intros H. induction H as [f I|r s p t I H1 IH H2 Y].
    + left. assert (Ef : f_pred f = 1) by (cbn in I; intuition (subst; reflexivity)). rewrite Ef. split; auto. apply in_map; exact I.
    + destruct (C74_ex_no_entities r s p t I Y) as (a & Ia & -> & ->). destruct I as [<-|[<-|[]]].
      * destruct Ia as [<-|[]]. apply M9. specialize (H2 _ (or_introl eq_refl)).
        change (agg_meaning ex_count (mkReduce 0 [2] [0] [] [] [1] (mkAtom ex_T [TVar 0; TVar 1]) None) (ex_M ex_T) none_rel s) in H2. destruct H2 as [(t & G) (_ & l & N & L & E)].
        cbn [map rd_left rd_group app] in *. apply MT in G. injection E as E. change (In [s 0; s 2] ex_out). destruct (CNT l (s 0) L) as [C1 C2].
        destruct (ex_groups (s 0) (ex_intro _ t G)) as [G1|G1]; rewrite G1, E.
        -- left. rewrite (Permutation_length (@NoDup_Permutation _ l [[I32 10]; [I32 20]] N ltac:(repeat constructor; cbn; intuition congruence) (C1 G1))). reflexivity.
        -- right; left. rewrite (Permutation_length (@NoDup_Permutation _ l [[I32 10]] N ltac:(repeat constructor; cbn; intuition congruence) (C2 G1))). reflexivity.
      * destruct Ia as [<-|[]]. apply MT. specialize (IH _ (or_introl eq_refl) eq_refl). destruct IH as [[_ H]|[H _]]; [exact H|discriminate H].
Qed.
(** By the theorem, [h(1, 2)] and [h(2, 1)] are in all closed sets. *)
Example C74_ex_result : forall X, aclosed ex_count ex_benv (fun _ => 0) (fun _ => 0) ex_wc ex_prog ex_M X -> X 9 [I32 1; USize 2] /\ X 9 [I32 2; USize 1].
Proof.
  pose proof (C74_program_partial ex_count ex_benv _ _ _ _ _ _ _ _ ex_count_ext ltac:(intros; reflexivity) C74_ex_source C74_ex_compiles C74_ex_no_entities) as T.
  destruct (proj1 T C74_ex_stable) as [_ L]. intros X HX. split.
  - apply (proj1 (L 9 _ ltac:(rewrite ex_temporary; lia))); auto. right. split; auto. left; reflexivity.
  - apply (proj1 (L 9 _ ltac:(rewrite ex_temporary; lia))); auto. right. split; auto. right; left; reflexivity.
Qed.
