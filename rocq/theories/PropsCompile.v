(** C54: dependency graph, strata and lowering together.  A typed program that can
    be stratified is compiled, and the result has one model, which is the stable
    model of the program. *)
From Coq Require Import List ZArith Bool Arith Lia Permutation.
From Verif Require Import Value Back Eval Ram Dataflow BackSem PropsOpt Scc SccFacts PropsStrat PropsUnused Plan PlanSem PlanFacts PlanFacts2 PropsPlan PlanClash
  VarTuple VarTupleFacts B2R RamSem B2RFacts B2RFacts2 B2RSpec B2RRule B2RScope PropsB2R B2RStrata StrataSem StrataFacts PropsStrata
  B2RTotal B2RPlaced PropsTotal TypedProg PropsTyped.
Import ListNotations.
Set Implicit Arguments.

(** ** The dependency graph of declared relations exists *)
Lemma add_deps_total : forall l g, (forall s d k, In (s, d, k) l -> In s (g_nodes g) /\ In d (g_nodes g)) -> exists g', add_deps l g = Some g'.
Proof.
  induction l as [|[[s d] k] l IH]; intros g H; cbn [add_deps]; [eauto|]. unfold add_dependency.
  destruct (H s d k) as [A B]; [left; auto|]. apply memb_In in A. apply memb_In in B. rewrite A, B. cbn [andb].
  apply IH. cbn [g_nodes]. intros; eapply H; right; eauto.
Qed.
Theorem dependency_graph_total : forall P, (forall r s d k, In r (p_rules P) -> In (s, d, k) (rule_edges P r) ->
  In s (map b_pred (p_rels P)) /\ In d (map b_pred (p_rels P))) -> exists g, dependency_graph P = Some g.
Proof.
  intros P H. unfold dependency_graph. apply add_deps_total. intros s d k I. apply in_flat_map in I. destruct I as (r & Ir & I).
  assert (W0 : wf_graph (mkGraph [] [])) by (split; [constructor|simpl; tauto]).
  destruct (add_predicates_spec (p_rels P) _ W0) as (_ & _ & D). destruct (H r s d k Ir I). rewrite !D. tauto.
Qed.

Lemma stable_ext : forall B P (M M' : interp), (forall p vs, M p vs <-> M' p vs) -> stable B P M -> stable B P M'.
Proof.
  assert (D : forall B P (M M' : interp), (forall p vs, M p vs <-> M' p vs) -> forall p vs, der B P M p vs -> der B P M' p vs).
  { intros B P M M' E p vs H. induction H as [f If|r s p t Ir Hp IH Ho Y]; [constructor; auto|].
    eapply der_rule; eauto. intros l Il. eapply (@other_sat_agree B P r M M'); eauto. }
  intros B P M M' E S p vs. rewrite <- E, (S p vs). split; apply D; auto. intros; symmetry; auto.
Qed.

Section Compile.
  Variables (C : cenv) (N : penv) (B : benv) (AG : rels -> nat -> nat -> rgrp -> tuple -> Prop) (P : program).
  Variables (sig : pred -> list ty) (inplace : rule -> bool) (order : list pred -> rule -> list state -> list state) (kosaraju : graph -> sccs).
  Hypothesis ORD : forall ps r l, Permutation (order ps r l) l.
  Hypothesis SCC : forall g, wf_graph g -> scc_contract g (kosaraju g).
  Hypothesis NM : names_ok C.
  Hypothesis TS : typed_source C N sig P.
  Variable sigma : pred -> nat.
  Hypothesis ST : PropsUnused.stratified P sigma.

  Lemma ts_no_functors : forall r, In r (p_rules P) -> functor_preds P r = [].
  Proof.
    intros r Ir. unfold functor_preds. rewrite (ts_adts TS). destruct (needs_dyn_entity (p_reg P) r); auto.
    destruct (ts_rules TS r Ir) as (h & body & -> & TR). unfold new_functors. cbn [r_body].
    destruct (flat_map _ body) as [|f l] eqn:E; auto. exfalso. assert (J : In f (f :: l)) by (left; auto). rewrite <- E in J.
    apply in_flat_map in J. destruct J as (x & Ix & J). destruct x; try (destruct J; fail). destruct e; try (destruct J; fail).
    pose proof (tr_no_new TR _ _ Ix) as K. discriminate K.
  Qed.
  Lemma ts_edges : forall r s d k, In r (p_rules P) -> In (s, d, k) (rule_edges P r) -> s = r_pred r /\ PropsStrat.reads P r d (needs_strat k).
  Proof.
    intros r s d k Ir H. unfold rule_edges in H. rewrite !in_app_iff in H. destruct H as [H|[H|H]].
    - exfalso. unfold goal_edges in H. destruct (find _ _) as [b|] eqn:E; [|destruct H]. apply find_some in E. rewrite (ts_goal TS b) in H by tauto. destruct H.
    - unfold functor_edges in H. rewrite ts_no_functors in H by auto. destruct H.
    - apply in_flat_map in H. destruct H as (l & Il & H). pose proof (ts_no_functors r Ir) as FN.
      assert (RD : forall q k', record_dep P r q k' = [(r_pred r, q, k')]) by (intros; unfold record_dep; rewrite FN; reflexivity).
      destruct l; cbn [lit_edges] in H; try (destruct H; fail); rewrite ?RD in H.
      + destruct (g_foreign (p_reg P) (a_pred a)) eqn:F; [destruct H|]. destruct H as [H|[]]. injection H as <- <- <-. split; auto. cbn. constructor; auto.
      + destruct (g_foreign (p_reg P) (a_pred a)) eqn:F; [destruct H|]. destruct H as [H|[]]. injection H as <- <- <-. split; auto. cbn. constructor; auto.
      + exfalso. destruct (ts_rules TS r Ir) as (h & body & -> & TR). exact (tr_no_reduce TR _ Il).
  Qed.
  Lemma reads_declared : forall r q b, In r (p_rules P) -> PropsStrat.reads P r q b -> In q (map b_pred (p_rels P)).
  Proof.
    intros r q b Ir R. apply (ts_preds TS r); auto. right. apply in_app_iff. destruct R as [a Ia F|a Ia F|d Id|d a Id G].
    - left. unfold pos_preds. apply in_flat_map. exists (LAtom a). split; auto. rewrite <- (ts_reg TS), F. left; auto.
    - right. unfold neg_preds. apply in_flat_map. exists (LNeg a). split; auto. left; auto.
    - exfalso. destruct (ts_rules TS r Ir) as (h & body & -> & TR). exact (tr_no_reduce TR _ Id).
    - exfalso. destruct (ts_rules TS r Ir) as (h & body & -> & TR). exact (tr_no_reduce TR _ Id).
  Qed.
  Lemma ts_graph : exists g, dependency_graph P = Some g.
  Proof.
    apply dependency_graph_total. intros r s d k Ir H. destruct (@ts_edges _ _ _ _ Ir H) as [-> R]. split; [|eapply reads_declared; eauto].
    apply (ts_preds TS r); auto. left; auto.
  Qed.
  Lemma ts_stratify : forall g, dependency_graph P = Some g -> exists ss, stratify g (kosaraju g) = Some (inr ss).
  Proof.
    intros g G. destruct (dependency_graph_spec P g G) as (W & _ & E). destruct (C24_stratify _ _ W (SCC W)) as (T & _ & BAD).
    assert (RE : forall u v k, In (u, v, k) (g_edges g) -> sigma v <= sigma u /\ (k <> EPos -> sigma v < sigma u)).
    { intros u v k H. apply E in H. destruct H as (r & Ir & H). destruct (@ts_edges _ _ _ _ Ir H) as [-> R]. destruct (proj1 (ST r Ir) _ _ R) as [A A'].
      split; auto. intros K. apply A'. destruct k; auto. }
    assert (RR : forall u v, reach g u v -> sigma v <= sigma u).
    { intros u v R. induction R as [u|u v w k H R IH]; auto. apply RE in H. lia. }
    destruct (stratify g (kosaraju g)) as [[e|ss]|]; [|eauto|congruence].
    destruct (proj1 BAD (ex_intro _ e eq_refl)) as (u & v & k & H & K & R). apply RR in R. apply RE in H. destruct H as [_ H]. specialize (H K). lia.
  Qed.
  Lemma ts_program : forall g ss, dependency_graph P = Some g -> stratify g (kosaraju g) = Some (inr ss) -> typed_program C N sig P ss.
  Proof.
    intros g ss G S. destruct (dependency_graph_spec P g G) as (W & _ & _).
    destruct (C24_program _ _ _ _ G (SCC W) S) as [[ND DC] RD]. rewrite <- flat_map_concat_map in ND. fold (preds ss) in ND.
    assert (DC' : forall q, In q (preds ss) <-> In q (map b_pred (p_rels P))) by (intros q; rewrite <- DC; unfold preds; rewrite flat_map_concat_map; tauto).
    assert (IN : forall l1 s l2 q i, ss = l1 ++ s :: l2 -> In q (st_preds s) -> in_stratum ss q i -> i = length l1).
    { intros l1 s l2 q i Es Iq Hi. assert (ND' := ND). unfold preds in ND'. rewrite flat_map_concat_map in ND'. rewrite <- (level_of_spec _ _ _ ND' Hi). apply level_of_spec; auto.
      exists s. split; auto. rewrite Es, nth_error_app2, Nat.sub_diag by lia. reflexivity. }
    assert (UP : forall l1 s l2 q j, ss = l1 ++ s :: l2 -> in_stratum ss q j -> (j < length l1 -> In q (preds l1)) /\ (j <= length l1 -> In q (preds (l1 ++ [s])))).
    { intros l1 s l2 q j Es (x & Ex & Iq). assert (A : j < length l1 -> In q (preds l1)).
      { intros L. rewrite Es, nth_error_app1 in Ex by auto. unfold preds. apply in_flat_map. exists x. split; auto. eapply nth_error_In; eauto. }
      split; auto. intros L. unfold preds. rewrite flat_map_app, in_app_iff. destruct (Nat.eq_dec j (length l1)) as [->|].
      - right. rewrite Es, nth_error_app2, Nat.sub_diag in Ex by lia. injection Ex as <-. cbn. rewrite app_nil_r. exact Iq.
      - left. apply A. lia. }
    constructor; try apply TS; auto.
    - intros f If. destruct (ts_facts TS f If) as (A & A'). split; auto. apply DC', A.
    - intros r Ir. apply DC'. apply (ts_preds TS r); auto. left; auto.
    - intros r l1 s l2 Ir Es Hs q Hq. unfold pos_preds in Hq. apply in_flat_map in Hq. destruct Hq as (l & Il & Hq). destruct l; try (destruct Hq; fail).
      destruct (pe_foreign N (a_pred a)) eqn:F; [destruct Hq|]. destruct Hq as [<-|[]].
      assert (R : PropsStrat.reads P r (a_pred a) false) by (constructor; auto; rewrite (ts_reg TS); auto).
      destruct (RD r _ _ Ir R) as (i & j & Hi & Hj & L & _). apply (IN l1 s l2) in Hi; auto. subst i. apply (UP l1 s l2 _ j); auto.
    - intros r l1 s l2 Ir Es Hs q Hq. unfold neg_preds in Hq. apply in_flat_map in Hq. destruct Hq as (l & Il & Hq). destruct l; try (destruct Hq; fail).
      destruct Hq as [<-|[]].
      assert (R : PropsStrat.reads P r (a_pred a) true).
      { constructor; auto. rewrite (ts_reg TS). destruct (ts_rules TS r Ir) as (h & body & -> & TR). apply (tr_foreign TR). auto. }
      destruct (RD r _ _ Ir R) as (i & j & Hi & Hj & _ & L). apply (IN l1 s l2) in Hi; auto. subst i. apply (UP l1 s l2 _ j); auto.
  Qed.

  (** The graph is built, the strata are found, the rules are lowered; the result
      has a model, and the facts that its models hold are those of the only stable
      model of the program. *)
  Theorem C54_compile : names_apart C (fun p => In p (map b_pred (p_rels P))) -> ag_local AG ->
    exists g ss xs J, dependency_graph P = Some g /\ stratify g (kosaraju g) = Some (inr ss) /\
      lower_strata C N inplace order (p_rules P) ss = Some (xs, []) /\
      rmodel (b_env B) (b_fp B) AG (fact_rels P) xs J /\
      forall J', rmodel (b_env B) (b_fp B) AG (fact_rels P) xs J' ->
        forall M, stable B P M <-> forall p vs, M p vs <-> decode C ss J' p vs.
  Proof.
    intros NA AL. destruct ts_graph as (g & G). destruct (ts_stratify G) as (ss & S). pose proof (ts_program G S) as TP.
    assert (NA' : names_apart C (fun p => In p (preds ss))).
    { destruct (dependency_graph_spec P g G) as (W & _ & _). destruct (C24_program _ _ _ _ G (SCC W) S) as [[_ DC] _].
      assert (DC' : forall q, In q (preds ss) -> In q (map b_pred (p_rels P))) by (intros q; rewrite <- DC; unfold preds; rewrite flat_map_concat_map; tauto).
      destruct NA as [A1 A2 A3 A4 A5 A6 A7 A8 A9]. constructor; auto; intros; intros K; apply DC' in K; [eapply A7|eapply A8|eapply A9]; eauto. }
    destruct (C54_typed B inplace order ORD NM TP NA' AL) as (xs & J & LOW & MJ & SJ & UJ).
    exists g, ss, xs, J. split; [exact G|]. split; [exact S|]. split; [exact LOW|]. split; [exact MJ|]. intros J' MJ' M. split.
    - intros SM p vs. rewrite <- (UJ J' MJ'). revert p vs. apply (@stable_unique B P sigma ST); auto.
      + intros r a Ir Ia. destruct (ts_rules TS r Ir) as (h & body & -> & _). destruct Ia as [<-|[]]. reflexivity.
      + intros r v f l Ir Il. destruct (ts_rules TS r Ir) as (h & body & -> & TR). pose proof (tr_no_new TR _ _ Il) as K. discriminate K.
    - intros E. apply (@stable_ext B P (decode C ss J)); auto. intros p vs. rewrite (E p vs). apply UJ, MJ'.
  Qed.
End Compile.
Print Assumptions C54_compile.

(** ** Example: reachability and unreachability
    [1 = edge, 2 = node, 3 = path, 4 = unreachable, 8 = far]:
    [path(x, y) :- edge(x, y)], [path(x, z) :- path(x, y), edge(y, z)],
    [unreachable(x, y) :- node(x), node(y), not path(x, y)],
    [far(x, d) :- path(x, y), d = y - x, d > 1]. *)
Definition ty_i32 : ty := vrank (I32 0 : value).
Definition C54_sig : pred -> list ty := fun p => match p with 2 => [ty_i32] | _ => [ty_i32; ty_i32] end.
Definition a2 p x y := mkAtom p [TVar x; TVar y].
Definition C54_rules : list rule :=
  [mkRule (HAtom (a2 3 0 1)) [LAtom (a2 1 0 1)];
   mkRule (HAtom (a2 3 0 2)) [LAtom (a2 3 0 1); LAtom (a2 1 1 2)];
   mkRule (HAtom (a2 4 0 1)) [LAtom (mkAtom 2 [TVar 0]); LAtom (mkAtom 2 [TVar 1]); LNeg (a2 3 0 1)];
   mkRule (HAtom (a2 8 0 2)) [LAtom (a2 3 0 1); LAssign 2 (ABin OSub (TVar 1) (TVar 0)); LBin CGt (TVar 2) (TConst (I32 1))]].
Definition C54_facts : list fact :=
  [mkFact 1 [I32 1; I32 2]; mkFact 1 [I32 2; I32 3]; mkFact 2 [I32 1]; mkFact 2 [I32 2]; mkFact 2 [I32 3]].
Definition C54_prog : program := mkProg (map (fun p => Back.mkRel p false) [1; 2; 3; 4; 8]) [4; 8] C54_facts C54_rules g1.
Definition C54_level (p : pred) : nat := match p with 4 => 1 | _ => 0 end.
Lemma C54_stratified_ex : PropsUnused.stratified C54_prog C54_level.
Proof.
  intros r Ir. split.
  - intros q b R. cbn in Ir. repeat (destruct Ir as [<-|Ir]); try (destruct Ir; fail);
      destruct R as [a I F|a I F|d I|d a I G]; no_more I; try injection I as <-; cbn; split; intros; try discriminate; lia.
  - intros f If. cbn in Ir. repeat (destruct Ir as [<-|Ir]); try (destruct Ir; fail); cbn in If; destruct If.
Qed.
Ltac each I := cbn in I; repeat (destruct I as [I|I]; [try discriminate I; try (injection I as <- <-); try (injection I as <-); try subst|]); try (destruct I; fail).
Ltac typed_ex := constructor;
  [exists (fun _ => ty_i32); split; [repeat constructor|intros l I; each I; repeat constructor]
  |intros a [I|I]; each I; reflexivity
  |intros l v I J; each I; each J; left
  |intros v J; each J
  |cbn; repeat constructor; cbn; tauto
  |intros v e a I J; each I; each J; cbn; lia
  |intros v e I; each I
  |left; intros a I; each I; cbn; repeat constructor; cbn; lia
  |intros a I; each I; left; intros t J; each J; reflexivity
  |intros; discriminate
  |reflexivity
  |apply N1_fresh; all_lt
  |intros a [I|I] i c J; each I; cbn in J; repeat (destruct i as [|i]; try discriminate J)].
Ltac lims := solve [eapply lim_atom; [left; reflexivity|reflexivity|cbn; tauto] | eapply lim_atom; [right; left; reflexivity|reflexivity|cbn; tauto]].
Lemma C54_source_ex : typed_source C1 N1 C54_sig C54_prog.
Proof.
  constructor.
  - intros r Ir. cbn in Ir. repeat (destruct Ir as [<-|Ir]); try (destruct Ir; fail); eexists; eexists; (split; [reflexivity|]).
    + typed_ex; lims.
    + typed_ex; lims.
    + typed_ex; lims.
    + match goal with |- typed_rule _ _ _ _ ?b => assert (L2 : limited N1 b 2) end.
      { eapply lim; [right; left; reflexivity|reflexivity|left; reflexivity|]. intros w J. each J; lims. }
      typed_ex; try exact L2; try lims. apply us_head. cbn. auto.
  - intros f If. cbn in If. repeat (destruct If as [<-|If]); try (destruct If; fail); (split; [cbn; tauto|split; [reflexivity|repeat constructor]]).
  - intros r p Ir Ip. cbn in Ir. repeat (destruct Ir as [<-|Ir]); try (destruct Ir; fail); cbn in Ip |- *; lia.
  - intros b Ib. cbn in Ib. repeat (destruct Ib as [<-|Ib]); try (destruct Ib; fail); reflexivity.
  - reflexivity.
  - reflexivity.
Qed.
(** Node 1 reaches 3 by two edges, 3 does not reach 1. *)
Definition sub3 (x y z : value) : var -> value := fun v => match v with 0 => x | 1 => y | _ => z end.
Ltac hd a := match goal with |- yields ?B ?g ?r ?s _ _ => exact (y_head B g r s a (or_introl eq_refl)) end.
Lemma C54_facts_ex : forall M, stable benv_none C54_prog M ->
  M 3 [I32 1; I32 3] /\ ~ M 3 [I32 3; I32 1] /\ M 4 [I32 3; I32 1] /\ M 8 [I32 1; I32 2].
Proof.
  intros M S.
  assert (P12 : der benv_none C54_prog M 3 [I32 1; I32 2]).
  { eapply der_rule with (r := nth 0 C54_rules (mkRule (HAtom (a2 0 0 0)) [])) (s := sub3 (I32 1) (I32 2) (I32 0)).
    - cbn. tauto.
    - intros a I _. each I. apply (der_fact _ _ _ (mkFact 1 [I32 1; I32 2])). cbn. tauto.
    - intros l I. each I. intros K. discriminate K.
    - hd (a2 3 0 1). }
  assert (P13 : der benv_none C54_prog M 3 [I32 1; I32 3]).
  { eapply der_rule with (r := nth 1 C54_rules (mkRule (HAtom (a2 0 0 0)) [])) (s := sub3 (I32 1) (I32 2) (I32 3)).
    - cbn. tauto.
    - intros a I _. each I; [exact P12|]. apply (der_fact _ _ _ (mkFact 1 [I32 2; I32 3])). cbn. tauto.
    - intros l I. each I; intros K; discriminate K.
    - hd (a2 3 0 2). }
  assert (UP : forall p vs, der benv_none C54_prog M p vs -> (p = 1 \/ p = 3) -> exists x y, vs = [I32 x; I32 y] /\ (x < y)%Z).
  { intros p vs D. induction D as [f If|r s p t Ir Hp IH Ho Y]; intros Hq.
    - cbn in If. repeat (destruct If as [<-|If]); try (destruct If; fail); cbn in *; try lia; eexists; eexists; (split; [reflexivity|lia]).
    - destruct Y as [a Ia|v f l J|v f l q t J K|a q t Ia K].
      2: { exfalso. cbn in Ir. repeat (destruct Ir as [<-|Ir]); try (destruct Ir; fail); each J. }
      2: { discriminate K. }
      2: { discriminate. }
      cbn in Ir. repeat (destruct Ir as [<-|Ir]); try (destruct Ir; fail); each Ia; cbn in Hq; try lia.
      + apply (IH (a2 1 0 1)); cbn; auto.
      + destruct (IH (a2 3 0 1)) as (x & y & E & L); cbn; auto. destruct (IH (a2 1 1 2)) as (x' & y' & E' & L'); cbn; auto.
        cbn in E, E'. injection E as E1 E2. injection E' as E3 E4. exists x, y'. split; [cbn; rewrite E1, E4; reflexivity|]. rewrite E2 in E3. injection E3 as ->. lia. }
  assert (N31 : ~ M 3 [I32 3; I32 1]).
  { intros K. apply S in K. destruct (UP _ _ K) as (x & y & E & L); auto. injection E as <- <-. lia. }
  split; [apply S; exact P13|]. split; [exact N31|]. split; apply S.
  - eapply der_rule with (r := nth 2 C54_rules (mkRule (HAtom (a2 0 0 0)) [])) (s := sub3 (I32 3) (I32 1) (I32 0)).
    + cbn. tauto.
    + intros a I _. each I; [apply (der_fact _ _ _ (mkFact 2 [I32 3]))|apply (der_fact _ _ _ (mkFact 2 [I32 1]))]; cbn; tauto.
    + intros l I. each I; try (intros K; discriminate K). exact N31.
    + hd (a2 4 0 1).
  - eapply der_rule with (r := nth 3 C54_rules (mkRule (HAtom (a2 0 0 0)) [])) (s := sub3 (I32 1) (I32 3) (I32 2)).
    + cbn. tauto.
    + intros a I _. each I. exact P13.
    + intros l I. each I; try (intros K; discriminate K); vm_compute; try reflexivity. auto.
    + hd (a2 8 0 2).
Qed.
Example C54_compile_ex : exists g ss xs J, dependency_graph C54_prog = Some g /\ stratify g (sccs_of g) = Some (inr ss) /\
  lower_strata C1 N1 (fun _ => false) same_order C54_rules ss = Some (xs, []) /\
  rmodel (b_env benv_none) (b_fp benv_none) (fun _ => no_ag) (fact_rels C54_prog) xs J /\
  J 3 (vtup [I32 1; I32 3]) /\ ~ J 3 (vtup [I32 3; I32 1]) /\ J 4 (vtup [I32 3; I32 1]) /\ J 8 (vtup [I32 1; I32 2]).
Proof.
  destruct (@C54_compile C1 N1 benv_none (fun _ => no_ag) C54_prog C54_sig (fun _ => false) same_order sccs_of (fun _ _ => id_order_ok)
    sccs_of_contract C1_names C54_source_ex C54_level C54_stratified_ex) as (g & ss & xs & J & G & S & LOW & MJ & UJ).
  - destruct C1_apart as [A1 A2 A3 A4 A5 A6 A7 A8 A9]. constructor; auto; intros; intros K; [apply (A7 i)|apply (A8 i)|apply (A9 p g)]; revert K; cbn; lia.
  - intros J J' agg p grp t _ _. tauto.
  - exists g, ss, xs, J. repeat (split; [assumption|]).
    destruct (C54_facts_ex (proj2 (UJ J MJ (decode C1 ss J)) (fun p vs => iff_refl _))) as ((_ & F1) & F2 & (_ & F3) & (_ & F4)).
    split; [exact F1|]. split; [|split; [exact F3|exact F4]]. intros K. apply F2. split; [|exact K].
    injection G as <-. vm_compute in S. injection S as <-. cbn. tauto.
Qed.
