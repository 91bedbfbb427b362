(** * C63: programs with relations computed on demand are compiled and run to the demanded part of their stable models
    The rules are optimized, transformed (Demand.v), freed of unused relations,
    stratified, planned, lowered and run; the outputs are the stable model of the
    program as written, restricted, for the relations on demand, to what is demanded. *)
From Coq Require Import List ZArith Bool Arith Lia Permutation.
From Verif Require Import Order Value Prov ListAux SortedCol SortedColFacts ProvInst Schedulers Relation View Dataflow Denote DataflowFacts DenFacts
  Iteration IterationFacts Views Back Eval Ram BackSem Optimize PropsOpt PropsOpt2 PropsOpt3 PropsOpt4 Scc SccFacts PropsStrat PropsUnused Dedup Increm Exec PropsExec
  Plan PlanSem PlanFacts PlanFacts2 PropsPlan VarTuple VarTupleFacts B2R RamSem B2RFacts B2RFacts2 B2RSpec B2RRule B2RScope PropsB2R B2RStrata
  StrataSem StrataFacts PropsStrata PropsTotal TypedProg PropsTyped PropsCompile PermOrder B2RWf PlanShape StrataWf RunSem RunFacts PropsRunProg
  Terminate RunTotal TermProg PropsTerm PropsTermProg Front FrontSem FrontFacts PropsFront FlatFacts PropsFlat PlanPad PadRun Flat0 OptPad FrontProg PropsFrontRun
  Demand PropsDemand.
Import ListNotations.
Set Implicit Arguments.
Local Open Scope nat_scope.

(** Without relations on demand the optimizations are those of C49. *)
Theorem C63_plain : forall attr arity dname E nb P, (forall b, In b (p_rels P) -> attr (b_pred b) = None) ->
  apply_optimizations_demand attr arity dname E nb P = apply_optimizations E nb P.
Proof.
  intros attr arity dname E nb P H. unfold apply_optimizations_demand, apply_optimizations, demand_transform.
  destruct (opt_rules E (p_reg P) nb (p_rules P)) as [rs| |]; try reflexivity. cbn [obindo p_rels].
  replace (collect_adornments attr arity dname (p_rels P)) with (Some (@nil (pred * adornment))); [reflexivity|].
  revert H. generalize (p_rels P). induction l as [|b l IH]; intros H; [reflexivity|]. cbn [collect_adornments]. rewrite (H b) by (left; auto). apply IH.
  intros; apply H; right; auto.
Qed.
Print Assumptions C63_plain.

(** ** The rules that are made *)
Lemma demand_simple : forall ads P P', demand_ok ads P -> demand_transform_with ads P = Some P' ->
  (forall r, In r (p_rules P) -> simple_rule r) -> forall r, In r (p_rules P') -> simple_rule r.
Proof.
  intros ads P P' OK TP SI x Hx.
  assert (NA : forall p ad, lookup p ads = Some ad -> lookup (ad_pred ad) ads = None) by (intros p ad H; apply (ok_foreign _ _ OK p ad H)).
  destruct (transform_spec _ _ _ TP) as (_ & _ & _ & Hsp).
  assert (NEW : forall r r', In r (p_rules P) -> tr ads r = Some r' -> forall v f l, ~ In (LAssign v (ANew f l)) (r_body r')).
  { intros r r' Hr T v f l J. destruct (SI r Hr) as [_ E]. destruct (tr_shape _ _ _ T) as [_ [[_ Q]|(e & h & _ & _ & Q)]]; rewrite Q in J.
    - apply new_functor_In in J. rewrite E in J. contradiction.
    - apply in_app_or in J. destruct J as [J|[J|[]]]; [|discriminate]. apply new_functor_In in J. rewrite E in J. contradiction. }
  destruct (Hsp x Hx) as [(r & Hr & T)|(r & r' & d & Hr & T & Ed & Hd)].
  - split; [|apply no_new; eapply NEW; eauto]. destruct (tr_shape _ _ _ T) as [-> _]. apply (SI r Hr).
  - unfold demand_of in Ed. destruct (contains_on_demand ads r') eqn:C; [|injection Ed as <-; contradiction].
    destruct (rule_arcs ads r r' T NA (ok_pass _ _ OK r Hr)) as (arcs & Eg & Ly & Inc).
    unfold generate_demand_rules in Ed. rewrite Eg in Ed. cbn [obnd] in Ed.
    destruct (omap arc_rules arcs) as [dl|] eqn:Edl; [|discriminate]. cbn [obnd] in Ed. injection Ed as <-.
    destruct (demand_rules_In _ _ Edl) as [_ D2]. destruct (D2 x Hd) as (arc & o & l & Ha & Ho & El & Hxl).
    destruct (demand_rule_cases _ _ _ El) as [[-> _]|(b & Ib & ->)]; [contradiction|]. destruct Hxl as [<-|[]].
    split; [eexists; reflexivity|]. apply no_new. cbn [r_body]. intros v f k J. eapply NEW; [exact Hr|exact T|]. apply (Inc _ Ha), Ib, J.
Qed.

(** ** Conditions
    The rules assign and compare as C49 asks; what they are optimized to has the
    demand of every atom computable (C62) and is stratified; what is left after the
    transformation is stratified, and typed once unused relations are removed. *)
Record demand_source (B : benv) (attr : pred -> option String.string) (arity : pred -> nat) (dname : pred -> pattern -> pred) (nb : pred -> nat)
    (C : cenv) (N : penv) (sig : pred -> list ty) (sigma sigma' : pred -> nat)
    (P : program) (extra : list fact) (ads : adornments) (P' U : program) : Prop := {
  ds_rules : forall r, In r (p_rules P) -> tame (r_body r) /\ NoDup (PropsOpt2.eq_vars (r_body r)) /\ exists a, r_head r = HAtom a;
  ds_ads : collect_adornments attr arity dname (p_rels P) = Some ads;
  ds_opt : exists rs, opt_rules (b_env B) (p_reg P) nb (p_rules P) = Fine rs /\
    PropsUnused.stratified (mkProg (p_rels P) (p_outputs P) (p_facts P) (remove_false_rules rs) (p_reg P)) sigma /\
    demand_ok ads (mkProg (p_rels P) (p_outputs P) (p_facts P) (remove_false_rules rs) (p_reg P));
  ds_made : apply_optimizations_demand attr arity dname (b_env B) nb P = Fine P';
  ds_strat : PropsUnused.stratified (with_facts P' extra) sigma';
  ds_used : remove_unused P' = Some U;
  ds_typed : typed_source C N sig (with_facts U extra) }.

Lemma with_facts_transform : forall ads P P' extra, demand_transform_with ads P = Some P' -> demand_transform_with ads (with_facts P extra) = Some (with_facts P' extra).
Proof.
  intros ads P P' extra H. unfold demand_transform_with in *. destruct ads as [|a ads]; [injection H as <-; reflexivity|]. cbn [p_rules with_facts].
  destruct (transform_rules (a :: ads) (p_rules P)) as [[[ts ds] os]|]; [|discriminate H]. cbn [obnd] in *. injection H as <-. reflexivity.
Qed.
Lemma with_facts_ok : forall ads P extra, demand_ok ads P -> demand_ok ads (with_facts P extra).
Proof.
  intros ads P extra [A1 A2 A3 A4 A5]. constructor; auto. intros r q b I R. apply (A2 r q b I). destruct R; [apply reads_pos|apply reads_neg|apply reads_red|eapply reads_grp]; eauto.
Qed.

(** What is known of the transformed program. *)
Lemma demand_models : forall B attr arity dname nb C N sig sigma sigma' P extra ads P' U,
  demand_source B attr arity dname nb C N sig sigma sigma' P extra ads P' U ->
  wf_heads (with_facts P' extra) /\ wf_functors (with_facts P' extra) /\ p_outputs P' = p_outputs P /\ incl (p_rels P) (p_rels P') /\
  (exists M, stable B (with_facts P extra) M) /\
  forall M M', stable B (with_facts P extra) M -> stable B (with_facts P' extra) M' ->
  (forall p t, ~ demand_name ads p -> M' p t -> M p t) /\
  (forall p t, ~ demand_name ads p -> lookup p ads = None -> M p t -> M' p t) /\
  (forall p ad t, lookup p ads = Some ad -> M' (ad_pred ad) (pick (ad_pattern ad) t) -> M p t -> M' p t) /\
  (forall p ad t, lookup p ads = Some ad -> ~ demand_name ads p -> M' p t -> In (mkFact p t) (p_facts P ++ extra) \/ M' (ad_pred ad) (pick (ad_pattern ad) t)) /\
  (forall p t, In (mkFact p t) (p_facts P ++ extra) -> M p t /\ M' p t).
Proof.
  intros B attr arity dname nb C N sig sigma sigma' P extra ads P' U [OK AD (rs & O & St & DO) MK ST' RU TS].
  set (Q := mkProg (p_rels P) (p_outputs P) (p_facts P) (remove_false_rules rs) (p_reg P)) in *.
  assert (SI : forall r, In r (p_rules Q) -> simple_rule r).
  { intros r I. apply filter_In in I. eapply optimized_rules; [exact O|exact OK|apply I]. }
  unfold apply_optimizations_demand in MK. rewrite O in MK. cbn [obindo] in MK. fold Q in MK. unfold demand_transform in MK. change (p_rels Q) with (p_rels P) in MK. rewrite AD in MK. cbn [obnd] in MK.
  destruct (demand_transform_with ads Q) as [Q'|] eqn:TQ; [|discriminate MK]. destruct (empty_to_fact (p_rules Q')) as [[ks fs]|] eqn:Ef; [|discriminate MK]. injection MK as <-.
  pose proof (demand_simple DO TQ SI) as SI'.
  assert (WFS : forall R : program, (forall r, In r (p_rules R) -> simple_rule r) -> wf_heads R /\ wf_functors R).
  { intros R SR. split.
    - intros r a I J. destruct (SR r I) as [(a0 & E) _]. unfold r_pred. rewrite E in *. destruct J as [<-|[]]. reflexivity.
    - intros r v f l I J. exfalso. destruct (SR r I) as [_ E]. assert (K : In f (new_functors r)) by (eapply new_functor_In; eauto). rewrite E in K. destruct K. }
  assert (KS : forall r, In r ks -> In r (p_rules Q')).
  { revert ks fs Ef ST' RU. clear. intros ks fs Ef _ _. revert ks fs Ef. generalize (p_rules Q'). induction l as [|x l IH]; intros ks fs E r I; cbn [empty_to_fact] in E; [injection E as <- <-; destruct I|].
    destruct (empty_to_fact l) as [[k1 f1]|]; [|discriminate]. specialize (IH k1 f1 eq_refl r).
    destruct (r_body x), (r_head x); try (injection E as <- <-; destruct I as [<-|I]; [left; auto|right; auto]).
    destruct (Optimize.consts (a_args a)); [|discriminate]. injection E as <- <-. right; auto. }
  set (P1 := mkProg (p_rels Q') (p_outputs Q') (p_facts Q' ++ fs) ks (p_reg Q')) in *.
  destruct (WFS (with_facts P1 extra)) as [W1 W2]; [intros r I; apply SI', KS, I|].
  destruct (WFS (with_facts Q extra)) as [V1 V2]; [exact SI|].
  destruct (transform_spec _ _ _ TQ) as (Er & Ef' & _).
  assert (St' : PropsUnused.stratified (with_facts Q extra) sigma).
  { intros r I. destruct (St r I) as [H1 H2]. split; [|exact H2]. intros q b R. apply H1. destruct R; [apply reads_pos|apply reads_neg|apply reads_red|eapply reads_grp]; eauto. }
  assert (S1 : forall M, stable B (with_facts P extra) M <-> stable B (with_facts Q extra) M).
  { intros M. apply (@opted_stable B nb (with_facts P extra) rs); [|exact O]. intros r r' I R. destruct (OK r I) as (T & ND & _). eapply tame_same; eauto. }
  assert (S2 : forall M, stable B (with_facts Q' extra) M <-> stable B (with_facts P1 extra) M).
  { intros M. rewrite (@to_fact_stable B (with_facts Q' extra) ks fs Ef M). apply stable_facts; try reflexivity. intros f. cbn. rewrite !in_app_iff. tauto. }
  split; [exact W1|]. split; [exact W2|].
  assert (SH : p_outputs Q' = p_outputs P /\ incl (p_rels P) (p_rels Q')).
  { unfold demand_transform_with in TQ. destruct ads as [|a ads]; [injection TQ as <-; split; [reflexivity|apply incl_refl]|].
    destruct (transform_rules (a :: ads) (p_rules Q)) as [[[ts ds] os]|]; [|discriminate TQ]. cbn [obnd] in TQ. injection TQ as <-. split; [reflexivity|]. apply incl_appl, incl_refl. }
  split; [apply SH|]. split; [apply SH|]. split.
  { destruct (@stable_exists B _ sigma St' V1 V2) as (M & HM). exists M. apply S1. exact HM. }
  intros M M' HM HM'. apply S1 in HM. apply S2 in HM'.
  pose proof (with_facts_transform ads Q extra TQ) as TQX. pose proof (with_facts_ok extra DO) as DOX.
  destruct (C62_demand_partial B ads _ _ sigma M M' St' V1 V2 DOX TQX HM HM') as (D1 & D2 & D3).
  split; [exact D1|]. split; [exact D2|]. split; [exact D3|]. split.
  - intros p ad t L ND H. destruct (in_dec Nat.eq_dec p (g_adts (p_reg P))) as [J|J].
    + exfalso. pose proof (ts_adts TS) as A. unfold remove_unused in RU. destruct (dependency_graph P1); [|discriminate RU]. destruct (unused_relations _ _); [|discriminate RU]. injection RU as <-.
      cbn in A. rewrite Er in A. cbn in A. rewrite A in J. exact J.
    + exact (C62_relevant_partial B ads _ _ M' V1 V2 DOX TQX HM' p ad t L ND J H).
  - intros p t I. split; [apply HM|apply HM']; [apply (der_fact B (with_facts Q extra) M (mkFact p t) I)|].
    apply (der_fact B (with_facts Q' extra) M' (mkFact p t)). cbn. rewrite Ef'. exact I.
Qed.

(** What a relation holds: all that the program as written derives, or, on demand, what
    is given as a fact or demanded by the program that is made. *)
Definition answered (ads : adornments) (facts : list fact) (M M' : interp) (p : pred) (vs : list value) : Prop :=
  M p vs /\ forall ad, lookup p ads = Some ad -> In (mkFact p vs) facts \/ M' (ad_pred ad) (pick (ad_pattern ad) vs).
Lemma demand_answers : forall B attr arity dname nb C N sig sigma sigma' P extra ads P' U M M' MU p,
  demand_source B attr arity dname nb C N sig sigma sigma' P extra ads P' U ->
  stable B (with_facts P extra) M -> stable B (with_facts P' extra) M' -> stable B (with_facts U extra) MU ->
  In p (p_outputs P) -> ~ demand_name ads p -> forall vs, MU p vs <-> answered ads (p_facts P ++ extra) M M' p vs.
Proof.
  intros B attr arity dname nb C N sig sigma sigma' P extra ads P' U M M' MU p DS HM HM' HU Op ND vs.
  destruct (demand_models DS) as (WH & WF & EO & _ & _ & K). destruct (K M M' HM HM') as (K1 & K2 & K3 & K4 & K5). destruct DS as [_ _ _ _ SG RU TS].
  assert (EX : forall f, In f extra -> In (f_pred f) (map b_pred (p_rels U))) by (intros f I; destruct (ts_facts TS f) as [H _]; [cbn; apply in_or_app; auto|exact H]).
  pose proof (@unused_facts P' U extra RU EX) as RX.
  assert (DG : exists g, dependency_graph (with_facts P' extra) = Some g).
  { unfold remove_unused in RX. destruct (dependency_graph (with_facts P' extra)) as [g|]; [eauto|discriminate]. }
  destruct DG as (g0 & DG). pose proof (@removal_stratified _ _ g0 DG RX sigma' SG) as SU.
  assert (AG := @removal_agree B _ _ g0 DG RX sigma' SU WH WF M' MU HM' HU p). rewrite <- AG; [|right; left; cbn [p_outputs with_facts]; rewrite EO; exact Op]. unfold answered. split.
  - intros H. split; [apply K1; auto|]. intros ad L. eapply K4; eauto.
  - intros [H1 H2]. destruct (lookup p ads) as [ad|] eqn:L; [|apply K2; auto]. destruct (H2 ad eq_refl) as [H|H]; [apply K5; exact H|eapply K3; eauto].
Qed.
Lemma demand_outputs : forall B attr arity dname nb C N sig sigma sigma' P extra ads P' U p,
  demand_source B attr arity dname nb C N sig sigma sigma' P extra ads P' U -> In p (p_outputs P) -> In p (map b_pred (p_rels P)) -> In p (p_outputs U) /\ In p (map b_pred (p_rels U)).
Proof.
  intros B attr arity dname nb C N sig sigma sigma' P extra ads P' U p DS I D. destruct (demand_models DS) as (_ & _ & EO & ER & _).
  apply (@unused_outputs P' U p (ds_used DS)); [rewrite EO; exact I|]. apply in_map_iff in D. destruct D as (b & <- & D). apply in_map, ER, D.
Qed.
Lemma demand_used_stratified : forall B attr arity dname nb C N sig sigma sigma' P extra ads P' U,
  demand_source B attr arity dname nb C N sig sigma sigma' P extra ads P' U -> PropsUnused.stratified (with_facts U extra) sigma' /\ exists M', stable B (with_facts P' extra) M'.
Proof.
  intros B attr arity dname nb C N sig sigma sigma' P extra ads P' U DS. destruct (demand_models DS) as (WH & WF & _). destruct DS as [_ _ _ _ SG RU TS].
  split; [|apply (@stable_exists B _ sigma' SG WH WF)].
  assert (EX : forall f, In f extra -> In (f_pred f) (map b_pred (p_rels U))) by (intros f I; destruct (ts_facts TS f) as [H _]; [cbn; apply in_or_app; auto|exact H]).
  pose proof (@unused_facts P' U extra RU EX) as RX. pose proof RX as RX'. unfold remove_unused in RX'.
  destruct (dependency_graph (with_facts P' extra)) as [g|] eqn:DG; [|discriminate]. exact (@removal_stratified _ _ g DG RX sigma' SG).
Qed.

(** ** Compiling and running *)
Theorem C63_run_partial : forall (P : Prov) (IT X : Type) (E : rtenv P IT X) attr arity dname C N B nb Pr extra ads Po U sig sigma sigma' order kosaraju
    (tag_of : fact -> option IT) is_adt sched_of (c : ctx P IT X),
  (forall ps r l, Permutation (order ps r l) l) -> (forall g, wf_graph g -> scc_contract g (kosaraju g)) ->
  names_ok C -> names_apart C (fun p => In p (map b_pred (p_rels U))) ->
  (forall r, ce_iv C r = false) -> (forall b, In b (p_rels U) -> ce_shape C (b_pred b) = SPlain) ->
  demand_source B attr arity dname nb C N sig sigma sigma' Pr extra ads Po U ->
  rt_ok E -> (forall m, l_env (c_lenv E m) = b_env B) ->
  (forall f, In f (p_facts U) -> c_intern E (vtup (f_args f)) = Some (vtup (f_args f))) ->
  (forall p, sched_of p <> Some (Beam 0)) ->
  (forall a b, pminus P a b = None) \/ (forall r a, In r (p_rules U) -> ~ In (LNeg a) (r_body r)) ->
  (forall r t, stored E (e_get (x_edb c) r) t <-> exists f, In f extra /\ r = f_pred f /\ t = vtup (f_args f)) ->
  exists g ss xs, apply_optimizations_demand attr arity dname (b_env B) nb Pr = Fine Po /\ remove_unused Po = Some U /\
    dependency_graph U = Some g /\ stratify g (kosaraju g) = Some (inr ss) /\
    lower_strata C N (fun _ => false) order (p_rules U) ss = Some (xs, []) /\
    (exists M, stable B (with_facts Pr extra) M) /\ (exists M', stable B (with_facts Po extra) M') /\
    forall inc fuel c', execute E inc fuel (Some (xprog_of tag_of is_adt sched_of U xs)) c = Some c' ->
      forall M M', stable B (with_facts Pr extra) M -> stable B (with_facts Po extra) M' ->
      forall p, In p (p_outputs Pr) -> In p (map b_pred (p_rels Pr)) -> ~ demand_name ads p ->
      exists col, aget p (x_idb c') = Some col /\
        forall t, (exists g, In (t, g) col) <-> exists vs, t = vtup vs /\ answered ads (p_facts Pr ++ extra) M M' p vs.
Proof.
  intros P IT X E attr arity dname C N B nb Pr extra ads Po U sig sigma sigma' order kosaraju tag_of is_adt sched_of c ORD SCC NM NA IV PL DS RT ENV INT SCH NEG STO.
  destruct (demand_used_stratified DS) as [SU EM'].
  destruct (@C56_run_partial P IT X E C N B U extra sig sigma' order kosaraju tag_of is_adt sched_of c ORD SCC NM NA IV PL (ds_typed DS) SU RT ENV INT SCH NEG STO)
    as (g & ss & xs & G & S & L & (MU & HU) & RUN).
  exists g, ss, xs. split; [apply (ds_made DS)|]. split; [apply (ds_used DS)|]. split; [exact G|]. split; [exact S|]. split; [exact L|]. split; [apply (demand_models DS)|]. split; [exact EM'|].
  intros inc fuel c' EX M M' HM HM' p Op Dp ND. destruct (demand_outputs p DS Op Dp) as [Op1 Dp1]. destruct (RUN inc fuel c' EX MU HU p Op1 Dp1) as (col & K1 & K2). exists col. split; [exact K1|].
  intros t. rewrite K2. split; intros (vs & -> & H); exists vs; (split; [reflexivity|]); apply (demand_answers DS HM HM' HU Op ND); exact H.
Qed.
Print Assumptions C63_run_partial.
(** The relations that are not on demand are complete. *)
Theorem C63_complete : forall ads facts M M' p vs, lookup p ads = None -> answered ads facts M M' p vs <-> M p vs.
Proof. intros ads facts M M' p vs L. unfold answered. split; [tauto|]. intros H. split; [exact H|]. intros ad K. congruence. Qed.

(** And the run ends, if the facts of the transformed program are finitely many or none
    of its recursive rules evaluates expressions, unless a round gallops. *)
Theorem C63_total_partial : forall (P : Prov) (IT X : Type) (E : rtenv P IT X) attr arity dname C N B nb Pr extra ads Po U sig sigma sigma' order kosaraju
    (tag_of : fact -> option IT) is_adt sched_of (c : ctx P IT X),
  (forall ps r l, Permutation (order ps r l) l) -> (forall g, wf_graph g -> scc_contract g (kosaraju g)) ->
  names_ok C -> names_apart C (fun p => In p (map b_pred (p_rels U))) ->
  (forall r, ce_iv C r = false) -> (forall b, In b (p_rels U) -> ce_shape C (b_pred b) = SPlain) ->
  demand_source B attr arity dname nb C N sig sigma sigma' Pr extra ads Po U ->
  rt_ok E -> (forall m, l_env (c_lenv E m) = b_env B) ->
  (forall f, In f (p_facts U) -> c_intern E (vtup (f_args f)) = Some (vtup (f_args f))) ->
  (forall a b, pminus P a b = None) \/ (forall r a, In r (p_rules U) -> ~ In (LNeg a) (r_body r)) ->
  (forall r t, stored E (e_get (x_edb c) r) t <-> exists f, In f extra /\ r = f_pred f /\ t = vtup (f_args f)) ->
  improving P -> c_default E = LFP -> (forall p, sched_of p = None \/ sched_of p = Some LFP) ->
  (forall r, e_progint (e_get (x_edb c) r) = false) ->
  (forall M, stable B (with_facts U extra) M -> finite_model M) \/ (exists rank, ranked (with_facts U extra) rank) ->
  exists g ss xs M M', apply_optimizations_demand attr arity dname (b_env B) nb Pr = Fine Po /\ remove_unused Po = Some U /\
    dependency_graph U = Some g /\ stratify g (kosaraju g) = Some (inr ss) /\
    lower_strata C N (fun _ => false) order (p_rules U) ss = Some (xs, []) /\
    stable B (with_facts Pr extra) M /\ stable B (with_facts Po extra) M' /\
    forall inc,
    (exists R c', (forall fuel, R <= fuel -> execute E inc fuel (Some (xprog_of tag_of is_adt sched_of U xs)) c = Some c') /\
      forall p, In p (p_outputs Pr) -> In p (map b_pred (p_rels Pr)) -> ~ demand_name ads p ->
      exists col, aget p (x_idb c') = Some col /\ forall t, (exists g, In (t, g) col) <-> exists vs, t = vtup vs /\ answered ads (p_facts Pr ++ extra) M M' p vs) \/
    (exists d, start_facts E (xprog_of tag_of is_adt sched_of U xs) c = Some d /\ run_gallops E inc (xprog_of tag_of is_adt sched_of U xs) d).
Proof.
  intros P IT X E attr arity dname C N B nb Pr extra ads Po U sig sigma sigma' order kosaraju tag_of is_adt sched_of c ORD SCC NM NA IV PL DS RT ENV INT NEG STO IMP LD LS FRESH FIN.
  destruct (demand_used_stratified DS) as [SU (M' & HM')].
  destruct (@C57_run_partial P IT X E C N B U extra sig sigma' order kosaraju tag_of is_adt sched_of c ORD SCC NM NA IV PL (ds_typed DS) SU RT ENV INT NEG STO IMP LD LS FRESH)
    as (g & ss & xs & MU & G & S & L & HU & RUN).
  { destruct FIN as [FIN|(rank & FIN)]; [exact FIN|]. intros M HM. exact (@C57_finite C N B _ sig rank (ds_typed DS) FIN M HM). }
  destruct (demand_models DS) as (_ & _ & _ & _ & (M & HM) & _).
  exists g, ss, xs, M, M'. split; [apply (ds_made DS)|]. split; [apply (ds_used DS)|]. split; [exact G|]. split; [exact S|]. split; [exact L|]. split; [exact HM|]. split; [exact HM'|].
  intros inc. destruct (RUN inc) as [(R & c' & EX & K)|H]; [left|right; exact H]. exists R, c'. split; [exact EX|]. intros p Op Dp ND. destruct (demand_outputs p DS Op Dp) as [Op1 Dp1].
  destruct (K p Op1 Dp1) as (col & K1 & K2). exists col. split; [exact K1|].
  intros t. rewrite K2. split; intros (vs & -> & H); exists vs; (split; [reflexivity|]); apply (demand_answers DS HM HM' HU Op ND); exact H.
Qed.
Print Assumptions C63_total_partial.

(** ** Example
    [1 = edge, 3 = path] (on demand in its first argument), [4 = from]:
    [path(x, y) = edge(x, y)], [path(x, z) = edge(x, y) and path(y, z)],
    [from(y) = path(x, y) and x == 2]; the context stores [edge(3, 4)].  The demand
    [13 = demand_path] starts from a rule without body, which becomes a fact. *)
Definition C63_prog : program := mkProg (map (fun p => Back.mkRel p false) [1; 3; 4]) [3; 4]
  [mkFact 1 [I32 1; I32 2]; mkFact 1 [I32 2; I32 3]; mkFact 1 [I32 7; I32 8]]
  [mkRule (HAtom (tv2 3 0 1)) [LAtom (tv2 1 0 1)];
   mkRule (HAtom (tv2 3 0 2)) [LAtom (tv2 1 0 1); LAtom (tv2 3 1 2)];
   mkRule (HAtom (at1 4 1)) [LAtom (tv2 3 0 1); LBin CEq (TVar 0) (TConst (I32 2))]] g1.
Definition C63_attr (p : pred) : option String.string := if p =? 3 then Some (letters [true; false]) else None.
Definition C63_ads : adornments := [(3, mkAdorn [true; false] 13)].
Definition C63_made : program := mkProg (map (fun p => Back.mkRel p false) [1; 3; 4; 13]) [3; 4]
  (p_facts C63_prog ++ [mkFact 13 [I32 2]])
  [mkRule (HAtom (tv2 3 0 1)) [LAtom (tv2 1 0 1); LAtom (at1 13 0)];
   mkRule (HAtom (tv2 3 0 2)) [LAtom (tv2 1 0 1); LAtom (tv2 3 1 2); LAtom (at1 13 0)];
   mkRule (HAtom (at1 13 1)) [LAtom (tv2 1 0 1); LAtom (at1 13 0)];
   mkRule (HAtom (at1 4 1)) [LAtom (mkAtom 3 [TConst (I32 2); TVar 1])]] g1.
Definition C63_extra : list fact := [mkFact 1 [I32 3; I32 4]].
Definition C63_C : cenv := mkCenv (ce_temp C3) (ce_ntemp C3) (ce_perm C3) (ce_const C3) (ce_static C3) (ce_bounded C3) (ce_shape C3) (Nat.eqb 13) (ce_iv C3) (ce_hash C3) (ce_sort C3).
Definition C63_sig : pred -> list ty := fun p => match p with 4 | 13 => [ty_i32] | _ => [ty_i32; ty_i32] end.
Definition C63_level (p : pred) : nat := match p with 4 => 1 | _ => 0 end.
Definition C63_ctx (P : Prov) : ctx P (ptag P) nat := mkCtx (add_dynamic 1 [(None, vtup [I32 3; I32 4])] []) false [] [] 0.

Ltac rules3 H := cbn in H; repeat (destruct H as [<-|H]); try (destruct H; fail).
Lemma C63_source_ex : demand_source benv_none C63_attr (fun _ => 2) (fun p _ => 10 + p) (fun _ => 0) C63_C N1 C63_sig C63_level C63_level C63_prog C63_extra C63_ads C63_made C63_made.
Proof.
  constructor.
  - intros r I. rules3 I; (split; [constructor|split; [|eexists; reflexivity]]); cbn; unfold mentions;
      repeat (constructor; cbn; try (intuition discriminate));
      try (intros; repeat match goal with H : _ \/ _ |- _ => destruct H end; try discriminate; try contradiction; subst; intuition discriminate).
  - vm_compute. reflexivity.
  - eexists. split; [vm_compute; reflexivity|]. set (Q := mkProg _ _ _ _ _).
    assert (RQ : forall r, In r (p_rules Q) -> In r [mkRule (HAtom (tv2 3 0 1)) [LAtom (tv2 1 0 1)]; mkRule (HAtom (tv2 3 0 2)) [LAtom (tv2 1 0 1); LAtom (tv2 3 1 2)];
       mkRule (HAtom (at1 4 1)) [LAtom (mkAtom 3 [TConst (I32 2); TVar 1])]]) by (vm_compute; tauto).
    split.
    + intros r Hr. apply RQ in Hr. split.
      * intros q b Rq. rules3 Hr; destruct Rq as [a I F|a I F|d I|d a I G]; no_more I; injection I as <-; cbn; split; intros; try discriminate; lia.
      * intros f Hf. rules3 Hr; cbn in Hf; destruct Hf.
    + assert (LK : forall p ad, lookup p C63_ads = Some ad -> p = 3 /\ ad = mkAdorn [true; false] 13).
      { intros p ad L. cbn in L. destruct (Nat.eqb_spec p 3) as [->|]; [injection L as <-; auto|discriminate]. }
      constructor.
      * intros p ad L. apply LK in L. destruct L as [-> ->]. auto.
      * intros r q b Hr Rq (q' & ad & L & <-). apply LK in L. destruct L as [-> ->]. apply RQ in Hr. cbn in Rq. rules3 Hr; inversion Rq as [a I F Q1|a I F Q1|d I Q1|d a I G Q1]; no_more I; injection I as <-; discriminate.
      * intros r d Hr Hd. apply RQ in Hr. rules3 Hr; no_more Hd.
      * intros r Hr _. apply RQ in Hr. rules3 Hr; auto.
      * intros r Hr. apply RQ in Hr. right. split.
        -- intros a ad v [Ho L] N. apply LK in L. destruct L as [L ->]. unfold needed in N. rules3 Hr.
           ++ destruct Ho as [Ho|Ho]; no_more Ho; injection Ho as <-; discriminate.
           ++ destruct Ho as [Ho|Ho]; no_more Ho; injection Ho as <-; try discriminate. cbn in N. destruct N as [N|[]]. injection N as <-.
              eapply k_atom with (a := tv2 1 0 1); [left; reflexivity|reflexivity|right; left; reflexivity].
           ++ destruct Ho as [Ho|Ho]; no_more Ho; injection Ho as <-; try discriminate. cbn in N. destruct N as [N|[]]. discriminate.
        -- intros a Ia. rules3 Hr; no_more Ia.
  - vm_compute. reflexivity.
  - intros r Hr. split.
    + intros q b Rq. rules3 Hr; destruct Rq as [a I F|a I F|d I|d a I G]; no_more I; injection I as <-; cbn; split; intros; try discriminate; lia.
    + intros f Hf. rules3 Hr; cbn in Hf; destruct Hf.
  - vm_compute. reflexivity.
  - constructor.
    + intros r Ir. rules3 Ir; eexists; eexists; (split; [reflexivity|]); typed_ex2; try lims.
      injection J as <-. cbn. lia.
    + intros f If. rules3 If; (split; [cbn; tauto|split; [reflexivity|repeat constructor]]).
    + intros r p Ir Ip. rules3 Ir; cbn in Ip |- *; lia.
    + intros b Ib. rules3 Ib; reflexivity.
    + reflexivity.
    + reflexivity.
Qed.
Definition C63_lowered : list rstratum :=
  match dependency_graph C63_made with
  | Some g => match stratify g (sccs_of g) with
              | Some (inr ss) => match lower_strata C63_C N1 (fun _ => false) same_order (p_rules C63_made) ss with Some (xs, _) => xs | None => [] end
              | _ => []
              end
  | None => []
  end.
Lemma C63_stored_ex : forall (P : Prov) r t, stored (yE P) (e_get (x_edb (C63_ctx P)) r) t <-> exists f, In f C63_extra /\ r = f_pred f /\ t = vtup (f_args f).
Proof.
  intros P r t. unfold C63_ctx, add_dynamic, stored. cbn [x_edb]. rewrite e_get_aset. destruct (Nat.eqb_spec r 1) as [->|N].
  - cbn. split.
    + intros [(g & [])|(o & u & [K|[]] & J)]. injection K as <- <-. injection J as <-. eexists. split; [left; reflexivity|]. auto.
    + intros (f & [<-|[]] & _ & ->). right. eexists. eexists. split; [left; reflexivity|reflexivity].
  - cbn. split; [intros [(g & [])|(o & u & [] & _)]|]. intros (f & [<-|[]] & K & _). contradiction.
Qed.
Lemma C63_apart : names_apart C63_C (fun p => In p (map b_pred (p_rels C63_made))).
Proof. destruct C3_apart as [A1 A2 A3 A4 A5 A6 A7 A8 A9]. constructor; auto; intros; intros K; [apply (A7 i)|apply (A8 i)|apply (A9 p g)]; revert K; cbn -[Nat.mul]; lia. Qed.
Lemma C63_names : names_ok C63_C.
Proof. destruct C3_names. constructor; auto. Qed.
Lemma C63_outs : forall p, In p [3; 4] -> In p (p_outputs C63_prog) /\ In p (map b_pred (p_rels C63_prog)) /\ ~ demand_name C63_ads p.
Proof.
  intros p I. split; [exact I|]. split; [cbn in I |- *; lia|]. intros (q & ad & L & E). cbn in L. destruct (q =? 3); [injection L as <-; cbn in E; cbn in I; lia|discriminate].
Qed.
(** The run answers [from] as the program says and lists only the paths from where it
    starts: not those from 1 and 7. *)
Example C63_ex : exists c', apply_optimizations_demand C63_attr (fun _ => 2) (fun p _ => 10 + p) env_none (fun _ => 0) C63_prog = Fine C63_made /\
  remove_unused C63_made = Some C63_made /\
  execute (yE unit_prov) false 20 (Some (xprog_of (fun _ => None) (fun _ => false) (fun _ => None) C63_made C63_lowered)) (C63_ctx unit_prov) = Some c' /\
  (forall M M', stable benv_none (with_facts C63_prog C63_extra) M -> stable benv_none (with_facts C63_made C63_extra) M' -> forall p, In p [3; 4] ->
    exists col, aget p (x_idb c') = Some col /\ forall t, (exists g, In (t, g) col) <-> exists vs, t = vtup vs /\ answered C63_ads (p_facts C63_prog ++ C63_extra) M M' p vs) /\
  option_map pairs (aget 4 (x_idb c')) = Some [vtup [I32 3]; vtup [I32 4]] /\
  option_map pairs (aget 3 (x_idb c')) = Some [vtup [I32 2; I32 3]; vtup [I32 2; I32 4]; vtup [I32 3; I32 4]].
Proof.
  destruct (@C63_run_partial unit_prov unit nat (yE unit_prov) C63_attr (fun _ => 2) (fun p _ => 10 + p) C63_C N1 benv_none (fun _ => 0) C63_prog C63_extra C63_ads C63_made C63_made
    C63_sig C63_level C63_level same_order sccs_of (fun _ => None) (fun _ => false) (fun _ => None) (C63_ctx unit_prov)) as (g & ss & xs & OP & RU & G & S & LOW & _ & _ & RUN).
  - intros ps r l. apply id_order_ok.
  - apply sccs_of_contract.
  - exact C63_names.
  - exact C63_apart.
  - reflexivity.
  - reflexivity.
  - exact C63_source_ex.
  - split; cbn; congruence.
  - reflexivity.
  - reflexivity.
  - intros p. discriminate.
  - left. reflexivity.
  - apply C63_stored_ex.
  - assert (EX : C63_lowered = xs) by (unfold C63_lowered; rewrite G, S, LOW; reflexivity).
    eexists. split; [exact OP|]. split; [exact RU|]. split; [vm_compute; reflexivity|]. split.
    + intros M M' HM HM' p Ip. destruct (C63_outs Ip) as (I1 & I2 & I3). eapply (RUN false 20); eauto. rewrite <- EX. vm_compute. reflexivity.
    + vm_compute. repeat split.
Qed.
Example C63_total_ex : exists xs M M', stable benv_none (with_facts C63_prog C63_extra) M /\ stable benv_none (with_facts C63_made C63_extra) M' /\
  let x := xprog_of (fun _ => None) (fun _ => false) (fun _ => None) C63_made xs in
  forall inc, (exists R c', (forall fuel, R <= fuel -> execute (yE unit_prov) inc fuel (Some x) (C63_ctx unit_prov) = Some c') /\
      forall p, In p [3; 4] -> exists col, aget p (x_idb c') = Some col /\
        forall t, (exists g, In (t, g) col) <-> exists vs, t = vtup vs /\ answered C63_ads (p_facts C63_prog ++ C63_extra) M M' p vs) \/
    (exists d, start_facts (yE unit_prov) x (C63_ctx unit_prov) = Some d /\ run_gallops (yE unit_prov) inc x d).
Proof.
  destruct (@C63_total_partial unit_prov unit nat (yE unit_prov) C63_attr (fun _ => 2) (fun p _ => 10 + p) C63_C N1 benv_none (fun _ => 0) C63_prog C63_extra C63_ads C63_made C63_made
    C63_sig C63_level C63_level same_order sccs_of (fun _ => None) (fun _ => false) (fun _ => None) (C63_ctx unit_prov)) as (g & ss & xs & M & M' & OP & RU & G & S & LOW & HM & HM' & RUN).
  - intros ps r l. apply id_order_ok.
  - apply sccs_of_contract.
  - exact C63_names.
  - exact C63_apart.
  - reflexivity.
  - reflexivity.
  - exact C63_source_ex.
  - split; cbn; congruence.
  - reflexivity.
  - reflexivity.
  - left. reflexivity.
  - apply C63_stored_ex.
  - exact unit_improving.
  - reflexivity.
  - auto.
  - intros r. unfold C63_ctx, add_dynamic. cbn [x_edb]. rewrite e_get_aset. destruct (Nat.eqb r 1); reflexivity.
  - right. exists (fun _ => 0). intros r a Ir Ia. split; [lia|]. intros (v & e & I). exfalso. cbn in Ir. repeat (destruct Ir as [<-|Ir]); try (destruct Ir; fail); no_more I.
  - exists xs, M, M'. split; [exact HM|]. split; [exact HM'|]. intros x inc. destruct (RUN inc) as [(R & c' & H1 & H2)|H]; [left|right; exact H].
    exists R, c'. split; [exact H1|]. intros p Ip. destruct (C63_outs Ip) as (I1 & I2 & I3). apply H2; auto.
Qed.
