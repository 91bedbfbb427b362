(** * C61: front-end programs are compiled and run to their stable models
    Programs whose rules have disjunctions, conjunctive heads and arithmetic are
    flattened, optimized, freed of unused relations, stratified, planned, lowered and
    run; the outputs are the stable model of the front-end program (FrontProg.v). *)
From Coq Require Import List ZArith Bool Arith Lia Permutation.
From Verif Require Import Order Value Prov ListAux SortedCol SortedColFacts ProvInst Schedulers Relation View Dataflow Denote DataflowFacts DenFacts
  Iteration IterationFacts Views Back Eval Ram BackSem Optimize PropsOpt PropsOpt2 PropsOpt3 PropsOpt4 Scc SccFacts PropsStrat PropsUnused Dedup Increm Exec PropsExec
  Plan PlanSem PlanFacts PlanFacts2 PropsPlan VarTuple VarTupleFacts B2R RamSem B2RFacts B2RFacts2 B2RSpec B2RRule B2RScope PropsB2R B2RStrata
  StrataSem StrataFacts PropsStrata PropsTotal TypedProg PropsTyped PropsCompile PermOrder B2RWf PlanShape StrataWf RunSem RunFacts PropsRunProg
  Terminate RunTotal TermProg PropsTerm PropsTermProg Front FrontSem FrontFacts PropsFront FlatFacts PropsFlat PlanPad PadRun Flat0 OptPad FrontProg.
Import ListNotations.
Set Implicit Arguments.
Local Open Scope nat_scope.

(** The program made by flattening without inverse assignments (Flat0.v). *)
Definition strip_front (fr : nat -> var) (F : fprogram) : option program :=
  obnd (oall (map (s_compile_rule fr) (fp_rules F))) (fun rss =>
    Some (mkProg (fp_rels F) (fp_outputs F) (fp_facts F) (concat rss) (fp_reg F))).
(** The front-end rules that are covered, with variables that flattening does not
    invent. *)
Definition front_rule_ok (fr : nat -> var) (r : frule) : Prop :=
  front_ok r = true /\ forall v i, In v (head_vars (fr_head r) ++ form_vars (fr_body r)) -> v <> fr i.

Lemma F2_concat : forall (A B : Type) (R : A -> B -> Prop) l l', Forall2 (Forall2 R) l l' -> Forall2 R (concat l) (concat l').
Proof. intros A B R l l' H. induction H; cbn; auto. apply Forall2_app; auto. Qed.
Lemma strip_pads : forall fr F P0, strip_front fr F = Some P0 -> exists P, compile_front fr F = Some P /\
  p_rels P = p_rels P0 /\ p_outputs P = p_outputs P0 /\ p_facts P = p_facts P0 /\ p_reg P = p_reg P0 /\ Forall2 padded (p_rules P0) (p_rules P).
Proof.
  intros fr F P0 H. unfold strip_front, compile_front in *. destruct (oall (map (s_compile_rule fr) (fp_rules F))) as [rss|] eqn:O; [|discriminate H]. cbn [obnd] in H. injection H as <-.
  assert (G : exists rss', oall (map (compile_rule fr) (fp_rules F)) = Some rss' /\ Forall2 (Forall2 padded) rss rss').
  { revert rss O. induction (fp_rules F) as [|r l IH]; intros rss O; cbn [map oall] in *; [injection O as <-; exists []; auto|].
    destruct (s_compile_rule fr r) as [rs|] eqn:S; [|discriminate O]. destruct (oall (map (s_compile_rule fr) l)) as [rss0|]; [|discriminate O]. injection O as <-.
    destruct (IH _ eq_refl) as (rss' & -> & FF). destruct (compile_pads _ _ S) as (rs' & -> & F1). exists (rs' :: rss'). split; [reflexivity|]. constructor; auto. }
  destruct G as (rss' & -> & FF). cbn [obnd]. eexists. split; [reflexivity|]. cbn. repeat (split; [reflexivity|]). apply F2_concat; auto.
Qed.
(** Derivations of the stripped program are those of the front-end program. *)
Lemma strip_rules : forall fr F P0 r', strip_front fr F = Some P0 -> In r' (p_rules P0) <-> exists r rs, In r (fp_rules F) /\ s_compile_rule fr r = Some rs /\ In r' rs.
Proof.
  intros fr F P0 r' H. unfold strip_front in H. destruct (oall (map (s_compile_rule fr) (fp_rules F))) as [rss|] eqn:O; [|discriminate H]. cbn [obnd] in H. injection H as <-. cbn [p_rules].
  apply oall_map in O. rewrite in_concat. split.
  - intros (rs & I & J). destruct (F2_inr _ O I) as (r & K & S). eauto.
  - intros (r & rs & I & S & J). destruct (F2_inl _ O I) as (rs' & K & S'). exists rs'. split; auto. congruence.
Qed.
Lemma strip_stable : forall B fr F P0 extra M, (forall i j, fr i = fr j -> i = j) -> (forall r, In r (fp_rules F) -> front_rule_ok fr r) -> g_adts (fp_reg F) = [] ->
  strip_front fr F = Some P0 -> (forall r v f l, In r (p_rules P0) -> ~ In (LAssign v (ANew f l)) (r_body r)) ->
  front_stable B F extra M <-> stable B (with_facts P0 extra) M.
Proof.
  intros B fr F P0 extra M INJ OK AD ST NW.
  assert (ER : p_reg P0 = fp_reg F /\ p_facts P0 = fp_facts F).
  { unfold strip_front in ST. destruct (oall _); [|discriminate ST]. cbn [obnd] in ST. injection ST as <-. auto. }
  destruct ER as [ER EF].
  assert (Y : forall r s p t, In r (p_rules P0) -> yields B (fp_reg F) r s p t -> exists a, In a (head_atoms (r_head r)) /\ p = a_pred a /\ t = tvals s (a_args a)).
  { intros r s p t I H. destruct H as [a J|v f l J|v f l q t J E K|a q t J E1 E2 K].
    - eauto.
    - destruct (NW _ _ _ _ I J).
    - rewrite AD in K. destruct K.
    - rewrite AD in K. destruct K. }
  assert (D : forall p t, (forall X, fclosed B F extra M X -> X p t) <-> der B (with_facts P0 extra) M p t).
  { intros p t. split.
    - intros H. apply (H (der B (with_facts P0 extra) M)). split.
      + intros f I. apply der_fact. cbn [p_facts with_facts]. rewrite EF. exact I.
      + intros r q u I C. destruct (OK r I) as [O1 O2].
        assert (SC : exists rs, s_compile_rule fr r = Some rs).
        { unfold strip_front in ST. destruct (oall (map (s_compile_rule fr) (fp_rules F))) as [rss|] eqn:O; [|discriminate ST]. apply oall_map in O. destruct (F2_inl _ O I) as (rs & _ & S). eauto. }
        destruct SC as (rs & SC). apply (stripped_meaning B (fp_reg F) _ M fr r O1 INJ O2 SC) in C. destruct C as (r' & J & s & a & S & Ia & -> & ->).
        apply der_rule with (r := r') (s := s).
        * cbn [p_rules with_facts]. apply (@strip_rules fr F P0 _ ST). eauto.
        * intros b Ib Fb. cbn [p_reg with_facts] in Fb. rewrite ER in Fb. specialize (S _ Ib). cbn in S. rewrite Fb in S. exact S.
        * intros l Il. cbn [p_reg with_facts]. rewrite ER. specialize (S _ Il). destruct l; try exact S. cbn in *. intros Fo. rewrite Fo in S. exact S.
        * apply y_head. exact Ia.
    - intros H X [C1 C2]. induction H as [f I|r' s p t I J IH K L].
      + apply C1. cbn [p_facts with_facts] in I. rewrite EF in I. exact I.
      + cbn [p_rules p_reg with_facts] in *. rewrite ER in *. destruct (Y _ _ _ _ I L) as (a & Ia & -> & ->). apply (@strip_rules fr F P0 _ ST) in I. destruct I as (r & rs & I & SC & Ir).
        apply (C2 r); auto. destruct (OK r I) as [O1 O2]. apply (stripped_meaning B (fp_reg F) _ M fr r O1 INJ O2 SC). exists r'. split; auto. exists s, a. split; auto.
        intros l Il. specialize (K _ Il). destruct l; try exact K. cbn in *. destruct (g_foreign (fp_reg F) (a_pred a0)) eqn:Fo; auto. }
  unfold front_stable, stable. split; intros H p t; rewrite (H p t); [|symmetry]; apply D.
Qed.

(** ** Optimizing *)
Lemma stable_facts : forall B P P' M, p_rules P = p_rules P' -> p_reg P = p_reg P' -> (forall f, In f (p_facts P) <-> In f (p_facts P')) -> stable B P M <-> stable B P' M.
Proof.
  intros B P P' M E1 E2 E3. apply step_stable; auto. intros X M' p t. unfold PropsOpt3.step. rewrite E1, E2. split; intros [(f & I & Q)|H]; auto; left; exists f; (split; [apply E3; exact I|exact Q]).
Qed.
Lemma optimized_stable : forall B nb P0 P0' extra M, (forall r, In r (p_rules P0) -> tame (r_body r) /\ NoDup (PropsOpt2.eq_vars (r_body r))) ->
  apply_optimizations (b_env B) nb P0 = Fine P0' -> stable B (with_facts P0 extra) M <-> stable B (with_facts P0' extra) M.
Proof.
  intros B nb P0 P0' extra M OK H.
  assert (H' : exists Q, apply_optimizations (b_env B) nb (with_facts P0 extra) = Fine Q /\ p_rules Q = p_rules P0' /\ p_reg Q = p_reg P0' /\ forall f, In f (p_facts Q) <-> In f (p_facts P0' ++ extra)).
  { unfold apply_optimizations in *. cbn [p_reg p_rules p_rels p_outputs p_facts with_facts]. destruct (opt_rules _ _ _ _) as [rs| |]; try discriminate. cbn [obindo] in *.
    destruct (empty_to_fact _) as [[ks fs]|]; [|discriminate]. injection H as <-. eexists. split; [reflexivity|]. cbn. repeat (split; [reflexivity|]).
    intros f. rewrite !in_app_iff. tauto. }
  destruct H' as (Q & HQ & E1 & E2 & E3). rewrite (C49_compared_partial B nb (with_facts P0 extra) OK HQ). apply stable_facts; auto.
Qed.
Definition simple_rule (r : rule) : Prop := (exists a, r_head r = HAtom a) /\ new_functors r = [].
Lemma no_new : forall b, (forall v f l, ~ In (LAssign v (ANew f l)) b) -> flat_map (fun l => match l with LAssign _ (ANew f _) => [f] | _ => [] end) b = [].
Proof.
  induction b as [|l b IH]; intros H; [reflexivity|]. cbn [flat_map]. rewrite IH by (intros v f k J; apply (H v f k); right; auto).
  destruct l; try reflexivity. destruct e; try reflexivity. edestruct H; left; reflexivity.
Qed.
Lemma optimized_rules : forall B gr nb l rs, opt_rules (b_env B) gr nb l = Fine rs ->
  (forall r, In r l -> tame (r_body r) /\ NoDup (PropsOpt2.eq_vars (r_body r)) /\ exists a, r_head r = HAtom a) -> forall r, In r rs -> simple_rule r.
Proof.
  intros B gr nb.  induction l as [|r l IH]; intros rs O OK; cbn [opt_rules] in O; [injection O as <-; intros r []|].
  destruct (opt_rule (b_env B) gr nb r) as [r'| |] eqn:R; try discriminate. cbn [obindo] in O.
  destruct (opt_rules (b_env B) gr nb l) as [rs'| |]; try discriminate. cbn [obindo] in O. injection O as <-.
  intros r1 [<-|I]; [|eapply IH; eauto; intros; apply OK; right; auto]. destruct (OK r (or_introl eq_refl)) as (T & N & a & E).
  unfold opt_rule in R. destruct (propagate_equality gr nb r) as [r1| |] eqn:Q; try discriminate. cbn [obindo] in R.
  destruct (opt_loop (b_env B) (S (weight (r_body r1))) r1) as [r2| |] eqn:L; try discriminate. cbn [obindo] in R. injection R as <-.
  destruct (tame_propagate B _ _ _ T N Q) as [T1 _]. destruct (tame_loop _ _ _ T1 L) as [T2 _].
  assert (E1 : exists a, r_head r1 = HAtom a).
  { unfold propagate_equality in Q. destruct (Optimize.bounded gr nb (r_body r)); try discriminate. cbn [obindo] in Q. injection Q as <-. cbn. rewrite E. cbn. eauto. }
  assert (E2 : exists a, r_head r2 = HAtom a).
  { clear - L E1. revert L E1. generalize (S (weight (r_body r1))) as n. intros n. revert r1. induction n as [|n IH]; intros r1 L E1; [discriminate|]. cbn [opt_loop] in L.
    destruct (opt_round (b_env B) r1) as [r3| |] eqn:O; try discriminate. cbn [obindo] in L. assert (E3 : exists a, r_head r3 = HAtom a).
    { unfold opt_round, constant_fold in O. destruct (emap _ (r_body r1)) as [b| |]; try discriminate. cbn [obindo] in O. unfold constant_prop in O. destruct (cannot_substitute _) as [cs| |]; try discriminate.
    cbn [obindo] in O. destruct (prop_collect _ _ _ _) as [m bad]. destruct E1 as (a & E1). destruct bad; injection O as <-; cbn; rewrite E1; cbn; eauto. }
    destruct (rule_eq_dec r1 r3); [injection L as <-; auto|eauto]. }
  split; [exact E2|]. unfold new_functors. apply no_new. intros v f k J. cbn [remove_true r_body] in J. apply filter_In in J. exact (tm_new T2 _ _ _ (proj1 J)).
Qed.
Lemma optimized_simple : forall B nb P0 P0', (forall r, In r (p_rules P0) -> tame (r_body r) /\ NoDup (PropsOpt2.eq_vars (r_body r)) /\ exists a, r_head r = HAtom a) ->
  apply_optimizations (b_env B) nb P0 = Fine P0' -> (forall r, In r (p_rules P0') -> simple_rule r) /\ p_rels P0' = p_rels P0 /\ p_outputs P0' = p_outputs P0 /\ p_reg P0' = p_reg P0.
Proof.
  intros B nb P0 P0' OK H. unfold apply_optimizations in H.
  destruct (opt_rules (b_env B) (p_reg P0) nb (p_rules P0)) as [rs| |] eqn:O; try discriminate. cbn [obindo] in H.
  destruct (empty_to_fact (remove_false_rules rs)) as [[ks fs]|] eqn:Ef; [|discriminate]. injection H as <-. cbn. split; auto.
  assert (S : forall r, In r rs -> simple_rule r) by (eapply optimized_rules; eauto).
  intros r I. assert (J : In r rs); [|auto]. assert (K : forall l ks fs r, empty_to_fact l = Some (ks, fs) -> In r ks -> In r l).
  { clear. induction l as [|x l IH]; intros ks fs r E I; cbn [empty_to_fact] in E; [injection E as <- <-; destruct I|]. destruct (empty_to_fact l) as [[k1 f1]|]; [|discriminate].
    specialize (IH k1 f1 r eq_refl). destruct (r_body x), (r_head x); try (injection E as <- <-; destruct I as [<-|I]; [left; auto|right; auto]).
    destruct (Optimize.consts (a_args a)); [|discriminate]. injection E as <- <-. right; auto. }
  apply (K _ _ _ _ Ef) in I. apply filter_In in I. apply I.
Qed.

(** ** Removing unused relations *)
Lemma padded_unused : forall P P0 U0, p_rels P = p_rels P0 -> p_outputs P = p_outputs P0 -> p_facts P = p_facts P0 -> p_reg P = p_reg P0 -> Forall2 padded (p_rules P0) (p_rules P) ->
  dependency_graph P = dependency_graph P0 -> remove_unused P0 = Some U0 ->
  exists U, remove_unused P = Some U /\ p_rels U = p_rels U0 /\ p_outputs U = p_outputs U0 /\ p_facts U = p_facts U0 /\ p_reg U = p_reg U0 /\ Forall2 padded (p_rules U0) (p_rules U).
Proof.
  intros P P0 U0 E1 E2 E3 E4 F G H. unfold remove_unused in *. rewrite G, E2. destruct (dependency_graph P0) as [g|]; [|discriminate]. destruct (unused_relations g (p_outputs P0)) as [del|]; [|discriminate].
  injection H as <-. eexists. split; [reflexivity|]. cbn. rewrite E1, E3, E4. repeat (split; [reflexivity|]).
  induction F as [|r0 r l0 l F1 F IH]; cbn [filter]; [constructor|]. replace (r_pred r) with (r_pred r0) by (unfold r_pred; rewrite (proj1 F1); reflexivity).
  destruct (negb (memb (r_pred r0) del)); auto.
Qed.
Lemma unused_facts : forall P U extra, remove_unused P = Some U -> (forall f, In f extra -> In (f_pred f) (map b_pred (p_rels U))) -> remove_unused (with_facts P extra) = Some (with_facts U extra).
Proof.
  intros P U extra H D. unfold remove_unused in *. change (dependency_graph (with_facts P extra)) with (dependency_graph P). destruct (dependency_graph P) as [g|]; [|discriminate].
  cbn [p_outputs p_rels p_facts p_rules p_reg with_facts]. destruct (unused_relations g (p_outputs P)) as [del|]; [|discriminate]. injection H as <-. unfold with_facts. cbn in *. f_equal. f_equal.
  rewrite filter_app. f_equal. assert (K : forall f, In f extra -> negb (memb (f_pred f) del) = true).
  { intros f I. specialize (D f I). apply in_map_iff in D. destruct D as (b & E & J). apply filter_In in J. rewrite <- E. apply J. }
  clear D. induction extra as [|f l IH]; [reflexivity|]. cbn [filter]. rewrite (K f) by (left; auto). f_equal. apply IH. intros; apply K; right; auto.
Qed.
Lemma unused_outputs : forall P U p, remove_unused P = Some U -> In p (p_outputs P) -> In p (map b_pred (p_rels P)) -> In p (p_outputs U) /\ In p (map b_pred (p_rels U)).
Proof.
  intros P U p H O D. unfold remove_unused in H. destruct (dependency_graph P) as [g|]; [|discriminate]. unfold unused_relations in H. destruct (forallb _ _); [|discriminate]. injection H as <-. cbn. split; auto.
  apply in_map_iff in D. destruct D as (b & <- & I). apply in_map. apply filter_In. split; auto. apply negb_true_iff. destruct (memb (b_pred b) _) eqn:Z; auto.
  apply SccFacts.memb_In, filter_In in Z. destruct Z as [_ Z]. apply andb_prop in Z. destruct Z as [Z _]. apply SccFacts.memb_In in O. rewrite O in Z. discriminate.
Qed.

(** ** The rules that are made *)
Lemma strip_heads : forall fr r rs r', s_compile_rule fr r = Some rs -> In r' rs -> exists a, r_head r' = HAtom a.
Proof.
  intros fr r rs r' H I. unfold s_compile_rule in H. destruct (apply_transformations r) as [l|]; [|discriminate H]. cbn [obnd] in H.
  destruct (oall (map (s_rule_to_back fr) l)) as [css|] eqn:O; [|discriminate H]. cbn [obnd] in H. injection H as <-. apply in_concat in I. destruct I as (rs & J & I).
  apply oall_map in O. destruct (F2_inr _ O J) as (r1 & _ & S). unfold s_rule_to_back in S. destruct (from_formula (fr_body r1)) as [cs|]; [|discriminate S]. cbn [obnd] in S.
  destruct (s_flat_head fr (fr_head r1)) as [[[h extra] n]|] eqn:Q; [|discriminate S]. cbn [obnd] in S.
  assert (E : exists a, h = HAtom a). { destruct (fr_head r1) as [[p es]|l0|x l0]; try discriminate Q. cbn in Q. destruct (s_flat_args fr es 0) as [[ts ls] n0]. injection Q as <- _ _. eauto. }
  clear - S I E. revert n rs S I. induction cs as [|c cs IH]; intros n rs S I; cbn [s_conj_rules] in S; [injection S as <-; destruct I|].
  destruct (s_flat_lits fr (c_pos c) n) as [[x n1]|]; [|discriminate S]. cbn [obnd fst snd] in S. destruct (s_flat_lits fr (c_neg c) n1) as [[y n2]|]; [|discriminate S]. cbn [obnd fst snd] in S.
  destruct (s_conj_rules fr h extra cs n2) as [rs0|] eqn:Q; [|discriminate S]. cbn [obnd] in S. injection S as <-. destruct I as [<-|I]; [exact E|eauto].
Qed.

(** ** Conditions
    The front-end rules have atom or conjunctive heads, no implications, no
    aggregations, no wildcards in negated atoms, and branches of conditionals that are
    variables or constants; flattened, without the assignments that undo sums and
    differences, they assign variables once and not those of atoms, and results of
    computations are equated with variables of no other equality; what is left after
    the optimizations and after unused relations are removed is typed (TypedProg.v),
    and what is left after the optimizations is stratified. *)
Record front_source (B : benv) (nb : pred -> nat) (C : cenv) (N : penv) (sig : pred -> list ty) (sigma : pred -> nat) (fr : nat -> var)
    (F : fprogram) (extra : list fact) (U0 : program) : Prop := {
  fs_inj : forall i j, fr i = fr j -> i = j;
  fs_rules : forall r, In r (fp_rules F) -> front_rule_ok fr r;
  fs_adts : g_adts (fp_reg F) = [];
  fs_goal : forall b, In b (fp_rels F) -> b_goal b = false;
  fs_made : exists P0 P0', strip_front fr F = Some P0 /\
    (forall r, In r (p_rules P0) -> tame (r_body r) /\ NoDup (PropsOpt2.eq_vars (r_body r)) /\ apart (r_body r)) /\
    apply_optimizations (b_env B) nb P0 = Fine P0' /\ PropsUnused.stratified (with_facts P0' extra) sigma /\
    remove_unused P0' = Some U0 /\ typed_source C N sig (with_facts U0 extra) }.
Lemma unused_kept : forall B P P' g p t M, dependency_graph P = Some g -> remove_unused P = Some P' -> wf_heads P -> wf_functors P ->
  der B P' M p t -> PropsUnused.kept g (p_outputs P) p.
Proof.
  intros B P P' g p t M G R W F D. destruct (@removal_shape P P' g G R) as (_ & Er & Rf & Rr). destruct D as [f I|r s p t I _ _ Y].
  - apply Rf in I. apply I.
  - apply Rr in I. destruct I as [I K]. rewrite Er in Y. apply (@kept_yields B P g G r s p t W F I Y). exact K.
Qed.
(** What is known of the compiled program. *)
Lemma front_compiled : forall B nb C N sig sigma fr F extra U0 order kosaraju,
  (forall ps r (l : list state), Permutation (order ps r l) l) -> front_source B nb C N sig sigma fr F extra U0 ->
  exists P P' U P1 order1, compile_front fr F = Some P /\ apply_optimizations (b_env B) nb P = Fine P' /\ remove_unused P' = Some U /\
    (forall ps r (l : list state), Permutation (order1 ps r l) l) /\ same_prog U0 P1 /\ typed_source C N sig (with_facts P1 extra) /\ PropsUnused.stratified (with_facts P1 extra) sigma /\
    (forall B M, stable B (with_facts U0 extra) M <-> stable B (with_facts P1 extra) M) /\ dependency_graph U = dependency_graph P1 /\
    (forall g ss y, dependency_graph P1 = Some g -> stratify g (kosaraju g) = Some (inr ss) ->
       lower_strata C N (fun _ => false) order1 (p_rules P1) ss = Some y -> lower_strata C N (fun _ => false) order (p_rules U) ss = Some y) /\
    (forall (IT : Type) (tag_of : fact -> option IT) is_adt sched_of xs, xprog_of tag_of is_adt sched_of U xs = xprog_of tag_of is_adt sched_of P1 xs) /\
    p_rels U = p_rels U0 /\ p_outputs U = p_outputs U0 /\
    (forall p, In p (fp_outputs F) -> In p (map b_pred (fp_rels F)) -> In p (p_outputs P1) /\ In p (map b_pred (p_rels P1))) /\
    (exists M, front_stable B F extra M) /\
    (forall M M', front_stable B F extra M -> stable B (with_facts U0 extra) M' -> (forall p t, M' p t -> M p t) /\ forall p t, In p (fp_outputs F) -> M p t <-> M' p t).
Proof.
  intros B nb C N sig sigma fr F extra U0 order kosaraju ORD [INJ OK AD GO (P0 & P0' & ST & TM & OPT & SG & RM & TS)].
  destruct (strip_pads _ _ ST) as (P & CF & A1 & A2 & A3 & A4 & PD).
  assert (EQ : p_rels P0 = fp_rels F /\ p_outputs P0 = fp_outputs F /\ p_reg P0 = fp_reg F).
  { unfold strip_front in ST. destruct (oall _); [|discriminate ST]. cbn [obnd] in ST. injection ST as <-. auto. }
  destruct EQ as (Q1 & Q2 & Q3).
  destruct (@padded_optimized B nb P0 P P0' A1 A2 A3 A4 PD TM OPT) as (P' & OP & B1 & B2 & B3 & B4 & PD').
  assert (SI : (forall r, In r (p_rules P0') -> simple_rule r) /\ p_rels P0' = p_rels P0 /\ p_outputs P0' = p_outputs P0 /\ p_reg P0' = p_reg P0).
  { eapply optimized_simple; [|exact OPT]. intros r I. destruct (TM r I) as (T1 & T2 & _). split; auto. split; auto. apply (@strip_rules fr F P0 _ ST) in I. destruct I as (r0 & rs & _ & S & J). eapply strip_heads; eauto. }
  destruct SI as (SI & S1 & S2 & S3).
  assert (G : dependency_graph P' = dependency_graph P0').
  { apply padded_graph; auto.
    - rewrite S3, Q3. exact AD.
    - rewrite S1, Q1. exact GO.
    - intros r I. apply (SI r I). }
  destruct (@padded_unused P' P0' U0 B1 B2 B3 B4 PD' G RM) as (U & RU & C1 & C2 & C3 & C4 & PDU).
  pose proof (ts_facts TS) as TF.
  assert (EX : forall f, In f extra -> In (f_pred f) (map b_pred (p_rels U0))) by (intros f I; destruct (TF f) as [H _]; [cbn; apply in_or_app; auto|exact H]).
  pose proof (@unused_facts P0' U0 extra RM EX) as RX.
  assert (WH : wf_heads (with_facts P0' extra)).
  { intros r a I J. destruct (SI r I) as [(a0 & E) _]. unfold r_pred. rewrite E in *. destruct J as [<-|[]]. reflexivity. }
  assert (WF : wf_functors (with_facts P0' extra)).
  { intros r v f l I J. exfalso. destruct (SI r I) as [_ E]. assert (K : In f (new_functors r)) by (eapply new_functor_In; eauto). rewrite E in K. destruct K. }
  assert (DG : exists g, dependency_graph (with_facts P0' extra) = Some g).
  { unfold remove_unused in RX. destruct (dependency_graph (with_facts P0' extra)) as [g|]; [eauto|discriminate]. }
  destruct DG as (g0 & DG). pose proof (@removal_stratified _ _ g0 DG RX sigma SG) as SU.
  destruct (@padded_program C N sig U0 U extra sigma order kosaraju C1 C2 C3 C4 PDU ORD TS SU) as (P1 & order1 & O1 & SP & T1 & ST1 & SS & G1 & LOW & XP).
  assert (NW : forall r v f l, In r (p_rules P0) -> ~ In (LAssign v (ANew f l)) (r_body r)) by (intros r v f l I; destruct (TM r I) as [T _]; apply (tm_new T)).
  assert (FS : forall M, front_stable B F extra M <-> stable B (with_facts P0' extra) M).
  { intros M. rewrite (@strip_stable B fr F P0 extra M INJ OK AD ST NW). eapply optimized_stable; [|exact OPT]. intros r I. destruct (TM r I) as (? & ? & _). auto. }
  exists P, P', U, P1, order1. split; [exact CF|]. split; [exact OP|]. split; [exact RU|]. split; [exact O1|]. split; [exact SP|]. split; [exact T1|]. split; [exact ST1|]. split; [exact SS|].
  split; [exact G1|]. split; [exact LOW|]. split; [exact XP|]. split; [exact C1|]. split; [exact C2|]. split; [|split].
  - intros p I D. rewrite (sp_outputs SP), (sp_rels SP). apply (@unused_outputs P0' U0 p RM); [rewrite S2, Q2; auto|rewrite S1, Q1; auto].
  - destruct (@stable_exists B _ sigma SG WH WF) as (M & HM). exists M. apply FS. exact HM.
  - intros M M' HM HM'. apply FS in HM. assert (AG := @removal_agree B _ _ g0 DG RX sigma SU WH WF M M' HM HM'). split.
    + intros p t H. apply (AG p); auto. pose proof (proj1 (HM' p t) H) as D. eapply unused_kept; eauto.
    + intros p t I. apply AG. right. left. cbn [p_outputs with_facts]. rewrite S2, Q2. exact I.
Qed.

(** ** Compiling and running front-end programs *)
Theorem C61_run_partial : forall (P : Prov) (IT X : Type) (E : rtenv P IT X) C N B nb fr F extra U0 sig sigma order kosaraju
    (tag_of : fact -> option IT) is_adt sched_of (c : ctx P IT X),
  (forall ps r l, Permutation (order ps r l) l) -> (forall g, wf_graph g -> scc_contract g (kosaraju g)) ->
  names_ok C -> names_apart C (fun p => In p (map b_pred (p_rels U0))) ->
  (forall r, ce_iv C r = false) -> (forall b, In b (p_rels U0) -> ce_shape C (b_pred b) = SPlain) ->
  front_source B nb C N sig sigma fr F extra U0 ->
  rt_ok E -> (forall m, l_env (c_lenv E m) = b_env B) ->
  (forall f, In f (p_facts U0) -> c_intern E (vtup (f_args f)) = Some (vtup (f_args f))) ->
  (forall p, sched_of p <> Some (Beam 0)) ->
  (forall a b, pminus P a b = None) \/ (forall r a, In r (p_rules U0) -> ~ In (LNeg a) (r_body r)) ->
  (forall r t, stored E (e_get (x_edb c) r) t <-> exists f, In f extra /\ r = f_pred f /\ t = vtup (f_args f)) ->
  exists Pb Po U g ss xs, compile_front fr F = Some Pb /\ apply_optimizations (b_env B) nb Pb = Fine Po /\ remove_unused Po = Some U /\
    dependency_graph U = Some g /\ stratify g (kosaraju g) = Some (inr ss) /\
    lower_strata C N (fun _ => false) order (p_rules U) ss = Some (xs, []) /\ (exists M, front_stable B F extra M) /\
    forall inc fuel c', execute E inc fuel (Some (xprog_of tag_of is_adt sched_of U xs)) c = Some c' ->
      forall M, front_stable B F extra M -> forall p, In p (fp_outputs F) -> In p (map b_pred (fp_rels F)) ->
      exists col, aget p (x_idb c') = Some col /\
        forall t, (exists g, In (t, g) col) <-> exists vs, t = vtup vs /\ M p vs.
Proof.
  intros P IT X E C N B nb fr F extra U0 sig sigma order kosaraju tag_of is_adt sched_of c ORD SCC NM NA IV PL FS RT ENV INT SCH NEG STO.
  destruct (@front_compiled B nb C N sig sigma fr F extra U0 order kosaraju ORD FS)
    as (Pb & Po & U & P1 & order1 & CF & OP & RU & O1 & SP & T1 & ST1 & SS & G1 & LOW & XP & _ & _ & OUT & EXM & AG).
  destruct (@C56_run_partial P IT X E C N B P1 extra sig sigma order1 kosaraju tag_of is_adt sched_of c) as (g & ss & xs & G & S & L & (M' & HM') & RUN); auto.
  - rewrite (sp_rels SP). exact NA.
  - intros b I. rewrite (sp_rels SP) in I. auto.
  - intros f I. rewrite (sp_facts SP) in I. auto.
  - destruct NEG as [NEG|NEG]; [left; exact NEG|right]. intros r a I J. destruct (F2_inr _ (sp_rules SP) I) as (r0 & I0 & _ & S0). apply (NEG r0 a I0). eapply same_in; [apply same_sym; exact S0|discriminate|exact J].
  - exists Pb, Po, U, g, ss, xs. split; [exact CF|]. split; [exact OP|]. split; [exact RU|]. split; [rewrite G1; exact G|]. split; [exact S|]. split; [eapply LOW; eauto|]. split; [exact EXM|].
    intros inc fuel c' EX M HM p Op Dp. rewrite XP in EX. destruct (OUT p Op Dp) as [Op1 Dp1]. destruct (RUN inc fuel c' EX M' HM' p Op1 Dp1) as (col & K1 & K2). exists col. split; [exact K1|].
    apply SS in HM'. destruct (AG M M' HM HM') as [_ AG1]. intros t. rewrite K2. split; intros (vs & -> & H); exists vs; split; auto; apply AG1; auto.
Qed.
Print Assumptions C61_run_partial.
(** And the run ends, under the conditions of C57 (the facts of the stable model are
    finitely many, or no recursive rule evaluates expressions), unless a round
    gallops. *)
Theorem C61_total_partial : forall (P : Prov) (IT X : Type) (E : rtenv P IT X) C N B nb fr F extra U0 sig sigma order kosaraju
    (tag_of : fact -> option IT) is_adt sched_of (c : ctx P IT X),
  (forall ps r l, Permutation (order ps r l) l) -> (forall g, wf_graph g -> scc_contract g (kosaraju g)) ->
  names_ok C -> names_apart C (fun p => In p (map b_pred (p_rels U0))) ->
  (forall r, ce_iv C r = false) -> (forall b, In b (p_rels U0) -> ce_shape C (b_pred b) = SPlain) ->
  front_source B nb C N sig sigma fr F extra U0 ->
  rt_ok E -> (forall m, l_env (c_lenv E m) = b_env B) ->
  (forall f, In f (p_facts U0) -> c_intern E (vtup (f_args f)) = Some (vtup (f_args f))) ->
  (forall a b, pminus P a b = None) \/ (forall r a, In r (p_rules U0) -> ~ In (LNeg a) (r_body r)) ->
  (forall r t, stored E (e_get (x_edb c) r) t <-> exists f, In f extra /\ r = f_pred f /\ t = vtup (f_args f)) ->
  improving P -> c_default E = LFP -> (forall p, sched_of p = None \/ sched_of p = Some LFP) ->
  (forall r, e_progint (e_get (x_edb c) r) = false) ->
  (forall M, front_stable B F extra M -> finite_model M) \/ (exists rank, ranked U0 rank) ->
  exists Pb Po U g ss xs M, compile_front fr F = Some Pb /\ apply_optimizations (b_env B) nb Pb = Fine Po /\ remove_unused Po = Some U /\
    dependency_graph U = Some g /\ stratify g (kosaraju g) = Some (inr ss) /\
    lower_strata C N (fun _ => false) order (p_rules U) ss = Some (xs, []) /\ front_stable B F extra M /\
    forall inc,
    (exists R c', (forall fuel, R <= fuel -> execute E inc fuel (Some (xprog_of tag_of is_adt sched_of U xs)) c = Some c') /\
      forall p, In p (fp_outputs F) -> In p (map b_pred (fp_rels F)) ->
      exists col, aget p (x_idb c') = Some col /\ forall t, (exists g, In (t, g) col) <-> exists vs, t = vtup vs /\ M p vs) \/
    (exists d, start_facts E (xprog_of tag_of is_adt sched_of U xs) c = Some d /\ run_gallops E inc (xprog_of tag_of is_adt sched_of U xs) d).
Proof.
  intros P IT X E C N B nb fr F extra U0 sig sigma order kosaraju tag_of is_adt sched_of c ORD SCC NM NA IV PL FS RT ENV INT NEG STO IMP LD LS FRESH FIN.
  destruct (@front_compiled B nb C N sig sigma fr F extra U0 order kosaraju ORD FS)
    as (Pb & Po & U & P1 & order1 & CF & OP & RU & O1 & SP & T1 & ST1 & SS & G1 & LOW & XP & _ & _ & OUT & (M & HM) & AG).
  destruct (@C57_run_partial P IT X E C N B P1 extra sig sigma order1 kosaraju tag_of is_adt sched_of c) as (g & ss & xs & M' & G & S & L & HM' & RUN); auto.
  - rewrite (sp_rels SP). exact NA.
  - intros b I. rewrite (sp_rels SP) in I. auto.
  - intros f I. rewrite (sp_facts SP) in I. auto.
  - destruct NEG as [NEG|NEG]; [left; exact NEG|right]. intros r a I J. destruct (F2_inr _ (sp_rules SP) I) as (r0 & I0 & _ & S0). apply (NEG r0 a I0). eapply same_in; [apply same_sym; exact S0|discriminate|exact J].
  - intros M' HM'. apply SS in HM'. destruct FIN as [FIN|(rank & FIN)]; [|destruct FS as [_ _ _ _ (P0 & P0' & _ & _ & _ & _ & _ & TS)]; exact (@C57_finite C N B _ sig rank TS FIN M' HM')].
    intros p. destruct (AG M M' HM HM') as [AG0 _]. destruct (FIN M HM p) as (l & K). exists l. intros vs J. apply K, AG0, J.
  - exists Pb, Po, U, g, ss, xs, M. split; [exact CF|]. split; [exact OP|]. split; [exact RU|]. split; [rewrite G1; exact G|]. split; [exact S|]. split; [eapply LOW; eauto|]. split; [exact HM|].
    intros inc. rewrite XP. apply SS in HM'. destruct (AG M M' HM HM') as [_ AG1]. destruct (RUN inc) as [(R & c' & EX & K)|H]; [left|right; exact H].
    exists R, c'. split; [exact EX|]. intros p Op Dp. destruct (OUT p Op Dp) as [Op1 Dp1]. destruct (K p Op1 Dp1) as (col & K1 & K2). exists col. split; [exact K1|].
    intros t. rewrite K2. split; intros (vs & -> & H); exists vs; split; auto; apply AG1; auto.
Qed.
Print Assumptions C61_total_partial.

(** ** Example
    [1 = edge, 2 = node, 3 = path, 4 = unreachable, 8 = far, 9 = long, 10 = start]:
    [path(x, z) = edge(x, z) or (path(x, y) and edge(y, z))],
    [unreachable(x, y) = node(x) and node(y) and not path(x, y)],
    [far(x, d), long(x + 1) = path(x, y) and d == y - x and d > 1],
    [start(x) = edge(x, y) and y == 2], which is not asked for. *)
Definition C61_prog : fprogram := mkFprog (map (fun p => Back.mkRel p false) [1; 2; 3; 4; 8; 9; 10]) [3; 4; 8; 9] (firstn 4 C54_facts)
  [mkFrule (FHAtom (3, [EVar 0; EVar 2])) (FDisj [FAtom 1 [EVar 0; EVar 2]; FConj [FAtom 3 [EVar 0; EVar 1]; FAtom 1 [EVar 1; EVar 2]]]);
   mkFrule (FHAtom (4, [EVar 0; EVar 1])) (FConj [FAtom 2 [EVar 0]; FAtom 2 [EVar 1]; FNeg 3 [EVar 0; EVar 1]]);
   mkFrule (FHConj [(8, [EVar 0; EVar 2]); (9, [EBin OAdd (EVar 0) (EConst (I32 1))])])
     (FConj [FAtom 3 [EVar 0; EVar 1]; FCons (EBin OEq (EVar 2) (EBin OSub (EVar 1) (EVar 0))); FCons (EBin OGt (EVar 2) (EConst (I32 1)))]);
   mkFrule (FHAtom (10, [EVar 0])) (FConj [FAtom 1 [EVar 0; EVar 1]; FCons (EBin OEq (EVar 1) (EConst (I32 2)))])] g1.
Definition C61_fr (i : nat) : var := 20 + i.
Definition C61_sig : pred -> list ty := fun p => match p with 2 | 9 | 10 => [ty_i32] | _ => [ty_i32; ty_i32] end.
Definition C61_used : program := mkProg (map (fun p => Back.mkRel p false) [1; 2; 3; 4; 8; 9]) [3; 4; 8; 9] (firstn 4 C54_facts)
  [mkRule (HAtom (a2 3 0 2)) [LAtom (a2 1 0 2)];
   mkRule (HAtom (a2 3 0 2)) [LAtom (a2 3 0 1); LAtom (a2 1 1 2)];
   mkRule (HAtom (a2 4 0 1)) [LAtom (mkAtom 2 [TVar 0]); LAtom (mkAtom 2 [TVar 1]); LNeg (a2 3 0 1)];
   mkRule (HAtom (a2 8 0 20)) [LAtom (a2 3 0 1); LAssign 20 (ABin OSub (TVar 1) (TVar 0)); LBin CGt (TVar 20) (TConst (I32 1))];
   mkRule (HAtom (mkAtom 9 [TVar 20])) [LAtom (a2 3 0 1); LAssign 21 (ABin OSub (TVar 1) (TVar 0)); LBin CGt (TVar 21) (TConst (I32 1));
     LAssign 20 (ABin OAdd (TVar 0) (TConst (I32 1)))]] g1.
Ltac typed_ex2 := constructor;
  [exists (fun _ => ty_i32); split; [repeat constructor|intros l I; each I; repeat constructor]
  |intros a [I|I]; each I; reflexivity
  |intros l v I J; each I; each J; left
  |intros v J; each J
  |cbn; repeat constructor; cbn; lia
  |intros v e a I J; each I; each J; cbn; lia
  |intros v e I; each I
  |left; intros a I; each I; cbn; repeat constructor; cbn; lia
  |intros a I; each I; left; intros t J; each J; reflexivity
  |intros; discriminate
  |reflexivity
  |apply N1_fresh; all_lt
  |intros a [I|I] i c J; each I; cbn in J; repeat (destruct i as [|i]; try discriminate J)].
Lemma C61_source_ex : front_source benv_none (fun _ => 0) C3 N1 C61_sig C54_level C61_fr C61_prog C56_extra C61_used.
Proof.
  constructor.
  - unfold C61_fr. intros i j. lia.
  - intros r I. cbn in I. repeat (destruct I as [<-|I]); try (destruct I; fail); (split; [reflexivity|]); intros v i J; cbn in J; unfold C61_fr; lia.
  - reflexivity.
  - intros b I. cbn in I. repeat (destruct I as [<-|I]); try (destruct I; fail); reflexivity.
  - eexists. eexists. split; [vm_compute; reflexivity|]. split; [|split; [vm_compute; reflexivity|split; [|split; [vm_compute; reflexivity|]]]].
    + intros r I. cbn in I. repeat (destruct I as [<-|I]); try (destruct I; fail); (split; [constructor|split]); cbn; unfold mentions, apart;
        repeat (constructor; cbn; try (intuition discriminate));
        try (intros; repeat match goal with H : _ \/ _ |- _ => destruct H end; try discriminate; try contradiction; subst; intuition discriminate).
      all: match goal with
        | |- forall (v : var) (e : aexpr) (a : atom), _ => intros v e a I J; no_more I; no_more J; injection I as <- <-; injection J as <-; cbn; lia
        | _ => intros x t u Ix J Q; no_more J; injection J as <- <-; destruct Q as [Q|Q]; injection Q as <-; [lia|]; exists 2; split; [lia|]; split; [right; auto|];
            intros t' u' J'; no_more J'; injection J' as <- <-; auto
        end.
    + intros r I. split.
      * intros q b R. cbn in I. repeat (destruct I as [<-|I]); try (destruct I; fail);
          destruct R as [a J F|a J F|d J|d a J G]; no_more J; try injection J as <-; cbn; split; intros; try discriminate; lia.
      * intros f If. cbn in I. repeat (destruct I as [<-|I]); try (destruct I; fail); cbn in If; destruct If.
    + constructor.
      * intros r Ir. cbn in Ir. repeat (destruct Ir as [<-|Ir]); try (destruct Ir; fail); eexists; eexists; (split; [reflexivity|]).
        -- typed_ex; lims.
        -- typed_ex; lims.
        -- typed_ex; lims.
        -- match goal with |- typed_rule _ _ _ _ ?b => assert (L2 : limited N1 b 20) end.
           { eapply lim; [right; left; reflexivity|reflexivity|left; reflexivity|]. intros w J. each J; lims. }
           typed_ex; try exact L2; try lims. apply us_head. cbn. auto.
        -- match goal with |- typed_rule _ _ _ _ ?b => assert (L2 : limited N1 b 20); [|assert (L3 : limited N1 b 21)] end.
           { eapply lim; [right; right; right; left; reflexivity|reflexivity|left; reflexivity|]. intros w J. each J; lims. }
           { eapply lim; [right; left; reflexivity|reflexivity|left; reflexivity|]. intros w J. each J; lims. }
           typed_ex2; try exact L2; try exact L3; try lims.
           ++ eapply us_lit with (l := LBin CGt (TVar 21) (TConst (I32 1))); cbn; tauto.
           ++ apply us_head. cbn. auto.
      * intros f If. cbn in If. repeat (destruct If as [<-|If]); try (destruct If; fail); (split; [cbn; tauto|split; [reflexivity|repeat constructor]]).
      * intros r p Ir Ip. cbn in Ir. repeat (destruct Ir as [<-|Ir]); try (destruct Ir; fail); cbn in Ip |- *; lia.
      * intros b Ib. cbn in Ib. repeat (destruct Ib as [<-|Ib]); try (destruct Ib; fail); reflexivity.
      * reflexivity.
      * reflexivity.
Qed.
(** All conditions of C61 are met with unit tags; the run ends and the outputs hold
    paths, pairs without one, distances and ends. *)
Example C61_ex : exists Pb Po U g ss xs c', compile_front C61_fr C61_prog = Some Pb /\ apply_optimizations env_none (fun _ => 0) Pb = Fine Po /\ remove_unused Po = Some U /\
  dependency_graph U = Some g /\ stratify g (sccs_of g) = Some (inr ss) /\ lower_strata C3 N1 (fun _ => false) same_order (p_rules U) ss = Some (xs, []) /\
  execute (yE unit_prov) false 20 (Some (xprog_of (fun _ => None) (fun _ => false) (fun _ => None) U xs)) (C56_ctx unit_prov) = Some c' /\
  (exists M, front_stable benv_none C61_prog C56_extra M) /\
  (forall M, front_stable benv_none C61_prog C56_extra M -> forall p, In p [3; 4; 8; 9] ->
    exists col, aget p (x_idb c') = Some col /\ forall t, (exists g, In (t, g) col) <-> exists vs, t = vtup vs /\ M p vs) /\
  option_map pairs (aget 3 (x_idb c')) = Some [vtup [I32 1; I32 2]; vtup [I32 1; I32 3]; vtup [I32 2; I32 3]] /\
  option_map pairs (aget 8 (x_idb c')) = Some [vtup [I32 1; I32 2]] /\
  option_map pairs (aget 9 (x_idb c')) = Some [vtup [I32 2]] /\
  option_map (@length _) (aget 4 (x_idb c')) = Some 6 /\ aget 10 (x_idb c') = None.
Proof.
  destruct (@C61_run_partial unit_prov unit nat (yE unit_prov) C3 N1 benv_none (fun _ => 0) C61_fr C61_prog C56_extra C61_used C61_sig C54_level same_order sccs_of
    (fun _ => None) (fun _ => false) (fun _ => None) (C56_ctx unit_prov)) as (Pb & Po & U & g & ss & xs & CF & OP & RU & G & S & LOW & EM & RUN).
  - intros ps r l. apply id_order_ok.
  - apply sccs_of_contract.
  - exact C3_names.
  - destruct C3_apart as [A1 A2 A3 A4 A5 A6 A7 A8 A9]. constructor; auto; intros; intros K; [apply (A7 i)|apply (A8 i)|apply (A9 p g)]; revert K; cbn -[Nat.mul]; lia.
  - reflexivity.
  - reflexivity.
  - exact C61_source_ex.
  - split; cbn; congruence.
  - reflexivity.
  - reflexivity.
  - intros p. discriminate.
  - left. reflexivity.
  - apply C56_stored_ex.
  - vm_compute in CF. injection CF as <-. vm_compute in OP. injection OP as <-. vm_compute in RU. injection RU as <-.
    vm_compute in G. injection G as <-. vm_compute in S. injection S as <-. vm_compute in LOW. injection LOW as <-.
    do 6 eexists. eexists. do 6 (split; [vm_compute; reflexivity|]). split; [vm_compute; reflexivity|]. split; [exact EM|]. split.
    + intros M SM p Ip. eapply (RUN false 20); [vm_compute; reflexivity|exact SM|cbn in Ip |- *; lia|cbn in Ip |- *; lia].
    + vm_compute. repeat split.
Qed.
(** The conditions of the second theorem. *)
Definition C61_rank (p : pred) : nat := match p with 8 | 9 => 1 | _ => 0 end.
Lemma C61_ranked_ex : ranked C61_used C61_rank.
Proof.
  intros r a Ir Ia. cbn in Ir. repeat (destruct Ir as [<-|Ir]); try (destruct Ir; fail); cbn in Ia;
    repeat (destruct Ia as [Ia|Ia]; [try discriminate; injection Ia as <-|]); try (destruct Ia; fail); cbn; (split; [lia|]);
    intros (v & e & I); cbn in I; repeat (destruct I as [I|I]; [try discriminate|]); try (destruct I; fail); lia.
Qed.
Example C61_total_ex : exists Pb Po U xs M, compile_front C61_fr C61_prog = Some Pb /\ apply_optimizations env_none (fun _ => 0) Pb = Fine Po /\ remove_unused Po = Some U /\
  front_stable benv_none C61_prog C56_extra M /\ let x := xprog_of (fun _ => None) (fun _ => false) (fun _ => None) U xs in
  forall inc, (exists R c', (forall fuel, R <= fuel -> execute (yE unit_prov) inc fuel (Some x) (C56_ctx unit_prov) = Some c') /\
      forall p, In p [3; 4; 8; 9] -> exists col, aget p (x_idb c') = Some col /\ forall t, (exists g, In (t, g) col) <-> exists vs, t = vtup vs /\ M p vs) \/
    (exists d, start_facts (yE unit_prov) x (C56_ctx unit_prov) = Some d /\ run_gallops (yE unit_prov) inc x d).
Proof.
  destruct (@C61_total_partial unit_prov unit nat (yE unit_prov) C3 N1 benv_none (fun _ => 0) C61_fr C61_prog C56_extra C61_used C61_sig C54_level same_order sccs_of
    (fun _ => None) (fun _ => false) (fun _ => None) (C56_ctx unit_prov)) as (Pb & Po & U & g & ss & xs & M & CF & OP & RU & G & S & LOW & SM & RUN).
  - intros ps r l. apply id_order_ok.
  - apply sccs_of_contract.
  - exact C3_names.
  - destruct C3_apart as [A1 A2 A3 A4 A5 A6 A7 A8 A9]. constructor; auto; intros; intros K; [apply (A7 i)|apply (A8 i)|apply (A9 p g)]; revert K; cbn -[Nat.mul]; lia.
  - reflexivity.
  - reflexivity.
  - exact C61_source_ex.
  - split; cbn; congruence.
  - reflexivity.
  - reflexivity.
  - left. reflexivity.
  - apply C56_stored_ex.
  - exact unit_improving.
  - reflexivity.
  - auto.
  - intros r. unfold C56_ctx, add_dynamic. cbn [x_edb]. rewrite e_get_aset. destruct (Nat.eqb r 2); reflexivity.
  - right. exists C61_rank. exact C61_ranked_ex.
  - exists Pb, Po, U, xs, M. do 3 (split; [assumption|]). split; [exact SM|]. intros x inc. destruct (RUN inc) as [(R & c' & H1 & H2)|H]; [left|right; exact H].
    exists R, c'. split; [exact H1|]. intros p Ip. apply H2; cbn in Ip |- *; lia.
Qed.
