(** C69: declared types are kept, and facts have the types of their relations. *)
From Coq Require Import List ZArith Bool Arith Lia String.
From Verif Require Import Value Back Eval BackSem TypeSet PropsTypeSet Infer TypeSpec InferFacts InferRun InferSound PropsInfer Front FrontSem FrontFacts FrontProg Cast ValSpec PropsTypedEval PropsTypedModel.
Import ListNotations.
Local Open Scope list_scope.

(** ** Relations narrow in every round *)
Lemma unify_ole T strict R u X X' e : unify T strict R u X = TOk X' -> ~ In e (map fst (tcs [u])) ->
  ole (get X' e) (get X e) /\ (get X' e = get X e \/ In e (ulocs u)).
Proof.
  intros H N. pose proof (unify_ok _ _ _ _ _ _ H) as (D & _). destruct (typed_const u) as [(e0 & t)|] eqn:E; [|exact (D eq_refl e)].
  apply typed_const_UConst in E. destruct E as (s & ->). cbn [unify] in H. tb H. injection H as <-.
  cbn in N. rewrite get_put_neq by (intros ->; tauto). split; [apply ole_refl|auto].
Qed.
Lemma unifs_ole T strict R us e : ~ In e (map fst (tcs us)) -> forall X X', tfold (unify T strict R) us X = TOk X' ->
  ole (get X' e) (get X e) /\ (get X' e = get X e \/ In e (flat_map ulocs us)).
Proof.
  induction us as [|u us IH]; intros N X X' H; cbn [tfold] in H; [injection H as <-; split; [apply ole_refl|auto]|]. tb H.
  rewrite tcs_cons, map_app, in_app_iff in N. destruct (unify_ole _ _ _ _ _ _ e E) as (A & B); [tauto|]. destruct (IH ltac:(tauto) _ _ H) as (A' & B').
  split; [eapply ole_trans; eauto|]. cbn [flat_map]. rewrite in_app_iff. destruct B as [B|B], B' as [B'|B']; auto. left. congruence.
Qed.
Lemma arg_below T strict R us e p i s : ~ In e (map fst (tcs us)) -> In (UArg e p i) us -> t_pred T p = None -> rget R p i = Some s ->
  forall X X', tfold (unify T strict R) us X = TOk X' -> exists n, get X' e = Some n /\ sle n s.
Proof.
  intros N I TP RG. induction us as [|u us IH]; intros X X' H; [destruct I|]. cbn [tfold] in H. tb H. rewrite tcs_cons, map_app, in_app_iff in N.
  destruct I as [->|I]; [|eapply IH; eauto]. pose proof (unify_ok _ _ _ _ _ _ E) as (_ & M). cbn [means] in M. rewrite TP in M. destruct M as (ts & s' & G & NE & n & GN & L).
  unfold rget in RG. rewrite G in RG. assert (s' = s) by congruence. subst s'. destruct (unifs_ole T strict R us e ltac:(tauto) _ _ H) as (O & _). rewrite GN in O.
  apply ole_some in O. destruct O as (m & GM & L'). exists m. split; [exact GM|eapply sle_trans; eauto].
Qed.

Section Narrow.
Context (T : tenv) (cs : list ctx).
Let all := flat_map cx_unifs cs.
Let re := all_rel_exprs cs.
Context (DIS : forall c e p i, In c cs -> In e (clocs c) -> In (UArg e p i) all -> In (UArg e p i) (cx_unifs c)).
Context (PL : forall e p i, In (UArg e p i) all -> ~ In e (map fst (tcs all))).
Definition no_foreign (R : rels) : Prop := forall p, t_pred T p <> None -> get R p = None.
Lemma step_narrow strict c X R X' R' : In c cs -> no_foreign R -> closed_rels re X R -> ctx_step T strict re c (X, R) = TOk (X', R') -> rnar R R'.
Proof.
  intros IC NF CR H. destruct (rel_exprs_ok all) as (N & HRE). fold (all_rel_exprs cs) in N, HRE. fold re in N, HRE.
  apply ctx_step_parts in H. destruct H as (Y & HU & HV & HP). apply (propagate_rels_ok _ _ N) in HP. destruct HP as (L & K & HP). split; [|exact L].
  apply propagate_vars_ok in HV. destruct HV as (DV & _). fold (clocs c) in DV.
  assert (NC : forall e p i, In (UArg e p i) all -> ~ In e (map fst (tcs (cx_unifs c)))).
  { intros e p i I J. apply (PL _ _ _ I). apply in_map_iff in J. destruct J as ((e' & t) & <- & J). apply in_map_iff. exists (e', t). split; auto. apply tcs_In in J. destruct J as (s & J). apply tcs_In. exists s. apply in_flat_map. eauto. }
  intros p i. destruct (in_dec pi_eq_dec (p, i) (map fst re)) as [I|I].
  2:{ rewrite K; [apply ole_refl|]. intros es J. destruct I. apply in_map_iff. exists ((p, i), es). auto. }
  apply in_map_iff in I. destruct I as ((k & es) & Q & I). cbn in Q. subst k.
  assert (AE : forall e, In e es -> In (UArg e p i) all) by (intros e J; apply HRE; exists es; auto).
  destruct (types_at X' es) as [|s0 l0] eqn:TA.
  { rewrite K; [apply ole_refl|]. intros es' I'. rewrite (fst_unique _ _ _ _ N I' I). exact TA. }
  destruct (HP _ _ _ I) as (s & US & G); [congruence|]. rewrite G. destruct (rget R p i) as [a|] eqn:GR; [|exact Logic.I]. cbn.
  assert (TP : t_pred T p = None). { destruct (t_pred T p) eqn:E; auto. unfold rget in GR. rewrite NF in GR; [discriminate|congruence]. }
  destruct (types_at X es) as [|b0 lb] eqn:TX.
  - assert (J : In s0 (types_at X' es)) by (rewrite TA; left; reflexivity). pose proof (unify_sets_le _ _ US _ J) as LE. apply types_at_In in J. destruct J as (e & J & G').
    assert (GX : get X e = None). { destruct (get X e) as [b|] eqn:GX; auto. assert (J' : In b (types_at X es)) by (apply types_at_In; eauto). rewrite TX in J'. destruct J'. }
    assert (IE : In e (clocs c)).
    { destruct (DV e) as [_ [Q|]]; [|assumption]. destruct (unifs_ole _ _ _ _ e (NC _ _ _ (AE e J)) _ _ HU) as (_ & [Q'|]); [|assumption]. congruence. }
    pose proof (DIS _ _ _ _ IC IE (AE e J)) as UA. destruct (arg_below _ _ _ _ _ _ _ _ (NC _ _ _ (AE e J)) UA TP GR _ _ HU) as (n & GY & LN).
    destruct (dec_get _ _ _ _ _ DV GY) as (m & GM & LM). eapply sle_trans; [exact LE|]. assert (s0 = m) by congruence. subst. eapply sle_trans; eauto.
  - pose proof (CR _ _ _ I ltac:(congruence) _ GR) as UA. eapply unify_sets_glb; [exact UA|]. intros b J. apply types_at_In in J. destruct J as (e & J & G').
    destruct (unifs_ole _ _ _ _ e (NC _ _ _ (AE e J)) _ _ HU) as (O & _). rewrite G' in O. apply ole_some in O. destruct O as (n & GY & LN). destruct (dec_get _ _ _ _ _ DV GY) as (m & GM & LM).
    eapply sle_trans; [|exact LN]. eapply sle_trans; [|exact LM]. apply (unify_sets_le _ _ US). apply types_at_In. eauto.
Qed.
Lemma rlen_none R p : get R p = None <-> rlen R p = None.
Proof. unfold rlen. destruct (get R p); cbn; split; congruence. Qed.
Lemma round_narrow strict l : incl l cs -> forall s s', tfold (ctx_step T strict re) l s = TOk s' -> no_foreign (snd s) -> closed_rels re (fst s) (snd s) ->
  rnar (snd s) (snd s') /\ no_foreign (snd s') /\ closed_rels re (fst s') (snd s').
Proof.
  destruct (rel_exprs_ok all) as (N & _). fold (all_rel_exprs cs) in N. fold re in N.
  induction l as [|c l IH]; intros I s s' H NF CR; cbn [tfold] in H; [injection H as <-; split; [apply rnar_refl|auto]|]. tb H. destruct s as (X & R), r as (X1 & R1). cbn [fst snd] in *.
  pose proof (step_narrow _ _ _ _ _ _ (I c (or_introl eq_refl)) NF CR E) as A. pose proof (ctx_step_closed _ _ _ _ _ _ _ _ N E) as C1.
  destruct (IH (fun x J => I x (or_intror J)) _ _ H) as (B & NF' & C'); cbn [fst snd]; auto.
  { intros p TP. apply rlen_none. rewrite (proj2 A p). apply rlen_none. apply NF, TP. }
  split; [eapply rnar_trans; eauto|auto].
Qed.
Lemma loop_narrow fuel : forall s s', infer_loop fuel T re cs s = Some (TOk s') -> no_foreign (snd s) -> closed_rels re (fst s) (snd s) ->
  rnar (snd s) (snd s') /\ no_foreign (snd s') /\ closed_rels re (fst s') (snd s').
Proof.
  induction fuel as [|fuel IH]; cbn; intros s s' H NF CR; [discriminate|]. destruct (tfold (ctx_step T false re) cs s) as [s1| |] eqn:E; try discriminate.
  destruct (round_narrow _ _ (incl_refl _) _ _ E NF CR) as (A & NF1 & C1). destruct (exprs_eq _ _); [injection H as <-; auto|]. destruct (IH _ _ H NF1 C1) as (B & NF2 & C2).
  split; [eapply rnar_trans; eauto|auto].
Qed.
Lemma infer_narrow fuel R r : infer_types fuel T cs R = Some (TOk r) -> no_foreign R -> rnar R (snd (fst r)).
Proof.
  unfold infer_types. fold re. intros H NF. destruct (infer_loop fuel T re cs ([], R)) as [[s| |]|] eqn:E; try discriminate. injection H as H.
  destruct (loop_narrow _ _ _ E NF) as (A & NF1 & C1). { intros p i es _ NE. exfalso. apply NE. cbn [fst]. clear. induction es as [|e es IH]; [reflexivity|]. unfold types_at in *. cbn [flat_map]. rewrite get_nil. exact IH. }
  destruct r as (s' & vs). apply final_is_round in H. destruct (round_narrow _ _ (incl_refl _) _ _ H NF1 C1) as (B & _). eapply rnar_trans; eauto.
Qed.
End Narrow.

(** ** The items *)
(** A predicate with a number of arguments. *)
Definition mentions (i : titem) (p : pred) (k : nat) : Prop :=
  match i with
  | IDecl q ts => q = p /\ k = List.length ts
  | IFact q cs => q = p /\ k = List.length cs
  | ISet q l => q = p /\ exists t, In t l /\ k = List.length t
  | IRule r => exists a, In a (rule_atoms r) /\ fst a = p /\ k = List.length (snd a)
  end.
Definition below (R : rels) (p : pred) (ss : list tset) : Prop := exists ts, get R p = Some ts /\ Forall2 sle ts ss.
Lemma F2_len {A B} (P : A -> B -> Prop) l r : Forall2 P l r -> List.length l = List.length r.
Proof. induction 1; cbn; congruence. Qed.
Lemma sle_all_refl l : Forall2 sle l l.
Proof. induction l; constructor; auto. apply sle_refl. Qed.
Lemma sle_all_trans a b c : Forall2 sle a b -> Forall2 sle b c -> Forall2 sle a c.
Proof. intros H. revert c. induction H; intros d K; inversion K; subst; constructor; eauto. eapply sle_trans; eauto. Qed.
Lemma below_trans R R' p ss ts : get R p = Some ts -> below R' p ts -> Forall2 sle ts ss -> below R' p ss.
Proof. intros G (us & G' & L) F. exists us. split; auto. eapply sle_all_trans; eauto. Qed.
Lemma zip_sle a : forall b l, List.length a = List.length b -> unify_zip a b = Some l -> Forall2 sle l a /\ Forall2 sle l b.
Proof.
  induction a as [|s a IH]; intros [|t b] l E H; cbn in E, H; try discriminate; [injection H as <-; split; constructor|].
  destruct (ts_unify s t) as [n|] eqn:U; [|discriminate]. destruct (unify_zip a b) as [l'|] eqn:Z; [|discriminate]. injection H as <-. apply unify_le in U. destruct U.
  destruct (IH b l' ltac:(lia) Z). split; constructor; auto.
Qed.
Definition sized (ar : pred -> nat) (R : rels) : Prop := forall p ts, get R p = Some ts -> List.length ts = ar p.
Lemma put_visit ar R p ss : sized ar R -> List.length ss = ar p -> (forall old, get R p = Some old -> Forall2 sle ss old) ->
  sized ar (put R p ss) /\ (forall q ts, get R q = Some ts -> below (put R p ss) q ts).
Proof.
  intros S L H. split.
  - intros q ts. rewrite get_put. destruct (Nat.eqb_spec q p) as [->|]; [intros E; injection E as <-; exact L|apply S].
  - intros q ts G. unfold below. rewrite get_put. destruct (Nat.eqb_spec q p) as [->|]; [exists ss; auto|exists ts; split; [exact G|apply sle_all_refl]].
Qed.
Lemma tuples_sle (ar : pred -> nat) (p : pred) l : forall old ts, (forall t, In t l -> List.length t = ar p) -> List.length old = ar p -> tfold unify_tuple l old = TOk ts ->
  Forall2 sle ts old /\ forall t, In t l -> Forall2 sle ts (map resolve_constant t).
Proof.
  induction l as [|t l IH]; cbn [tfold]; intros old ts HL LO H; [injection H as <-; split; [apply sle_all_refl|intros ? []]|]. tb H. unfold unify_tuple in E.
  destruct (Nat.eqb _ _); [|discriminate]. apply of_opt_ok in E. destruct (zip_sle old (map resolve_constant t) r ltac:(rewrite map_length, LO; symmetry; apply HL; left; reflexivity) E) as (A & B).
  destruct (IH r ts) as (C & D); auto; [intros u J; apply HL; right; exact J|rewrite (F2_len _ _ _ A); exact LO|].
  split; [eapply sle_all_trans; eauto|]. intros u [<-|J]; [eapply sle_all_trans; eauto|auto].
Qed.
Lemma repeat_any l : Forall2 sle l (repeat SAny (List.length l)).
Proof. induction l; cbn; constructor; auto. apply sle_any. Qed.
Lemma visit_sle ar T i P P' : visit T i P = TOk P' -> (forall p k, mentions i p k -> t_pred T p = None -> k = ar p) -> sized ar (tp_rels P) -> no_foreign T (tp_rels P) ->
  sized ar (tp_rels P') /\ no_foreign T (tp_rels P') /\ (forall q ts, get (tp_rels P) q = Some ts -> below (tp_rels P') q ts) /\
  match i with
  | IDecl p ts => below (tp_rels P') p (map SBase ts)
  | IFact p cs => below (tp_rels P') p (map resolve_constant cs)
  | ISet p l => forall t, In t l -> below (tp_rels P') p (map resolve_constant t)
  | IRule _ => True
  end.
Proof.
  intros H AR S NF.
  assert (NP : forall p ss, t_pred T p = None -> no_foreign T (put (tp_rels P) p ss)) by (intros p ss TP q TQ; rewrite get_put_neq; [apply NF, TQ|congruence]).
  assert (BP : forall p ss ts, Forall2 sle ss ts -> below (put (tp_rels P) p ss) p ts) by (intros p ss ts F; exists ss; rewrite get_put_eq; auto).
  destruct i as [p ts|p cs|p tuples|r]; cbn [visit mentions] in *.
  - unfold is_foreign in H. destruct (t_pred T p) eqn:TP; [discriminate|]. cbn [orb] in H. destruct (memn p (tp_decls P)); [discriminate|]. tb H. injection H as <-. cbn [tp_rels].
    pose proof (AR p _ (conj eq_refl eq_refl) TP) as L. assert (Q : Forall2 sle r (map SBase ts) /\ forall old, get (tp_rels P) p = Some old -> Forall2 sle r old).
    { destruct (get (tp_rels P) p) as [old|] eqn:G; [|injection E as <-; split; [apply sle_all_refl|discriminate]]. apply of_opt_ok in E. apply zip_sle in E; [|rewrite map_length, (S _ _ G); symmetry; exact L].
      destruct E as (E1 & E2). split; [exact E2|]. intros o K. injection K as <-. exact E1. }
    destruct Q as (Q1 & Q2). destruct (put_visit ar _ p r S ltac:(rewrite (F2_len _ _ _ Q1), map_length; congruence) Q2) as (A & B). repeat split; auto.
  - unfold is_foreign in H. destruct (t_pred T p) eqn:TP; [discriminate|]. tb H. injection H as <-. cbn [tp_rels].
    pose proof (AR p _ (conj eq_refl eq_refl) TP) as L. assert (Q : Forall2 sle r (map resolve_constant cs) /\ forall old, get (tp_rels P) p = Some old -> Forall2 sle r old).
    { destruct (get (tp_rels P) p) as [old|] eqn:G; [|injection E as <-; split; [apply sle_all_refl|discriminate]]. destruct (Nat.eqb _ _); [|discriminate]. apply of_opt_ok in E. apply zip_sle in E; [|rewrite map_length, (S _ _ G); symmetry; exact L].
      destruct E as (E1 & E2). split; [exact E2|]. intros o K. injection K as <-. exact E1. }
    destruct Q as (Q1 & Q2). destruct (put_visit ar _ p r S ltac:(rewrite (F2_len _ _ _ Q1), map_length; congruence) Q2) as (A & B). repeat split; auto.
  - unfold is_foreign in H. destruct (t_pred T p) eqn:TP; [discriminate|]. destruct tuples as [|t tuples]; [injection H as <-; repeat split; auto; [intros q ts G; exists ts; split; [exact G|apply sle_all_refl]|intros ? []]|].
    destruct (forallb _ _); [|discriminate]. tb H. injection H as <-. cbn [tp_rels].
    assert (L : forall u, In u (t :: tuples) -> List.length u = ar p) by (intros u J; apply (AR p); auto; split; auto; eauto).
    assert (LO : List.length (match get (tp_rels P) p with Some s => s | None => repeat SAny (List.length t) end) = ar p).
    { destruct (get (tp_rels P) p) as [old|] eqn:G; [exact (S _ _ G)|]. rewrite repeat_length. apply L. left. reflexivity. }
    destruct (tuples_sle _ _ _ _ _ L LO E) as (Q1 & Q2). destruct (put_visit ar _ p r S ltac:(rewrite (F2_len _ _ _ Q1); exact LO)) as (A & B).
    { intros old G. rewrite G in Q1. exact Q1. } repeat split; auto.
  - destruct (existsb _ _); [discriminate|]. tb H. injection H as <-. cbn [tp_rels]. cbn [ctx_of_rule cx_arities] in E.
    assert (AR' : forall a, In a (map (fun a => (fst a, List.length (snd a))) (rule_atoms r)) -> t_pred T (fst a) = None -> snd a = ar (fst a)).
    { intros a J TP. apply in_map_iff in J. destruct J as (b & <- & J). cbn in *. apply AR; eauto. }
    clear AR NP BP. revert AR' E. generalize (map (fun a => (fst a, List.length (snd a))) (rule_atoms r)). intros l. revert S NF. generalize (tp_rels P). clear P r.
    intros R S NF AR E. enough (G : sized ar r0 /\ no_foreign T r0 /\ forall q ts, get R q = Some ts -> below r0 q ts) by tauto. revert R S NF AR E.
    induction l as [|(p & n) l IH]; intros R S NF AR E; cbn [tfold] in E; [injection E as <-; repeat split; auto; intros q ts G; exists ts; split; [exact G|apply sle_all_refl]|]. tb E.
    unfold unify_arity, is_foreign in E0. cbn [fst snd] in E0. destruct (t_pred T p) eqn:TP; [injection E0 as <-; apply IH; auto; intros a J; apply AR; right; exact J|].
    destruct (get R p) as [ts|] eqn:G; [destruct (Nat.eqb _ _); [|discriminate]; injection E0 as <-; apply IH; auto; intros a J; apply AR; right; exact J|]. injection E0 as <-.
    pose proof (AR (p, n) (or_introl eq_refl) TP) as L. cbn in L. destruct (put_visit ar R p (repeat SAny n) S ltac:(rewrite repeat_length; exact L) ltac:(intros o K; congruence)) as (A & B).
    destruct (IH (put R p (repeat SAny n)) A) as (A' & NF' & B').
    + intros q TQ. rewrite get_put_neq; [apply NF, TQ|congruence].
    + intros a J. apply AR. right. exact J.
    + exact E.
    + repeat split; auto. intros q ts GQ. destruct (B q ts GQ) as (us & GU & F). destruct (B' _ _ GU) as (vs & GV & F'). exists vs. split; auto. eapply sle_all_trans; eauto.
Qed.
Lemma visits_sle ar T items : (forall i p k, In i items -> mentions i p k -> t_pred T p = None -> k = ar p) -> forall P P', tfold (visit T) items P = TOk P' -> sized ar (tp_rels P) -> no_foreign T (tp_rels P) ->
  no_foreign T (tp_rels P') /\ (forall q ts, get (tp_rels P) q = Some ts -> below (tp_rels P') q ts) /\
  (forall p ts, In (IDecl p ts) items -> below (tp_rels P') p (map SBase ts)) /\
  (forall p cs, In (IFact p cs) items -> below (tp_rels P') p (map resolve_constant cs)) /\
  (forall p l t, In (ISet p l) items -> In t l -> below (tp_rels P') p (map resolve_constant t)).
Proof.
  induction items as [|i items IH]; intros AR P P' H S NF; cbn [tfold] in H.
  - injection H as <-. split; [exact NF|]. split; [intros q ts G; exists ts; split; [exact G|apply sle_all_refl]|]. repeat split; intros; contradiction.
  - tb H. destruct (visit_sle ar _ _ _ _ E (fun p k => AR i p k (or_introl eq_refl)) S NF) as (S1 & NF1 & B1 & N1).
    destruct (IH (fun j p k J => AR j p k (or_intror J)) _ _ H S1 NF1) as (NF2 & B2 & D2 & F2 & S2).
    assert (UP : forall p ss, below (tp_rels r) p ss -> below (tp_rels P') p ss) by (intros p ss (ts & G & F); eapply below_trans; eauto).
    split; [exact NF2|]. split; [intros q ts G; apply UP; auto|]. split; [|split].
    + intros p ts [->|J]; auto.
    + intros p cs [->|J]; auto.
    + intros p l t [->|J] I; eauto.
Qed.

(** ** Programs *)
(** No constant with a declared type is itself an argument of an atom. *)
Definition plain_args (r : yrule) : Prop := forall a l c t, In a (rule_atoms r) -> ~ In (YConst l c (Some t)) (snd a).
Lemma arg_node f e p i : no_reduce f = true -> In (UArg e p i) (walk_form f) -> exists a x, In a (form_atoms f) /\ In x (snd a) /\ e = yloc x /\ In (yloc x, x) (fnodes f).
Proof.
  assert (EX : forall x, ~ In (UArg e p i) (walk_expr x)).
  { intros x J. apply walk_node in J. destruct J as (n & _ & B). destruct n; cbn in B; try contradiction; destruct B as [B|[]]; try discriminate; destruct op; discriminate. }
  assert (AT : forall q args, In (UArg e p i) (walk_atom q args) -> exists x, In x args /\ e = yloc x /\ In (yloc x, x) (flat_map ynodes args)).
  { intros q args J. unfold walk_atom in J. apply in_app_iff in J. destruct J as [J|J].
    - apply in_map_iff in J. destruct J as ((k & x) & Q & J). injection Q as <- _ _. apply enumerate_In, nth_error_In in J. exists x. repeat split; auto. apply in_flat_map. exists x. split; auto. rewrite nodes_children. left. reflexivity.
    - apply in_flat_map in J. destruct J as (x & _ & J). destruct (EX _ J). }
  revert f. apply (yform_nested (fun f => no_reduce f = true -> In (UArg e p i) (walk_form f) -> exists a x, In a (form_atoms f) /\ In x (snd a) /\ e = yloc x /\ In (yloc x, x) (fnodes f)));
    cbn [no_reduce walk_form fnodes form_atoms].
  - intros q args _ J. destruct (AT _ _ J) as (x & A & B & C). exists (q, args), x. cbn. auto.
  - intros q args _ J. destruct (AT _ _ J) as (x & A & B & C). exists (q, args), x. cbn. auto.
  - intros x _ J. destruct (EX _ J).
  - intros l IH N J. apply in_flat_map in J. destruct J as (f & I & J). rewrite forallb_forall in N. destruct (IH f I (N f I) J) as (a & x & A & B & C & D). exists a, x. repeat split; auto; apply in_flat_map; eauto.
  - intros l IH N J. apply in_flat_map in J. destruct J as (f & I & J). rewrite forallb_forall in N. destruct (IH f I (N f I) J) as (a & x & A & B & C & D). exists a, x. repeat split; auto; apply in_flat_map; eauto.
  - intros a b IHa IHb N J. apply andb_true_iff in N. destruct N as (N1 & N2). apply in_app_iff in J.
    destruct J as [J|J]; [destruct (IHa N1 J) as (y & x & A & B & C & D)|destruct (IHb N2 J) as (y & x & A & B & C & D)]; exists y, x; repeat split; auto; apply in_app_iff; auto.
  - discriminate.
Qed.
Lemma arg_node_rule r e p i : no_reduce (y_body r) = true -> In (UArg e p i) (cx_unifs (ctx_of_rule r)) -> exists a x, In a (rule_atoms r) /\ In x (snd a) /\ e = yloc x /\ In (yloc x, x) (rnodes r).
Proof.
  cbn [ctx_of_rule cx_unifs]. unfold rnodes, rule_atoms. intros N J. apply in_app_iff in J. destruct J as [J|J].
  - apply in_flat_map in J. destruct J as (a & I & J). destruct (arg_node (YAtom (fst a) (snd a)) e p i eq_refl J) as (b & x & A & B & C & D). cbn in A. destruct A as [<-|[]]. cbn [fnodes snd] in *.
    exists a, x. repeat split; auto; apply in_app_iff; left; auto. apply in_flat_map. eauto.
  - destruct (arg_node _ _ _ _ N J) as (b & x & A & B & C & D). exists b, x. repeat split; auto; apply in_app_iff; auto.
Qed.

Section Program.
Context (fuel : nat) (T : tenv) (items : list titem) (r : state * list var_types_t) (ar : pred -> nat).
Context (H : infer_program fuel T items = Some (TOk r)) (LOC : located (prog_rules items)).
Context (NR : forall x, In x (prog_rules items) -> no_reduce (y_body x) = true).
Context (PA : forall x, In x (prog_rules items) -> plain_args x).
Context (AR : forall i p k, In i items -> mentions i p k -> t_pred T p = None -> k = ar p).
Lemma program_below : exists R, no_foreign T R /\ rnar R (snd (fst r)) /\
  (forall p ts, In (IDecl p ts) items -> below R p (map SBase ts)) /\
  (forall p cs, In (IFact p cs) items -> below R p (map resolve_constant cs)) /\
  (forall p l t, In (ISet p l) items -> In t l -> below R p (map resolve_constant t)).
Proof.
  unfold infer_program in H. destruct (tfold (visit T) items (mkTprog [] [] [])) as [P| |] eqn:EV; try discriminate.
  destruct (visits_ok _ _ _ _ EV) as (_ & CX & _). cbn [tp_ctxs app] in CX. rewrite CX in H.
  destruct (visits_sle ar T items AR _ _ EV) as (NF & _ & D & F & S); [intros p ts G; cbn [tp_rels] in G; rewrite get_nil in G; discriminate|intros p _; apply get_nil|].
  exists (tp_rels P). split; [exact NF|]. split; [|auto]. set (rs := prog_rules items) in *.
  assert (CM : forall u, In u (flat_map cx_unifs (map ctx_of_rule rs)) -> exists x, In x rs /\ In u (cx_unifs (ctx_of_rule x))).
  { intros u J. apply in_flat_map in J. destruct J as (c & J & K). apply in_map_iff in J. destruct J as (x & <- & J). eauto. }
  eapply infer_narrow; [| |exact H|exact NF].
  - intros c e p i IC IE J. apply in_map_iff in IC. destruct IC as (x & <- & IX). destruct (CM _ J) as (y & IY & K).
    apply rule_clocs in IE; [|auto]. destruct (arg_node_rule _ _ _ _ (NR _ IY) K) as (_ & z & _ & _ & -> & IZ).
    apply in_map_iff in IE. destruct IE as ((l & n) & Q & IN). cbn in Q. subst l.
    enough (x = y) by congruence.
    clear - LOC IX IY IN IZ. unfold located in LOC. induction rs as [|b rs IH]; [destruct IX|]. cbn [flat_map] in LOC. rewrite map_app in LOC.
    assert (NIN : forall v m z, In (yloc z, m) (rnodes v) -> In (yloc z) (map fst (rnodes v))) by (intros v m z0 I; apply in_map_iff; exists (yloc z0, m); auto).
    assert (NIF : forall v m z, In v rs -> In (yloc z, m) (rnodes v) -> In (yloc z) (map fst (flat_map rnodes rs))) by (intros v m z0 I J; apply in_map_iff; exists (yloc z0, m); split; auto; apply in_flat_map; eauto).
    destruct IX as [->|IX], IY as [->|IY]; auto.
    + exfalso. eapply (NoDup_app_disjoint _ _ _ LOC); eauto.
    + exfalso. eapply (NoDup_app_disjoint _ _ _ LOC); eauto.
    + apply IH; auto. exact (NoDup_app_r _ _ LOC).
  - intros e p i J I. destruct (CM _ J) as (y & IY & K). destruct (arg_node_rule _ _ _ _ (NR _ IY) K) as (a & z & IA & IZ & -> & NZ).
    apply in_map_iff in I. destruct I as ((e & t) & Q & I). cbn in Q. subst e. apply tcs_In in I. destruct I as (s & I). destruct (CM _ I) as (x & IX & K').
    apply rule_comes, const_node in K'; [|auto]. destruct K' as (c & K').
    assert (z = YConst (yloc z) c (Some t)) by (apply (node_unique rs (yloc z)); auto; apply in_flat_map; eauto). apply (PA _ IY a (yloc z) c t IA). rewrite <- H0. exact IZ.
Qed.
Lemma below_final R p ss : rnar R (snd (fst r)) -> below R p ss -> below (snd (fst r)) p ss.
Proof.
  intros (A & B) (ts & G & F). specialize (B p). unfold rlen in B. rewrite G in B. destruct (get (snd (fst r)) p) as [us|] eqn:GU; [|discriminate]. cbn in B. injection B as B.
  exists us. split; auto. eapply sle_all_trans; [|exact F].
  assert (N : forall i, ole (nth_error us i) (nth_error ts i)) by (intros i; specialize (A p i); unfold rget in A; rewrite G, GU in A; exact A). clear - B N. revert us B N.
  induction ts as [|t ts IH]; intros [|u us] B N; cbn in B; try discriminate; constructor; [exact (N 0)|]. apply IH; [lia|]. intros i. exact (N (S i)).
Qed.
End Program.

(** The declared types of a relation are the types that are inferred for it.  Not covered:
    aggregations, constants with a declared type as arguments of atoms, relations with
    different numbers of arguments. *)
Theorem C69_declared_partial : forall fuel T items r ar, infer_program fuel T items = Some (TOk r) -> located (prog_rules items) ->
  (forall x, In x (prog_rules items) -> no_reduce (y_body x) = true) -> (forall x, In x (prog_rules items) -> plain_args x) ->
  (forall i p k, In i items -> mentions i p k -> t_pred T p = None -> k = ar p) ->
  forall p ts, In (IDecl p ts) items -> rel_type r p = Some ts.
Proof.
  intros fuel T items r ar H LOC NR PA AR p ts I. destruct (program_below fuel T items r ar H LOC NR PA AR) as (R & _ & RN & D & _).
  destruct (below_final _ _ _ _ RN (D _ _ I)) as (us & G & F). unfold rel_type. rewrite G. cbn. f_equal. clear - F. revert us F.
  induction ts as [|t ts IH]; intros us F; inversion F as [|a b la lb SL FL]; subst; [reflexivity|]. cbn. f_equal; [|apply IH; auto]. apply sle_base in SL. subst. reflexivity.
Qed.
Print Assumptions C69_declared_partial.

(** The constants of a fact can stand for the types that are inferred for the relation. *)
Definition stands (c : dconst) (t : vtype) : Prop := match snd c with Some t' => t = t' | None => literal_type (fst c) t end.
Theorem C69_facts_partial : forall fuel T items r ar, infer_program fuel T items = Some (TOk r) -> located (prog_rules items) ->
  (forall x, In x (prog_rules items) -> no_reduce (y_body x) = true) -> (forall x, In x (prog_rules items) -> plain_args x) ->
  (forall i p k, In i items -> mentions i p k -> t_pred T p = None -> k = ar p) ->
  forall p cs, In (IFact p cs) items \/ (exists l, In (ISet p l) items /\ In cs l) -> exists ts, rel_type r p = Some ts /\ Forall2 stands cs ts.
Proof.
  intros fuel T items r ar H LOC NR PA AR p cs I. destruct (program_below fuel T items r ar H LOC NR PA AR) as (R & _ & RN & _ & F & S).
  assert (B : below R p (map resolve_constant cs)) by (destruct I as [I|(l & I & J)]; eauto).
  destruct (below_final _ _ _ _ RN B) as (us & G & K). unfold rel_type. rewrite G. cbn. exists (map ts_default us). split; [reflexivity|]. clear - K. revert us K.
  induction cs as [|c cs IH]; intros us K; inversion K as [|a b la lb SL FL]; subst; [constructor|]. cbn. constructor; [|apply IH; auto]. unfold stands, resolve_constant in *. destruct (snd c).
  - apply sle_base in SL. subst. reflexivity.
  - apply C64_constant_types. eapply sle_member; [exact SL|apply C64_default].
Qed.
Print Assumptions C69_facts_partial.

(** ** The compiled facts *)
Lemma const_value_typed c k t v : const_value c k t = Some v -> is_a v t.
Proof.
  destruct k as [z|f|x|b|s|s|z|z|z].
  - cbn [const_value]. destruct (kind_of t) as [k|] eqn:K.
    + intros E. injection E as <-. apply (is_int _ _ _ K). exists (wrap k z). split; auto. apply wrap_congruent.
    + destruct t; try discriminate K; intros E; try discriminate E; injection E as <-; cbn; eauto.
  - destruct t; intros E; try discriminate E; injection E as <-; cbn; eauto.
  - destruct t; intros E; try discriminate E; injection E as <-; cbn; eauto.
  - destruct t; intros E; try discriminate E; injection E as <-; cbn; eauto.
  - destruct t; intros E; try discriminate E; injection E as <-; cbn; eauto.
  - destruct t; intros E; try discriminate E; injection E as <-; cbn; eauto.
  - destruct t; intros E; try discriminate E; injection E as <-; cbn; eauto.
  - destruct t; intros E; try discriminate E; injection E as <-; cbn; eauto.
  - destruct t; intros E; try discriminate E; injection E as <-; cbn; eauto.
Qed.
Lemma fact_values_typed c ks ts vs : List.length ks = List.length ts -> fact_values c ks ts = Some vs -> Forall2 is_a vs ts.
Proof.
  unfold fact_values. revert ts vs. induction ks as [|k ks IH]; intros [|t ts] vs L H; cbn in L, H; try discriminate; [injection H as <-; constructor|].
  destruct (const_value c k t) as [v|] eqn:E; [|discriminate]. cbn in H. destruct (oall _) as [l|] eqn:EL; [|discriminate]. injection H as <-. constructor; [eapply const_value_typed; eauto|].
  apply IH; auto.
Qed.
(** Where the facts of a compiled program come from: an item with constants of the given
    contents. *)
Definition compiled_fact (c : conv) (items : list titem) (r : state * list var_types_t) (f : fact) : Prop := exists cs ks ts,
  (In (IFact (f_pred f) cs) items \/ exists l, In (ISet (f_pred f) l) items /\ In cs l) /\
  Forall2 (fun k d => content_kind k = fst d) ks cs /\ rel_type r (f_pred f) = Some ts /\ fact_values c ks ts = Some (f_args f).

(** The facts of a program are compiled without a panic, to tuples of the inferred types
    with all their constants. *)
Theorem C69_compiled_partial : forall fuel T items r ar c, infer_program fuel T items = Some (TOk r) -> located (prog_rules items) ->
  (forall x, In x (prog_rules items) -> no_reduce (y_body x) = true) -> (forall x, In x (prog_rules items) -> plain_args x) ->
  (forall i p k, In i items -> mentions i p k -> t_pred T p = None -> k = ar p) ->
  forall p cs ks, In (IFact p cs) items \/ (exists l, In (ISet p l) items /\ In cs l) ->
  Forall2 (fun k d => content_kind k = fst d) ks cs -> (forall k t, In (k, Some t) cs -> literal_type k t) ->
  exists ts, rel_type r p = Some ts /\ (~ In TStr ts -> exists vs, fact_values c ks ts = Some vs /\ List.length vs = List.length cs /\ Forall2 is_a vs ts).
Proof.
  intros fuel T items r ar c H LOC NR PA AR p cs ks I KS LT. destruct (C69_facts_partial fuel T items r ar H LOC NR PA AR p cs I) as (ts & RT & F). exists ts. split; [exact RT|]. clear - KS LT F.
  intros NS. enough (E : exists vs, fact_values c ks ts = Some vs).
  { destruct E as (vs & E). exists vs. split; [exact E|]. assert (T : Forall2 is_a vs ts) by (apply (fact_values_typed c ks); auto; rewrite (F2_len _ _ _ KS); apply (F2_len _ _ _ F)).
    split; [rewrite (F2_len _ _ _ T); symmetry; apply (F2_len _ _ _ F)|exact T]. }
  unfold fact_values. revert ts F NS. induction KS as [|k d ks cs KD KS IH]; intros ts F NS; inversion F as [|a t b ts' ST FT]; subst; [exists []; reflexivity|].
  destruct (IH (fun k t J => LT k t (or_intror J)) _ FT) as (vs & E); [intros J; apply NS; right; exact J|].
  assert (L : literal_type (content_kind k) t).
  { rewrite KD. unfold stands in ST. destruct d as (dk & [t'|]); cbn [fst snd] in *; [subst; apply LT; left; reflexivity|]. exact ST. }
  destruct (C66_constant c k t L) as (v & CV & _); [intros ->; apply NS; left; reflexivity|]. cbn. rewrite CV, E. cbn. eauto.
Qed.
Print Assumptions C69_compiled_partial.

(** If type inference accepts a program and its result is settled, then the facts of a
    stable model have the inferred types; the facts are those that the compiler makes of
    the items.  Not covered: aggregations (C65), constants with a declared type as arguments
    of atoms. *)
Theorem C67_program_partial : forall fuel T items r ar c B F extra lit M,
  infer_program fuel T items = Some (TOk r) -> located (prog_rules items) ->
  (forall x, In x (prog_rules items) -> no_reduce (y_body x) = true) -> (forall x, In x (prog_rules items) -> plain_args x) ->
  (forall i p k, In i items -> mentions i p k -> t_pred T p = None -> k = ar p) ->
  (forall f ft, t_fun T f = Some ft -> fun_ok ft) ->
  (forall l p args, In (l, YEnt l p args) (flat_map rnodes (prog_rules items)) -> forall i s, rget (snd (fst r)) p i = Some s -> exists t, s = SBase t) ->
  settled T items r ->
  env_typed T c (b_env B) -> (forall p, g_foreign (fp_reg F) p = true <-> t_pred T p <> None) ->
  (forall p ts vs, t_pred T p = Some ts -> b_fp B p vs -> Forall2 is_a vs ts) ->
  Forall2 (erases c (expr_type r) lit) (prog_rules items) (fp_rules F) -> (forall f, In f (fp_facts F) -> compiled_fact c items r f) ->
  contents_ok lit (flat_map rnodes (prog_rules items)) -> (forall x, In x (prog_rules items) -> head_ranged x) ->
  (forall f, In f extra -> typed_tuple (rel_type r) (f_pred f) (f_args f)) ->
  front_stable B F extra M -> forall p vs, M p vs -> typed_tuple (rel_type r) p vs.
Proof.
  intros fuel T items r ar c B F extra lit M H LOC NR PA AR FO EN SE ET FG FT ER FC CO HR XT ST.
  apply (C67_inferred_partial fuel T items r c B F extra lit M H LOC NR FO EN SE ET FG FT ER CO HR); [|exact ST].
  intros f J. apply in_app_iff in J. destruct J as [J|J]; [|auto]. destruct (FC f J) as (cs & ks & ts & I & KS & RT & FV).
  destruct (C69_facts_partial fuel T items r ar H LOC NR PA AR _ _ I) as (ts' & RT' & SF). assert (ts' = ts) by congruence. subst ts'.
  intros us RU. assert (us = ts) by congruence. subst us. apply (fact_values_typed c ks); auto. rewrite (F2_len _ _ _ KS). apply (F2_len _ _ _ SF).
Qed.
Print Assumptions C67_program_partial.

(** ** Examples and counterexamples *)
Definition ar_good (p : pred) : nat := match p with 3 => 1 | _ => 2 end.
Lemma good_plain x : In x (prog_rules ex_good) -> plain_args x.
Proof.
  intros J a l k t IA IC. vm_compute in J. destruct J as [<-|[<-|[]]]; vm_compute in IA; repeat (destruct IA as [<-|IA]; [vm_compute in IC; repeat (destruct IC as [IC|IC]; [discriminate IC|]); exact IC|]); exact IA.
Qed.
Lemma good_arity i p k : In i ex_good -> mentions i p k -> k = ar_good p.
Proof.
  intros J M. vm_compute in J. destruct J as [<-|[<-|[<-|[<-|[]]]]]; cbn [mentions] in M.
  - destruct M as (<- & ->). reflexivity.
  - destruct M as (a & IA & <- & ->). vm_compute in IA. repeat (destruct IA as [<-|IA]; [reflexivity|]). destruct IA.
  - destruct M as (<- & t & [<-|[<-|[]]] & ->); reflexivity.
  - destruct M as (a & IA & <- & ->). vm_compute in IA. repeat (destruct IA as [<-|IA]; [reflexivity|]). destruct IA.
Qed.
Example ex_declared : let r := result_of (infer_program 20 env0 ex_good) in
  rel_type r 0 = Some [TU8; TString] /\ (exists ts, rel_type r 1 = Some ts /\ Forall2 stands [(KInt 2, None); (KFloat, None)] ts) /\
  exists ts, rel_type r 1 = Some ts /\ (~ In TStr ts -> exists vs, fact_values conv0 [CInt 2; CFloat (fun _ => 7%Z)] ts = Some vs /\ List.length vs = 2 /\ Forall2 is_a vs ts).
Proof.
  cbv zeta. assert (I : infer_program 20 env0 ex_good = Some (TOk (result_of (infer_program 20 env0 ex_good)))) by (vm_compute; reflexivity).
  assert (L : located (prog_rules ex_good)) by (unfold located; vm_compute; nodup).
  assert (NR : forall x, In x (prog_rules ex_good) -> no_reduce (y_body x) = true) by (intros x J; vm_compute in J; destruct J as [<-|[<-|[]]]; reflexivity).
  assert (S : exists l, In (ISet 1 l) ex_good /\ In [(KInt 2, None); (KFloat, None)] l) by (eexists; split; [right; right; left; reflexivity|right; left; reflexivity]).
  split; [|split].
  - apply (C69_declared_partial 20 env0 ex_good _ ar_good I L NR good_plain (fun i p k J M _ => good_arity i p k J M)). left. reflexivity.
  - apply (C69_facts_partial 20 env0 ex_good _ ar_good I L NR good_plain (fun i p k J M _ => good_arity i p k J M)). right. exact S.
  - apply (C69_compiled_partial 20 env0 ex_good _ ar_good conv0 I L NR good_plain (fun i p k J M _ => good_arity i p k J M) 1 [(KInt 2, None); (KFloat, None)]).
    + right. exact S.
    + repeat constructor.
    + intros k t [J|[J|[]]]; discriminate J.
Qed.
Example ex_program : let r := result_of (infer_program 20 env0 ex_items) in forall p vs, ex_M p vs -> typed_tuple (rel_type r) p vs.
Proof.
  cbv zeta. apply (C67_program_partial 20 env0 ex_items _ (fun _ => 2) conv0 benv0 ex_F [] ex_lit ex_M).
  - vm_compute. reflexivity.
  - unfold located. vm_compute. nodup.
  - intros x J. vm_compute in J. destruct J as [<-|[]]; reflexivity.
  - intros x J a l k t IA IC. vm_compute in J. destruct J as [<-|[]]; vm_compute in IA. repeat (destruct IA as [<-|IA]; [vm_compute in IC; repeat (destruct IC as [IC|IC]; [discriminate IC|]); exact IC|]); exact IA.
  - intros i p k J M _. vm_compute in J. destruct J as [<-|[<-|[<-|[]]]]; cbn [mentions] in M; [destruct M as (<- & ->); reflexivity|destruct M as (<- & ->); reflexivity|].
    destruct M as (a & IA & <- & ->). vm_compute in IA. repeat (destruct IA as [<-|IA]; [reflexivity|]). destruct IA.
  - apply env0_ok.
  - intros l p args J. exfalso. vm_compute in J. repeat (destruct J as [J|J]; [discriminate J|]). exact J.
  - vm_compute. repeat split.
  - exact renv0_typed.
  - intros p. cbn. split; [discriminate|congruence].
  - intros p ts vs H. discriminate H.
  - constructor; [|constructor]. split; vm_compute; reflexivity.
  - intros f [<-|[]]. exists [(KInt 255, None); (KString, None)], [CInt 255; CString "a"%string], [TU8; TString].
    split; [left; right; left; reflexivity|]. split; [repeat constructor|]. split; vm_compute; reflexivity.
  - intros l k d J. vm_compute in J. repeat (destruct J as [J|J]; [try discriminate J; inversion J; subst; reflexivity|]); destruct J.
  - intros x J. vm_compute in J. destruct J as [<-|[]]. intros a e [<-|[]] [<-|[<-|[]]]; (split; [reflexivity|]); intros v [<-|[]].
    + exists 2. right. cbn. right. left. left. split; [reflexivity|]. split; [reflexivity|]. intros y [<-|[]]. right. left. eexists. left; reflexivity.
    + exists 1. right. cbn. left. eexists. right; left; reflexivity.
  - intros f [].
  - exact ex_M_stable.
Qed.
(** A constant with a declared type as an argument overrides the declared type of the
    relation:  const C: u32 = 1   type p(i32)   rel p(C) = q() *)
Theorem C69_constant_refuted : exists fuel T items r p t t', infer_program fuel T items = Some (TOk r) /\ located (prog_rules items) /\
  In (IDecl p [t]) items /\ rel_type r p = Some [t'] /\ t <> t' /\ settled T items r.
Proof.
  exists 20, env0, [IDecl 0 [TI32]; IRule (mkYrule [(0, [YConst 0 (KInt 1) (Some TU32)])] (YAtom 1 []))].
  eexists; exists 0, TI32, TU32. split; [vm_compute; reflexivity|]. split; [unfold located; vm_compute; nodup|]. split; [left; reflexivity|]. split; [vm_compute; reflexivity|]. split; [discriminate|vm_compute; repeat split].
Qed.
Print Assumptions C69_constant_refuted.
(** A declaration after a set of facts may have another number of arguments:
    rel p = {1}   type p(i32, i32) *)
Theorem C69_arity_refuted : exists fuel T items r p ts, infer_program fuel T items = Some (TOk r) /\ In (IDecl p ts) items /\ rel_type r p <> Some ts /\ settled T items r.
Proof.
  exists 20, env0, [ISet 0 [[(KInt 1, None)]]; IDecl 0 [TI32; TI32]]. eexists; exists 0, [TI32; TI32].
  split; [vm_compute; reflexivity|]. split; [right; left; reflexivity|]. split; [vm_compute; discriminate|vm_compute; repeat split].
Qed.
Print Assumptions C69_arity_refuted.
