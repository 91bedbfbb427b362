(** C76: the boundness analysis of rules with aggregations. *)
From Coq Require Import List ZArith Bool Arith Lia.
From Verif Require Import Value ListAux Back Eval BackSem Scc SccFacts Plan PlanSem PlanFacts Front FrontSem FrontFacts PropsOpt PropsFront FlatFacts PropsFlat Bound PropsBound FrontAgg AggSem AggFacts AggFacts2 PropsQuant PropsFrontAgg PropsAggProg.
Import ListNotations.

(** ** Specification *)
(** No where-clauses; constraints that the translation knows. *)
Fixpoint where_free (f : aform) : bool :=
  match f with
  | AConj l | ADisj l => forallb where_free l
  | AImp a b => where_free a && where_free b
  | ARed _ _ _ _ body wh | AAll _ _ _ _ body wh => where_free body && match wh with None => true | Some _ => false end
  | _ => true
  end.
Fixpoint acons_ok (f : aform) : bool :=
  match f with
  | ACons e => is_constraint e
  | AConj l | ADisj l => forallb acons_ok l
  | AImp a b => acons_ok a && acons_ok b
  | ARed _ _ _ _ body wh | AAll _ _ _ _ body wh => acons_ok body && match wh with None => true | Some (_, w) => acons_ok w end
  | _ => true
  end.

(** ** Rules without aggregations *)
Definition of_conj (c : cctx) : jctx := mkJ (c_pos c) (c_neg c) [].
Lemma join_of : forall l, jjoin (map of_conj l) = of_conj (conj_join l).
Proof.
  intros l. unfold conj_join. assert (G : forall l a, of_conj (fold_left (fun a c => mkConj (c_pos a ++ c_pos c) (c_neg a ++ c_neg c)) l a) = jjoin (of_conj a :: map of_conj l)).
  { induction l0 as [|c l0 IH]; intros a; [unfold jjoin; cbn; rewrite !app_nil_r; destruct a; reflexivity|]. cbn [fold_left]. rewrite IH. unfold jjoin. cbn. rewrite <- !app_assoc. reflexivity. }
  rewrite G. reflexivity.
Qed.
Lemma product_map : forall (S T : Type) (h : S -> T) l, product (map (map h) l) = map (map h) (product l).
Proof.
  intros S T h l. induction l as [|c l IH]; [reflexivity|]. cbn [map product]. rewrite IH. generalize (product l). intros ps. clear. induction c as [|x c IHc]; [reflexivity|]. cbn [map flat_map]. rewrite map_app, IHc. f_equal. rewrite !map_map. reflexivity.
Qed.
Lemma from_aof : forall f, from_aform (aof f) = option_map (map of_conj) (from_formula f).
Proof.
  intros f. pattern f. apply form_ind2; clear f; try reflexivity.
  - intros l IH. cbn [aof from_aform from_formula].
    assert (E : oall (map from_aform (map aof l)) = option_map (map (map of_conj)) (oall (map from_formula l))).
    { induction IH as [|f l Hf IH IHl]; [reflexivity|]. cbn [map oall]. rewrite Hf, IHl. destruct (from_formula f); [|reflexivity]. cbn. destruct (oall (map from_formula l)); reflexivity. }
    rewrite E. destruct (oall (map from_formula l)) as [cs|]; [|reflexivity]. cbn [option_map obnd]. f_equal.
    assert (MP : multi_product (map (map of_conj) cs) = map (map of_conj) (multi_product cs)) by (destruct cs as [|c cs]; [reflexivity|exact (product_map _ _ of_conj (c :: cs))]). rewrite MP, !map_map. apply map_ext. apply join_of.
  - intros l IH. cbn [aof from_aform from_formula].
    assert (E : oall (map from_aform (map aof l)) = option_map (map (map of_conj)) (oall (map from_formula l))).
    { induction IH as [|f l Hf IH IHl]; [reflexivity|]. cbn [map oall]. rewrite Hf, IHl. destruct (from_formula f); [|reflexivity]. cbn. destruct (oall (map from_formula l)); reflexivity. }
    rewrite E. destruct (oall (map from_formula l)) as [cs|]; [|reflexivity]. cbn [option_map obnd]. f_equal. rewrite concat_map. reflexivity.
Qed.
Lemma pos_bound_nil : forall foreign nb ar c bexprs, pos_bound foreign nb ar (c_pos c) [] bexprs = conj_bound foreign nb ar c bexprs.
Proof.
  intros foreign nb ar c bexprs. unfold pos_bound, conj_bound, conj_context. cbn [c_pos]. destruct (walk_formulas foreign nb ar (c_pos c) 0) as [c1 n1]. destruct (walk_args bexprs n1) as [[c2 ls] n2]. cbn [flat_map fold_left app].
  destruct (bound_fix (S (S n2)) (lc_app c1 c2) (fold_left add ls [])) as [s|]; [|reflexivity]. cbn [app]. f_equal. unfold variables. rewrite (nodup_fixed_point Nat.eq_dec (NoDup_nodup Nat.eq_dec (map fst (lc_vars (lc_app c1 c2))))). reflexivity.
Qed.
(** Of rules without aggregations, the analysis says what that of C60 says. *)
Theorem C76_same : forall foreign nb ar pattern hd body, arule_bound foreign nb ar pattern (mkArule hd (aof body)) = rule_bound foreign nb ar pattern (mkFrule hd body).
Proof.
  intros foreign nb ar pattern hd body. unfold arule_bound, rule_bound. cbn [ar_body ar_head fr_body fr_head]. rewrite from_aof. destruct (from_formula body) as [cs|]; [|reflexivity]. cbn [option_map obnd].
  set (be := demanded pattern hd). unfold rctx_bound, conjs_known.
  assert (K : oall (map (conj_known foreign nb ar be) (map of_conj cs)) = Some (map (fun c => (c_pos c, Bounded [])) cs)).
  { induction cs as [|c cs IH]; [reflexivity|]. cbn [map oall]. rewrite IH. reflexivity. }
  rewrite K. cbn [obnd]. unfold ctx_bound, disj_bound.
  assert (C : answers (map (kconj_bound foreign nb ar be) (map (fun c => (c_pos c, Bounded [])) cs)) = conjs_bound foreign nb ar cs be).
  { clear K. induction cs as [|c cs IH]; [reflexivity|]. cbn [map answers conjs_bound]. rewrite IH. unfold kconj_bound at 1. cbn [fst snd]. rewrite pos_bound_nil. reflexivity. }
  rewrite C. destruct (conjs_bound foreign nb ar cs be) as [l|]; [|reflexivity]. cbn [obnd]. destruct (match l with [] => Bounded [] | a :: r => fold_left meet r a end) as [vs|]; [|reflexivity].
  destruct (forallb (fun v => memb v vs) (ehead_vars hd)); reflexivity.
Qed.
Print Assumptions C76_same.

(** ** The translation of accepted rules *)
Definition lit_ok (f : formula) : bool := match f with FAtom _ _ | FNeg _ _ => true | FCons e => is_constraint e | _ => false end.
Fixpoint gplain (a : actx) : bool :=
  match a with mkA _ _ _ _ body wh => forallb jplain body && match wh with None => true | Some _ => false end end
with jplain (c : jctx) : bool := match c with mkJ pos neg aggs => forallb lit_ok (pos ++ neg) && forallb gplain aggs end.
Lemma from_plain : forall f cs, where_free f = true -> acons_ok f = true -> from_aform f = Some cs -> forall c, In c cs -> jplain c = true.
Proof.
  intros f. pattern f. apply aform_ind2; clear f.
  - intros p l cs _ _ H c I. injection H as <-. destruct I as [<-|[]]. reflexivity.
  - intros p l cs _ _ H c I. injection H as <-. destruct I as [<-|[]]. reflexivity.
  - intros e cs _ A H c I. injection H as <-. destruct I as [<-|[]]. cbn in *. rewrite A. reflexivity.
  - intros l IH cs W A H c I. cbn [from_aform where_free acons_ok] in *. destruct (oall (map from_aform l)) as [css|] eqn:E; [|discriminate]. cbn in H. injection H as <-. apply oall_map in E.
    apply in_map_iff in I. destruct I as (sel & <- & I). rewrite Forall_forall in IH. rewrite forallb_forall in W, A.
    assert (P : forall c, In c sel -> jplain c = true) by (intros c Ic; destruct (from_in _ _ _ E I c Ic) as (f & cs & If & Ef & Icc); eapply IH; eauto).
    unfold jjoin. cbn [jplain]. rewrite andb_true_iff, !forallb_forall. split.
    + intros x J. apply in_app_or in J. destruct J as [J|J]; apply in_flat_map in J; destruct J as ([pos neg aggs] & K1 & K2); specialize (P _ K1); cbn [jplain] in P; apply andb_prop in P; destruct P as [P _]; rewrite forallb_forall in P; apply P, in_or_app; auto.
    + intros x J. apply in_flat_map in J; destruct J as ([pos neg aggs] & K1 & K2); specialize (P _ K1); cbn [jplain] in P; apply andb_prop in P; destruct P as [_ P]; rewrite forallb_forall in P; auto.
  - intros l IH cs W A H c I. cbn [from_aform where_free acons_ok] in *. destruct (oall (map from_aform l)) as [css|] eqn:E; [|discriminate]. cbn in H. injection H as <-. apply oall_map in E.
    apply in_concat in I. destruct I as (cs & I1 & I2). destruct (F2_in_r _ E I1) as (f & If & Ef). rewrite Forall_forall in IH. rewrite forallb_forall in W, A. eapply IH; eauto.
  - intros a b _ _ cs _ _ H. discriminate H.
  - intros lv op args bs body wh IHb IHw cs W A H c I. destruct (from_red _ _ _ _ _ _ _ H) as (b & wh' & Eb & -> & Ew). destruct I as [<-|[]]. cbn [where_free acons_ok] in *. destruct wh; [rewrite andb_false_r in W; discriminate W|]. subst wh'. rewrite andb_true_r in W, A.
    cbn [jplain forallb app gplain andb]. rewrite !andb_true_r. apply forallb_forall. intros c Ic. eapply IHb; eauto.
  - intros id neg op bs body wh cs _ _ H. discriminate H.
Qed.
Section NoPanic.
  Variables (foreign : pred -> bool) (nb ar : pred -> nat) (fr wc : nat -> var) (nm : path -> pred).
  Lemma meet_bounded : forall l a vs, fold_left meet l a = Bounded vs -> (exists x, a = Bounded x) /\ forall b, In b l -> exists y, b = Bounded y.
  Proof.
    induction l as [|b l IH]; intros a vs H; [split; [eauto|intros b []]|]. cbn [fold_left] in H. destruct (IH _ _ H) as [(x & E) K]. destruct a, b; try discriminate E. split; [eauto|]. intros c [<-|I]; eauto.
  Qed.
  Lemma union_bounded : forall a b vs, union a b = Bounded vs -> (exists x, a = Bounded x) /\ exists y, b = Bounded y.
  Proof. intros [x|] [y|] vs H; try discriminate H; eauto. Qed.
  Lemma answers_in : forall l r, answers l = Some r -> forall x, In x l -> exists a, x = Some a /\ In a r.
  Proof.
    induction l as [|y l IH]; intros r H x I; [destruct I|]. cbn [answers] in H. destruct y as [a|]; [|discriminate H]. cbn [obnd] in H. destruct (answers l) as [r'|]; [|discriminate H]. injection H as <-. destruct I as [<-|I]; [exists a; cbn; auto|]. destruct (IH _ eq_refl x I) as (b & E & J). exists b. cbn. auto.
  Qed.
  Lemma ctx_known : forall hv ks vs, ctx_bound foreign nb ar [] hv ks = Some (Bounded vs) -> forall k, In k ks -> exists y, snd k = Bounded y.
  Proof.
    intros hv ks vs H k I. unfold ctx_bound in H. destruct (answers (map (kconj_bound foreign nb ar []) ks)) as [l|] eqn:E; [|discriminate H]. cbn [obnd] in H.
    destruct (answers_in _ _ E (kconj_bound foreign nb ar [] k)) as (a & Ea & Ia); [apply in_map; auto|].
    assert (B : exists y, a = Bounded y).
    { destruct l as [|b l]; [destruct Ia|]. destruct (fold_left meet l b) as [us|] eqn:F; [|discriminate H]. destruct (meet_bounded _ _ _ F) as [H1 H2]. destruct Ia as [<-|Ia]; auto. }
    destruct B as (y & ->). unfold kconj_bound in Ea. destruct (snd k); [eauto|discriminate Ea].
  Qed.
  Lemma agg_bound_eq : forall lv op args bs body, agg_bound foreign nb ar [] (mkA lv op args bs body None) = obnd (conjs_known foreign nb ar [] body) (fun body => known_bound foreign nb ar [] lv args bs body None).
  Proof. intros lv op args bs body. rewrite <- known_eq. reflexivity. Qed.
  Definition np_P (a : actx) : Prop := forall vs, agg_bound foreign nb ar [] a = Some (Bounded vs) -> gplain a = true -> forall pi ci ai hv n, lower_agg foreign nb ar fr wc nm a pi ci ai hv n <> None.
  Definition np_Q (c : jctx) : Prop := forall pos vs, conj_known foreign nb ar [] c = Some (pos, Bounded vs) -> jplain c = true -> forall pi ci hv h extra n, lower_conj foreign nb ar fr wc nm c pi ci hv h extra n <> None.
  Lemma np_conjs : forall l, Forall np_Q l -> forall ks, conjs_known foreign nb ar [] l = Some ks -> (forall k, In k ks -> exists y, snd k = Bounded y) -> forallb jplain l = true ->
    forall extra pi hv h ci n, lower_conjs foreign nb ar fr wc nm extra l pi hv h ci n <> None.
  Proof.
    intros l F. induction F as [|c l Hc F IH]; intros ks E K P extra pi hv h ci n; [discriminate|]. rewrite lower_conjs_eq. unfold conjs_known in E. cbn [map oall] in E. destruct (conj_known foreign nb ar [] c) as [[pos a]|] eqn:E1; [|discriminate E]. cbn [obnd] in E.
    destruct (oall (map (conj_known foreign nb ar []) l)) as [ks'|] eqn:E2; [|discriminate E]. injection E as <-. cbn [forallb] in P. apply andb_prop in P. destruct P as [P1 P2].
    destruct (K (pos, a) (or_introl eq_refl)) as (y & Ey). cbn in Ey. subst a. specialize (Hc _ _ E1 P1 pi ci hv h extra n). destruct (lower_conj foreign nb ar fr wc nm c pi ci hv h extra n) as [[[r ts] n1]|]; [|congruence]. cbn [obnd].
    specialize (IH ks' E2 (fun k I => K k (or_intror I)) P2 extra pi hv h (S ci) n1). destruct (lower_conjs foreign nb ar fr wc nm extra l pi hv h (S ci) n1) as [[[rs us] n2]|]; [discriminate|congruence].
  Qed.
  Lemma np_lits : forall l n, forallb lit_ok l = true -> exists x, flat_lits fr l n = Some x.
  Proof.
    induction l as [|f l IH]; intros n P; [cbn; eauto|]. cbn [forallb] in P. apply andb_prop in P. destruct P as [P1 P2]. cbn [flat_lits].
    destruct (flat_lit fr f n) as [[l1 n1]|] eqn:E; cbn [obnd snd fst]; [destruct (IH n1 P2) as ([l2 n2] & ->); cbn; eauto|]. exfalso.
    apply lit_total in E; [destruct f; cbn in *; congruence|]. destruct f; try discriminate P1; eauto 6.
  Qed.
  Lemma np_ok : (forall a, np_P a) /\ forall c, np_Q c.
  Proof.
    assert (HP : forall lv op args bs body wh, Forall np_Q body -> (forall vs w, wh = Some (vs, w) -> Forall np_Q w) -> np_P (mkA lv op args bs body wh)).
    { intros lv op args bs body wh FB _ vs H P pi ci ai hv n. cbn [gplain] in P. destruct wh; [rewrite andb_false_r in P; discriminate P|]. rewrite andb_true_r in P.
      rewrite agg_bound_eq in H. destruct (conjs_known foreign nb ar [] body) as [kb|] eqn:EB; [|discriminate H]. cbn [obnd] in H. unfold known_bound in H. cbn [obnd] in H.
      destruct (ctx_bound foreign nb ar [] (bs ++ args) kb) as [[bv|]|] eqn:EC; try discriminate H. 
      rewrite lower_agg_eq. unfold rctx_bound. rewrite EB. cbn [obnd]. rewrite EC. cbn [bounded_vars obnd].
      pose proof (np_conjs body FB kb EB (ctx_known _ _ _ EC) P) as C.
      match goal with |- context [lower_conjs foreign nb ar fr wc nm [] body ?p ?h ?a ?c ?m] => specialize (C [] p h a c m); destruct (lower_conjs foreign nb ar fr wc nm [] body p h a c m) as [[[rs us] n2]|]; [discriminate|congruence] end. }
    assert (HQ : forall pos neg aggs, Forall np_P aggs -> np_Q (mkJ pos neg aggs)).
    { intros pos neg aggs F pos' vs H P pi ci hv h extra n. cbn [jplain] in P. apply andb_prop in P. destruct P as [P1 P2]. rewrite forallb_app in P1. apply andb_prop in P1. destruct P1 as [P1 P3].
      rewrite conj_known_eq in H. destruct (aggs_known foreign nb ar aggs) as [a0|] eqn:EA; [|discriminate H]. cbn [obnd] in H. injection H as <- ->.
      rewrite lower_conj_eq.
      assert (L : forall ai n, lower_aggs foreign nb ar fr wc nm pi ci hv aggs ai n <> None).
      { clear - F P2 EA. revert vs EA. induction F as [|a l Ha F IH]; intros vs EA ai n; [discriminate|]. cbn [forallb] in P2. apply andb_prop in P2. destruct P2 as [Pa Pl]. cbn [aggs_known] in EA.
        destruct (agg_bound foreign nb ar [] a) as [x|] eqn:E1; [|discriminate EA]. cbn [obnd] in EA. destruct (aggs_known foreign nb ar l) as [y|] eqn:E2; [|discriminate EA]. cbn [obnd] in EA. injection EA as EA. destruct (union_bounded _ _ _ EA) as [(x' & ->) (y' & ->)].
        rewrite lower_aggs_eq. specialize (Ha _ E1 Pa pi ci ai hv n). destruct (lower_agg foreign nb ar fr wc nm a pi ci ai hv n) as [[[r ts] n1]|]; [|congruence]. cbn [obnd]. specialize (IH Pl _ eq_refl (S ai) n1). destruct (lower_aggs foreign nb ar fr wc nm pi ci hv l (S ai) n1) as [[[ls us] n2]|]; [discriminate|congruence]. }
      specialize (L 0 n). destruct (lower_aggs foreign nb ar fr wc nm pi ci hv aggs 0 n) as [[[reds ts] n1]|]; [|congruence]. cbn [obnd].
      destruct (np_lits pos n1 P1) as ([l1 m1] & ->). cbn [obnd fst snd]. destruct (np_lits neg m1 P3) as ([l2 m2] & ->). discriminate. }
    split; [apply (actx_ind2 _ _ HP HQ)|apply (jctx_ind2 _ _ HP HQ)].
  Qed.
End NoPanic.
(** An accepted rule without where-clauses is translated, if its head has no demand
    pattern. *)
Theorem C76_translated_partial : forall foreign nb ar fr wc nm pattern r, arule_bound foreign nb ar pattern r = Some true -> demanded pattern (ar_head r) = [] ->
  where_free (ar_body r) = true -> acons_ok (ar_body r) = true -> (forall l, ar_head r <> FHConj l) ->
  exists main temps, lower_rule foreign nb ar fr wc nm r = Some (main, temps).
Proof.
  intros foreign nb ar fr wc nm pattern r H D W A NH. unfold arule_bound in H. unfold lower_rule. destruct (from_aform (ar_body r)) as [cs|] eqn:E; [|discriminate H]. cbn [obnd] in *. rewrite D in H.
  destruct (rctx_bound foreign nb ar [] (ehead_vars (ar_head r)) cs) as [[vs|]|] eqn:R; try discriminate H. unfold rctx_bound in R. destruct (conjs_known foreign nb ar [] cs) as [ks|] eqn:K; [|discriminate R]. cbn [obnd] in R.
  assert (FH : exists x, flat_head fr (ar_head r) = Some x).
  { destruct (ar_head r) as [[p es]|l|b l]; cbn [flat_head]; [|destruct (NH l eq_refl)|].
    - destruct (flat_args fr es 0) as [[ts l1] n1]. eauto.
    - cbn [flat_heads]. destruct b as [p es]. destruct (flat_args fr es 0) as [[ts l1] n1]. destruct (flat_heads fr l n1) as [[hs l2] n2]. eauto. }
  destruct FH as ([[h extra] n] & ->). cbn [obnd].
  pose proof (np_conjs foreign nb ar fr wc nm cs ltac:(apply Forall_forall; intros c _; apply np_ok) ks K (ctx_known foreign nb ar _ _ _ R)
    ltac:(apply forallb_forall; intros c I; eapply from_plain; eauto) extra [] (ehead_vars (ar_head r)) h 0 n) as C.
  destruct (lower_conjs foreign nb ar fr wc nm extra cs [] (ehead_vars (ar_head r)) h 0 n) as [[[rs us] n']|]; [|congruence]. cbn [obnd]. eauto.
Qed.
Print Assumptions C76_translated_partial.
(** h(x, n) = n := count(y: p(x, y), m := count(z: p(y, z)), m == 1). *)
Definition C76_rule : arule := mkArule (FHAtom (9, [EVar 0; EVar 2])) (ARed [LV 2] 0 [] [1]
  (AConj [AAtom 1 [EVar 0; EVar 1]; ARed [LV 3] 0 [] [4] (AAtom 1 [EVar 1; EVar 4]) None; ACons (EBin OEq (EVar 3) (EConst (USize 1)))]) None).
Example C76_translated_ex : arule_bound q_none q_zero q_zero (fun _ => None) C76_rule = Some true /\ where_free (ar_body C76_rule) = true /\ acons_ok (ar_body C76_rule) = true /\
  exists main temps, lower_rule q_none q_zero q_zero ex_fr ex_wc (ex_nm 0) C76_rule = Some (main, temps).
Proof.
  split; [vm_compute; reflexivity|]. split; [reflexivity|]. split; [reflexivity|].
  apply (C76_translated_partial q_none q_zero q_zero ex_fr ex_wc (ex_nm 0) (fun _ => None)); [vm_compute; reflexivity|reflexivity|reflexivity|reflexivity|discriminate].
Qed.

(** ** What is not true *)
(** Where-clauses: [h(x, n) = n := count(y: r(y), y < x where x: q(x))] is accepted, since
    [q] grounds [x], and the translation panics, since [r(y), y < x] does not. *)
Theorem C76_where_refuted : exists r, acons_ok (ar_body r) = true /\ arule_bound q_none q_zero q_zero (fun _ => None) r = Some true /\
  forall fr wc nm, lower_rule q_none q_zero q_zero fr wc nm r = None.
Proof.
  exists (mkArule (FHAtom (9, [EVar 1; EVar 2])) (ARed [LV 2] 0 [] [0] (AConj [AAtom 1 [EVar 0]; ACons (EBin OLt (EVar 0) (EVar 1))]) (Some ([1], AAtom 2 [EVar 1])))).
  split; [reflexivity|]. split; [vm_compute; reflexivity|]. intros fr wc nm. reflexivity.
Qed.
(** Demand patterns: [h(x, n) = n := count(y: p(y), y < x)] is accepted if [x] is demanded,
    and the translation panics. *)
Theorem C76_demand_refuted : exists r pattern, where_free (ar_body r) = true /\ acons_ok (ar_body r) = true /\ arule_bound q_none q_zero q_zero pattern r = Some true /\
  forall fr wc nm, lower_rule q_none q_zero q_zero fr wc nm r = None.
Proof.
  exists (mkArule (FHAtom (9, [EVar 1; EVar 2])) (ARed [LV 2] 0 [] [0] (AConj [AAtom 1 [EVar 0]; ACons (EBin OLt (EVar 0) (EVar 1))]) None)), (fun _ => Some [true; false]).
  split; [reflexivity|]. split; [reflexivity|]. split; [vm_compute; reflexivity|]. intros fr wc nm. reflexivity.
Qed.
(** The variables of the body of an aggregation are taken for bound outside of it:
    [h(n, m) = n := count(x: p(x, y)), m == y] is accepted and has facts for all values
    [m]. *)
Theorem C76_leak_refuted : exists r M, arule_bound q_none q_zero q_zero (fun _ => None) r = Some true /\
  (forall p t, M p t <-> p = 1 /\ t = [I32 1; I32 5]) /\
  forall v, agg_consequence ex_count ex_benv ex_reg M ex_wc (grounds q_none q_zero q_zero) M r 9 [USize 1; v].
Proof.
  exists (mkArule (FHAtom (9, [EVar 2; EVar 3])) (AConj [ARed [LV 2] 0 [] [0] (AAtom 1 [EVar 0; EVar 1]) None; ACons (EBin OEq (EVar 3) (EVar 1))])), (fun p t => p = 1 /\ t = [I32 1; I32 5]).
  split; [vm_compute; reflexivity|]. split; [intros; reflexivity|]. intros v.
  exists (fun x => match x with 2 => USize 1 | _ => v end), (9, [EVar 2; EVar 3]). split; [|split; [left; reflexivity|split; [reflexivity|repeat constructor]]].
  cbn [ar_body ar_head]. split; [|split; [exists v, v; cbn; auto|exact Logic.I]]. cbn [aholds].
  match goal with |- (?G = [] \/ _) /\ _ => change G with (@nil var) end. split; [left; reflexivity|]. split; [reflexivity|]. exists [[I32 1]]. split; [repeat constructor; intros []|]. split; [|reflexivity].
  intros t. split.
  - intros [<-|[]]. exists (fun x => match x with 0 => I32 1 | _ => I32 5 end). split; [intros x []|]. split; [|reflexivity]. exists [I32 1; I32 5]. split; [repeat constructor|]. split; reflexivity.
  - intros (s' & _ & (vs & H & _ & ->) & ->). inversion H as [|? a ? ? Ha Hn]; subst. cbn in Ha. left. cbn. rewrite <- Ha. reflexivity.
Qed.
Print Assumptions C76_where_refuted.
Print Assumptions C76_demand_refuted.
Print Assumptions C76_leak_refuted.

(** ** Bindings *)
(** The bindings of an aggregation are not bound outside of it: a rule with one aggregation
    that puts one of them into its head is rejected, unless it is a result as well. *)
Theorem C76_bindings : forall foreign nb ar pattern r lv op args bs body wh, ar_body r = ARed lv op args bs body wh ->
  demanded pattern (ar_head r) = [] -> arule_bound foreign nb ar pattern r = Some true ->
  forall v, In v (ehead_vars (ar_head r)) -> In v bs -> In v (lvars lv).
Proof.
  intros foreign nb ar pattern r lv op args bs body wh E D H v I B. unfold arule_bound in H. rewrite E, D in H. cbn [from_aform] in H.
  destruct (from_aform body) as [b|]; [|discriminate H]. cbn [obnd] in H.
  match type of H with obnd (obnd ?x _) _ = _ => destruct x as [w|]; [|discriminate H] end. cbn [obnd] in H.
  unfold rctx_bound, conjs_known in H. cbn [map oall] in H. rewrite conj_known_eq in H. cbn [aggs_known obnd] in H.
  destruct (agg_bound foreign nb ar [] (mkA lv op args bs b w)) as [a|] eqn:A; [|discriminate H]. cbn [obnd oall] in H.
  unfold ctx_bound in H. cbn [map answers] in H. unfold kconj_bound in H. cbn [fst snd] in H.
  destruct a as [vs|]; cbn [union] in H; [|cbn in H; discriminate H].
  destruct (pos_bound foreign nb ar [] (vs ++ []) []) as [[us|]|] eqn:P; cbn in H; try discriminate H.
  destruct (forallb (fun v => memb v us) (ehead_vars (ar_head r))) eqn:F; [|discriminate H].
  rewrite forallb_forall in F. apply F, memb_In in I. destruct (@pos_bound_vars _ _ _ _ _ _ P v I) as [J|J]; [|destruct J]. rewrite app_nil_r in J.
  cbn [agg_bound] in A. match type of A with obnd ?x _ = _ => destruct x as [kb|]; [|discriminate A] end. cbn [obnd] in A.
  match type of A with obnd ?x _ = _ => destruct x as [kw|]; [|discriminate A] end. cbn [obnd] in A. unfold known_bound in A.
  match type of A with obnd ?x _ = _ => destruct x as [[ws|]|]; cbn [obnd] in A; [| |discriminate A] end;
  match type of A with obnd ?x _ = _ => destruct x as [[zs|]|]; cbn [obnd] in A; try discriminate A end.
  match type of A with context [forallb ?f args] => destruct (forallb f args) eqn:G; [|discriminate A] end. injection A as <-.
  apply in_app_or in J as [J|J]; [|apply in_app_or in J as [J|J]; auto; rewrite forallb_forall in G; apply G, memb_In in J];
  apply filter_In in J as [_ J]; apply negb_true_iff in J; apply memb_In in B; congruence.
Qed.
Print Assumptions C76_bindings.
Example C76_bindings_ex : arule_bound q_none q_zero q_zero (fun _ => None) (mkArule (FHAtom (9, [EVar 1])) (ARed [LV 2] 0 [] [1] (AAtom 1 [EVar 0; EVar 1]) None)) = Some false /\
  arule_bound q_none q_zero q_zero (fun _ => None) (mkArule (FHAtom (9, [EVar 2])) (ARed [LV 2] 0 [] [1] (AAtom 1 [EVar 0; EVar 1]) None)) = Some true.
Proof. vm_compute. auto. Qed.
