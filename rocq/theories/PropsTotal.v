(** C55: compiling a stratified program does not panic. *)
From Coq Require Import List ZArith Bool Arith Lia Permutation.
From Verif Require Import Value Back Eval Ram Dataflow BackSem Scc SccFacts Plan PlanSem PlanFacts PlanFacts2 PropsPlan
  VarTuple VarTupleFacts B2R RamSem B2RFacts B2RFacts2 B2RSpec B2RRule B2RScope PropsB2R B2RStrata StrataSem StrataFacts PropsStrata B2RTotal B2RPlaced.
Import ListNotations.
Set Implicit Arguments.

(** What a rule needs for its plan to be lowered. *)
Record lowers (C : cenv) (N : penv) (h : atom) (body : list lit) : Prop := {
  lw_bounded : forall a, In (LAtom a) body -> pe_foreign N (a_pred a) = true ->
    ce_bounded C (a_pred a) = pe_bounded N (a_pred a) /\ pe_bounded N (a_pred a) <= length (a_args a);
  lw_red : forall r, In (LReduce r) body -> rd_arg r = [];
  lw_new : forall v e w, In (LAssign v e) body -> is_new e = true -> In w (aexpr_vars e) -> limited N body w;
  lw_head : forall v, In v (avars h) -> exists l, In l body /\ In v (lit_vars l);
  lw_fits : match ce_shape C (a_pred h) with SPlain => True | SBody n | SGroup n => n <= length (avars h) end }.

Theorem C55_total : forall C N g order h body p inplace, (forall l, Permutation (order l) l) -> names_ok C ->
  plannable N g body -> safe N body -> no_neg_foreign N body -> tests_before N body -> lowers C N h body ->
  query_plan N order body = Some p -> forall z, exists u z', update_df C h p inplace z = Some (u, z').
Proof.
  intros C N g order h body p inplace ORD [_ SORT HASH] [F1 F2 F3] P4 P5 P6 LW R. unfold query_plan in R.
  destruct (from_body N body) as [q|] eqn:E1; [|discriminate].
  destruct (pos_atom_arcs order 5 q) as [st|] eqn:E2; [|discriminate].
  destruct (@from_body_ok _ _ _ E1) as [QO NF].
  destruct (@get_query_plan_inv g N body F1 F2 F3 q QO (@from_body_tests _ _ _ E1 P6) P4 P5 _ _ R) as (K & H & (L & p0 & BL & EP & EK & LM & IL) & HK).
  { apply (full_covers (@pos_atom_arcs_ok _ ORD _ _ _ E2)). }
  assert (SH : pshape C p0).
  { eapply built_shape; eauto; [apply (lw_bounded LW)|]. intros r Ir. split; [apply (lw_red LW); auto|auto]. }
  assert (SP : pshape C p /\ incl (bvars p0) (bvars p)).
  { subst p. unfold add_news. destruct (news q) as [|x0 l0] eqn:En; [split; [auto|apply incl_refl]|]. rewrite <- En. cbn [pshape bvars]. split; [split; [|split]|].
    - intros v Iv. apply (proj1 (vunion_In _ _ _)) in Iv. apply in_or_app. tauto.
    - intros x Ix w Iw. apply LM. unfold news in Ix. apply filter_In in Ix. destruct Ix as [Ix Nx].
      apply (@lw_new _ _ _ _ LW (fst x) (snd x)); auto. apply (qo_asg QO x); auto.
    - exact SH.
    - intros v Iv. apply vunion_In. auto. }
  destruct SP as [SP IP]. apply runs_update; auto; [exact (lw_fits LW)|].
  intros v Iv. destruct (lw_head LW v Iv) as (l & Il & Jl).
  destruct (HK l Il) as [J|[->|[->|(w & e & -> & J & l' & J1 & J2)]]]; try (destruct Jl; fail).
  - apply (i_up H _ J), Jl.
  - destruct Jl as [<-|Jl].
    + apply (i_up H _ J1). apply (binds_vars N l'). exact J2.
    + apply IP. destruct (P4 _ v Il Jl) as [K1|[K1 _]]; [auto|]. cbn in K1. congruence.
Qed.
Print Assumptions C55_total.

(** ** Programs *)
Record rule_lowers (C : cenv) (N : penv) (g : registry) (h : atom) (body : list lit) : Prop := {
  rl_plan : plannable N g body;
  rl_safe : safe N body;
  rl_neg : no_neg_foreign N body;
  rl_tests : tests_before N body;
  rl_lowers : lowers C N h body;
  rl_false : ~ In LFalse body;
  rl_start : (exists a, In (LAtom a) body /\ pe_foreign N (a_pred a) = false) \/ (exists r, In (LReduce r) body) \/
    (forall a, In (LAtom a) body -> pe_foreign N (a_pred a) = false) \/
    (exists a, In (LAtom a) body /\ pe_foreign N (a_pred a) = true /\ forallb is_const (fp_bound N a) = true) }.
(** Negated atoms: of predicates of the strata, with no constants or no repeated
    variables. *)
Definition neg_simple (C : cenv) (ss : list stratum) (body : list lit) : Prop :=
  forall a, In (LNeg a) body -> In (a_pred a) (preds ss) /\
    ((forall t, In t (a_args a) -> is_const t = false) \/ (NoDup (avars a) /\ fresh_consts C a)).

Section Programs.
  Variables (C : cenv) (N : penv) (g : registry) (inplace : rule -> bool) (order : list pred -> rule -> list state -> list state).
  Hypothesis ORD : forall ps r l, Permutation (order ps r l) l.
  Hypothesis NM : names_ok C.
  Variables (rs : list rule) (ss : list stratum).
  Hypothesis RS : forall r, In r rs -> exists h body, r = mkRule (HAtom h) body /\ rule_lowers C N g h body.

  Lemma rule_runs : forall ps r, In r rs -> runs (lower_rule C N inplace order ps r).
  Proof.
    intros ps r Ir. destruct (RS r Ir) as (h & body & -> & RL). unfold lower_rule. cbn [r_body r_head].
    destruct (query_plan N _ body) as [p|] eqn:Q.
    - intros z. unfold sbind, sopt. rewrite ?Q. eapply C55_total; eauto; apply RL.
    - exfalso. revert Q. apply C52_total; [apply ORD|apply RL|apply RL].
  Qed.
  Lemma rules_run : forall ps l, incl l rs -> runs (lower_rules C N inplace order ps l).
  Proof.
    intros ps l. induction l as [|r l IH]; intros I; cbn [lower_rules]; [apply runs_ret|].
    apply runs_bind; [apply rule_runs, I; left; auto|]. intros u. apply runs_bind; [apply IH; intros x Hx; apply I; right; auto|]. intros; apply runs_ret.
  Qed.
  Lemma rules_of_incl : forall ps, incl (flat_map (rules_of rs) ps) rs.
  Proof. intros ps r H. apply in_flat_map in H. destruct H as (p & _ & H). unfold rules_of in H. apply filter_In in H. tauto. Qed.
  Lemma stratum_runs : forall s, runs (lower_stratum C N inplace order rs s).
  Proof.
    intros s z. unfold lower_stratum. destruct (@rules_run (st_preds s) _ (rules_of_incl (st_preds s)) (mkB (z_next z) [] (z_perms z) (z_negs z))) as (us & z' & ->). eauto.
  Qed.
  Lemma strata1_run : forall l, runs (lower_strata1 C N inplace order rs l).
  Proof.
    induction l as [|s l IH]; cbn [lower_strata1]; [apply runs_ret|]. apply runs_bind; [apply stratum_runs|]. intros x.
    apply runs_bind; [exact IH|]. intros; apply runs_ret.
  Qed.

  (** Lowering does not panic. *)
  Theorem C55_strata : exists xs rest, lower_strata C N inplace order rs ss = Some (xs, rest).
  Proof.
    unfold lower_strata. destruct (strata1_run ss (mkB 0 [] [] [])) as (xs & z & ->). destruct (place_negs _ _ _) as [xs' rest]. eauto.
  Qed.

  Hypothesis NS : forall r, In r rs -> neg_simple C ss (r_body r).
  Notation flat := (flat C (fun p => In p (preds ss))).
  Notation fstep := (fstep C (fun p => In p (preds ss))).
  Lemma rule_flat : forall ps r, In r rs -> fstep (lower_rule C N inplace order ps r).
  Proof.
    intros ps r Ir. destruct (RS r Ir) as (h & body & -> & [[F1 F2 F3] P4 P5 P6 P7 P8 P9]). pose proof (NS _ Ir) as NG. cbn [r_body] in NG.
    unfold lower_rule, sbind, sopt. cbn [r_body r_head]. intros z u z' H F. destruct (query_plan N _ body) as [p|] eqn:R; [|discriminate H].
    revert u z' H F. enough (NF : nflat C (fun p => In p (preds ss)) p) by (intros u z' H F; exact (@update_flat C _ h p _ NF z u z' H F)).
    unfold query_plan in R. destruct (from_body N body) as [q|] eqn:E1; [|discriminate].
    destruct (pos_atom_arcs _ 5 q) as [st|] eqn:E2; [|discriminate].
    destruct (@from_body_ok _ _ _ E1) as [QO _].
    destruct (@get_query_plan_inv g N body F1 F2 F3 q QO (@from_body_tests _ _ _ E1 P6) P4 P5 _ _ R) as (K & _ & (L & p0 & BL & -> & _) & _).
    { eapply full_covers, pos_atom_arcs_ok; [|exact E2]. apply ORD. }
    enough (NF : nflat C (fun p => In p (preds ss)) p0) by (unfold add_news; destruct (news q); exact NF).
    eapply built_flat; eauto. intros a Ia. destruct (NG a Ia) as [N1 N2]. split; auto. destruct N2 as [N2|[N2 N3]]; [left|right].
    - destruct (existsb is_const (a_args a)) eqn:Ec; auto. apply existsb_exists in Ec. destruct Ec as (t & It & Et). rewrite (N2 t It) in Et. discriminate.
    - apply sub_vars_NoDup; auto. apply NM.
  Qed.
  Lemma rules_flat : forall ps l, incl l rs -> fstep (lower_rules C N inplace order ps l).
  Proof.
    intros ps l. induction l as [|r l IH]; intros I; cbn [lower_rules]; [apply fs_ret|].
    apply fs_bind; [apply rule_flat, I; left; auto|]. intros u. apply fs_bind; [apply IH; intros x Hx; apply I; right; auto|]. intros; apply fs_ret.
  Qed.
  Lemma stratum_flat : forall s, fstep (lower_stratum C N inplace order rs s).
  Proof.
    intros s z x z' H F. unfold lower_stratum in H.
    destruct (lower_rules C N inplace order (st_preds s) (flat_map (rules_of rs) (st_preds s)) (mkB (z_next z) [] (z_perms z) (z_negs z))) as [[us z1]|] eqn:E; [|discriminate].
    injection H as <- <-. eapply rules_flat; [apply rules_of_incl|exact E|exact F].
  Qed.
  Lemma strata1_flat : forall l z xs z', lower_strata1 C N inplace order rs l z = Some (xs, z') -> flat z ->
    flat z' /\ incl (preds l) (flat_map rs_rels xs) /\ (l = [] -> z' = z) /\ length xs = length l.
  Proof.
    induction l as [|s l IH]; intros z xs z' H F; cbn [lower_strata1] in H.
    - injection H as <- <-. split; [exact F|]. split; [apply incl_refl|]. auto.
    - unfold sbind in H. destruct (lower_stratum C N inplace order rs s z) as [[x z1]|] eqn:E; [|discriminate].
      destruct (lower_strata1 C N inplace order rs l z1) as [[xs1 z2]|] eqn:E2; [|discriminate]. injection H as <- <-.
      destruct (IH _ _ _ E2 (@stratum_flat _ _ _ _ E F)) as (K1 & K2 & _ & K4). split; auto. split; [|split; [discriminate|cbn; congruence]].
      unfold preds in *. cbn [flat_map]. apply incl_app; [apply incl_appl|apply incl_appr; exact K2].
      unfold lower_stratum in E. destruct (lower_rules _ _ _ _ _ _ _) as [[us z3]|]; [|discriminate]. injection E as <- <-. cbn. apply incl_appl, incl_refl.
  Qed.
  (** Nothing is left out: every relation made for negation is computed in some
      stratum. *)
  Theorem C55_placed : exists xs, lower_strata C N inplace order rs ss = Some (xs, []).
  Proof.
    unfold lower_strata. destruct (strata1_run ss (mkB 0 [] [] [])) as (xs & z & E). rewrite E.
    destruct (@strata1_flat _ _ _ _ E) as (F & I & EZ & L); [intros n d []|]. destruct (place_negs [] (z_negs z) (map (add_perms C z) xs)) as [xs' rest] eqn:R.
    destruct rest as [|x rest]; [eauto|]. exfalso. destruct (@place_rest_In _ _ _ _ _ x R (or_introl eq_refl)) as [J1 J2].
    destruct xs as [|x0 xs0].
    { destruct ss; [|discriminate L]. rewrite (EZ eq_refl) in J1. destruct J1. }
    set (xs := x0 :: xs0) in *. apply J2; [discriminate|]. cbn [app]. intros r Hr. destruct x as [n d]. cbn [snd] in Hr.
    destruct (F n d J1 r Hr) as [K|(p & g' & K1 & K2 & ->)].
    - apply I in K. apply in_flat_map in K. destruct K as (y & Iy & K). apply in_flat_map. exists (add_perms C z y). split; [apply in_map; auto|]. cbn. apply in_or_app; auto.
    - apply I in K1. apply in_flat_map in K1. destruct K1 as (y & Iy & K1). apply in_flat_map. exists (add_perms C z y). split; [apply in_map; auto|]. cbn.
      apply in_or_app. right. apply in_map_iff. exists (ce_perm C p g', RProject (RRel p) (perm_expr g')). split; auto. unfold perm_updates. apply in_flat_map. exists p. split; auto.
      apply in_map_iff. exists g'. split; auto. apply perms_of_In. exact K2.
  Qed.
End Programs.

Print Assumptions C55_strata.
Print Assumptions C55_placed.

(** ** Examples and refutations *)
(** [h(y, w, 5) :- r(x, y), s(y, 7), not t(x), x < y, w = x + y] (C53). *)
(** [C1] with names for permuted copies that compute. *)
Definition C2 : cenv := mkCenv (fun i => 100 + 3 * i) (fun i => 101 + 3 * i) (fun p _ => 102 + 3 * p)
  (fun i _ => 100 + i) (fun _ => false) (fun p => pe_bounded N1 p) (fun _ => SPlain) (fun _ => false) (fun _ => false)
  (fun l => l) (ce_sort C1).
Lemma C2_names : names_ok C2.
Proof.
  constructor; cbn.
  - intros. lia.
  - apply C1_names.
  - intros l. apply Permutation_refl.
Qed.
Lemma C55_body_lowers : rule_lowers C2 N1 g1 C53_head C53_body.
Proof.
  assert (L0 : limited N1 C53_body 0) by (eapply lim_atom with (a := mkAtom 1 [TVar 0; TVar 1]); cbn; auto).
  assert (L1 : limited N1 C53_body 1) by (eapply lim_atom with (a := mkAtom 1 [TVar 0; TVar 1]); cbn; auto).
  constructor.
  - constructor; [apply N1_fresh; all_lt|exact g1_N1|no_lit].
  - intros l v I J. in_list I; in_list J; auto.
  - intros a I. no_more I. injection I as <-. reflexivity.
  - intros l1 a l2 b E I Fa Fb T. unfold C53_body in E. list_split E; try discriminate.
  - constructor.
    + intros a I F. no_more I; injection I as <-; discriminate F.
    + intros r I. no_more I.
    + intros v e w I E. no_more I. injection I as <- <-. discriminate E.
    + intros v I. in_list I.
      * exists (LAtom (mkAtom 1 [TVar 0; TVar 1])). cbn. auto.
      * exists (LAssign 2 (ABin OAdd (TVar 0) (TVar 1))). cbn. tauto.
    + exact Logic.I.
  - intros I. no_more I.
  - left. exists (mkAtom 1 [TVar 0; TVar 1]). cbn. auto.
Qed.
Definition C55_rules : list rule := [mkRule (HAtom C53_head) C53_body].
Definition C55_ss : list stratum := [mkStratum [1; 2; 3] false; mkStratum [4] false].
Definition same_order : list pred -> rule -> list state -> list state := fun _ _ => id_order.
Example C55_ex_hyps : (forall r, In r C55_rules -> exists h body, r = mkRule (HAtom h) body /\ rule_lowers C2 N1 g1 h body) /\
  (forall r, In r C55_rules -> neg_simple C2 C55_ss (r_body r)).
Proof.
  split.
  - intros r [<-|[]]. exists C53_head, C53_body. split; [reflexivity|exact C55_body_lowers].
  - intros r [<-|[]] a I. no_more I. injection I as <-. split; [cbn; tauto|]. left. intros t J. in_list J; reflexivity.
Qed.
(** The first stratum gets a copy of [s] with its columns swapped, the second the
    four temporary relations of the rule. *)
Example C55_ex : exists xs, lower_strata C2 N1 (fun _ => false) same_order C55_rules C55_ss = Some (xs, []) /\
  map rs_rels xs = [[1; 2; 3; 108]; [4; 100; 103; 106; 109]] /\
  map (fun x => map fst (rs_updates x)) xs = [[108]; [100; 103; 106; 109; 4]].
Proof. eexists. split; [|split]; vm_compute; reflexivity. Qed.

(** An aggregation with an argument variable whose result is tested by a foreign
    predicate: the plan offers the argument variable (ast.rs 773-779), the lowered
    reduce does not have it (b2r.rs 945-993), and the lookup panics.  [lw_red] of
    [lowers] cannot be dropped. *)
Definition C55_arg_body : list lit :=
  [LReduce (mkReduce 0 [0] [] [] [1] [2] (mkAtom 1 [TVar 1; TVar 2]) None); LAtom (mkAtom 5 [TVar 0])].
Theorem C55_arg_refuted : exists h body p, plannable N1 g1 body /\ safe N1 body /\ no_neg_foreign N1 body /\ tests_before N1 body /\
  (forall a, In (LAtom a) body -> pe_foreign N1 (a_pred a) = true ->
    ce_bounded C2 (a_pred a) = pe_bounded N1 (a_pred a) /\ pe_bounded N1 (a_pred a) <= length (a_args a)) /\
  (forall v, In v (avars h) -> limited N1 body v) /\
  query_plan N1 id_order body = Some p /\ update_df C2 h p false z_init = None.
Proof.
  exists (mkAtom 4 [TVar 0]), C55_arg_body.
  assert (L0 : limited N1 C55_arg_body 0) by (eapply lim; [left; reflexivity|reflexivity|cbn; tauto|intros w []]).
  assert (L1 : limited N1 C55_arg_body 1) by (eapply lim; [left; reflexivity|reflexivity|cbn; tauto|intros w []]).
  eexists. split; [|split; [|split; [|split; [|split; [|split]]]]].
  - constructor; [apply N1_fresh; all_lt|exact g1_N1|intros r I; no_more I; injection I as <-; reflexivity].
  - intros l v I J. in_list I; in_list J; auto.
  - intros a I. no_more I.
  - intros l1 a l2 b E I Fa Fb T. unfold C55_arg_body in E. list_split E; try discriminate. destruct I.
  - intros a I _. no_more I. injection I as <-. cbn. lia.
  - intros v I. in_list I. exact L0.
  - split; vm_compute; reflexivity.
Qed.
Print Assumptions C55_arg_refuted.

(** A negated atom with a repeated variable and a constant, [4(x) :- 1(x), not
    2(x, x, 5)]: two relations are made for it, one out of the other, in one
    stratum; only the first is placed (b2r.rs 143-166) and the rule reads a relation
    that no stratum has. *)
Definition C55_un_head : atom := mkAtom 4 [TVar 0].
Definition C55_un_body : list lit := [LAtom (mkAtom 1 [TVar 0]); LNeg (mkAtom 2 [TVar 0; TVar 0; TConst (I32 5)])].
Theorem C55_unplaced_refuted : exists rs ss xs n d rest,
  (forall r, In r rs -> exists h body, r = mkRule (HAtom h) body /\ rule_lowers C2 N1 g1 h body /\
    forall a, In (LNeg a) body -> In (a_pred a) (preds ss)) /\
  lower_strata C2 N1 (fun _ => false) same_order rs ss = Some (xs, (n, d) :: rest) /\
  ~ In n (flat_map rs_rels xs) /\ exists x u, In x xs /\ In u (rs_updates x) /\ In n (prefs (snd u) ++ nrefs (snd u)).
Proof.
  exists [mkRule (HAtom C55_un_head) C55_un_body], [mkStratum [1; 2] false; mkStratum [4] false]. do 4 eexists. split; [|split; [vm_compute; reflexivity|split]].
  - intros r [<-|[]]. exists C55_un_head, C55_un_body. split; [reflexivity|]. split; [|intros a I; no_more I; injection I as <-; cbn; auto].
    assert (L0 : limited N1 C55_un_body 0) by (eapply lim_atom with (a := mkAtom 1 [TVar 0]); cbn; auto).
    constructor.
    + constructor; [apply N1_fresh; all_lt|exact g1_N1|no_lit].
    + intros l v I J. in_list I; in_list J; auto.
    + intros a I. no_more I. injection I as <-. reflexivity.
    + intros l1 a l2 b E I Fa Fb T. unfold C55_un_body in E. list_split E; try discriminate.
    + constructor.
      * intros a I F. no_more I; injection I as <-; discriminate F.
      * intros r I. no_more I.
      * intros v e w I E. no_more I.
      * intros v I. in_list I. exists (LAtom (mkAtom 1 [TVar 0])). cbn. auto.
      * exact Logic.I.
    + intros I. no_more I.
    + left. exists (mkAtom 1 [TVar 0]). cbn. auto.
  - cbn. lia.
  - cbn. eexists. eexists. split; [right; left; reflexivity|]. split; [left; reflexivity|]. cbn. auto.
Qed.
Print Assumptions C55_unplaced_refuted.
