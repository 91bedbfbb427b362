(** C53: the RAM update a rule is compiled to derives exactly the head facts of the
    rule. *)
From Coq Require Import List ZArith Bool Arith Lia Permutation Cantor Mergesort.
From Verif Require Import Value Back Eval Ram Dataflow BackSem Scc Plan PlanSem PlanFacts PlanFacts2 PropsPlan VarTuple VarTupleFacts
  B2R RamSem B2RFacts B2RFacts2 B2RSpec B2RRule B2RScope PropsOpt.
Import ListNotations.
Set Implicit Arguments.

(** The names of constants are distinct; sorting and listing sets permutes. *)
Record names_ok (C : cenv) : Prop := {
  nm_const : forall i j c c', ce_const C i c = ce_const C j c' -> i = j;
  nm_sort : forall l, Permutation (ce_sort C l) l;
  nm_hash : forall l, Permutation (ce_hash C l) l }.

(** Relations hold what their definitions say: the temporary relations of a
    stratum in [JI], those made for negation in [JM], permuted copies in both. *)
Record world (C : cenv) (B : benv) (ag : nat -> nat -> rgrp -> tuple -> Prop) (JI JM : rels) (z : bstate) : Prop := {
  w_temps : forall n d, In (n, d) (z_temps z) -> forall t, JI n t <-> rden (b_env B) (b_fp B) ag JM JI d t;
  w_negs : forall n d, In (n, d) (z_negs z) -> forall t, JM n t <-> rden (b_env B) (b_fp B) ag JM JM d t;
  w_perms : forall p g, In (p, g) (z_perms z) -> forall t,
    (JI (ce_perm C p g) t <-> exists u, JI p u /\ eval (b_env B) (perm_expr g) u = EOk t) /\
    (JM (ce_perm C p g) t <-> exists u, JM p u /\ eval (b_env B) (perm_expr g) u = EOk t) }.

Section C53.
  Variables (C : cenv) (N : penv) (g : registry) (B : benv) (order : list state -> list state).
  Variables (ag : nat -> nat -> rgrp -> tuple -> Prop) (JI JM : rels) (I M : interp) (T : var -> value -> Prop).
  Hypothesis ORD : forall l, Permutation (order l) l.

  Theorem C53_rule_partial : forall h body p inplace z0 z Z n d,
    names_ok C -> plannable N g body -> safe N body -> no_neg_foreign N body -> tests_before N body ->
    lowerable C N g B ag JI JM I M T h body ->
    query_plan N order body = Some p -> clash_free p = true ->
    update_df C h p inplace z0 = Some ((n, d), z) -> ext z Z -> world C B ag JI JM Z ->
    n = a_pred h /\ forall t, rden (b_env B) (b_fp B) ag JM JI d t <->
      exists vs, head_consequence B g I M (mkRule (HAtom h) body) (a_pred h) vs /\ t = layout (ce_shape C (a_pred h)) vs.
  Proof.
    intros h body p inplace z0 z Z n d NM PL P4 P5 P6 LO R CF U X W.
    assert (SEM : forall s, psem B M I p s <-> body_sat B g I M s body).
    { intros s. apply (@C52_plan_exact N g order ORD body p PL P4 P5 P6 R).
      intros v e l A _ Jl Jv. exact (lo_single LO v e l A Jl Jv). }
    destruct PL as [F1 F2 F3]. unfold query_plan in R.
    destruct (from_body N body) as [q|] eqn:E1; [|discriminate].
    destruct (pos_atom_arcs order 5 q) as [st|] eqn:E2; [|discriminate].
    destruct (@from_body_ok _ _ _ E1) as [QO NF].
    destruct (@get_query_plan_inv g N body F1 F2 F3 q QO (@from_body_tests _ _ _ E1 P6) P4 P5 _ _ R) as (K & H & (L & p0 & BL & EP & EK & LM & IL) & HK).
    { apply (full_covers (@pos_atom_arcs_ok _ ORD _ _ _ E2)). }
    assert (IK : incl K body) by (apply (i_body H)).
    assert (HV : incl (avars h) (bvars p)).
    { intros v Iv. destruct (lo_head LO v Iv) as (l & Il & Jl).
      destruct (HK l Il) as [J|[->|[->|(w & e & -> & J & l' & J1 & J2)]]]; try (destruct Jl; fail).
      - apply (i_up H _ J), Jl.
      - pose proof (lo_single LO w e l' Il (IK _ J1) J2) as ->. apply (i_up H _ J1), Jl. }
    destruct NM as [N1' N2' N3']. destruct W as [W1 W2 W3].
    destruct (@update_ok C B ag JI JM I M Z W1 W2
      (fun b p g J t => match b return jr JI JM b (ce_perm C p g) t <-> exists u, jr JI JM b p u /\ eval (b_env B) (perm_expr g) u = EOk t
                        with true => proj2 (W3 p g J t) | false => proj1 (W3 p g J t) end)
      N1' N2' N3' h p inplace z0 n d z U X (lo_shape LO) HV) as [-> K2].
    { intros gv Hg. eapply plan_okp; eauto. }
    split; auto. intros t. rewrite (K2 t). split.
    - intros (s & Hs & ->). exists (tvals s (a_args h)). split; auto. exists s, h. split; [apply SEM, Hs|]. split; [left; auto|auto].
    - intros (vs & (s & a & Hs & [<-|[]] & _ & ->) & ->). exists s. split; auto. apply SEM, Hs.
  Qed.
End C53.
Print Assumptions C53_rule_partial.

(** ** The relations of the theorem exist *)
(** What a rule reads: its positive relation atoms, its negated atoms, the relations
    it aggregates. *)
Definition rule_reads (N : penv) (Pp Pn : pred -> Prop) (body : list lit) : Prop :=
  (forall a, In (LAtom a) body -> pe_foreign N (a_pred a) = false -> Pp (a_pred a)) /\
  (forall a, In (LNeg a) body -> Pn (a_pred a)) /\
  (forall r, In (LReduce r) body -> Pn (a_pred (rd_body r)) /\ match rd_groupby r with Some a => Pn (a_pred a) | None => True end).
Lemma plan_reads : forall N g order Pp Pn body p, (forall l, Permutation (order l) l) ->
  plannable N g body -> safe N body -> no_neg_foreign N body -> tests_before N body ->
  query_plan N order body = Some p -> rule_reads N Pp Pn body -> reads_ok Pp Pn p.
Proof.
  intros N g order Pp Pn body p ORD [F1 F2 F3] P4 P5 P6 R (RP & RN & RR). unfold query_plan in R.
  destruct (from_body N body) as [q|] eqn:E1; [|discriminate].
  destruct (pos_atom_arcs order 5 q) as [st|] eqn:E2; [|discriminate].
  destruct (@from_body_ok _ _ _ E1) as [QO NF].
  destruct (@get_query_plan_inv g N body F1 F2 F3 q QO (@from_body_tests _ _ _ E1 P6) P4 P5 _ _ R) as (K & _ & (L & p0 & BL & EP & _) & _).
  { apply (full_covers (@pos_atom_arcs_ok _ ORD _ _ _ E2)). }
  assert (RB : reads_ok Pp Pn p0).
  { clear EP. induction BL as [|a Ia|r Ir|a Ia _|L p0 f bv l BL IH _ _ _|L p0 f cs BL IH _ _|L p0 L' r BL1 IH1 BL2 IH2|L p0 bv a BL IH _ _ _ _|L p0 a BL IH _ _|L p0 a BL IH Ia _];
      unfold ground, red, join; cbn [reads_ok]; auto.
    - apply (qo_pos QO) in Ia. apply RP; apply Ia.
    - apply RR, (qo_red QO), Ir.
    - unfold fp_ground. destruct (rename_free N a []) as [vs es]. destruct (_ ++ _); cbn; auto.
    - unfold fp_join. destruct (rename_free N a (bvars p0)) as [vs es]. destruct (_ ++ _); cbn; auto.
    - split; auto. apply RN, (qo_neg QO), Ia. }
  subst p. unfold add_news. destruct (news q); cbn; auto.
Qed.

Theorem C53_world : forall N g order C (Pp Pn Ps : pred -> Prop) B ag h body p inplace z0 x z,
  (forall l, Permutation (order l) l) -> plannable N g body -> safe N body -> no_neg_foreign N body -> tests_before N body ->
  query_plan N order body = Some p -> rule_reads N Pp Pn body ->
  (forall p, Pp p -> Ps p) -> (forall p, Pn p -> Ps p) -> names_apart C Ps ->
  inv C Pp Pn z0 -> update_df C h p inplace z0 = Some (x, z) ->
  inv C Pp Pn z /\ forall J0I J0M : rels, exists JI JM, world C B ag JI JM z /\
    forall q, Ps q -> forall t, (JI q t <-> J0I q t) /\ (JM q t <-> J0M q t).
Proof.
  intros N g order C Pp Pn Ps B ag h body p inplace z0 x z ORD PL P4 P5 P6 R RR S1 S2 NA V U.
  pose proof (@plan_reads _ _ _ _ _ _ _ ORD PL P4 P5 P6 R RR) as RO.
  destruct (@update_keeps C Pp Pn h p inplace RO z0 x z V Logic.I U) as (V' & _).
  split; auto. intros J0I J0M.
  destruct (@solution_exists C Pp Pn Ps S1 S2 NA (b_env B) (b_fp B) ag z V' J0M J0M) as (JM & M1 & M2 & M3 & M4).
  destruct (@solution_exists C Pp Pn Ps S1 S2 NA (b_env B) (b_fp B) ag z V' J0I JM) as (JI & I1 & I2 & I3 & I4).
  exists JI, JM. split.
  - constructor; auto. intros n d Id. apply (M4 n d Id).
  - intros q Hq t. split; auto.
Qed.
(** ** Examples and refutations *)
(** Predicates are below 100; the other names are told apart modulo 3. *)
Definition gcode : {f : pred -> gt nat -> nat | forall p g q h, f p g = f q h -> p = q /\ g = h}.
Proof.
  pose (pair := fun a b => Cantor.to_nat (a, b)).
  assert (PI : forall a b c d, pair a b = pair c d -> a = c /\ b = d).
  { intros a b c d E. unfold pair in E. apply (f_equal Cantor.of_nat) in E. rewrite !Cantor.cancel_of_to in E. injection E as -> ->. auto. }
  pose (code := fix code (g : gt nat) : nat :=
    match g with
    | GV n => pair 0 n
    | GT l => pair 1 ((fix go (l : list (gt nat)) : nat := match l with [] => 0 | x :: l => S (pair (code x) (go l)) end) l)
    end).
  assert (CI : forall g h, code g = code h -> g = h).
  { induction g as [n|l IH] using gt_ind'; intros [m|k] E; cbn in E; apply PI in E; destruct E as [E1 E2]; try discriminate; [congruence|].
    f_equal. revert k E2. induction IH as [|x l Hx IH IHl]; intros [|y k] E2; cbn in E2; try discriminate; auto.
    injection E2 as E2. apply PI in E2. destruct E2 as [A1 A2]. f_equal; auto. }
  exists (fun p g => pair p (code g)). intros p g q h E. apply PI in E. destruct E as [-> E]. auto.
Qed.
Definition C1 : cenv := mkCenv (fun i => 100 + 3 * i) (fun i => 101 + 3 * i) (fun p g => 102 + 3 * proj1_sig gcode p g)
  (fun i _ => 100 + i) (fun _ => false) (fun p => pe_bounded N1 p) (fun _ => SPlain) (fun _ => false) (fun _ => false)
  (fun l => l) NatSort.sort.
Lemma C1_names : names_ok C1.
Proof.
  constructor; cbn.
  - intros. lia.
  - intros l. apply Permutation_sym, NatSort.Permuted_sort.
  - intros l. apply Permutation_refl.
Qed.
Lemma C1_apart : names_apart C1 (fun p => p < 100).
Proof.
  constructor; cbn; intros; try lia. apply (proj2_sig gcode). lia.
Qed.
Definition z_init : bstate := mkB 0 [] [] [].
Lemma inv_init : forall C Pp Pn, inv C Pp Pn z_init.
Proof.
  intros. constructor; cbn; try (intros; tauto); exists []; cbn; (split; [reflexivity|split; [constructor|intros; tauto]]).
Qed.

(** [h(y, w, 5) :- r(x, y), s(y, "c"), not t(x), x < y, w = x + y]. *)
Definition C53_body : list lit :=
  [LAtom (mkAtom 1 [TVar 0; TVar 1]); LAtom (mkAtom 2 [TVar 1; TConst (I32 7)]); LNeg (mkAtom 3 [TVar 0]);
   LBin CLt (TVar 0) (TVar 1); LAssign 2 (ABin OAdd (TVar 0) (TVar 1))].
Definition C53_head : atom := mkAtom 4 [TVar 1; TVar 2; TConst (I32 5)].
(** Facts as tuples. *)
Definition laid (X : interp) : rels := fun p t => exists vs, X p vs /\ t = vtup vs.
Definition db (l : list (pred * list value)) : interp := fun p vs => In (p, vs) l.
Definition no_ag : nat -> nat -> rgrp -> tuple -> Prop := fun _ _ _ _ => False.
Definition int32 (v : var) (x : value) : Prop := exists z, x = I32 z.
Ltac no_more H := cbn in H; repeat (destruct H as [H|H]; [try discriminate H|]); try (destruct H; fail).

Definition C53_db : interp := db [(1, [I32 1; I32 2]); (1, [I32 3; I32 4]); (2, [I32 2; I32 7]); (2, [I32 4; I32 7]); (3, [I32 3])].
Lemma C53_db_ok : forall (JI JM : rels) p n, (forall q, q < 100 -> forall t, (JI q t <-> laid C53_db q t) /\ (JM q t <-> laid C53_db q t)) -> p < 100 ->
  (forall vs, C53_db p vs -> length vs = n) -> forall b, rel_ok JI JM C53_db C53_db b p n.
Proof.
  intros JI JM p n H L A b. split.
  - intros t. destruct b; cbn; apply (H p L).
  - intros vs J. assert (J' : C53_db p vs) by (destruct b; exact J). split; [auto|].
    unfold C53_db, db in J'. repeat (destruct J' as [J'|J']; [injection J' as <- <-; repeat constructor|]). destruct J'.
Qed.
Example C53_ex : exists p d z JI JM,
  names_ok C1 /\ plannable N1 g1 C53_body /\ safe N1 C53_body /\ no_neg_foreign N1 C53_body /\ tests_before N1 C53_body /\
  lowerable C1 N1 g1 benv_none no_ag JI JM C53_db C53_db int32 C53_head C53_body /\
  query_plan N1 id_order C53_body = Some p /\ clash_free p = true /\
  update_df C1 C53_head p false z_init = Some ((4, d), z) /\ length (z_temps z) = 4 /\ world C1 benv_none no_ag JI JM z /\
  rden (b_env benv_none) (b_fp benv_none) no_ag JM JI d (vtup [I32 2; I32 3; I32 5]) /\
  ~ rden (b_env benv_none) (b_fp benv_none) no_ag JM JI d (vtup [I32 4; I32 7; I32 5]).
Proof.
  assert (L0 : limited N1 C53_body 0) by (eapply lim_atom with (a := mkAtom 1 [TVar 0; TVar 1]); cbn; auto).
  assert (L1 : limited N1 C53_body 1) by (eapply lim_atom with (a := mkAtom 1 [TVar 0; TVar 1]); cbn; auto).
  assert (PL : plannable N1 g1 C53_body) by (constructor; [apply N1_fresh; all_lt|exact g1_N1|no_lit]).
  assert (SF : safe N1 C53_body) by (intros l v I J; left; in_list I; in_list J; auto).
  assert (NN : no_neg_foreign N1 C53_body).
  { intros a I. no_more I. injection I as <-. reflexivity. }
  assert (TB : tests_before N1 C53_body).
  { intros l1 a l2 b E I Fa Fb T. unfold C53_body in E. list_split E; try discriminate. }
  destruct (query_plan N1 id_order C53_body) as [p|] eqn:EP; [|vm_compute in EP; discriminate].
  destruct (update_df C1 C53_head p false z_init) as [[[n d] z]|] eqn:EU.
  2:{ vm_compute in EP. injection EP as <-. vm_compute in EU. discriminate. }
  assert (CF : clash_free p = true) by (vm_compute in EP; injection EP as <-; vm_compute; reflexivity).
  assert (NT : n = 4 /\ length (z_temps z) = 4).
  { vm_compute in EP. injection EP as <-. vm_compute in EU. injection EU as <- _ <-. split; reflexivity. }
  destruct NT as [-> NT].
  destruct (@C53_world N1 g1 id_order C1 (fun p => p < 100) (fun p => p < 100) (fun p => p < 100) benv_none no_ag C53_head C53_body p false z_init (4, d) z
    id_order_ok PL SF NN TB EP) as (_ & W); auto.
  { split; [|split]; intros a I; intros; no_more I; injection I as <-; cbn; lia. }
  { exact C1_apart. }
  { apply inv_init. }
  destruct (W (laid C53_db) (laid C53_db)) as (JI & JM & WO & EQ).
  assert (LO : lowerable C1 N1 g1 benv_none no_ag JI JM C53_db C53_db int32 C53_head C53_body).
  { assert (AR : forall p n, (p, n) = (1, 2) \/ (p, n) = (2, 2) \/ (p, n) = (3, 1) -> forall b, rel_ok JI JM C53_db C53_db b p n).
    { intros q k H b. apply C53_db_ok; auto.
      - destruct H as [H|[H|H]]; injection H as -> ->; lia.
      - intros vs J. unfold C53_db, db in J. destruct H as [H|[H|H]]; injection H as -> ->; no_more J; injection J as <-; reflexivity. }
    constructor.
    - intros a I F. no_more I; injection I as <-; (split; [apply AR; cbn; auto|]); (split; [|discriminate]);
        intros i c E; do 2 (destruct i as [|i]; [first [discriminate E|injection E as <-; cbn; intros [H|[]]; discriminate H]|]); destruct i; discriminate E.
    - intros a I. no_more I; injection I as <-. split; [apply AR; cbn; auto|]. split; [|discriminate].
      intros i c E. destruct i as [|[|i]]; discriminate.
    - left. intros a I F. no_more I; injection I as <-; cbn; repeat constructor; cbn; lia.
    - cbn. repeat constructor. cbn. tauto.
    - intros v e l I J K. no_more I. injection I as <- <-. in_list J; cbn in K; try tauto; no_more K.
    - intros v e w I. no_more I. injection I as <- <-. discriminate.
    - intros l s I S H v K. in_list I; cbn in K.
      + unfold lit_sat in S. cbn in S. unfold C53_db, db in S. destruct K as [<-|[<-|[]]]; no_more S; injection S as S1 S2; eexists; symmetry; eauto.
      + unfold lit_sat in S. cbn in S. unfold C53_db, db in S. destruct K as [<-|[]]; no_more S; injection S as S1; eexists; symmetry; eauto.
      + destruct K.
      + destruct K.
      + destruct K as [<-|[]]. destruct (H 0) as (x & Ex); [cbn; auto|]. destruct (H 1) as (y & Ey); [cbn; auto|].
        cbn in S. rewrite Ex, Ey in S. cbn in S. injection S as S. eexists. symmetry. exact S.
    - intros c a b s I H. no_more I. injection I as <- <- <-. exact Logic.I.
    - intros v e I _. no_more I. injection I as <- <-. left. apply us_head. cbn. auto.
    - intros a I F. no_more I; injection I as <-; discriminate.
    - intros a ws I F. no_more I; injection I as <-; discriminate.
    - intros r t I. no_more I.
    - intros r I. no_more I.
    - intros v I. in_list I; [exists (LAtom (mkAtom 1 [TVar 0; TVar 1]))|exists (LAssign 2 (ABin OAdd (TVar 0) (TVar 1)))]; cbn; auto 10.
    - exact Logic.I. }
  destruct (@C53_rule_partial C1 N1 g1 benv_none id_order no_ag JI JM C53_db C53_db int32 id_order_ok C53_head C53_body p false z_init z z 4 d
    C1_names PL SF NN TB LO EP CF EU (ext_refl z) WO) as [_ RD].
  exists p, d, z, JI, JM. split; [exact C1_names|]. split; [exact PL|]. split; [exact SF|]. split; [exact NN|]. split; [exact TB|].
  split; [exact LO|]. split; [reflexivity|]. split; [exact CF|]. split; [exact EU|]. split; [exact NT|]. split; [exact WO|]. split.
  - apply RD. exists [I32 2; I32 3; I32 5]. split; [|reflexivity].
    exists (fun v => match v with 0 => I32 1 | 1 => I32 2 | _ => I32 3 end), C53_head. split; [|split; [left; reflexivity|split; reflexivity]].
    intros l I. in_list I.
    + left. reflexivity.
    + right. right. left. reflexivity.
    + intros H. cbn in H. unfold C53_db, db in H. no_more H.
    + vm_compute. auto.
    + vm_compute. reflexivity.
  - intros H. apply RD in H. destruct H as (vs & (s & a & S & [<-|[]] & _ & ->) & E). cbn in E. injection E as E1 E2.
    pose proof (S _ (or_introl eq_refl)) as S1. cbn in S1. unfold C53_db, db in S1.
    pose proof (S _ (or_intror (or_intror (or_introl eq_refl)))) as S3. cbn in S3. unfold C53_db, db in S3. apply S3.
    rewrite <- E1 in S1. no_more S1. injection S1 as S1. rewrite <- S1. right; right; right; right; left. reflexivity.
Qed.

(** What goes wrong without the conditions of C53. *)
Definition compiles (C : cenv) (h : atom) (body : list lit) (d : rdf) (z : bstate) : Prop :=
  plannable N1 g1 body /\ safe N1 body /\ no_neg_foreign N1 body /\ tests_before N1 body /\
  exists p, query_plan N1 id_order body = Some p /\ update_df C h p false z_init = Some ((a_pred h, d), z).
Ltac limits I J at_ := left; in_list I; in_list J; eapply (@lim_atom _ _ at_); cbn; auto 10.
Ltac no_tests := let Fa := fresh in let Fb := fresh in
  intros ? ? ? ? E I Fa Fb T; list_split E; cbn in I; repeat (destruct I as [I|I]); try discriminate; try (subst; discriminate); try (destruct I).

(** An atom with a repeated variable under two tests of it loses the equality:
    [h() :- r(y, y), y > 1, y < 5] holds for [r = {(2, 3)}]. *)
Theorem C53_dup_refuted : exists h body d z M, compiles C1 h body d z /\ world C1 benv_none no_ag (laid M) (laid M) z /\
  (forall p vs, M p vs -> length vs = 2 /\ Forall (fun v => eq_able v = true) vs) /\
  rden (b_env benv_none) (b_fp benv_none) no_ag (laid M) (laid M) d (vtup []) /\
  ~ head_consequence benv_none g1 M M (mkRule (HAtom h) body) (a_pred h) [].
Proof.
  exists (mkAtom 4 []), [LAtom (mkAtom 1 [TVar 0; TVar 0]); LBin CGt (TVar 0) (TConst (I32 1)); LBin CLt (TVar 0) (TConst (I32 5))].
  eexists _, _, (db [(1, [I32 2; I32 3])]). split; [|split; [|split; [|split]]].
  - split; [constructor; [apply N1_fresh; all_lt|exact g1_N1|no_lit]|].
    split; [intros l v I J; limits I J (mkAtom 1 [TVar 0; TVar 0])|]. split; [intros a I; no_more I|]. split; [no_tests|].
    eexists. split; [vm_compute; reflexivity|vm_compute; reflexivity].
  - split; cbn; intros; tauto.
  - intros p vs [H|[]]. injection H as <- <-. repeat constructor.
  - exists (vtup [I32 2; I32 3]). split; [split|]; [exists [I32 2; I32 3]; split; [left|]; reflexivity| |]; vm_compute; reflexivity.
  - intros (s & a & S & _). specialize (S _ (or_introl eq_refl)). cbn in S. no_more S. injection S as H1 H2. congruence.
Qed.

(** An assignment to a variable nothing uses is dropped though it may fail:
    [h(x) :- r(x), y = 1 / 0]. *)
Theorem C53_total_refuted : exists h body d z M, compiles C1 h body d z /\ world C1 benv_none no_ag (laid M) (laid M) z /\
  (forall p vs, M p vs -> length vs = 1 /\ Forall (fun v => eq_able v = true) vs) /\
  rden (b_env benv_none) (b_fp benv_none) no_ag (laid M) (laid M) d (vtup [I32 2]) /\
  ~ head_consequence benv_none g1 M M (mkRule (HAtom h) body) (a_pred h) [I32 2].
Proof.
  exists (mkAtom 4 [TVar 0]), [LAtom (mkAtom 1 [TVar 0]); LAssign 1 (ABin ODiv (TVar 0) (TConst (I32 0)))].
  eexists _, _, (db [(1, [I32 2])]). split; [|split; [|split; [|split]]].
  - split; [constructor; [apply N1_fresh; all_lt|exact g1_N1|no_lit]|].
    split; [intros l v I J; limits I J (mkAtom 1 [TVar 0])|]. split; [intros a I; no_more I|]. split; [no_tests|].
    eexists. split; [vm_compute; reflexivity|vm_compute; reflexivity].
  - split; cbn; intros; tauto.
  - intros p vs [H|[]]. injection H as <- <-. repeat constructor.
  - exists (TVal (I32 2)). split; [exists (vtup [I32 2]); split; [exists [I32 2]; split; [left|]; reflexivity|]|]; vm_compute; reflexivity.
  - intros (s & a & S & _). pose proof (S _ (or_introl eq_refl)) as S1. pose proof (S _ (or_intror (or_introl eq_refl))) as S2.
    cbn in S1. no_more S1. injection S1 as H. cbn in S2. rewrite <- H in S2. vm_compute in S2. discriminate.
Qed.

(** Of two assignments to a variable only the last is kept:
    [h(y) :- r(x), y = x + 1, y = x + 2]. *)
Theorem C53_once_refuted : exists h body d z M, compiles C1 h body d z /\ world C1 benv_none no_ag (laid M) (laid M) z /\
  (forall p vs, M p vs -> length vs = 1 /\ Forall (fun v => eq_able v = true) vs) /\
  rden (b_env benv_none) (b_fp benv_none) no_ag (laid M) (laid M) d (vtup [I32 4]) /\
  ~ head_consequence benv_none g1 M M (mkRule (HAtom h) body) (a_pred h) [I32 4].
Proof.
  exists (mkAtom 4 [TVar 1]), [LAtom (mkAtom 1 [TVar 0]); LAssign 1 (ABin OAdd (TVar 0) (TConst (I32 1)));
    LAssign 1 (ABin OAdd (TVar 0) (TConst (I32 2)))].
  eexists _, _, (db [(1, [I32 2])]). split; [|split; [|split; [|split]]].
  - split; [constructor; [apply N1_fresh; all_lt|exact g1_N1|no_lit]|].
    split; [intros l v I J; limits I J (mkAtom 1 [TVar 0])|]. split; [intros a I; no_more I|]. split; [no_tests|].
    eexists. split; [vm_compute; reflexivity|vm_compute; reflexivity].
  - split; cbn; intros; tauto.
  - intros p vs [H|[]]. injection H as <- <-. repeat constructor.
  - exists (TVal (I32 4)). split; [exists (vtup [I32 2]); split; [exists [I32 2]; split; [left|]; reflexivity|]|]; vm_compute; reflexivity.
  - intros (s & a & S & _). pose proof (S _ (or_introl eq_refl)) as S1. pose proof (S _ (or_intror (or_introl eq_refl))) as S2.
    pose proof (S _ (or_intror (or_intror (or_introl eq_refl)))) as S3.
    cbn in S1. no_more S1. injection S1 as H. cbn in S2, S3. rewrite <- H in S2, S3. vm_compute in S2, S3.
    injection S2 as S2. injection S3 as S3. rewrite <- S2 in S3. discriminate.
Qed.

(** For a relation of facts only (its constants are filtered, not looked up) an atom
    with repeated variables has its constants compared to the wrong columns:
    [h(x) :- r(x, x, 7, y)] tests [y]. *)
Definition C2 : cenv := mkCenv (ce_temp C1) (ce_ntemp C1) (ce_perm C1) (ce_const C1) (fun p => p =? 1) (ce_bounded C1) (ce_shape C1)
  (ce_magic C1) (ce_iv C1) (ce_hash C1) (ce_sort C1).
Theorem C53_static_refuted : exists h body d z M, compiles C2 h body d z /\ world C2 benv_none no_ag (laid M) (laid M) z /\
  (forall p vs, M p vs -> length vs = 4 /\ Forall (fun v => eq_able v = true) vs) /\
  rden (b_env benv_none) (b_fp benv_none) no_ag (laid M) (laid M) d (vtup [I32 1]) /\
  ~ head_consequence benv_none g1 M M (mkRule (HAtom h) body) (a_pred h) [I32 1] /\
  ~ rden (b_env benv_none) (b_fp benv_none) no_ag (laid M) (laid M) d (vtup [I32 2]) /\
  head_consequence benv_none g1 M M (mkRule (HAtom h) body) (a_pred h) [I32 2].
Proof.
  exists (mkAtom 4 [TVar 0]), [LAtom (mkAtom 1 [TVar 0; TVar 0; TConst (I32 7); TVar 1])].
  eexists _, _, (db [(1, [I32 1; I32 1; I32 8; I32 7]); (1, [I32 2; I32 2; I32 7; I32 8])]).
  split; [|split; [|split; [|split; [|split; [|split]]]]].
  - split; [constructor; [apply N1_fresh; all_lt|exact g1_N1|no_lit]|].
    split; [intros l v I J; left; in_list I; in_list J; eapply lim_atom with (a := mkAtom 1 [TVar 0; TVar 0; TConst (I32 7); TVar 1]); cbn; auto 10|].
    split; [intros a I; no_more I|]. split; [no_tests|].
    eexists. split; [vm_compute; reflexivity|vm_compute; reflexivity].
  - split; cbn; intros; tauto.
  - intros p vs [H|[H|[]]]; injection H as <- <-; repeat constructor.
  - exists (TVal (I32 1)). split; [|vm_compute; reflexivity].
    exists (vtup [I32 1; I32 8; I32 7]). split; [split|]; [exists (vtup [I32 1; I32 1; I32 8; I32 7]); split; [split|]| |];
      try (vm_compute; reflexivity). eexists. split; [left|]; reflexivity.
  - intros (s & a & S & [<-|[]] & _ & E). specialize (S _ (or_introl eq_refl)). cbn in S, E. injection E as E. rewrite <- E in S. no_more S.
  - intros (u & (w & ((x & ((vs & HM & ->) & _) & HP) & HF) & HP2) & HP3).
    no_more HM; injection HM as <-; vm_compute in HP; injection HP as <-; vm_compute in HF; try discriminate;
      vm_compute in HP2; injection HP2 as <-; vm_compute in HP3; discriminate.
  - exists (fun v => match v with 0 => I32 2 | _ => I32 8 end), (mkAtom 4 [TVar 0]). split; [|split; [left; reflexivity|split; reflexivity]].
    intros l [<-|[]]. right. left. reflexivity.
Qed.

(** Two entities, one made of the other, cannot both be in the head: the lowering
    of [h(x, y) :- r(z), x = new f(z), y = new f(x)] panics. *)
Theorem C53_new_refuted : exists h body p, plannable N1 g1 body /\ safe N1 body /\ no_neg_foreign N1 body /\ tests_before N1 body /\
  NoDup (assigned body) /\ query_plan N1 id_order body = Some p /\ clash_free p = true /\ update_df C1 h p false z_init = None.
Proof.
  exists (mkAtom 4 [TVar 1; TVar 2]), [LAtom (mkAtom 1 [TVar 0]); LAssign 1 (ANew 8 [TVar 0]); LAssign 2 (ANew 8 [TVar 1])].
  eexists. split; [constructor; [apply N1_fresh; all_lt|exact g1_N1|no_lit]|].
  split; [|split; [intros a I; no_more I|split; [no_tests|split; [cbn; repeat constructor; cbn; intuition discriminate|
    split; [vm_compute; reflexivity|split; vm_compute; reflexivity]]]]].
  assert (L0 : limited N1 [LAtom (mkAtom 1 [TVar 0]); LAssign 1 (ANew 8 [TVar 0]); LAssign 2 (ANew 8 [TVar 1])] 0)
    by (eapply lim_atom with (a := mkAtom 1 [TVar 0]); cbn; auto).
  intros l v I J. in_list I; in_list J; auto. right. split; [reflexivity|]. exists (ANew 8 [TVar 0]). cbn. auto.
Qed.

(** Two aggregations over one variable that is not in the head are intersected
    after projecting it away: [h() :- n := count(a), n := count(b)] holds
    whatever the counts.  Here the result of an aggregation is the number of the
    predicate it is over. *)
Definition benv_red : benv.
Proof.
  refine (mkBenv env_none (fun _ _ => False) (fun r _ _ s => map s (rd_left r) = [I32 (Z.of_nat (a_pred (rd_body r)))]) _ _
    (fun _ _ _ _ => False) (fun _ _ _ _ => False)).
  - intros. assumption.
  - intros r A Bt s s' H <-. symmetry. apply map_ext_in. intros v I. apply H. unfold reduce_free, reduce_vars. rewrite !in_app_iff. auto.
Defined.
Definition red_ag (a p : nat) (g : rgrp) (t : tuple) : Prop := t = TVal (I32 (Z.of_nat p)).
Definition red1 (p : pred) : lit := LReduce (mkReduce 0 [0] [] [] [] [1] (mkAtom p [TVar 1]) None).
Theorem C53_clash_refuted : exists h body d z M, compiles C1 h body d z /\
  (forall JI JM, world C1 benv_red red_ag JI JM z -> lowerable C1 N1 g1 benv_red red_ag JI JM M M int32 h body /\
  rden (b_env benv_red) (b_fp benv_red) red_ag JM JI d (vtup [])) /\
  (exists JI JM, world C1 benv_red red_ag JI JM z) /\
  ~ head_consequence benv_red g1 M M (mkRule (HAtom h) body) (a_pred h) [].
Proof.
  exists (mkAtom 4 []), [red1 1; red1 2]. eexists _, _, (fun _ _ => False). split; [|split; [|split]].
  - split; [constructor; [apply N1_fresh; all_lt|exact g1_N1|intros r I; no_more I; injection I as <-; reflexivity]|].
    split; [intros l v I J; in_list I; in_list J|]. split; [intros a I; no_more I|]. split; [no_tests|].
    eexists. split; [vm_compute; reflexivity|vm_compute; reflexivity].
  - intros JI JM W. split.
    + constructor.
      * intros a I. no_more I.
      * intros a I. no_more I.
      * left. intros a I. no_more I.
      * constructor.
      * intros v e l I. no_more I.
      * intros v e w I. no_more I.
      * intros l s I S H v J. in_list I; in_list J; cbn in S; injection S as S; eexists; exact S.
      * intros c a b s I. no_more I.
      * intros v e I. no_more I.
      * intros a I. no_more I.
      * intros a ws I. no_more I.
      * intros r t I. no_more I; injection I as <-; cbn; (split;
          [intros ->; match goal with |- context [I32 ?z] => exists (fun _ => I32 z); split; reflexivity end
          |intros (s & E & ->); injection E as E; cbn; rewrite E; reflexivity]).
      * intros r I. no_more I; injection I as <-; cbn; repeat constructor; intros [].
      * intros v I. no_more I.
      * exact Logic.I.
    + split; [apply (w_temps W 100 _ (or_introl eq_refl))|apply (w_temps W 103 _ (or_intror (or_introl eq_refl)))];
        (eexists; split; [reflexivity|vm_compute; reflexivity]).
  - exists (fun _ t => t = TTup []), (fun _ t => t = TTup []). constructor; cbn; try (intros; tauto).
    intros n d [H|[H|[]]] t; injection H as <- <-; cbn; (split; [intros ->; eexists; split; [reflexivity|vm_compute; reflexivity]
      |intros (u & _ & E); vm_compute in E; injection E as <-; reflexivity]).
  - intros (s & a & S & _). pose proof (S _ (or_introl eq_refl)) as S1. pose proof (S _ (or_intror (or_introl eq_refl))) as S2.
    cbn in S1, S2. congruence.
Qed.

Print Assumptions C53_rule_partial.
Print Assumptions C53_world.
Print Assumptions C53_ex.
Print Assumptions C53_clash_refuted.
Print Assumptions C53_dup_refuted.
Print Assumptions C53_total_refuted.
Print Assumptions C53_once_refuted.
Print Assumptions C53_static_refuted.
Print Assumptions C53_new_refuted.
