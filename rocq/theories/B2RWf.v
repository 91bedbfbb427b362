(** The dataflows that lowering builds (B2R.v) are well-formed for the evaluator
    (Denote.v): joins read sorted batches, intersections and the right sides of
    negation strictly sorted ones.  Used by C56. *)
From Coq Require Import List ZArith Bool Arith Lia Permutation.
From Verif Require Import Order Value Prov Dataflow View Denote DataflowFacts Back Eval Ram BackSem Scc SccFacts Plan PlanSem PlanFacts VarTuple VarTupleFacts
  B2R RamSem PermFacts B2RFacts B2RFacts2 B2RScope PermOrder.
Import ListNotations.
Set Implicit Arguments.

Lemma bind_inv : forall A B (m : step A) (f : A -> step B) z b z', sbind m f z = Some (b, z') ->
  exists a z1, m z = Some (a, z1) /\ f a z1 = Some (b, z').
Proof. intros A B m f z b z' H. unfold sbind in H. destruct (m z) as [[a z1]|]; [eauto|discriminate]. Qed.
Lemma opt_inv : forall A (o : option A) z a z', sopt o z = Some (a, z') -> o = Some a /\ z' = z.
Proof. intros A [x|] z a z' H; [|discriminate]. injection H as <- <-. auto. Qed.
Ltac bnd H a z := let E := fresh "E" in apply bind_inv in H; destruct H as (a & z & E & H).
Ltac opt H := let E := fresh "E" in apply opt_inv in H; destruct H as [E ->].

Lemma F2_len : forall A B (R : A -> B -> Prop) l l', Forall2 R l l' -> length l' = length l.
Proof. induction 1; cbn; auto. Qed.

(** ** Syntactic classes *)
(** What negative dataflows are made of. *)
Fixpoint ssl (d : rdf) : Prop :=
  match d with RRel _ => True | RFilter d _ | RProject d _ | RFind d _ => ssl d | _ => False end.
(** What the dataflows of rules without foreign code and aggregation are made of. *)
Fixpoint frag (d : rdf) : Prop :=
  match d with
  | RUnit _ | RRel _ => True
  | ROverwrite d | RFilter d _ | RProject d _ | RFind d _ => frag d
  | RInter d1 d2 | RJoin d1 d2 | RProd d1 d2 => frag d1 /\ frag d2
  | RDiff d1 d2 | RAnti d1 d2 => frag d1 /\ ssl d2
  | _ => False
  end.
Definition projects (d : rdf) : Prop := exists d0 e, d = RProject d0 e.
(** The tuples an expression may yield, by length. *)
Definition elen (e : expr) (t : tuple) : Prop := match e with XTuple es => tlen (length es) t | _ => True end.
(** The goal asks for tuples of this length. *)
Definition goal_expr (goal : gt var) (e : expr) : Prop := forall l, goal = GT l -> exists es, e = XTuple es /\ length es = length l.

Lemma ssl_frag : forall d, ssl d -> frag d.
Proof. induction d; cbn; try tauto. Qed.
Lemma projection_len : forall g goal e, projection g goal = Some e -> goal_expr goal e.
Proof.
  intros g goal e H l ->. cbn [projection] in H. destruct (omap (projection g) l) as [es|] eqn:O; [|discriminate]. injection H as <-.
  exists es. split; auto. apply omap_Forall2 in O. eapply F2_len; eauto.
Qed.
Lemma projection_assigns_len : forall g goal l e, projection_assigns g goal l = Some e -> goal_expr goal e.
Proof.
  intros g goal l e H ts ->. cbn [projection_assigns] in H. destruct (omap (fun x => projection_assigns g x l) ts) as [es|] eqn:O; [|discriminate]. injection H as <-.
  exists es. split; auto. apply omap_Forall2 in O. eapply F2_len; eauto.
Qed.
Lemma permutation_len : forall goal args pm, permutation goal args = Some pm -> goal_expr goal (perm_expr pm).
Proof.
  intros goal args pm H l ->. unfold permutation in H. cbn [perm_helper] in H.
  match type of H with option_map _ (obnd ?a _) = _ => destruct a as [[pl v2]|] eqn:Pl; [|discriminate] end.
  cbn in H. injection H as <-. cbn [perm_expr fst]. eexists. split; [reflexivity|]. rewrite map_length.
  revert pl v2 Pl. generalize (@nil nat). induction l as [|e l IH]; intros vis pl v2 Pl; [injection Pl as <- <-; reflexivity|].
  destruct (perm_helper e args vis) as [[pe v1]|]; [|discriminate]. cbn [obnd snd fst] in Pl.
  match type of Pl with obnd ?a _ = _ => destruct a as [[p2 v3]|] eqn:P2; [|discriminate] end. cbn in Pl. injection Pl as <- <-.
  cbn. f_equal. eapply IH; eauto.
Qed.

Section Wf.
  Variables (P : Prov) (E : renv) (Sh : nat -> tuple -> Prop) (C : cenv).
  Hypothesis SORT : forall l, Permutation (ce_sort C l) l.

  Definition psorted (d : rdf) : Prop := forall L : lenv P, l_env L = E -> is_sorted Sh (lower L d).
  Definition pstrict (d : rdf) : Prop := forall L : lenv P, l_env L = E -> is_strict Sh (lower L d).
  Definition pwf (nested : bool) (d : rdf) : Prop := forall (L : lenv P) col, l_env L = E ->
    (forall r, In r (nrefs d) -> col r <> None) -> wf col Sh nested (lower L d).
  Fixpoint ylen (n : nat) (d : rdf) : Prop :=
    match d with
    | RUnit u => tlen n u
    | RRel r => forall t, Sh r t -> tlen n t
    | RProject _ e => match e with XTuple es => length es = n | _ => False end
    | ROverwrite d | RFilter d _ | RFind d _ | RDiff d _ | RAnti d _ | RInter d _ => ylen n d
    | _ => False
    end.

  Lemma ssl_nrefs : forall d, ssl d -> nrefs d = [].
  Proof. induction d; cbn; tauto. Qed.
  Lemma ssl_static : forall (L : lenv P) col d, ssl d -> (forall r, In r (prefs d) -> col r <> None) -> is_static col (lower L d).
  Proof. intros L col. induction d; cbn; try tauto; auto. Qed.
  Lemma pwf_weaken : forall d n, pwf true d -> pwf n d.
  Proof. intros d n H L col HL HC. apply wf_weaken. apply H; auto. Qed.
  Lemma pwf_false : forall d n, pwf n d -> pwf false d.
  Proof. intros d [|] H; auto. apply pwf_weaken; auto. Qed.

  (** What a lowered dataflow satisfies, given its goal and the variables of the
      plan. *)
  Record good (nested sorted : bool) (goal : gt var) (bv : list var) (d : rdf) : Prop := {
    g_frag : frag d;
    g_wf : pwf nested d;
    g_sorted : sorted = true -> psorted d;
    g_strict : sorted = true -> incl bv (leaves goal) -> pstrict d;
    g_len : forall l, goal = GT l -> ylen (length l) d }.
  Record zgood (z : bstate) : Prop := {
    zg_def : forall n d, In (n, d) (z_temps z) \/ In (n, d) (z_negs z) -> frag d /\ pwf false d /\ projects d;
    zg_neg : forall n d, In (n, d) (z_negs z) -> ssl d }.

  (** The final state, and that the relations made on the way hold tuples of the
      lengths of their definitions. *)
  Variable Z : bstate.
  Hypothesis SHT : forall n d e t, In (n, RProject d e) (z_temps Z) \/ In (n, RProject d e) (z_negs Z) -> Sh n t -> elen e t.
  Hypothesis SHP : forall p g t, In (p, g) (z_perms Z) -> Sh (ce_perm C p g) t -> elen (perm_expr g) t.

  Lemma good_rel : forall nested sorted goal bv r, (forall l, goal = GT l -> ylen (length l) (RRel r)) -> good nested sorted goal bv (RRel r).
  Proof. intros. constructor; auto; cbn; auto; intros; intros L; cbn; auto. Qed.
  Lemma rel_len : forall goal d e n, goal_expr goal e -> In (n, RProject d e) (z_temps Z) \/ In (n, RProject d e) (z_negs Z) ->
    forall l, goal = GT l -> ylen (length l) (RRel n).
  Proof.
    intros goal d e n G I l El. destruct (G l El) as (es & -> & Q). intros t Ht. pose proof (@SHT _ _ _ _ I Ht) as K. cbn in K. rewrite <- Q. exact K.
  Qed.

  Lemma temp_good : forall d e z d' z' nested sorted goal bv, create_temp C (RProject d e) z = Some (d', z') -> zgood z -> ext z' Z ->
    goal_expr goal e -> frag d -> pwf false (RProject d e) -> zgood z' /\ good nested sorted goal bv d' /\ ssl d'.
  Proof.
    intros d e z d' z' nested sorted goal bv H Zg X G F W. injection H as <- <-. destruct Zg as [Z1 Z2]. split; [|split].
    - constructor; cbn [z_temps z_negs]; auto. intros n d0 [I|I]; [|apply (Z1 n d0); auto]. apply in_app_iff in I. destruct I as [I|[I|[]]]; [apply (Z1 n d0); auto|].
      injection I as <- <-. split; [exact F|]. split; auto. exists d, e. auto.
    - apply good_rel. apply (@rel_len _ d e _ G). left. apply X. cbn. apply in_app_iff. right; left; auto.
    - exact Logic.I.
  Qed.
  Lemma ntemp_good : forall d e z d' z' nested sorted goal bv, create_ntemp C (RProject d e) z = Some (d', z') -> zgood z -> ext z' Z ->
    goal_expr goal e -> ssl d -> pwf false (RProject d e) -> zgood z' /\ good nested sorted goal bv d' /\ ssl d'.
  Proof.
    intros d e z d' z' nested sorted goal bv H Zg X G F W. injection H as <- <-. destruct Zg as [Z1 Z2]. split; [|split].
    - constructor; cbn [z_temps z_negs].
      + intros n d0 [I|I]; [apply (Z1 n d0); auto|]. apply in_app_iff in I. destruct I as [I|[I|[]]]; [apply (Z1 n d0); auto|].
        injection I as <- <-. split; [apply ssl_frag in F; exact F|]. split; auto. exists d, e. auto.
      + intros n d0 I. apply in_app_iff in I. destruct I as [I|[I|[]]]; [eauto|]. injection I as <- <-. exact F.
    - apply good_rel. apply (@rel_len _ d e _ G). right. apply X. cbn. apply in_app_iff. right; left; auto.
    - exact Logic.I.
  Qed.
  Lemma pwf_project : forall n d e, pwf n d -> pwf n (RProject d e).
  Proof. intros n d e H L col. exact (H L col). Qed.
  Lemma pwf_filter : forall n d e, pwf n d -> pwf n (RFilter d e).
  Proof. intros n d e H L col. exact (H L col). Qed.
  Lemma process_good : forall d e pr z d' z' nested goal bv, process C (RProject d e) pr z = Some (d', z') -> d_inplace pr = false ->
    zgood z -> ext z' Z -> goal_expr goal e -> frag d -> pwf nested d -> (d_neg pr = true -> ssl d) ->
    zgood z' /\ good nested (d_sorted pr) goal bv d' /\ (ssl d -> ssl d').
  Proof.
    intros d e pr z d' z' nested goal bv H Ni Zg X G F W N. unfold process in H. destruct (d_sorted pr).
    - rewrite Ni in H. assert (W' : pwf false (RProject d e)) by (apply pwf_project, (pwf_false W)). destruct (d_neg pr).
      + destruct (@ntemp_good d e z d' z' nested true goal bv H Zg X G (N eq_refl) W') as (A1 & A2 & A3). auto.
      + destruct (@temp_good d e z d' z' nested true goal bv H Zg X G F W') as (A1 & A2 & A3). auto.
    - injection H as <- <-. split; auto. split; auto. constructor; try discriminate; [exact F|apply pwf_project; auto|].
      intros l El. destruct (G l El) as (es & -> & Q). exact Q.
  Qed.

  Lemma filt_true : forall e t, filt_fn E e t = true <-> tt_ E e t.
  Proof.
    intros e t. unfold filt_fn, tt_. destruct (eval E e t) as [[v|ts]| |]; try (split; discriminate). destruct v; try (split; discriminate).
    destruct b; split; try discriminate; auto.
  Qed.

  (** ** Atoms *)
  Definition aok (a : atom) : Prop := forall t, Sh (a_pred a) t -> tlen (length (a_args a)) t.

  Lemma no_const_good : forall goal a ws pr z d z', a_args a = map TVar ws -> aok a ->
    no_const_ground C goal a pr z = Some (d, z') -> zgood z -> ext z' Z ->
    zgood z' /\ good true (d_sorted pr) goal ws d /\ ssl d.
  Proof.
    intros goal a ws pr z d z' Ea A H Zg X. unfold no_const_ground in H. unfold aok in A. rewrite Ea in *. rewrite map_length in A.
    destruct (matches goal (map TVar ws)) eqn:Em.
    - injection H as <- <-. split; [auto|]. split; [|exact Logic.I]. apply good_rel. intros l El t Ht.
      apply matches_spec in Em. destruct Em as (ws' & Eg & Ew). apply map_TVar_inj in Ew. subst ws'.
      rewrite El in Eg. injection Eg as ->. rewrite map_length. auto.
    - bnd H pm z1. opt E0. rename E1 into PM. pose proof (permutation_len _ PM) as G.
      destruct (atom_filter (map TVar ws)) as [f|] eqn:Ef.
      + destruct (d_sorted pr && negb (order_preserving pm)) eqn:Es.
        * bnd H u z2. injection E0 as <- <-. cbv beta in H.
          assert (Zg2 : zgood (mkB (z_next z) (z_temps z) (z_perms z ++ [(a_pred a, pm)]) (z_negs z))) by (destruct Zg; constructor; auto).
          assert (W : pwf false (RProject (RFilter (RRel (a_pred a)) f) (perm_expr pm))) by (intros L col; cbn; auto).
          destruct (d_neg pr).
          -- apply (@ntemp_good _ _ _ _ _ true (d_sorted pr) goal ws H Zg2 X G); cbn; auto.
          -- apply (@temp_good _ _ _ _ _ true (d_sorted pr) goal ws H Zg2 X G); cbn; auto.
        * injection H as <- <-. split; auto. split; [|exact Logic.I]. constructor; cbn [frag]; auto.
          -- intros L col; cbn; auto.
          -- intros Hs L HL. rewrite Hs in Es. apply negb_false_iff in Es. cbn. rewrite HL. split; auto. apply perm_mono; auto.
          -- intros Hs Iv L HL. rewrite Hs in Es. apply negb_false_iff in Es. cbn. rewrite HL. split; auto.
             intros t t' u u' [Q1 Q2] [Q1' Q2']. apply (@perm_smono E ws goal pm PM Es Iv).
             ++ split; auto. rewrite Ef. apply filt_true; auto.
             ++ split; auto. rewrite Ef. apply filt_true; auto.
          -- intros l El. destruct (G l El) as (es & -> & Q). exact Q.
      + destruct (d_sorted pr && negb (order_preserving pm)) eqn:Es.
        * bnd H u z2. injection E0 as <- <-. cbv beta in H. injection H as <- <-. split; [destruct Zg; constructor; auto|]. split; [|exact Logic.I].
          apply good_rel. intros l El t Ht. destruct (G l El) as (es & Ee & Q).
          assert (K : elen (perm_expr pm) t) by (apply (@SHP (a_pred a) pm t); auto; apply X; cbn; apply in_app_iff; right; left; auto).
          rewrite Ee in K. cbn in K. rewrite <- Q. exact K.
        * injection H as <- <-. split; auto. split; [|exact Logic.I]. constructor; cbn [frag]; auto.
          -- intros L col; cbn; auto.
          -- intros Hs L HL. rewrite Hs in Es. apply negb_false_iff in Es. cbn. rewrite HL. split; auto. apply perm_mono; auto.
          -- intros Hs Iv L HL. rewrite Hs in Es. apply negb_false_iff in Es. cbn. rewrite HL. split; auto.
             intros t t' u u' Q1 Q1'. apply (@perm_smono E ws goal pm PM Es Iv); (split; [auto|rewrite Ef; exact Logic.I]).
          -- intros l El. destruct (G l El) as (es & -> & Q). exact Q.
  Qed.

  Lemma const_projection : forall goal e, projection (GT []) goal = Some e -> exists u, forall t, eval E e t = EOk u.
  Proof.
    intros goal. induction goal as [v|l IH] using gt_ind'; intros e H; cbn [projection] in H; [discriminate|].
    destruct (omap (projection (GT [])) l) as [es|] eqn:O; [|discriminate]. injection H as <-. apply omap_Forall2 in O.
    assert (K : exists us, forall t, emap (fun x => eval E x t) es = EOk us).
    { induction O as [|g e l es He O IHo]; [exists []; reflexivity|]. inversion IH as [|? ? H1 H2]; subst.
      destruct (H1 _ He) as [u Hu]. destruct (IHo H2) as [us Hus]. exists (u :: us). intros t. rewrite emap_cons, Hu. cbn. rewrite Hus. reflexivity. }
    destruct K as [us K]. exists (TTup us). intros t. cbn [eval]. rewrite K. reflexivity.
  Qed.
  Lemma ground_good : forall goal a pr z d z', aok a -> d_inplace pr = false -> ground_df C goal a pr z = Some (d, z') -> zgood z -> ext z' Z ->
    zgood z' /\ good true (d_sorted pr) goal (avars a) d /\ ssl d.
  Proof.
    intros goal a pr z d z' A Ni H Zg X. unfold ground_df in H. destruct (a_args a) as [|x xs] eqn:Ea.
    - unfold empty_ground in H. rewrite Ea in H. unfold aok in A. rewrite Ea in A. destruct (matches goal []) eqn:Em.
      + injection H as <- <-. split; auto. split; [|exact Logic.I]. apply good_rel. intros l El t Ht. subst goal.
        cbn in Em. apply andb_true_iff in Em. destruct Em as [Em _]. apply Nat.eqb_eq in Em. rewrite Em. auto.
      + bnd H pe z1. opt E0. injection H as <- <-. split; auto. split; [|exact Logic.I].
        destruct (@const_projection _ _ E1) as [u Hu]. pose proof (@projection_len _ _ _ E1) as G. constructor; cbn [frag]; auto.
        * intros L col; cbn; auto.
        * intros _ L HL. cbn. rewrite HL. split; auto. intros t t' w w' _ Q Q'. unfold proj_fn in Q, Q'. rewrite Hu in Q, Q'.
          injection Q as <-. injection Q' as <-. rewrite (to_refl tcmp_TOrder). discriminate.
        * intros _ _ L HL. cbn. rewrite HL. split; auto. intros t t' w w' T T' Q. exfalso.
          apply A in T. apply A in T'. destruct T as (ts & -> & T). destruct T' as (ts' & -> & T'). destruct ts; [|discriminate]. destruct ts'; discriminate.
        * intros l El. destruct (G l El) as (es & -> & Q). exact Q.
    - destruct (existsb is_const (a_args a)) eqn:Ec.
      + assert (As : aok (sub_atom C a)).
        { intros t Ht. cbn [sub_atom a_pred a_args] in *. rewrite map_length, sub_vars_length. apply A. exact Ht. }
        rewrite <- Ea in H. rewrite Ec in H. destruct (ce_static C (a_pred a) && negb (upfront false (a_args a))).
        * unfold static_ground in H. bnd H d1 z1.
          destruct (map (fun x => XBin OEq (XAccess (acc_index (fst x))) (XConst (snd x))) (const_part a)) as [|e es]; [discriminate|].
          bnd H pe z2. opt E1. pose proof (ext_trans (@grows_process C _ _ _ _ _ H) X) as X1.
          destruct (@no_const_good _ (sub_atom C a) (sub_vars C a) _ _ _ _ eq_refl As E0 Zg X1) as (Zg1 & G1 & S1).
          destruct (@process_good _ _ _ _ _ _ true goal (avars a) H Ni Zg1 X) as (A1 & A2 & A3); auto.
          -- eapply projection_len; eauto.
          -- exact (g_frag G1).
          -- apply pwf_filter, (g_wf G1).
        * unfold dynamic_ground in H. bnd H d1 z1. bnd H pe z2. opt E1. pose proof (ext_trans (@grows_process C _ _ _ _ _ H) X) as X1.
          destruct (@no_const_good _ (sub_atom C a) (sub_vars C a) _ _ _ _ eq_refl As E0 Zg X1) as (Zg1 & G1 & S1).
          destruct (@process_good _ _ _ _ _ _ true goal (avars a) H Ni Zg1 X) as (A1 & A2 & A3); auto.
          -- eapply projection_len; eauto.
          -- exact (g_frag G1).
          -- intros L col HL HC. cbn. split; [apply (g_wf G1); auto|apply (g_sorted G1); auto].
      + rewrite <- Ea in H. rewrite Ec in H. apply no_consts in Ec. eapply no_const_good; eauto.
  Qed.

  (** ** Plans *)
  Fixpoint posp (p : plan) : Prop :=
    match p with
    | PUnit _ => True
    | PGround bv a => (forall v, In v (avars a) <-> In v bv) /\ aok a
    | PFilter bv q _ => bv = bvars q /\ posp q
    | PProject bv q _ => incl (bvars q) bv /\ posp q
    | PJoin bv q r => posp q /\ posp r /\ match r with PGround _ _ => True | _ => False end
    | _ => False
    end.
  Fixpoint negp (p : plan) : Prop :=
    match p with
    | PAnti bv q r => negp q /\ posp r /\ match r with PGround br _ => incl br (bvars q) | _ => False end
    | _ => posp p
    end.
  Lemma direct_bv : forall p a, posp p -> direct_atom p = Some a -> forall v, In v (avars a) <-> In v (bvars p).
  Proof.
    induction p; cbn; intros a0 Hp D v; try discriminate.
    - injection D as <-. apply Hp.
    - destruct Hp as [-> Hp]. apply IHp; auto.
  Qed.
  Lemma direct_bv_neg : forall p a, negp p -> direct_atom p = Some a -> forall v, In v (avars a) <-> In v (bvars p).
  Proof. intros p a Hp D. destruct p; try (apply direct_bv; auto); discriminate. Qed.

  Definition sgood (nested : bool) (bv : list var) (s : sub) : Prop := forall goal pr z d z', s goal pr z = Some (d, z') ->
    d_inplace pr = false -> d_neg pr = false -> zgood z -> ext z' Z -> zgood z' /\ good nested (d_sorted pr) goal bv d.

  Lemma project_good : forall fuel s bv l goal pr z d z' bv', project_df C fuel s bv l goal pr z = Some (d, z') -> sgood true bv s ->
    (forall goal pr, grows (s goal pr)) -> incl bv bv' ->
    d_inplace pr = false -> d_neg pr = false -> zgood z -> ext z' Z -> zgood z' /\ good true (d_sorted pr) goal bv' d.
  Proof.
    induction fuel as [|fuel IH]; intros s bv l goal pr z d z' bv' H S GS Ib Ni Nn Zg X; cbn [project_df] in H.
    - destruct (filter (fun v => negb (memb v bv)) (variables goal)); [|destruct l; discriminate].
      destruct (S _ _ _ _ _ H Ni Nn Zg X) as [A [B1 B2 B3 B4 B5]]. split; auto. constructor; auto. intros; apply B4; auto. eapply incl_tran; eauto.
    - destruct (filter (fun v => negb (memb v bv)) (variables goal)) as [|w ws].
      + destruct (S _ _ _ _ _ H Ni Nn Zg X) as [A [B1 B2 B3 B4 B5]]. split; auto. constructor; auto. intros; apply B4; auto. eapply incl_tran; eauto.
      + destruct l as [|y l]; [discriminate|]. bnd H d1 z1. bnd H pe z2. opt E1. pose proof (ext_trans (@grows_process C _ _ _ _ _ H) X) as X1.
        destruct (IH _ _ _ _ _ _ _ _ _ E0 S GS Ib Ni Nn Zg X1) as (Zg1 & G1).
        destruct (@process_good _ _ _ _ _ _ true goal bv' H Ni Zg1 X) as (A1 & A2 & _); auto.
        * eapply projection_assigns_len; eauto.
        * exact (g_frag G1).
        * exact (g_wf G1).
        * rewrite Nn. discriminate.
  Qed.

  Lemma sort_in : forall l v, In v (ce_sort C l) <-> In v l.
  Proof. intros l v. split; apply Permutation_in; [|apply Permutation_sym]; apply SORT. Qed.
  Lemma from_vars_in : forall l b v, In v (leaves (from_vars l b)) <-> In v l.
  Proof. intros. rewrite from_vars_leaves. apply dedup_In. Qed.
  Lemma inter_covers : forall p q goal, negp p -> posp q -> match q with PGround _ _ => True | _ => False end -> set_eqb (bvars p) (bvars q) = true ->
    incl (bvars p) (leaves (inter_goal C p q goal)) /\ incl (bvars q) (leaves (inter_goal C p q goal)).
  Proof.
    intros p q goal Hp Hq Gq SE.
    assert (EQ : forall v, In v (bvars p) <-> In v (bvars q)) by (apply set_eqb_spec; exact SE).
    assert (U : forall l v, In v (leaves (from_vars (uniq C l) false)) <-> In v l).
    { intros l v. rewrite from_vars_in. unfold uniq. rewrite sort_in. apply dedup_In. }
    unfold inter_goal. destruct (direct_atom p) as [a|] eqn:Da.
    - assert (K := direct_bv_neg _ Hp Da). split; intros v Iv; apply U, K; auto. apply EQ; auto.
    - destruct q as [| |br a| | | | | | | ]; try (destruct Gq; fail). cbn [direct_atom]. assert (K := direct_bv (PGround br a) Hq eq_refl).
      split; intros v Iv; apply U, K; auto. apply EQ; auto.
  Qed.
  Lemma pwf_inter : forall n d1 d2, pwf true d1 -> pwf true d2 -> pstrict d1 -> pstrict d2 -> pwf n (RInter d1 d2).
  Proof.
    intros n d1 d2 W1 W2 S1 S2 L col HL HC. cbn. split; [apply W1; auto; intros; apply HC; cbn; apply in_app_iff; auto|].
    split; [apply W2; auto; intros; apply HC; cbn; apply in_app_iff; auto|]. auto.
  Qed.
  Lemma pwf_join : forall n d1 d2, pwf true d1 -> pwf true d2 -> psorted d1 -> psorted d2 -> pwf n (RJoin d1 d2).
  Proof.
    intros n d1 d2 W1 W2 S1 S2 L col HL HC. cbn. split; [apply W1; auto; intros; apply HC; cbn; apply in_app_iff; auto|].
    split; [apply W2; auto; intros; apply HC; cbn; apply in_app_iff; auto|]. auto.
  Qed.
  Lemma pwf_prod : forall n d1 d2, pwf true d1 -> pwf true d2 -> pwf n (RProd d1 d2).
  Proof.
    intros n d1 d2 W1 W2 L col HL HC. cbn. split; [apply W1; auto; intros; apply HC; cbn; apply in_app_iff; auto|].
    apply W2; auto; intros; apply HC; cbn; apply in_app_iff; auto.
  Qed.
  Hypothesis IV : forall r, ce_iv C r = false.

  Theorem plan_good : forall p, posp p -> sgood true (bvars p) (plan_df C p).
  Proof.
    induction p as [bv|bv r|bv a|bv p IH l|bv p IH cs|bv p IHp q IHq|bv p IHp q IHq|bv a|bv p IH a|bv p IH a];
      intros Hp goal pr z d z' H Ni Nn Zg X; cbn [plan_df bvars posp] in *; try (destruct Hp; fail).
    - bnd H u z1. opt E0. injection H as <- <-. split; auto. constructor; cbn; auto; try (intros; intros L; cbn; auto; fail).
      + intros l ->. cbn in E1. destruct (omap unit_tuple l) as [ts|] eqn:O; [|discriminate]. injection E1 as <-. exists ts. split; auto.
        apply omap_Forall2 in O. eapply F2_len; eauto.
    - destruct Hp as [Hv A]. destruct (@ground_good _ _ _ _ _ _ A Ni H Zg X) as (A1 & [B1 B2 B3 B4 B5] & _). split; auto. constructor; auto.
      intros Hs Iv. apply B4; auto. intros v J. apply Iv, Hv, J.
    - destruct Hp as [Ib Hp]. eapply project_good; eauto. intros g0 pr0. apply grows_plan.
    - destruct Hp as [-> Hp]. unfold filter_df in H. bnd H sg z1. opt E0. bnd H d1 z1. bnd H f z2. opt E2. bnd H pe z2. opt E2.
      pose proof (ext_trans (@grows_process C _ _ _ _ _ H) X) as X1.
      destruct (IH Hp _ _ _ _ _ E0 Ni Nn Zg X1) as (Zg1 & G1).
      destruct (@process_good _ _ _ _ _ _ true goal (bvars p) H Ni Zg1 X) as (A1 & A2 & _); auto.
      + eapply projection_len; eauto.
      + exact (g_frag G1).
      + apply pwf_filter, (g_wf G1).
      + rewrite Nn. discriminate.
    - destruct Hp as (H1 & H2 & H3). unfold join_plan_df in H. destruct (join_vars p q) as [|w ws] eqn:Ej.
      + unfold product_df in H. bnd H d1 z1. bnd H d2 z2. bnd H pe z3. opt E2.
        pose proof (ext_trans (@grows_process C _ _ _ _ _ H) X) as X2. pose proof (ext_trans (@grows_plan C _ _ _ _ _ _ E1) X2) as X1.
        destruct (IHp H1 _ _ _ _ _ E0 Ni eq_refl Zg X1) as (Zg1 & G1). destruct (IHq H2 _ _ _ _ _ E1 Ni eq_refl Zg1 X2) as (Zg2 & G2).
        destruct (@process_good _ _ _ _ _ _ true goal bv H Ni Zg2 X) as (A1 & A2 & _); auto.
        * eapply projection_len; eauto.
        * split; [exact (g_frag G1)|exact (g_frag G2)].
        * apply pwf_prod; [exact (g_wf G1)|exact (g_wf G2)].
        * rewrite Nn. discriminate.
      + destruct (set_eqb (bvars p) (bvars q)) eqn:SE.
        * unfold intersect_df in H. bnd H d1 z1. bnd H d2 z2.
          assert (Gr : forall z0, ext z0 Z -> ext z2 z0 -> ext z2 Z) by (intros; eapply ext_trans; eauto).
          assert (Hp' : negp p) by (destruct p; try exact H1; destruct H1).
          destruct (@inter_covers p q goal Hp' H2 H3 SE) as [C1 C2].
          assert (X2 : ext z2 Z).
          { destruct (gt_eqb (inter_goal C p q goal) goal); [injection H as <- <-; auto|]. bnd H pe z3. opt E2.
            exact (ext_trans (@grows_process C _ _ _ _ _ H) X). }
          pose proof (ext_trans (@grows_plan C _ _ _ _ _ _ E1) X2) as X1.
          destruct (IHp H1 _ _ _ _ _ E0 Ni eq_refl Zg X1) as (Zg1 & G1). destruct (IHq H2 _ _ _ _ _ E1 Ni eq_refl Zg1 X2) as (Zg2 & G2).
          assert (S1 : pstrict d1) by (apply (g_strict G1); auto). assert (S2 : pstrict d2) by (apply (g_strict G2); auto).
          assert (W : pwf true (RInter d1 d2)) by (apply pwf_inter; auto; [exact (g_wf G1)|exact (g_wf G2)]).
          destruct (gt_eqb (inter_goal C p q goal) goal) eqn:Ge.
          -- injection H as <- <-. split; auto. apply gt_eqb_eq in Ge. constructor; auto.
             ++ split; [exact (g_frag G1)|exact (g_frag G2)].
             ++ intros _ L HL. split; auto.
             ++ intros _ _ L HL. split; auto.
             ++ intros l El. cbn. apply (g_len G1). rewrite Ge. exact El.
          -- bnd H pe z3. opt E2. destruct (@process_good _ _ _ _ _ _ true goal bv H Ni Zg2 X) as (A1 & A2 & _); auto.
             ++ eapply projection_len; eauto.
             ++ split; [exact (g_frag G1)|exact (g_frag G2)].
             ++ rewrite Nn. discriminate.
        * unfold join_df in H. bnd H d1 z1. bnd H d2 z2. bnd H pe z3. opt E2.
          pose proof (ext_trans (@grows_process C _ _ _ _ _ H) X) as X2. pose proof (ext_trans (@grows_plan C _ _ _ _ _ _ E1) X2) as X1.
          destruct (IHp H1 _ _ _ _ _ E0 Ni eq_refl Zg X1) as (Zg1 & G1). destruct (IHq H2 _ _ _ _ _ E1 Ni eq_refl Zg1 X2) as (Zg2 & G2).
          assert (EJ : match d2 with RRel r => if ce_iv C r then RJoinIV d1 r else RJoin d1 d2 | _ => RJoin d1 d2 end = RJoin d1 d2).
          { destruct d2; auto. rewrite IV. auto. }
          rewrite EJ in H. destruct (@process_good _ _ _ _ _ _ true goal bv H Ni Zg2 X) as (A1 & A2 & _); auto.
          -- eapply projection_len; eauto.
          -- split; [exact (g_frag G1)|exact (g_frag G2)].
          -- apply pwf_join; [exact (g_wf G1)|exact (g_wf G2)|apply (g_sorted G1); auto|apply (g_sorted G2); auto].
          -- rewrite Nn. discriminate.
  Qed.
  Lemma static_sub : forall (L : lenv P) col d1 d2, ssl d2 -> (forall r, In r (nrefs d1 ++ prefs d2 ++ nrefs d2) -> col r <> None) ->
    is_static col (lower L d2).
  Proof. intros L col d1 d2 S H. apply ssl_static; auto. intros r I. apply H. rewrite !in_app_iff. auto. Qed.
  Theorem nplan_good : forall p, negp p -> sgood false (bvars p) (plan_df C p).
  Proof.
    assert (POS : forall p, posp p -> sgood false (bvars p) (plan_df C p)).
    { intros p Hp goal pr z d z' H Ni Nn Zg X. destruct (@plan_good _ Hp _ _ _ _ _ H Ni Nn Zg X) as [A [B1 B2 B3 B4 B5]]. split; auto.
      constructor; auto. apply pwf_weaken; auto. }
    induction p as [bv|bv r|bv a|bv p IH l|bv p IH cs|bv p IHp q IHq|bv p IHp q IHq|bv a|bv p IH a|bv p IH a]; intros Hp; try (apply POS; exact Hp).
    clear IHq. cbn [negp] in Hp. destruct Hp as (H1 & H2 & H3). specialize (IHp H1). destruct q as [| |br a| | | | | | | ]; try (destruct H3; fail).
    destruct H2 as [Hv A]. intros goal pr z d z' H Ni Nn Zg X. cbn [plan_df bvars] in *. unfold anti_plan_df in H. cbn [bvars] in H.
    destruct (set_eqb (bvars p) br) eqn:SE.
    - unfold difference_df in H. bnd H d1 z1. bnd H d2 z2. cbn [plan_df] in E1.
      destruct (@inter_covers p (PGround br a) goal H1 (conj Hv A) Logic.I SE) as [C1 C2].
      assert (X2 : ext z2 Z).
      { destruct (gt_eqb (inter_goal C p (PGround br a) goal) goal); [injection H as <- <-; auto|]. bnd H pe z3. opt E2.
        exact (ext_trans (@grows_process C _ _ _ _ _ H) X). }
      pose proof (ext_trans (@grows_ground C _ _ _ _ _ _ E1) X2) as X1.
      destruct (IHp _ _ _ _ _ E0 Ni eq_refl Zg X1) as (Zg1 & G1). destruct (@ground_good _ _ (with_neg true (with_sorted true pr)) _ _ _ A Ni E1 Zg1 X2) as (Zg2 & G2 & S2).
      assert (T1 : pstrict d1) by (apply (g_strict G1); auto).
      assert (T2 : pstrict d2) by (apply (g_strict G2); auto; intros v J; apply C2, Hv; auto).
      assert (W : pwf false (RDiff d1 d2)).
      { intros L col HL HC. cbn. split; auto. split; [apply (g_wf G1); auto; intros; apply HC; cbn; apply in_app_iff; auto|].
        split; [apply (g_wf G2); auto; rewrite (@ssl_nrefs _ S2); intros ? []|]. split; [exact (@static_sub L col d1 d2 S2 HC)|]. auto. }
      destruct (gt_eqb (inter_goal C p (PGround br a) goal) goal) eqn:Ge.
      + injection H as <- <-. split; auto. apply gt_eqb_eq in Ge. constructor.
        * split; [exact (g_frag G1)|exact S2].
        * exact W.
        * intros _ L HL. exact (T1 L HL).
        * intros _ _ L HL. exact (T1 L HL).
        * intros l El. cbn. apply (g_len G1). rewrite Ge. exact El.
      + bnd H pe z3. opt E2. destruct (@process_good _ _ _ _ _ _ false goal bv H Ni Zg2 X) as (A1 & A2 & _); auto.
        * eapply projection_len; eauto.
        * split; [exact (g_frag G1)|exact S2].
        * rewrite Nn. discriminate.
    - unfold antijoin_df in H. bnd H d1 z1. bnd H d2 z2. bnd H pe z3. opt E2. cbn [plan_df] in E1.
      pose proof (ext_trans (@grows_process C _ _ _ _ _ H) X) as X2. pose proof (ext_trans (@grows_ground C _ _ _ _ _ _ E1) X2) as X1.
      destruct (IHp _ _ _ _ _ E0 Ni eq_refl Zg X1) as (Zg1 & G1). destruct (@ground_good _ _ (with_neg true (with_sorted true pr)) _ _ _ A Ni E1 Zg1 X2) as (Zg2 & G2 & S2).
      assert (T2 : pstrict d2).
      { apply (g_strict G2); auto. intros v J. apply from_vars_in. apply sort_in. unfold join_vars. cbn [bvars]. apply filter_In.
        apply Hv in J. split; [apply H3; auto|apply memb_In; auto]. }
      destruct (@process_good _ _ _ _ _ _ false goal bv H Ni Zg2 X) as (A1 & A2 & _); auto.
      + eapply projection_len; eauto.
      + split; [exact (g_frag G1)|exact S2].
      + intros L col HL HC. cbn. split; auto. split; [apply (g_wf G1); auto; intros; apply HC; cbn; apply in_app_iff; auto|].
        split; [apply (g_wf G2); auto; rewrite (@ssl_nrefs _ S2); intros ? []|]. split; [exact (@static_sub L col d1 d2 S2 HC)|].
        split; [apply (g_sorted G1); auto|]. auto.
      + rewrite Nn. discriminate.
  Qed.

  (** ** Rules *)
  Theorem update_good : forall h p z n d z', update_df C h p false z = Some ((n, d), z') -> ce_shape C (a_pred h) = SPlain ->
    negp p -> zgood z -> ext z' Z ->
    zgood z' /\ frag d /\ pwf false d /\ ylen (length (a_args h)) d.
  Proof.
    intros h p z n d z' H Pl Hp Zg X. unfold update_df in H. bnd H x z1. opt E0. unfold head_tuple in E1. rewrite Pl in E1. injection E1 as <-.
    cbn [fst snd] in H. bnd H d1 z1. bnd H d2 z2. injection H as Hn Hd ->. subst n.
    enough (Q : zgood z' /\ frag d2 /\ pwf false d2 /\ ylen (length (a_args h)) d2).
    { destruct Q as (Q1 & Q2 & Q3 & Q4). destruct (ce_magic C (a_pred h)); subst d; split; auto. }
    clear Hd d.
    assert (LH : existsb is_const (a_args h) = false -> length (a_args h) = length (avars h)).
    { intros K. apply no_consts in K. unfold avars. rewrite K at 1. apply map_length. }
    destruct (existsb is_const (a_args h)) eqn:Ec.
    - bnd E1 e z3. opt E2. injection E1 as <- <-. destruct (@nplan_good _ Hp _ _ _ _ _ E0 eq_refl eq_refl Zg X) as [A G].
      split; auto. split; [exact (g_frag G)|]. split; [apply pwf_project, (g_wf G)|].
      unfold head_proj in E3. destruct (omap _ (a_args h)) as [es|] eqn:O; [|discriminate]. injection E3 as <-. cbn.
      apply omap_Forall2 in O. eapply F2_len; eauto.
    - destruct (gt_eqb (GT (map GV (avars h))) (gdedup (GT (map GV (avars h))))) eqn:Ge.
      + injection E1 as <- <-. destruct (@nplan_good _ Hp _ _ _ _ _ E0 eq_refl eq_refl Zg X) as [A G].
        split; auto. split; [exact (g_frag G)|]. split; [exact (g_wf G)|]. apply gt_eqb_eq in Ge.
        rewrite LH by auto. pose proof (@g_len _ _ _ _ _ G _ (eq_sym Ge)) as K. rewrite map_length in K. exact K.
      + bnd E1 e z3. opt E2. injection E1 as <- <-. destruct (@nplan_good _ Hp _ _ _ _ _ E0 eq_refl eq_refl Zg X) as [A G].
        split; auto. split; [exact (g_frag G)|]. split; [apply pwf_project, (g_wf G)|].
        destruct (@projection_len _ _ _ E3 _ eq_refl) as (es & -> & Q). cbn. rewrite Q, map_length. symmetry. auto.
  Qed.
End Wf.
