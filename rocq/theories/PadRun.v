(** Programs whose rules are padded (PlanPad.v) are compiled to the code of the
    programs without the padding.  Used by C61. *)
From Coq Require Import List ZArith Bool Arith Lia Permutation.
From Verif Require Import Order Value Prov ListAux Back Eval Ram Schedulers Scc SccFacts PropsStrat BackSem PropsUnused Plan PlanSem PlanFacts PlanFacts2 PropsPlan
  VarTuple B2R B2RFacts B2RSpec B2RStrata StrataSem TypedProg RunSem PropsRunProg PlanPad.
Import ListNotations.
Set Implicit Arguments.

Definition not_true (l : lit) : bool := match l with LTrue => false | _ => true end.
Definition padded (r0 r : rule) : Prop := r_head r = r_head r0 /\ pad (assigns (r_body r0)) (r_body r0) (r_body r).

(** ** True literals do not matter *)
Definition same_lits (b b' : list lit) : Prop := filter not_true b' = filter not_true b.
Lemma same_in : forall b b' l, same_lits b b' -> l <> LTrue -> In l b -> In l b'.
Proof.
  intros b b' l S N I. assert (J : In l (filter not_true b)) by (apply filter_In; split; auto; destruct l; auto; congruence).
  rewrite <- S in J. apply filter_In in J. apply J.
Qed.
Lemma same_sym : forall b b', same_lits b b' -> same_lits b' b.
Proof. intros b b' S. symmetry. exact S. Qed.
Lemma same_flat : forall (A : Type) (f : lit -> list A) b b', f LTrue = [] -> same_lits b b' -> flat_map f b' = flat_map f b.
Proof.
  intros A f b b' F S. assert (K : forall b, flat_map f b = flat_map f (filter not_true b)).
  { clear S. induction b0 as [|l b0 IH]; [reflexivity|]. cbn [flat_map filter]. destruct l; cbn [not_true flat_map]; rewrite <- ?IH; try reflexivity. rewrite F. reflexivity. }
  rewrite (K b), (K b'), S. reflexivity.
Qed.
Lemma same_limited : forall N b b' v, same_lits b b' -> limited N b v -> limited N b' v.
Proof.
  intros N b b' v S H. induction H as [l v I Nw J K IH]. econstructor; [|exact Nw|exact J|exact IH]. eapply same_in; eauto. intros ->. destruct J.
Qed.
Lemma same_used : forall hv b b' v, same_lits b b' -> used hv b v -> used hv b' v.
Proof.
  intros hv b b' v S H. induction H as [v I|l v I A J|w e v I U IH J].
  - apply us_head. exact I.
  - eapply us_lit; [eapply same_in; eauto|exact A|exact J]. intros ->. destruct J.
  - eapply us_asg; [eapply same_in; eauto; discriminate|exact IH|exact J].
Qed.
Lemma same_typed : forall C N sig h b b', same_lits b b' -> typed_rule C N sig h b -> typed_rule C N sig h b'.
Proof.
  intros C N sig h b b' S T. pose proof (same_sym S) as S'.
  assert (BK : forall l, l <> LTrue -> In l b' -> In l b) by (intros l; apply same_in; exact S').
  destruct T as [T1 T2 T3 T4 T5 T6 T7 T8 T9 T10 T11 T12 T13].
  constructor.
  - destruct T1 as (tau & A & L). exists tau. split; [exact A|]. intros l I. destruct l; try exact I0; cbn; auto; apply (fun n => L _ (BK _ n I)); discriminate.
  - intros a [I|I]; apply T2; [left|right]; apply BK; auto; discriminate.
  - intros l v I J. assert (NT : l <> LTrue) by (intros ->; destruct J). destruct (T3 l v (BK l NT I) J) as [L|(K & e & K1 & K2)].
    + left. eapply same_limited; eauto.
    + right. split; [exact K|]. exists e. split; [|exact K2]. eapply same_in; eauto. discriminate.
  - intros v I. eapply same_limited; eauto.
  - unfold assigned. rewrite (same_flat (fun l => match l with LAssign v _ => [v] | _ => [] end) eq_refl S). exact T5.
  - intros v e a I J. eapply T6; apply BK; eauto; discriminate.
  - intros v e I. eapply same_used; [exact S|]. eapply T7. apply BK; eauto. discriminate.
  - destruct T8 as [T8|T8]; [left|right].
    + intros a I. apply T8, BK; auto. discriminate.
    + rewrite (same_flat compared eq_refl S). exact T8.
  - intros a I. apply T9, BK; auto. discriminate.
  - intros a [I|I]; apply T10; [left|right]; apply BK; auto; discriminate.
  - intros p I. apply T11. unfold pos_preds, neg_preds in I. rewrite !(same_flat _ eq_refl S) in I. exact I.
  - unfold rule_vars. rewrite (same_flat lit_vars eq_refl S). exact T12.
  - intros a [I|I]; apply T13; [left|right]; apply BK; auto; discriminate.
Qed.

(** Programs that differ in true literals only. *)
Record same_prog (P P' : program) : Prop := {
  sp_rels : p_rels P' = p_rels P;
  sp_outputs : p_outputs P' = p_outputs P;
  sp_facts : p_facts P' = p_facts P;
  sp_reg : p_reg P' = p_reg P;
  sp_rules : Forall2 (fun r r' => r_head r' = r_head r /\ same_lits (r_body r) (r_body r')) (p_rules P) (p_rules P') }.
Lemma F2_inl : forall (A B : Type) (R : A -> B -> Prop) l l' x, Forall2 R l l' -> In x l -> exists y, In y l' /\ R x y.
Proof. intros A B R l l' x H. induction H as [|a b l l' H1 H2 IH]; intros I; [destruct I|]. destruct I as [<-|I]; [exists b; cbn; auto|]. destruct (IH I) as (y & Iy & Ry). exists y. cbn. auto. Qed.
Lemma F2_inr : forall (A B : Type) (R : A -> B -> Prop) l l' y, Forall2 R l l' -> In y l' -> exists x, In x l /\ R x y.
Proof. intros A B R l l' x H. induction H as [|a b l l' H1 H2 IH]; intros I; [destruct I|]. destruct I as [<-|I]; [exists a; cbn; auto|]. destruct (IH I) as (y & Iy & Ry). exists y. cbn. auto. Qed.
Lemma F2_weaken : forall (A B : Type) (R R' : A -> B -> Prop), (forall x y, R x y -> R' x y) -> forall l l', Forall2 R l l' -> Forall2 R' l l'.
Proof. intros A B R R' W l l' H. induction H; constructor; auto. Qed.
Lemma F2_sym : forall (A B : Type) (R : A -> B -> Prop) l l', Forall2 R l l' -> Forall2 (fun y x => R x y) l' l.
Proof. intros A B R l l' H. induction H; constructor; auto. Qed.
Lemma same_prog_sym : forall P P', same_prog P P' -> same_prog P' P.
Proof.
  intros P P' [S1 S2 S3 S4 S5]. constructor; auto. apply F2_sym in S5. revert S5. apply F2_weaken. intros r r' [E S]. split; auto. apply same_sym. exact S.
Qed.
Lemma same_der : forall B P P' M p t, same_prog P P' -> der B P M p t -> der B P' M p t.
Proof.
  intros B P P' M p t SP H. induction H as [f I|r s p t I J IH K Y].
  - apply der_fact. rewrite (sp_facts SP). exact I.
  - destruct (F2_inl _ (sp_rules SP) I) as (r' & I' & E & S). pose proof (same_sym S) as S'. apply der_rule with (r := r') (s := s); auto.
    + intros a Ia F. rewrite (sp_reg SP) in F. apply IH; auto. eapply same_in; eauto. discriminate.
    + intros l Il. rewrite (sp_reg SP). destruct l; try (apply K; eapply same_in; eauto; discriminate). exact Logic.I.
    + rewrite (sp_reg SP). inversion Y; subst.
      * apply y_head. rewrite E. auto.
      * eapply y_new. eapply same_in; eauto. discriminate.
      * eapply y_call; eauto. eapply same_in; eauto. discriminate.
      * eapply y_fp; eauto. eapply same_in; eauto. discriminate.
Qed.
Lemma same_stable : forall B P P' M, same_prog P P' -> stable B P M -> stable B P' M.
Proof.
  intros B P P' M SP H p t. rewrite (H p t). split; apply same_der; auto. apply same_prog_sym. exact SP.
Qed.
Lemma same_source : forall C N sig P P', same_prog P P' -> typed_source C N sig P -> typed_source C N sig P'.
Proof.
  intros C N sig P P' SP [T1 T2 T3 T4 T5 T6]. pose proof (sp_rules SP) as SR. constructor; rewrite ?(sp_rels SP), ?(sp_facts SP), ?(sp_reg SP); auto.
  - intros r' I'. destruct (F2_inr _ SR I') as (r & I & E & S). destruct (T1 r I) as (h & b & -> & T). cbn in E, S.
    exists h, (r_body r'). split; [destruct r'; cbn in *; congruence|]. eapply same_typed; eauto.
  - intros r' p I' J. destruct (F2_inr _ SR I') as (r & I & E & S). apply (T3 r p I). unfold r_pred in J. rewrite E in J.
    unfold pos_preds, neg_preds in J. rewrite !(same_flat _ eq_refl S) in J. exact J.
Qed.
Lemma same_new : forall r r', same_lits (r_body r) (r_body r') -> new_functors r' = new_functors r.
Proof. intros r r' S. unfold new_functors. apply same_flat; auto. Qed.
Lemma same_dyn : forall g r r', same_lits (r_body r) (r_body r') -> needs_dyn_entity g r' = needs_dyn_entity g r.
Proof.
  intros g r r' S. unfold needs_dyn_entity. assert (K : forall b, existsb (fun l => match l with LAtom a => g_foreign g (a_pred a) && g_fp_entity g (a_pred a) | LAssign _ (ACall f _) => g_fn_entity g f | _ => false end) b =
    existsb (fun l => match l with LAtom a => g_foreign g (a_pred a) && g_fp_entity g (a_pred a) | LAssign _ (ACall f _) => g_fn_entity g f | _ => false end) (filter not_true b)).
  { clear S. induction b as [|l b IH]; [reflexivity|]. cbn [existsb filter]. rewrite IH. destruct l; reflexivity. }
  rewrite (K (r_body r)), (K (r_body r')), S. reflexivity.
Qed.
Lemma same_stratified : forall P P' sigma, same_prog P P' -> PropsUnused.stratified P sigma -> PropsUnused.stratified P' sigma.
Proof.
  intros P P' sigma SP ST r' I'. destruct (F2_inr _ (sp_rules SP) I') as (r & I & E & S). destruct (ST r I) as [A B]. pose proof (same_sym S) as S'.
  assert (EP : r_pred r' = r_pred r) by (unfold r_pred; rewrite E; reflexivity). rewrite EP. split.
  - intros q b R. apply (A q b). inversion R; subst.
    + apply reads_pos; [eapply same_in; eauto; discriminate|rewrite (sp_reg SP) in *; auto].
    + apply reads_neg; [eapply same_in; eauto; discriminate|rewrite (sp_reg SP) in *; auto].
    + apply reads_red. eapply same_in; eauto. discriminate.
    + eapply reads_grp; eauto. eapply same_in; eauto. discriminate.
  - intros f J. apply B. unfold functor_preds in *. rewrite (sp_reg SP), (same_dyn _ _ _ S), (same_new _ _ S) in J. exact J.
Qed.

(** ** Numbering the rules with true literals *)
Definition n_true (b : list lit) : nat := length (filter (fun l => negb (not_true l)) b).
Definition numbered (i : nat) (r : rule) : rule := mkRule (r_head r) (filter not_true (r_body r) ++ repeat LTrue i).
Fixpoint number (i : nat) (l : list rule) : list rule :=
  match l with [] => [] | r :: l => numbered i r :: number (S i) l end.
Lemma filter_repeat : forall i, filter not_true (repeat LTrue i) = [].
Proof. induction i as [|i IH]; [reflexivity|]. cbn. exact IH. Qed.
Lemma numbered_same : forall i r, same_lits (r_body r) (r_body (numbered i r)).
Proof.
  intros i r. unfold same_lits. cbn [r_body numbered]. rewrite filter_app, filter_repeat, app_nil_r.
  generalize (r_body r). induction l as [|x l IH]; [reflexivity|]. cbn [filter]. destruct (not_true x) eqn:T; [cbn [filter]; rewrite T, IH; reflexivity|exact IH].
Qed.
Lemma numbered_true : forall i r, n_true (r_body (numbered i r)) = i.
Proof.
  intros i r. unfold n_true. cbn [r_body numbered]. rewrite filter_app, app_length.
  assert (E : filter (fun l => negb (not_true l)) (filter not_true (r_body r)) = []).
  { generalize (r_body r). induction l as [|x l IH]; [reflexivity|]. cbn [filter]. destruct (not_true x) eqn:T; [cbn [filter]; rewrite T; exact IH|exact IH]. }
  rewrite E. cbn. induction i as [|i IH]; [reflexivity|]. cbn. rewrite IH. reflexivity.
Qed.
Lemma number_rules : forall l i, Forall2 (fun r r' => r_head r' = r_head r /\ same_lits (r_body r) (r_body r')) l (number i l).
Proof. induction l as [|r l IH]; intros i; constructor; [split; [reflexivity|apply numbered_same]|apply IH]. Qed.

Lemma pad_true_left : forall A b b', pad A b b' -> pad A (filter not_true b) b'.
Proof.
  intros A b b' H. induction H as [|l b b' H IH|b b' H IH|b b' H IH|x e b b' S H IH]; cbn [filter].
  - constructor.
  - destruct (not_true l) eqn:T; [constructor; auto|]. destruct l; try discriminate. apply pad_right. exact IH.
  - exact IH.
  - apply pad_right. exact IH.
  - apply pad_shadow; auto.
Qed.
Lemma pad_true_end : forall A b b' i, pad A b b' -> pad A (b ++ repeat LTrue i) b'.
Proof.
  intros A b b' i H. induction H as [|l b b' H IH|b b' H IH|b b' H IH|x e b b' S H IH]; cbn [app].
  - induction i as [|i IH]; cbn; [constructor|apply pad_left; exact IH].
  - constructor. exact IH.
  - apply pad_left. exact IH.
  - apply pad_right. exact IH.
  - apply pad_shadow; auto.
Qed.
Lemma same_assigns : forall b b', same_lits b b' -> assigns b' = assigns b.
Proof. intros b b' S. unfold assigns. apply same_flat; auto. Qed.
Lemma numbered_padded : forall i r0 r, padded r0 r -> padded (numbered i r0) r.
Proof.
  intros i r0 r [E P]. split; [exact E|]. rewrite (same_assigns (numbered_same i r0)). cbn [r_body numbered]. apply pad_true_end, pad_true_left. exact P.
Qed.

(** ** Lowering *)
Section Lower.
  Variables (C : cenv) (N : penv) (order : list pred -> rule -> list state -> list state).
  Variable rules : list rule.
  (** The preferences of the search at a rule without the padding are those at the
      rule it stands for. *)
  Definition order0 (ps : list pred) (r0 : rule) : list state -> list state :=
    match nth_error rules (n_true (r_body r0)) with Some r => order ps r | None => fun l => l end.
  Definition stands (r0 r : rule) : Prop :=
    nth_error rules (n_true (r_body r0)) = Some r /\ padded r0 r /\ padable N (r_body r0).
  Lemma lower_rule_pad : forall ps r0 r z y, stands r0 r ->
    lower_rule C N (fun _ => false) order0 ps r0 z = Some y -> lower_rule C N (fun _ => false) order ps r z = Some y.
  Proof.
    intros ps r0 r z y (I & (E & P) & PA) H. unfold lower_rule in *. unfold order0 in H. rewrite I in H.
    destruct (query_plan N (order ps r) (r_body r0)) as [p|] eqn:Q; [|discriminate]. rewrite (plan_pad (order ps r) PA P Q). rewrite E. exact H.
  Qed.
  Lemma lower_rules_pad : forall ps rs0 rs, Forall2 stands rs0 rs -> forall z y,
    lower_rules C N (fun _ => false) order0 ps rs0 z = Some y -> lower_rules C N (fun _ => false) order ps rs z = Some y.
  Proof.
    intros ps rs0 rs H. induction H as [|r0 r rs0 rs H1 H2 IH]; intros z y K; [exact K|]. cbn [lower_rules] in *. unfold sbind in *.
    destruct (lower_rule C N (fun _ => false) order0 ps r0 z) as [[u z1]|] eqn:L; [|discriminate]. rewrite (@lower_rule_pad ps _ _ _ _ H1 L).
    destruct (lower_rules C N (fun _ => false) order0 ps rs0 z1) as [[us z2]|] eqn:L2; [|discriminate]. rewrite (IH _ _ L2). exact K.
  Qed.
  Lemma stands_of : forall rs0 rs p, Forall2 stands rs0 rs -> Forall2 stands (rules_of rs0 p) (rules_of rs p).
  Proof.
    intros rs0 rs p H. unfold rules_of. induction H as [|r0 r rs0 rs H1 H2 IH]; [constructor|]. cbn [filter].
    assert (E : r_pred r = r_pred r0) by (unfold r_pred; destruct H1 as (_ & (E & _) & _); rewrite E; reflexivity). rewrite E.
    destruct (Nat.eqb (r_pred r0) p); [constructor; auto|exact IH].
  Qed.
  Lemma lower_strata_pad : forall rs0 rs, Forall2 stands rs0 rs -> forall ss y,
    lower_strata C N (fun _ => false) order0 rs0 ss = Some y -> lower_strata C N (fun _ => false) order rs ss = Some y.
  Proof.
    intros rs0 rs H ss y K. unfold lower_strata in *. revert K. generalize (mkB 0 [] [] []). intros z K.
    assert (G : forall ss z x, lower_strata1 C N (fun _ => false) order0 rs0 ss z = Some x -> lower_strata1 C N (fun _ => false) order rs ss z = Some x).
    { clear z ss K. induction ss as [|s ss IH]; intros z x K; [exact K|]. cbn [lower_strata1] in *. unfold sbind in *. unfold lower_stratum in *.
      destruct (lower_rules C N (fun _ => false) order0 (st_preds s) (flat_map (rules_of rs0) (st_preds s)) (mkB (z_next z) [] (z_perms z) (z_negs z))) as [[us z1]|] eqn:L; [|discriminate].
      assert (F : Forall2 stands (flat_map (rules_of rs0) (st_preds s)) (flat_map (rules_of rs) (st_preds s))).
      { clear - H. induction (st_preds s) as [|p l IH]; [constructor|]. cbn. apply Forall2_app; [apply stands_of; exact H|exact IH]. }
      rewrite (@lower_rules_pad _ _ _ F _ _ L).
      destruct (lower_strata1 C N (fun _ => false) order0 rs0 ss z1) as [[xs z2]|] eqn:L2; [|discriminate]. rewrite (IH _ _ L2). exact K. }
    destruct (lower_strata1 C N (fun _ => false) order0 rs0 ss z) as [x|] eqn:L; [|discriminate]. rewrite (G _ _ _ L). exact K.
  Qed.
End Lower.

Lemma typed_padable : forall C N sig h b, typed_rule C N sig h b -> padable N b.
Proof.
  intros C N sig h b T. constructor.
  - pose proof (tr_once T) as H. assert (E : map fst (assigns b) = assigned b); [|rewrite E; exact H].
    unfold assigns, assigned. clear. induction b as [|l b IH]; [reflexivity|]. cbn [flat_map]. rewrite map_app, IH. destruct l; reflexivity.
  - intros v e a. apply (tr_single T).
  - intros d I. destruct (tr_types T) as (tau & _ & L). exact (L _ I).
  - intros a I. apply (tr_foreign T). auto.
Qed.
Lemma number_stands : forall C N sig rules rs0 rs i, (forall k r, nth_error rs k = Some r -> nth_error rules (i + k) = Some r) ->
  (forall r, In r rs0 -> exists h body, r = mkRule (HAtom h) body /\ typed_rule C N sig h body) -> Forall2 padded rs0 rs -> Forall2 (stands N rules) (number i rs0) rs.
Proof.
  intros C N sig rules. induction rs0 as [|r0 rs0 IH]; intros rs i HN HT H; inversion H as [|? r ? rs' P PS]; subst; [constructor|]. cbn [number]. constructor.
  - split; [rewrite numbered_true, <- (Nat.add_0_r i); apply HN; reflexivity|]. split; [apply numbered_padded; exact P|].
    destruct (HT r0 (or_introl eq_refl)) as (h & b & -> & T). eapply typed_padable. eapply same_typed; [|exact T]. apply (@numbered_same i (mkRule (HAtom h) b)).
  - apply IH; auto.
    + intros k r' E. rewrite plus_Sn_m, plus_n_Sm. apply (HN (S k)). exact E.
    + intros r' I. apply HT. right. exact I.
Qed.

(** ** The graph *)
Lemma pad_functors : forall A b b', pad A b b' ->
  flat_map (fun l => match l with LAssign _ (ANew f _) => [f] | _ => [] end) b' = flat_map (fun l => match l with LAssign _ (ANew f _) => [f] | _ => [] end) b.
Proof.
  intros A b b' H. induction H as [|l b b' H IH|b b' H IH|b b' H IH|x e b b' S H IH]; cbn [flat_map]; rewrite ?IH; auto.
  apply shadow_vars in S. destruct S as [S _]. destruct e; cbn in S; try discriminate; reflexivity.
Qed.
Lemma pad_edges : forall A b b' (f : lit -> list edge), f LTrue = [] -> (forall x e, f (LAssign x e) = []) -> pad A b b' -> flat_map f b' = flat_map f b.
Proof.
  intros A b b' f F1 F2 H. induction H as [|l b b' H IH|b b' H IH|b b' H IH|x e b b' S H IH]; cbn [flat_map]; rewrite ?F1, ?F2, ?IH; auto.
Qed.
Lemma padded_edges : forall P P0 r0 r, p_rels P = p_rels P0 -> p_reg P = p_reg P0 -> g_adts (p_reg P0) = [] -> (forall b, In b (p_rels P0) -> b_goal b = false) ->
  new_functors r0 = [] -> padded r0 r -> rule_edges P r = rule_edges P0 r0.
Proof.
  intros P P0 r0 r E1 E2 AD GO NF [E PD]. assert (ER : r_pred r = r_pred r0) by (unfold r_pred; rewrite E; reflexivity).
  assert (NF' : new_functors r = []) by (unfold new_functors in *; rewrite (pad_functors PD); exact NF).
  assert (F0 : functor_preds P0 r0 = []) by (unfold functor_preds; rewrite AD, NF; destruct (needs_dyn_entity _ _); reflexivity).
  assert (F : functor_preds P r = []) by (unfold functor_preds; rewrite E2, AD, NF'; destruct (needs_dyn_entity _ _); reflexivity).
  assert (G : forall Q q, p_rels Q = p_rels P0 -> goal_edges Q q = []).
  { intros Q q EQ. unfold goal_edges. rewrite EQ. destruct (find _ (p_rels P0)) as [b|] eqn:FI; [|reflexivity]. apply find_some in FI. rewrite (GO b) by apply FI. reflexivity. }
  unfold rule_edges, functor_edges. rewrite (G P r E1), (G P0 r0 eq_refl), F, F0. cbn [flat_map app].
  rewrite (pad_edges (lit_edges P r) eq_refl (fun x e => eq_refl) PD). apply flat_map_ext. intros l. unfold lit_edges, record_dep. rewrite E2, F, F0, ER. reflexivity.
Qed.
Lemma padded_graph : forall P P0, p_rels P = p_rels P0 -> p_reg P = p_reg P0 -> g_adts (p_reg P0) = [] -> (forall b, In b (p_rels P0) -> b_goal b = false) ->
  (forall r, In r (p_rules P0) -> new_functors r = []) -> Forall2 padded (p_rules P0) (p_rules P) -> dependency_graph P = dependency_graph P0.
Proof.
  intros P P0 E1 E2 AD GO NF H. unfold dependency_graph. rewrite E1. f_equal.
  assert (G : forall l0 l, (forall r, In r l0 -> new_functors r = []) -> Forall2 padded l0 l -> flat_map (rule_edges P) l = flat_map (rule_edges P0) l0).
  { clear H NF. intros l0 l NF H. induction H as [|r0 r l0 l H1 H2 IH]; [reflexivity|]. cbn [flat_map]. rewrite IH by (intros; apply NF; cbn; auto).
    rewrite (@padded_edges P P0 r0 r); auto. apply NF. cbn. auto. }
  apply G; auto.
Qed.
Lemma typed_functors : forall C N sig r h b, r = mkRule (HAtom h) b -> typed_rule C N sig h b -> new_functors r = [].
Proof.
  intros C N sig r h b -> T. destruct (tr_types T) as (tau & _ & L). unfold new_functors. cbn [r_body]. clear T. induction b as [|l b IH]; [reflexivity|]. cbn [flat_map].
  rewrite IH by (intros; apply L; cbn; auto). specialize (L l (or_introl eq_refl)). destruct l; try reflexivity. destruct L as [L _]. inversion L; reflexivity.
Qed.

(** ** Programs *)
Theorem padded_program : forall C N sig P0 P extra sigma order kosaraju,
  p_rels P = p_rels P0 -> p_outputs P = p_outputs P0 -> p_facts P = p_facts P0 -> p_reg P = p_reg P0 -> Forall2 padded (p_rules P0) (p_rules P) ->
  (forall ps r (l : list state), Permutation (order ps r l) l) ->
  typed_source C N sig (with_facts P0 extra) -> PropsUnused.stratified (with_facts P0 extra) sigma ->
  exists P1 order1, (forall ps r (l : list state), Permutation (order1 ps r l) l) /\ same_prog P0 P1 /\
    typed_source C N sig (with_facts P1 extra) /\ PropsUnused.stratified (with_facts P1 extra) sigma /\
    (forall B M, stable B (with_facts P0 extra) M <-> stable B (with_facts P1 extra) M) /\
    dependency_graph P = dependency_graph P1 /\
    (forall g ss y, dependency_graph P1 = Some g -> stratify g (kosaraju g) = Some (inr ss) ->
       lower_strata C N (fun _ => false) order1 (p_rules P1) ss = Some y -> lower_strata C N (fun _ => false) order (p_rules P) ss = Some y) /\
    (forall (IT : Type) (tag_of : fact -> option IT) is_adt sched_of xs, xprog_of tag_of is_adt sched_of P xs = xprog_of tag_of is_adt sched_of P1 xs).
Proof.
  intros C N sig P0 P extra sigma order kosaraju E1 E2 E3 E4 PAD ORD TS ST.
  pose (P1 := mkProg (p_rels P0) (p_outputs P0) (p_facts P0) (number 0 (p_rules P0)) (p_reg P0)).
  assert (SP : same_prog P0 P1) by (constructor; cbn; auto; apply number_rules).
  assert (SPF : same_prog (with_facts P0 extra) (with_facts P1 extra)) by (destruct SP; constructor; cbn in *; auto).
  assert (TR : forall r, In r (p_rules P0) -> exists h body, r = mkRule (HAtom h) body /\ typed_rule C N sig h body) by (intros r I; apply (ts_rules TS r I)).
  assert (STD : Forall2 (stands N (p_rules P)) (p_rules P1) (p_rules P)) by (eapply number_stands; eauto).
  assert (PAD1 : Forall2 padded (p_rules P1) (p_rules P)) by (revert STD; apply F2_weaken; intros r0 r (_ & H & _); exact H).
  pose proof (same_source SPF TS) as TS1.
  exists P1, (order0 order (p_rules P)). split; [|split; [exact SP|split; [exact TS1|split; [eapply same_stratified; eauto|split; [|split; [|split]]]]]].
  - intros ps r l. unfold order0. destruct (nth_error _ _); [apply ORD|apply Permutation_refl].
  - intros B M. split; apply same_stable; auto. apply same_prog_sym. exact SPF.
  - apply padded_graph; auto.
    + exact (ts_adts TS1).
    + exact (ts_goal TS1).
    + intros r I. destruct (ts_rules TS1 r I) as (h & b & E & T). eapply typed_functors; eauto.
  - intros g ss y _ _ L. eapply lower_strata_pad; eauto.
  - intros IT tag_of is_adt sched_of xs. unfold xprog_of. apply map_ext. intros y. unfold xstratum_of. f_equal. apply map_ext. intros n. unfold rel_of. rewrite E1. cbn [p_rels P1].
    destruct (find _ _) as [b|]; [|reflexivity]. unfold pred_rel. rewrite E2, E3. cbn [p_outputs p_facts p_rules P1]. f_equal. f_equal. f_equal.
    clear - PAD1. cbn [p_rules P1] in PAD1. induction PAD1 as [|r0 r l0 l H1 H2 IH]; [reflexivity|]. cbn [existsb]. rewrite IH. f_equal.
    unfold r_pred. destruct H1 as [E _]. rewrite E. reflexivity.
Qed.
