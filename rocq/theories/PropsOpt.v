(** C27 (constant folding), C28 (constant propagation), C29 (equality
    propagation). *)
From Coq Require Import List ZArith Bool Arith Lia.
From Verif Require Import Order Value Back Eval Scc SccFacts BackSem Optimize.
Import ListNotations.

(** *** C27 *)
Lemma veqb_eq : forall v w, veqb v w = true <-> v = w.
Proof.
  intros v w. unfold veqb. split.
  - destruct (vcmp v w) eqn:E; try discriminate. intros _. apply vcmp_TOrder; auto.
  - intros ->. rewrite (proj2 (to_eq vcmp_TOrder w w)); auto.
Qed.

Lemma fold_bool_spec : forall E c a b l, fold_bool (bin_value E (binop_of_cop c) a b) = EOk l ->
  (l = LTrue /\ cop_sat c a b) \/ (l = LFalse /\ ~ cop_sat c a b).
Proof.
  intros E c a b l. destruct c; cbn; unfold cop_sat;
    destruct (same_variant a b) eqn:Sv; cbn; try discriminate;
    try (destruct (eq_able a); cbn; [|discriminate]; destruct (veqb a b) eqn:Ev; cbn; intros H; injection H as <-;
         [left|right]; split; auto; pose proof (veqb_eq a b) as V; rewrite Ev in V; intuition congruence);
    try (destruct (eq_able a); cbn; [|discriminate]; destruct (veqb a b) eqn:Ev; cbn; intros H; injection H as <-;
         [right|left]; split; auto; pose proof (veqb_eq a b) as V; rewrite Ev in V; intuition congruence);
    destruct (lt_able a); cbn; try discriminate; destruct (vcmp a b) eqn:Ev; cbn; intros H; injection H as <-;
      first [left; split; [reflexivity|repeat split; congruence]
            |right; split; [reflexivity|intros (_ & _ & X); congruence]].
Qed.

Lemma consts_tvals : forall s l cs, consts l = Some cs -> tvals s l = cs.
Proof.
  induction l as [|[v|c] l IH]; intros cs H; cbn in H; try discriminate.
  - injection H as <-. reflexivity.
  - destruct (consts l) as [cs'|]; [|discriminate]. injection H as <-. cbn. f_equal. apply IH; auto.
Qed.

Lemma fold_lit_sat : forall B g X M s l l', fold_lit (b_env B) l = EOk l' ->
  (lit_sat B g X M s l <-> lit_sat B g X M s l').
Proof.
  intros B g X M s l l' H.
  assert (FV : forall x r, fold_value x r = EOk l' -> (r = EOk (s x) <-> lit_sat B g X M s l')).
  { intros x r Hr. destruct r as [v| |]; cbn in Hr; try discriminate; injection Hr as <-; cbn.
    - split; congruence.
    - split; [discriminate|tauto]. }
  destruct l as [a|a|x e|c t u|t|d| |]; cbn [fold_lit] in H; try (injection H as <-; tauto).
  - destruct e as [op t u|op t|t u w|f ts|f ts]; cbn [fold_lit] in H.
    + destruct t as [v|a]; [injection H as <-; tauto|]. destruct u as [v|b]; [injection H as <-; tauto|].
      exact (FV x _ H).
    + destruct t as [v|a]; [injection H as <-; tauto|]. exact (FV x _ H).
    + destruct t as [v|a]; [injection H as <-; tauto|].
      destruct a; try (injection H as <-; tauto).
      destruct b; injection H as <-; cbn; (split; intros Q; [injection Q as ->|rewrite Q]; reflexivity).
    + injection H as <-; tauto.
    + destruct (consts ts) as [cs|] eqn:Ec; injection H as <-; [|tauto]. cbn.
      rewrite (consts_tvals s _ _ Ec). split; intros Q; [injection Q as Q; rewrite <- Q|rewrite Q]; reflexivity.
  - destruct t as [v|a], u as [w|b].
    + destruct c; try (injection H as <-; tauto).
      * destruct (Nat.eqb_spec v w); injection H as <-; cbn; [subst|]; tauto.
      * destruct (Nat.eqb_spec v w); injection H as <-; cbn; [subst|]; tauto.
    + destruct c; injection H as <-; tauto.
    + destruct c; injection H as <-; tauto.
    + assert (H' : fold_bool (bin_value (b_env B) (binop_of_cop c) a b) = EOk l') by (destruct c; exact H).
      destruct (fold_bool_spec _ _ _ _ _ H') as [[-> S]|[-> S]]; cbn; tauto.
  - destruct t as [v|a]; [injection H as <-; tauto|]. cbn in H.
    destruct a; try discriminate. destruct b; cbn in H; injection H as <-; cbn; split; congruence || tauto.
Qed.

Lemma emap_In : forall (A C : Type) (f : A -> ev C) l l', emap f l = EOk l' ->
  (forall x, In x l -> exists y, In y l' /\ f x = EOk y) /\ (forall y, In y l' -> exists x, In x l /\ f x = EOk y).
Proof.
  induction l as [|a l IH]; intros l' H.
  - cbn in H. injection H as <-. split; intros ? [].
  - cbn in H. fold (emap f l) in H. destruct (f a) as [b| |] eqn:Ea; try discriminate. cbn in H.
    destruct (emap f l) as [bs| |] eqn:El; try discriminate. cbn in H. injection H as <-.
    destruct (IH bs eq_refl) as [I1 I2]. split.
    + intros x [<-|Hx]; [exists b; cbn; auto|]. destruct (I1 x Hx) as (y & Hy & E). exists y; cbn; auto.
    + intros y [<-|Hy]; [exists a; cbn; auto|]. destruct (I2 y Hy) as (x & Hx & E). exists x; cbn; auto.
Qed.

Lemma fold_lit_inv : forall E l l', fold_lit E l = EOk l' ->
  l = l' \/ (exists a b, l' = LBin CEq a b) \/ l' = LTrue \/ l' = LFalse.
Proof.
  intros E l l' H.
  assert (FV : forall x r, fold_value x r = EOk l' -> (exists a b, l' = LBin CEq a b) \/ l' = LTrue \/ l' = LFalse).
  { intros x r Hr. destruct r; cbn in Hr; try discriminate; injection Hr as <-; eauto. }
  assert (FB : forall r, fold_bool r = EOk l' -> (exists a b, l' = LBin CEq a b) \/ l' = LTrue \/ l' = LFalse).
  { intros r Hr. destruct r as [[]| |]; cbn in Hr; try discriminate; try destruct b; injection Hr as <-; auto. }
  destruct l as [a|a|x e|c t u|t|d| |]; cbn [fold_lit] in H; try (injection H as <-; auto).
  - destruct e as [op t u|op t|t u w|f ts|f ts].
    + destruct t; [injection H as <-; auto|]. destruct u; [injection H as <-; auto|]. right; eauto.
    + destruct t; [injection H as <-; auto|]. right; eauto.
    + destruct t; [injection H as <-; auto|]. destruct c; try (injection H as <-; auto).
      destruct b; injection H as <-; eauto.
    + injection H as <-; auto.
    + destruct (consts ts); injection H as <-; eauto.
  - destruct t, u.
    + destruct c; try (injection H as <-; auto); destruct (Nat.eqb _ _); injection H as <-; auto.
    + destruct c; injection H as <-; auto.
    + destruct c; injection H as <-; auto.
    + right. destruct c; eauto.
  - destruct t; [injection H as <-; auto|]. right; eauto.
Qed.

(** C27: folding keeps the satisfying substitutions and the head, so the rule
    derives the same head facts from every database. *)
Theorem C27_fold : forall B r r', constant_fold (b_env B) r = Fine r' ->
  (forall g X M s, body_sat B g X M s (r_body r) <-> body_sat B g X M s (r_body r')) /\
  (forall g X M p t, head_consequence B g X M r p t <-> head_consequence B g X M r' p t).
Proof.
  intros B r r' H. unfold constant_fold in H.
  destruct (emap (fold_lit (b_env B)) (r_body r)) as [b| |] eqn:Eb; try discriminate. injection H as <-.
  destruct (emap_In _ _ _ _ _ Eb) as [I1 I2].
  assert (K : forall g X M s, body_sat B g X M s (r_body r) <-> body_sat B g X M s b).
  { intros g X M s. split; intros S l Hl.
    - destruct (I2 l Hl) as (x & Hx & E). apply (fold_lit_sat B g X M s x l E). auto.
    - destruct (I1 l Hl) as (y & Hy & E). apply (fold_lit_sat B g X M s l y E). auto. }
  split; [exact K|]. intros g X M p t. unfold head_consequence. cbn [r_body r_head].
  split; intros (s & a & S & R); exists s, a; (split; [apply K; exact S|exact R]).
Qed.

(** The entity facts are kept as well if no constant entity is folded. *)
Theorem C27_fold_entities : forall B r r', constant_fold (b_env B) r = Fine r' ->
  (forall v f l, In (LAssign v (ANew f l)) (r_body r) -> consts l = None) ->
  forall g X M p t, consequence B g X M r p t <-> consequence B g X M r' p t.
Proof.
  intros B r r' H NE g X M p t. pose proof (proj1 (C27_fold B r r' H) g X M) as K.
  unfold constant_fold in H.
  destruct (emap (fold_lit (b_env B)) (r_body r)) as [b| |] eqn:Eb; try discriminate. injection H as <-.
  destruct (emap_In _ _ _ _ _ Eb) as [I1 I2]. cbn [r_body] in K.
  assert (KA : forall a, In (LAtom a) (r_body r) <-> In (LAtom a) b).
  { intros a; split; intros Ha.
    - destruct (I1 _ Ha) as (y & Hy & E). cbn in E. injection E as <-. exact Hy.
    - destruct (I2 _ Ha) as (x & Hx & E). destruct (fold_lit_inv _ _ _ E) as [<-|[(u & w & D)|[D|D]]]; [exact Hx|discriminate..]. }
  assert (KC : forall v f l, In (LAssign v (ACall f l)) (r_body r) <-> In (LAssign v (ACall f l)) b).
  { intros v f l; split; intros Ha.
    - destruct (I1 _ Ha) as (y & Hy & E). cbn in E. injection E as <-. exact Hy.
    - destruct (I2 _ Ha) as (x & Hx & E). destruct (fold_lit_inv _ _ _ E) as [<-|[(u & w & D)|[D|D]]]; [exact Hx|discriminate..]. }
  assert (KN : forall v f l, In (LAssign v (ANew f l)) (r_body r) <-> In (LAssign v (ANew f l)) b).
  { intros v f l; split; intros Ha.
    - destruct (I1 _ Ha) as (y & Hy & E). cbn in E. rewrite (NE v f l Ha) in E. injection E as <-. exact Hy.
    - destruct (I2 _ Ha) as (x & Hx & E). destruct (fold_lit_inv _ _ _ E) as [<-|[(u & w & D)|[D|D]]]; [exact Hx|discriminate..]. }
  unfold consequence. cbn [r_body].
  split; intros (s & S & Y); exists s; (split; [apply K; exact S|]).
  - destruct Y as [a Ha|v f l Hl|v f l q t Hl Ef A C|a q t Ha Fo Fe A C].
    + apply (y_head B g (mkRule (r_head r) b)); auto.
    + apply (y_new B g (mkRule (r_head r) b) s v f l). apply KN; auto.
    + eapply (y_call B g (mkRule (r_head r) b) s v f l); eauto. apply KC; auto.
    + eapply (y_fp B g (mkRule (r_head r) b) s a); eauto. apply KA; auto.
  - destruct Y as [a Ha|v f l Hl|v f l q t Hl Ef A C|a q t Ha Fo Fe A C]; cbn [r_body r_head] in *.
    + apply (y_head B g r); auto.
    + apply (y_new B g r s v f l). apply KN; auto.
    + eapply (y_call B g r s v f l); eauto. apply KC; auto.
    + eapply (y_fp B g r s a); eauto. apply KA; auto.
Qed.

(** *** Examples and refutations *)
Definition env_none : renv :=
  Verif.Eval.mkEnv (fun _ _ _ => None) (fun z => z) (fun _ _ _ => ENone) (fun _ _ => ENone)
    (fun _ _ => ENone) (fun f l => Z.of_nat (f + length l)).
Definition benv_none : benv.
Proof.
  refine (mkBenv env_none (fun _ _ => False) (fun _ _ _ _ => False) _ _ (fun _ _ _ _ => False)
    (fun _ _ _ _ => False)); intros; assumption.
Defined.
Definition reg_none := mkReg (fun _ => false) (fun _ => false) (fun _ => false) [].
Definition at1 (p : pred) (v : var) := mkAtom p [TVar v].

(** [r(x) :- q(y), x = 1 + 2, y == y, 4 < 5] *)
Example C27_ex :
  constant_fold (b_env benv_none) (mkRule (HAtom (at1 0 0))
    [LAtom (at1 1 1); LAssign 0 (ABin OAdd (TConst (I32 1)) (TConst (I32 2)));
     LBin CEq (TVar 1) (TVar 1); LBin CLt (TConst (I32 4)) (TConst (I32 5))]) =
  Fine (mkRule (HAtom (at1 0 0))
    [LAtom (at1 1 1); LBin CEq (TVar 0) (TConst (I32 3)); LTrue; LTrue]).
Proof. vm_compute. reflexivity. Qed.

(** A constant entity is folded to its id and the fact that describes it is no
    longer derived: [r(x) :- q(y), x = new F(1)]; [F] is relation 2. *)
Theorem C27_entity_refuted : exists B r r' g X M p t,
  constant_fold (b_env B) r = Fine r' /\ consequence B g X M r p t /\ ~ consequence B g X M r' p t.
Proof.
  pose (r := mkRule (HAtom (at1 0 0)) [LAtom (at1 1 1); LAssign 0 (ANew 2 [TConst (I32 1)])]).
  exists benv_none, r. eexists. exists reg_none, (fun p _ => p = 1), (fun p _ => p = 1), 2, [VEntity 3%Z; I32 1].
  split; [vm_compute; reflexivity|]. split.
  - exists (fun _ => VEntity 3%Z). split.
    + intros l [<-|[<-|[]]]; reflexivity.
    + apply (y_new benv_none reg_none r (fun _ => VEntity 3%Z) 0 2 [TConst (I32 1)]). right; left; reflexivity.
  - intros (s & _ & Y). inversion Y as [a Ha E1 E2|v f l Hl E1 E2|v f l q t Hl Ef A C|a q t Ha Fo Fe A C]; subst.
    + destruct Ha as [<-|[]]. discriminate.
    + cbn in Hl. destruct Hl as [Hl|[Hl|[]]]; discriminate.
    + destruct A.
    + destruct A.
Qed.

(** Folding divides by zero at compile time, although the rule derives nothing
    and its division is never reached when [q] is empty. *)
Theorem C27_panic_refuted : exists B r,
  constant_fold (b_env B) r = Panicked /\
  forall g M p t, ~ consequence B g (fun _ _ => False) M r p t.
Proof.
  exists benv_none, (mkRule (HAtom (at1 0 0)) [LAtom (at1 1 1); LAssign 0 (ABin ODiv (TConst (I32 1)) (TConst (I32 0)))]).
  split; [vm_compute; reflexivity|]. intros g M p t (s & S & _).
  specialize (S _ (or_intror (or_introl eq_refl))). cbn in S. discriminate.
Qed.

Print Assumptions C27_fold.
Print Assumptions C27_fold_entities.
