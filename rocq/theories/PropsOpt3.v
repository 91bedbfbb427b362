(** C48 (the optimization loop ends) and C49 (the optimized program has the same
    models). *)
From Coq Require Import List ZArith Bool Arith Lia.
From Verif Require Import Order Value Back Eval Scc SccFacts BackSem Optimize PropsOpt PropsOpt2.
Import ListNotations.

(** ** C48 *)
Lemma emap_Forall2 : forall (A C : Type) (f : A -> ev C) l l', emap f l = EOk l' ->
  Forall2 (fun x y => f x = EOk y) l l'.
Proof.
  induction l as [|x l IH]; intros l' H; cbn in H; [injection H as <-; constructor|].
  destruct (f x) as [y| |] eqn:E; try discriminate. fold (emap f l) in H.
  destruct (emap f l) as [ys| |]; try discriminate. injection H as <-. constructor; auto.
Qed.

Lemma fold_value_inv : forall x r l, fold_value x r = EOk l ->
  (exists v, l = LBin CEq (TVar x) (TConst v)) \/ l = LFalse.
Proof. intros x [v| |] l H; cbn in H; try discriminate; injection H as <-; eauto. Qed.
Lemma fold_bool_inv : forall r l, fold_bool r = EOk l -> l = LTrue \/ l = LFalse.
Proof. intros [v| |] l H; cbn in H; try discriminate; [destruct v; try discriminate; match goal with b : bool |- _ => destruct b end|]; injection H as <-; auto. Qed.

(** What folding can do to a literal. *)
Lemma fold_lit_cases : forall E l l', fold_lit E l = EOk l' ->
  l' = l \/
  (lit_weight l = 1 /\ (l' = LTrue \/ l' = LFalse)) \/
  (exists x e, l = LAssign x e /\ (l' = LFalse \/ (exists c, l' = LBin CEq (TVar x) (TConst c)))
     /\ (forall c t u, e <> AIte c t u) /\ (forall f a, e = ANew f a -> consts a <> None)) \/
  (exists x v t u, l = LAssign x (AIte (TConst v) t u) /\ (l' = LBin CEq (TVar x) t \/ l' = LBin CEq (TVar x) u)).
Proof.
  intros E l l' H. destruct l as [a|a|x e|k t u|t|d| |]; cbn in H; try (injection H as <-; auto; fail).
  - destruct e as [op t1 t2|op t|c t u|f args|f args]; try (injection H as <-; auto; fail).
    + destruct t1, t2; try (injection H as <-; auto; fail). right; right; left.
      destruct (fold_value_inv _ _ _ H) as [(v & ->)| ->]; eexists _, _; (split; [reflexivity|]); (split; [eauto|]);
        split; intros; discriminate.
    + destruct t; try (injection H as <-; auto; fail). right; right; left.
      destruct (fold_value_inv _ _ _ H) as [(v & ->)| ->]; eexists _, _; (split; [reflexivity|]); (split; [eauto|]);
        split; intros; discriminate.
    + destruct c as [|v]; try (injection H as <-; auto; fail).
      destruct v; try (injection H as <-; auto; fail); match goal with b : bool |- _ => destruct b end; injection H as <-; right; right; right; eauto 10.
    + destruct (consts args) eqn:C; [|injection H as <-; auto]. injection H as <-. right; right; left.
      eexists _, _; split; [reflexivity|]. split; [eauto|]. split; [intros; discriminate|].
      intros f' a' Q. injection Q as <- <-. congruence.
  - destruct k, t, u; try (injection H as <-; auto; fail);
      try (right; left; split; [reflexivity|]; eapply fold_bool_inv; eauto; fail);
      destruct (Nat.eqb v v0); injection H as <-; auto.
  - destruct t; [injection H as <-; auto|]. right; left. split; [reflexivity|]. eapply fold_bool_inv; eauto.
Qed.

Lemma fold_weight : forall E b b', Forall2 (fun x y => fold_lit E x = EOk y) b b' ->
  b' = b \/ weight b' < weight b.
Proof.
  intros E b b' F. induction F as [|l l' b b' H F IH]; [auto|]. cbn [weight fold_right]. fold (weight b) (weight b').
  assert (Hl : l' = l \/ lit_weight l' < lit_weight l).
  { destruct (fold_lit_cases _ _ _ H) as [->|[(W & D)|[(x & e & -> & D & _)|(x & v & t & u & -> & D)]]]; auto; right.
    - destruct D; subst; cbn; lia.
    - destruct D as [->|(c & ->)]; cbn; lia.
    - destruct D; subst; cbn; lia. }
  destruct Hl as [->|Hl]; destruct IH as [->|IH]; auto; right; lia.
Qed.

Lemma prop_dropped_weight : forall cs l p, prop_dropped cs l = Some p -> lit_weight l = 1.
Proof. intros cs l p H. destruct l; try discriminate. reflexivity. Qed.
Lemma weight_In : forall l b, In l b -> lit_weight l <= weight b.
Proof. induction b as [|x b IH]; intros H; [destruct H|]. cbn. fold (weight b). destruct H as [->|H]; [lia|]. specialize (IH H); lia. Qed.
Lemma prop_weight : forall m cs b,
  weight (map (prop_lit m) (filter (fun l => is_none (prop_dropped cs l)) b)) <= weight b /\
  ((exists l, In l b /\ prop_dropped cs l <> None) ->
   weight (map (prop_lit m) (filter (fun l => is_none (prop_dropped cs l)) b)) < weight b).
Proof.
  intros m cs. induction b as [|x b [IH1 IH2]]; [split; [cbn; lia|intros (l & [] & _)]|].
  cbn [filter weight fold_right]. fold (weight b).
  assert (L : lit_weight (prop_lit m x) <= lit_weight x).
  { destruct x; cbn; auto. destruct (lookup v m); cbn; lia. }
  destruct (prop_dropped cs x) as [p|] eqn:D; cbn [is_none].
  - pose proof (prop_dropped_weight _ _ _ D). split; [lia|intros _; lia].
  - cbn [map weight fold_right]. fold (weight (map (prop_lit m) (filter (fun l => is_none (prop_dropped cs l)) b))).
    split; [lia|]. intros (l & [->|Hl] & Dl); [congruence|]. assert (weight (map (prop_lit m) (filter (fun l => is_none (prop_dropped cs l)) b)) < weight b) by (apply IH2; eauto). lia.
Qed.
Lemma psub_nil : forall t, psub [] t = t.
Proof. intros []; reflexivity. Qed.
Lemma map_id' : forall (A : Type) (f : A -> A) l, (forall x, f x = x) -> map f l = l.
Proof. intros A f l H. induction l; cbn; congruence. Qed.
Lemma map_atom_id : forall f a, (forall t, f t = t) -> map_atom f a = a.
Proof. intros f [p l] H. unfold map_atom; cbn. rewrite map_id'; auto. Qed.
Lemma map_aexpr_id : forall f e, (forall t, f t = t) -> map_aexpr f e = e.
Proof. intros f [] H; cbn; rewrite ?H, ?map_id'; auto. Qed.
Lemma map_head_id : forall f h, (forall t, f t = t) -> map_head f h = h.
Proof.
  intros f [a|a l] H; cbn; rewrite map_atom_id; auto. rewrite map_id'; auto. intros; apply map_atom_id; auto.
Qed.
Lemma prop_lit_nil : forall l, prop_lit [] l = l.
Proof.
  intros []; cbn; rewrite ?map_atom_id, ?map_aexpr_id, ?psub_nil; auto using psub_nil.
Qed.
Lemma prop_none : forall cs b, (forall l, In l b -> prop_dropped cs l = None) ->
  prop_collect cs b [] false = ([], false) /\ filter (fun l => is_none (prop_dropped cs l)) b = b.
Proof.
  intros cs b. induction b as [|x b IH]; intros H; [auto|]. cbn [prop_collect filter].
  rewrite (H x (or_introl eq_refl)). cbn [is_none].
  destruct IH as [I1 I2]; [intros; apply H; right; auto|]. rewrite I1, I2. auto.
Qed.

Lemma constant_prop_weight : forall r r', constant_prop r = Fine r' ->
  r' = r \/ weight (r_body r') < weight (r_body r).
Proof.
  intros r r' H. unfold constant_prop in H.
  destruct (cannot_substitute (r_body r)) as [cs| |]; try discriminate. cbn [obindo] in H.
  assert (D : (forall l, In l (r_body r) -> prop_dropped cs l = None) \/
              exists l, In l (r_body r) /\ prop_dropped cs l <> None).
  { clear H. induction (r_body r) as [|x b IH]; [left; intros l []|].
    destruct (prop_dropped cs x) as [p|] eqn:E; [right; exists x; split; [left; auto|congruence]|].
    destruct IH as [IH|(l & Hl & Q)]; [left; intros l [<-|Hl]; auto|right; exists l; split; [right|]; auto]. }
  destruct D as [D|D].
  - destruct (prop_none cs (r_body r) D) as [E1 E2]. rewrite E1, E2 in H. injection H as <-. left.
    destruct r as [h b]; cbn. f_equal; [apply map_head_id, psub_nil|apply map_id', prop_lit_nil].
  - right. destruct (prop_collect cs (r_body r) [] false) as [m bad] eqn:PC. destruct bad; injection H as <-; cbn [r_body].
    + destruct D as (l & Hl & Dl). pose proof (weight_In l _ Hl). destruct (prop_dropped cs l) as [p|] eqn:E; [|congruence].
      rewrite (prop_dropped_weight _ _ _ E) in H. cbn. lia.
    + apply (proj2 (prop_weight m cs (r_body r))). exact D.
Qed.

(** Every round that changes the rule makes it lighter. *)
Lemma opt_round_weight : forall E r r', opt_round E r = Fine r' -> r' = r \/ weight (r_body r') < weight (r_body r).
Proof.
  intros E r r' H. unfold opt_round, constant_fold in H.
  destruct (emap (fold_lit E) (r_body r)) as [b| |] eqn:Eb; try discriminate. cbn [obindo] in H.
  pose proof (fold_weight _ _ _ (emap_Forall2 _ _ _ _ _ Eb)) as W1.
  pose proof (constant_prop_weight _ _ H) as W2. cbn [r_body] in W2.
  destruct W1 as [->|W1]; destruct W2 as [->|W2]; cbn [r_body]; auto; try (right; lia).
  left. destruct r; reflexivity.
Qed.

(** The auxiliary loops. *)
Lemma insert_NoDup : forall x l, NoDup l -> NoDup (insert x l).
Proof.
  intros x l N. unfold insert. destruct (memb x l) eqn:M; auto. constructor; auto. intros H. apply memb_In in H. congruence.
Qed.
Lemma insert_new : forall x l, ~ In x l -> length (insert x l) = S (length l).
Proof. intros x l N. unfold insert. destruct (memb x l) eqn:M; [apply memb_In in M; contradiction|reflexivity]. Qed.
Lemma insert_len : forall x l, length l <= length (insert x l).
Proof. intros. unfold insert. destruct (memb x l); cbn; lia. Qed.

Lemma assign_step_case : forall i x args st, (fst st = fst st) ->
  let st' := fold_left (assign_step i x) args st in
  st' = st \/ (fst st' = insert i (fst st)).
Proof.
  intros i x. induction args as [|a args IH]; intros st _; cbn; auto.
  destruct (IH (assign_step i x st a) eq_refl) as [E|E]; rewrite E; unfold assign_step;
    destruct (memb a (snd st)); cbn; auto.
  right. unfold insert at 1. destruct (memb i (insert i (fst st))) eqn:M; auto.
  assert (In i (insert i (fst st))) as Q by (apply insert_In; auto). apply memb_In in Q. congruence.
Qed.

Lemma cs_pass_grow : forall body i vis cs, NoDup vis ->
  let p := cs_pass i body vis cs in
  NoDup (fst p) /\ length vis <= length (fst p) /\
  (length cs < length (snd p) -> length vis < length (fst p)) /\
  (forall j, In j (fst p) -> In j vis \/ (i <= j < i + length body)).
Proof.
  induction body as [|l body IH]; intros i vis cs N; cbn [cs_pass].
  - cbn. split; [auto|]. split; [lia|]. split; [lia|auto].
  - assert (Same : let p := cs_pass (S i) body vis cs in
      NoDup (fst p) /\ length vis <= length (fst p) /\
      (length cs < length (snd p) -> length vis < length (fst p)) /\
      (forall j, In j (fst p) -> In j vis \/ i <= j < i + length (l :: body))).
    { destruct (IH (S i) vis cs N) as (A & B & C & D). split; [auto|]. split; [auto|]. split; [auto|].
      intros j Hj. destruct (D j Hj); auto. right. cbn [length]. lia. }
    assert (New : forall cs', memb i vis = false -> let p := cs_pass (S i) body (insert i vis) cs' in
      NoDup (fst p) /\ length vis <= length (fst p) /\
      (length cs < length (snd p) -> length vis < length (fst p)) /\
      (forall j, In j (fst p) -> In j vis \/ i <= j < i + length (l :: body))).
    { intros cs' M. destruct (IH (S i) (insert i vis) cs' (insert_NoDup i vis N)) as (A & B & C & D).
      assert (L : length (insert i vis) = S (length vis)).
      { apply insert_new. intros Q. apply memb_In in Q. congruence. }
      split; [auto|]. split; [lia|]. split; [intros _; lia|].
      intros j Hj. destruct (D j Hj) as [Q|Q]; [apply insert_In in Q; destruct Q as [->|Q]; auto; right; cbn [length]; lia|].
      right; cbn [length]; lia. }
    destruct (memb i vis) eqn:M; [exact Same|]. destruct l; try exact Same.
    + fold (assign_step i v). destruct (assign_step_case i v (aexpr_vars e) (vis, cs) eq_refl) as [Q|Q].
      * rewrite Q. exact Same.
      * destruct (fold_left (assign_step i v) (aexpr_vars e) (vis, cs)) as [v' c']. cbn in Q. subst v'. apply New; auto.
    + apply New; auto.
Qed.
Lemma bounded_len : forall (vis : list nat) n, NoDup vis -> (forall j, In j vis -> j < n) -> length vis <= n.
Proof.
  intros vis n N H. rewrite <- (seq_length n 0). apply NoDup_incl_length; auto.
  intros j Hj. apply in_seq. specialize (H j Hj). lia.
Qed.
Lemma cs_loop_total : forall fuel body vis cs, NoDup vis -> (forall j, In j vis -> j < length body) ->
  length body < fuel + length vis -> cs_loop fuel body vis cs <> OutOfFuel.
Proof.
  induction fuel as [|fuel IH]; intros body vis cs N V L.
  - pose proof (bounded_len vis _ N V). lia.
  - cbn [cs_loop]. pose proof (cs_pass_grow body 0 vis cs N) as (A & B & C & D).
    destruct (cs_pass 0 body vis cs) as [v' c']. cbn [fst snd] in *.
    destruct (length c' <=? length cs) eqn:G; [discriminate|]. apply Nat.leb_gt in G.
    apply IH; auto; [|specialize (C G); lia]. intros j Hj. destruct (D j Hj); auto. lia.
Qed.
Theorem cannot_substitute_total : forall body, cannot_substitute body <> OutOfFuel.
Proof. intros body. apply cs_loop_total; [constructor|intros j []|cbn; lia]. Qed.

(** The number of assignments to variables that are not bound yet. *)
Definition unbound (b : list nat) (l : lit) : bool := match l with LAssign x _ => negb (memb x b) | _ => false end.
Lemma bound_pass_mono : forall body b x, In x b -> In x (bound_pass body b).
Proof.
  unfold bound_pass. induction body as [|l body IH]; intros b x H; cbn; auto. apply IH. destruct l; auto.
  destruct (memb v b); auto. destruct (forallb _ _); cbn; auto.
Qed.
Lemma bound_pass_new : forall body b, length (bound_pass body b) = length b \/
  exists x e, In (LAssign x e) body /\ ~ In x b /\ In x (bound_pass body b).
Proof.
  unfold bound_pass. induction body as [|l body IH]; intros b; cbn; auto.
  set (b1 := match l with LAssign x e => _ | _ => b end).
  assert (Q : b1 = b \/ exists x e, l = LAssign x e /\ ~ In x b /\ b1 = x :: b).
  { unfold b1. destruct l; auto. destruct (memb v b) eqn:M; auto. destruct (forallb _ _); auto. right.
    exists v, e. split; auto. split; auto. intros H. apply memb_In in H. congruence. }
  destruct Q as [->|(x & e & -> & N & ->)].
  - destruct (IH b) as [L|(x & e & H1 & H2 & H3)]; auto. right. exists x, e. auto.
  - right. exists x, e. split; auto. split; auto.
    apply (bound_pass_mono body (x :: b) x (or_introl eq_refl)).
Qed.
Lemma filter_le : forall (A : Type) (f g : A -> bool) l, (forall x, f x = true -> g x = true) ->
  length (filter f l) <= length (filter g l) /\
  ((exists x, In x l /\ f x = false /\ g x = true) -> length (filter f l) < length (filter g l)).
Proof.
  intros A f g l H. induction l as [|x l [I1 I2]]; [split; [auto|intros (x & [] & _)]|]. cbn.
  destruct (f x) eqn:F.
  - rewrite (H x F). cbn. split; [lia|]. intros (y & [->|Hy] & Q); [destruct Q; congruence|]. specialize (I2 (ex_intro _ y (conj Hy Q))). lia.
  - destruct (g x) eqn:G; cbn; split; try lia. intros (y & [->|Hy] & Q); [destruct Q; congruence|]. apply I2; eauto.
Qed.
Lemma bound_loop_total : forall fuel body b, length (filter (unbound b) body) < fuel ->
  bound_loop fuel body b <> OutOfFuel.
Proof.
  induction fuel as [|fuel IH]; intros body b L; [lia|]. cbn [bound_loop].
  destruct (length (bound_pass body b) =? length b) eqn:E; [discriminate|]. apply Nat.eqb_neq in E.
  apply IH. destruct (bound_pass_new body b) as [Q|(x & e & H1 & H2 & H3)]; [congruence|].
  enough (length (filter (unbound (bound_pass body b)) body) < length (filter (unbound b) body)) by lia.
  apply filter_le.
  - intros l H. destruct l; try discriminate. cbn in *. apply negb_true_iff in H. apply negb_true_iff.
    destruct (memb v b) eqn:M; auto. apply memb_In in M. apply (bound_pass_mono body) in M. apply memb_In in M. congruence.
  - exists (LAssign x e). split; auto. cbn. split.
    + apply negb_false_iff. apply memb_In; auto.
    + apply negb_true_iff. destruct (memb x b) eqn:M; auto. apply memb_In in M. contradiction.
Qed.
Lemma filter_length_le' : forall (A : Type) (f : A -> bool) l, length (filter f l) <= length l.
Proof. intros A f l. induction l; cbn; auto. destruct (f a); cbn; lia. Qed.
Theorem bounded_total : forall g nb body, bounded g nb body <> OutOfFuel.
Proof. intros. apply bound_loop_total. pose proof (filter_length_le' _ (unbound (extend (flat_map (atom_bound g nb) body) [])) body). lia. Qed.

Lemma opt_round_total : forall E r, opt_round E r <> OutOfFuel.
Proof.
  intros E r. unfold opt_round, constant_fold. destruct (emap (fold_lit E) (r_body r)) as [b| |]; try discriminate.
  cbn [obindo]. unfold constant_prop. cbn [r_body]. pose proof (cannot_substitute_total b).
  destruct (cannot_substitute b); try discriminate; [|congruence]. cbn [obindo].
  destruct (prop_collect a b [] false) as [m []]; discriminate.
Qed.
(** C48: whatever the rule, the loop ends after at most one round more than the
    weight of the rule (two for an assignment, one for a comparison), and what
    it returns is unchanged by a further round. *)
Theorem C48_terminates : forall E r n, weight (r_body r) < n -> opt_loop E n r <> OutOfFuel.
Proof.
  intros E r n. revert r. induction n as [|n IH]; intros r W; [lia|]. cbn [opt_loop].
  destruct (opt_round E r) as [r'| |] eqn:O; cbn [obindo]; [|discriminate|apply opt_round_total in O; destruct O].
  destruct (rule_eq_dec r r') as [|N]; [discriminate|]. apply IH.
  destruct (opt_round_weight _ _ _ O) as [Q|Q]; [congruence|lia].
Qed.
Theorem C48_fixpoint : forall E n r r', opt_loop E n r = Fine r' -> opt_round E r' = Fine r'.
Proof.
  induction n as [|n IH]; intros r r' H; [discriminate|]. cbn [opt_loop] in H.
  destruct (opt_round E r) as [r1| |] eqn:O; try discriminate. cbn [obindo] in H.
  destruct (rule_eq_dec r r1) as [->|]; [injection H as <-; exact O|]. eapply IH; eauto.
Qed.
Theorem C48_optimizer_terminates : forall E nb p, apply_optimizations E nb p <> OutOfFuel.
Proof.
  intros E nb p. unfold apply_optimizations.
  assert (R : forall rs, opt_rules E (p_reg p) nb rs <> OutOfFuel).
  { induction rs as [|r rs IH]; cbn [opt_rules]; [discriminate|].
    assert (O : opt_rule E (p_reg p) nb r <> OutOfFuel).
    { unfold opt_rule, propagate_equality. pose proof (bounded_total (p_reg p) nb (r_body r)).
      destruct (bounded (p_reg p) nb (r_body r)) as [bd| |]; cbn [obindo]; try congruence.
      match goal with |- context [opt_loop E ?n ?r] => pose proof (C48_terminates E r n (Nat.lt_succ_diag_r _)); destruct (opt_loop E n r) end;
        cbn [obindo]; congruence. }
    destruct (opt_rule E (p_reg p) nb r); cbn [obindo]; try congruence.
    destruct (opt_rules E (p_reg p) nb rs); cbn [obindo]; congruence. }
  pose proof (R (p_rules p)). destruct (opt_rules E (p_reg p) nb (p_rules p)); cbn [obindo]; try congruence.
  destruct (empty_to_fact (remove_false_rules a)) as [[ks fs]|]; discriminate.
Qed.
(** [x = 1 + 2, y = x + 1, y < 5] needs three rounds with a change and one
    without. *)
Example C48_ex :
  let r := mkRule (HAtom (at1 0 2)) [LAtom (at1 1 2);
    LAssign 0 (ABin OAdd (TConst (I32 1)) (TConst (I32 2)));
    LAssign 1 (ABin OAdd (TVar 0) (TConst (I32 1))); LBin CLt (TVar 1) (TConst (I32 5))] in
  weight (r_body r) = 5 /\ opt_loop env_none 3 r = OutOfFuel /\
  opt_loop env_none 4 r = Fine (mkRule (HAtom (at1 0 2)) [LAtom (at1 1 2); LTrue]).
Proof. split; [|split]; vm_compute; reflexivity. Qed.
Print Assumptions C48_optimizer_terminates.

(** ** C49 *)
(** One step of a program: its facts and the consequences of its rules. *)
Definition step (B : benv) (P : program) (X M : interp) (p : pred) (t : list value) : Prop :=
  (exists f, In f (p_facts P) /\ p = f_pred f /\ t = f_args f) \/
  (exists r, In r (p_rules P) /\ consequence B (p_reg P) X M r p t).

Lemma der_step : forall B P P' M, p_reg P = p_reg P' ->
  (forall X p t, step B P X M p t -> step B P' X M p t) ->
  forall p t, der B P M p t -> der B P' M p t.
Proof.
  intros B P P' M Rg H p t D.
  assert (In' : forall p t, step B P' (der B P' M) M p t -> der B P' M p t).
  { intros q u [(f & Hf & -> & ->)|(r & Hr & s & S & Y)]; [apply der_fact; auto|].
    apply (der_rule B P' M r s); auto.
    - intros a Ha Fo. specialize (S _ Ha). cbn in S. rewrite Fo in S. exact S.
    - intros l Hl. specialize (S _ Hl). destruct l; try exact S. cbn in *. intros Fo; rewrite Fo in S; exact S. }
  induction D as [f Hf|r s p t Hr Ha IH Ho Y].
  - apply In', H. left; eauto.
  - apply In', H. right. exists r. split; auto. exists s. split; auto.
    intros l Hl. specialize (Ho _ Hl). destruct l; try exact Ho. cbn in *.
    destruct (g_foreign (p_reg P) (a_pred a)) eqn:Fo; auto.
Qed.
Theorem step_stable : forall B P P', p_reg P = p_reg P' ->
  (forall X M p t, step B P X M p t <-> step B P' X M p t) ->
  forall M, stable B P M <-> stable B P' M.
Proof.
  intros B P P' Rg H M.
  assert (E : forall p t, der B P M p t <-> der B P' M p t).
  { split; apply der_step; auto; intros; apply H; auto. }
  unfold stable. split; intros S p t; rewrite S; [|symmetry]; apply E.
Qed.

(** Rules in which folding and propagation are safe.  A variable is computed if
    it occurs in an equality or is assigned. *)
Definition ceqv (body : list lit) : list var :=
  flat_map (fun l => match l with LBin CEq a b => tvar a ++ tvar b | _ => [] end) body.
Definition asg (body : list lit) : list var :=
  flat_map (fun l => match l with LAssign x _ => [x] | _ => [] end) body.
Definition free_of (body : list lit) (x : var) : Prop := ~ In x (ceqv body) /\ ~ In x (asg body).
Record plain (body : list lit) : Prop := mkPlain {
  pl_once : NoDup (asg body);
  pl_noeq : forall x, In x (asg body) -> ~ In x (ceqv body);
  pl_new : forall v f l, In (LAssign v (ANew f l)) body -> exists x, In (TVar x) l /\ free_of body x;
  pl_ite : forall v c t u, In (LAssign v (AIte c t u)) body -> exists x, c = TVar x /\ free_of body x;
  pl_red : forall d v, In (LReduce d) body -> In v (rd_other d) -> free_of body v }.

Lemma in_asg : forall b x, In x (asg b) <-> exists e, In (LAssign x e) b.
Proof.
  intros b x. unfold asg. rewrite in_flat_map. split.
  - intros (l & Hl & H). destruct l; try contradiction. destruct H as [<-|[]]. eauto.
  - intros (e & H). exists (LAssign x e). cbn; auto.
Qed.
Lemma in_ceqv : forall b x, In x (ceqv b) <->
  exists t u, In (LBin CEq t u) b /\ (t = TVar x \/ u = TVar x).
Proof.
  intros b x. unfold ceqv. rewrite in_flat_map. split.
  - intros (l & Hl & H). destruct l as [| | |k t u| | | |]; try contradiction. destruct k; try contradiction.
    apply in_app_or in H. exists t, u. split; auto. destruct H as [H|H]; [left; destruct t|right; destruct u]; cbn in H; try contradiction; destruct H as [<-|[]]; auto.
  - intros (t & u & H & Q). exists (LBin CEq t u). split; auto. apply in_or_app. destruct Q; subst; cbn; auto.
Qed.
Lemma consts_var : forall l x, In (TVar x) l -> consts l = None.
Proof.
  induction l as [|t l IH]; intros x H; [destruct H|]. cbn. destruct t; auto. destruct H as [H|H]; [discriminate|].
  rewrite (IH x H). reflexivity.
Qed.

Lemma plain_fold : forall E b b', plain b -> Forall2 (fun x y => fold_lit E x = EOk y) b b' -> plain b'.
Proof.
  intros E b b' [P1 P2 P3 P4 P5] F.
  assert (Cases : Forall2 (fun l l' => l' = l \/ ((l' = LTrue \/ l' = LFalse) /\ forall x e, l <> LAssign x e) \/
     (exists x e, l = LAssign x e /\ (l' = LFalse \/ exists c, l' = LBin CEq (TVar x) (TConst c)))) b b').
  { assert (G : forall b0, Forall2 (fun x y => fold_lit E x = EOk y) b0 b' -> incl b0 b ->
       Forall2 (fun l l' => l' = l \/ ((l' = LTrue \/ l' = LFalse) /\ forall x e, l <> LAssign x e) \/
     (exists x e, l = LAssign x e /\ (l' = LFalse \/ exists c, l' = LBin CEq (TVar x) (TConst c)))) b0 b').
    { intros b0 F0. clear F. induction F0 as [|l l' b0 b' H F0 IH]; intros I; constructor; [|apply IH; intros z Hz; apply I; right; auto].
      destruct (fold_lit_cases _ _ _ H) as [->|[(W & D)|[(x & e & -> & D & _)|(x & v & t & u & -> & D)]]]; auto.
      - right; left. split; auto. intros x e ->. discriminate.
      - right; right. eauto.
      - destruct (P4 x (TConst v) t u (I _ (or_introl eq_refl))) as (y & Q & _). discriminate. }
    apply G; auto. apply incl_refl. }
  clear F.
  assert (A : NoDup (asg b') /\ incl (asg b') (asg b) /\
     (forall x, In x (ceqv b') -> In x (ceqv b) \/ (In x (asg b) /\ ~ In x (asg b')))).
  { clear P2 P3 P4 P5. revert P1. induction Cases as [|l l' b b' H F IH]; intros N.
    - split; [constructor|]. split; [apply incl_refl|intros x []].
    - assert (Nb : NoDup (asg b)) by (unfold asg in N; cbn in N; apply NoDup_app_r in N; exact N).
      destruct (IH Nb) as (I1 & I2 & I3).
      destruct H as [->|[(D & Na)|(x & e & -> & D)]].
      + destruct l; try (split; [exact I1|]; split; [exact I2|]; exact I3).
        * change (asg (LAssign v e :: b')) with (v :: asg b'). change (asg (LAssign v e :: b)) with (v :: asg b) in *.
          inversion N as [|? ? Nv _]; subst. split; [constructor; auto|]. split.
          { intros z [<-|Hz]; [left; auto|right; auto]. }
          { intros z Hz. change (ceqv (LAssign v e :: b)) with (ceqv b). change (ceqv (LAssign v e :: b')) with (ceqv b') in Hz.
            destruct (I3 z Hz) as [|[Q1 Q2]]; auto. right. split; [right; auto|]. intros [->|Q]; auto. }
        * change (asg (LBin c t1 t2 :: b')) with (asg b'). change (asg (LBin c t1 t2 :: b)) with (asg b).
          split; [exact I1|]. split; [exact I2|]. intros z Hz. unfold ceqv in Hz |- *; cbn [flat_map] in Hz |- *.
          apply in_app_or in Hz. destruct Hz as [Hz|Hz]; [left; apply in_or_app; auto|].
          destruct (I3 z Hz) as [Q|Q]; auto. left; apply in_or_app; auto.
      + assert (El : asg (l :: b) = asg b) by (destruct l; auto; destruct (Na v e eq_refl)).
        rewrite El. split; [destruct D; subst; exact I1|]. split; [destruct D; subst; exact I2|].
        intros z Hz. assert (Hz' : In z (ceqv b')) by (destruct D; subst; exact Hz).
        destruct (I3 z Hz') as [Q|Q]; [|destruct D; subst; auto]. left. unfold ceqv; cbn [flat_map]. apply in_or_app; auto.
      + change (asg (LAssign x e :: b)) with (x :: asg b) in *. inversion N as [|? ? Nx _]; subst.
        assert (El : asg (l' :: b') = asg b') by (destruct D as [->|(c & ->)]; reflexivity). rewrite El.
        split; [exact I1|]. split; [intros z Hz; right; auto|]. intros z Hz.
        change (ceqv (LAssign x e :: b)) with (ceqv b).
        assert (Q : z = x \/ In z (ceqv b')).
        { destruct D as [->|(c & ->)]; [auto|]. unfold ceqv in Hz; cbn in Hz. destruct Hz; auto. }
        destruct Q as [->|Q]; [right; split; [left; auto|]; intros Q; apply Nx; auto|].
        destruct (I3 z Q) as [|[Q1 Q2]]; auto. right. split; [right; auto|auto]. }
  destruct A as (A1 & A2 & A3).
  assert (Fr : forall x, free_of b x -> free_of b' x).
  { intros x [F1 F2]. split; intros H; [destruct (A3 x H) as [|[]]; auto|apply F2, A2; auto]. }
  assert (Old : forall l', In l' b' -> (exists x e, l' = LAssign x e) \/ (exists d, l' = LReduce d) -> In l' b).
  { intros l' Hl K. clear - Cases Hl K. induction Cases as [|l m b b' H F IH]; [destruct Hl|]. destruct Hl as [->|Hl]; [|right; auto].
    left. destruct H as [->|[(D & _)|(x & e & -> & D)]]; auto.
    - destruct K as [(? & ? & ->)|(? & ->)]; destruct D; discriminate.
    - destruct K as [(? & ? & ->)|(? & ->)]; destruct D as [|(? & ?)]; discriminate. }
  constructor; auto.
  - intros x Hx Hc. destruct (A3 x Hc) as [Q|[_ Q]]; auto. exact (P2 x (A2 x Hx) Q).
  - intros v f l H. destruct (P3 v f l) as (x & Hx & Q); [apply Old; eauto|]. eauto.
  - intros v c t u H. destruct (P4 v c t u) as (x & Hx & Q); [apply Old; eauto|]. eauto.
  - intros d v Hd Hv. apply Fr. eapply P5; eauto.
Qed.

(** A rewriting of the terms of a body that only touches variables of
    equalities. *)
Section PlainMap.
  Variables (b : list lit) (F : lit -> lit) (K : lit -> bool) (f : term -> term).
  Hypothesis P : plain b.
  Hypothesis Ff : forall x, ~ In x (ceqv b) -> f (TVar x) = TVar x.
  Hypothesis Fc : forall t x, f t = TVar x -> t = TVar x \/ In x (ceqv b).
  Hypothesis FS : forall x e, In (LAssign x e) b -> F (LAssign x e) = LAssign x (map_aexpr f e).
  Hypothesis FB : forall k t u, F (LBin k t u) = LBin k (f t) (f u).
  Hypothesis FR : forall d, F (LReduce d) = LReduce d.
  Hypothesis FO : forall l, match l with LAssign _ _ | LBin _ _ _ | LReduce _ => True
     | _ => (forall x e, F l <> LAssign x e) /\ (forall k t u, F l <> LBin k t u) /\ (forall d, F l <> LReduce d) end.
  Lemma plain_map : plain (map F (filter K b)).
  Proof.
    destruct P as [P1 P2 P3 P4 P5].
    assert (Ia : forall x e', In (LAssign x e') (map F (filter K b)) -> exists e, In (LAssign x e) b /\ e' = map_aexpr f e).
    { intros x e' H. apply in_map_iff in H. destruct H as (l & E & Hl). apply filter_In in Hl. destruct Hl as [Hl _].
      pose proof (FO l) as O. destruct l; try (destruct O as (O & _); destruct (O x e' E)).
      - rewrite (FS v e Hl) in E. injection E as <- <-. eauto.
      - rewrite FB in E. discriminate.
      - rewrite FR in E. discriminate. }
    assert (Ic : forall x, In x (ceqv (map F (filter K b))) -> In x (ceqv b)).
    { intros x H. apply in_ceqv in H. destruct H as (t' & u' & H & Q). apply in_map_iff in H. destruct H as (l & E & Hl).
      apply filter_In in Hl. destruct Hl as [Hl _].
      pose proof (FO l) as O. destruct l; try (destruct O as (_ & O & _); destruct (O _ _ _ E)).
      - rewrite (FS v e Hl) in E. discriminate.
      - rewrite FB in E. injection E as -> <- <-.
        destruct Q as [Q|Q]; destruct (Fc _ _ Q) as [->|]; auto; apply in_ceqv; eauto.
      - rewrite FR in E. discriminate. }
    assert (Is : forall x, In x (asg (map F (filter K b))) -> In x (asg b)).
    { intros x H. apply in_asg in H. destruct H as (e' & H). destruct (Ia _ _ H) as (e & He & _). apply in_asg; eauto. }
    assert (Fr : forall x, free_of b x -> free_of (map F (filter K b)) x) by (intros x [F1 F2]; split; auto).
    constructor.
    - assert (G : forall b0, incl b0 b -> NoDup (asg b0) -> NoDup (asg (map F (filter K b0))) /\ incl (asg (map F (filter K b0))) (asg b0)).
      { induction b0 as [|l b0 IH]; intros I N; [split; [constructor|apply incl_refl]|].
        assert (N0 : NoDup (asg b0)) by (unfold asg in N; cbn in N; apply NoDup_app_r in N; exact N).
        destruct (IH (fun z Hz => I z (or_intror Hz)) N0) as [I1 I2].
        assert (I3 : incl (asg b0) (asg (l :: b0))) by (intros z Hz; unfold asg; cbn [flat_map]; apply in_or_app; auto).
        cbn [filter]. destruct (K l); [|split; auto; intros z Hz; auto].
        cbn [map]. pose proof (FO l) as O.
        assert (Keep : (forall x e, F l <> LAssign x e) -> asg (F l :: map F (filter K b0)) = asg (map F (filter K b0))).
        { intros Q. destruct (F l); try reflexivity. destruct (Q v e eq_refl). }
        destruct l; try (rewrite Keep by (apply O); split; [exact I1|intros z Hz; auto]; fail).
        - rewrite (FS v e (I _ (or_introl eq_refl))).
          change (asg (LAssign v (map_aexpr f e) :: map F (filter K b0))) with (v :: asg (map F (filter K b0))).
          change (asg (LAssign v e :: b0)) with (v :: asg b0) in *. inversion N; subst.
          split; [constructor; auto|]. intros z [<-|Hz]; [left; auto|right; auto].
        - rewrite Keep by (intros; rewrite FB; discriminate). split; [exact I1|intros z Hz; auto].
        - rewrite Keep by (intros; rewrite FR; discriminate). split; [exact I1|intros z Hz; auto]. }
      apply G; auto. apply incl_refl.
    - intros x Hx Hc. exact (P2 x (Is x Hx) (Ic x Hc)).
    - intros v g l H. destruct (Ia _ _ H) as (e & He & E). destruct e; try discriminate. cbn in E. injection E as -> ->.
      destruct (P3 _ _ _ He) as (x & Hx & Q). exists x. split; [|auto].
      apply in_map_iff. exists (TVar x). split; auto. apply Ff. apply Q.
    - intros v c t u H. destruct (Ia _ _ H) as (e & He & E). destruct e; try discriminate. cbn in E. injection E as -> -> ->.
      destruct (P4 _ _ _ _ He) as (x & -> & Q). exists x. split; [|auto]. apply Ff. apply Q.
    - intros d v Hd Hv. apply Fr. apply in_map_iff in Hd. destruct Hd as (l & E & Hl). apply filter_In in Hl. destruct Hl as [Hl _].
      pose proof (FO l) as O. destruct l; try (destruct O as (_ & _ & O); destruct (O _ E)).
      + rewrite (FS _ _ Hl) in E. discriminate.
      + rewrite FB in E. discriminate.
      + rewrite FR in E. injection E as ->. eapply P5; eauto.
  Qed.
End PlainMap.

Lemma const_eq_ceqv : forall b v, const_eq b v -> In v (ceqv b).
Proof. intros b v (c & [H|H]); apply in_ceqv; eauto 6. Qed.
Lemma var_eq_ceqv : forall b v, var_eq b v -> In v (ceqv b).
Proof. intros b v (c & [H|H]); apply in_ceqv; eauto 6. Qed.

(** A rule and its optimized form have the same consequences. *)
Definition same_rule (B : benv) (r r' : rule) : Prop :=
  forall g X M p t, consequence B g X M r p t <-> consequence B g X M r' p t.

Lemma plain_round : forall B r r', plain (r_body r) -> opt_round (b_env B) r = Fine r' ->
  plain (r_body r') /\ same_rule B r r'.
Proof.
  intros B r r' P H. unfold opt_round in H.
  destruct (constant_fold (b_env B) r) as [r1| |] eqn:C; try discriminate. cbn [obindo] in H.
  assert (S1 : same_rule B r r1).
  { intros g X M p t. apply C27_fold_entities; auto. intros v f l Hl.
    destruct (pl_new _ P _ _ _ Hl) as (x & Hx & _). eapply consts_var; eauto. }
  assert (P1 : plain (r_body r1)).
  { unfold constant_fold in C. destruct (emap (fold_lit (b_env B)) (r_body r)) as [b| |] eqn:Eb; try discriminate.
    injection C as <-. eapply plain_fold; eauto. apply emap_Forall2; eauto. }
  assert (Q : forall v, const_eq (r_body r1) v ->
     (forall e, ~ In (LAssign v e) (r_body r1)) /\ (forall d, In (LReduce d) (r_body r1) -> ~ In v (rd_other d))).
  { intros v Hv. apply const_eq_ceqv in Hv. split.
    - intros e He. apply (pl_noeq _ P1 v); auto. apply in_asg; eauto.
    - intros d Hd Hi. exact (proj1 (pl_red _ P1 d v Hd Hi) Hv). }
  split.
  - unfold constant_prop in H. destruct (cannot_substitute (r_body r1)) as [cs| |]; try discriminate. cbn [obindo] in H.
    destruct (prop_collect cs (r_body r1) [] false) as [m bad] eqn:PC.
    destruct (prop_collect_spec _ _ _ _ _ _ PC) as (_ & _ & _ & A4 & _).
    assert (D : forall v c, lookup v m = Some c -> In v (ceqv (r_body r1))).
    { intros v c L. destruct (A4 v c L) as [Z|(l & Hl & Dl)]; [discriminate|].
      apply const_eq_ceqv. eapply dropped_const_eq; eauto. }
    destruct bad; injection H as <-; cbn [r_body].
    + constructor; cbn; try (intros; tauto); try constructor; intros; exfalso; intuition discriminate.
    + apply plain_map with (f := psub m); auto.
      * intros x Hx. cbn. destruct (lookup x m) eqn:L; auto. destruct (Hx (D _ _ L)).
      * intros [w|c] x E; cbn in E; [|discriminate]. destruct (lookup w m); [discriminate|auto].
      * intros x e Hx. cbn [prop_lit]. destruct (lookup x m) eqn:L; auto.
        destruct (pl_noeq _ P1 x); [apply in_asg; eauto|eauto].
      * intros l. destruct l; auto; cbn; repeat split; intros; discriminate.
  - intros g X M p t. etransitivity; [apply S1|]. apply C28_prop_partial; auto.
Qed.
Lemma plain_loop : forall B n r r', plain (r_body r) -> opt_loop (b_env B) n r = Fine r' ->
  plain (r_body r') /\ same_rule B r r'.
Proof.
  induction n as [|n IH]; intros r r' P H; [discriminate|]. cbn [opt_loop] in H.
  destruct (opt_round (b_env B) r) as [r1| |] eqn:O; try discriminate. cbn [obindo] in H.
  destruct (plain_round _ _ _ P O) as [P1 S1].
  destruct (rule_eq_dec r r1); [injection H as <-; auto|].
  destruct (IH _ _ P1 H) as [P2 S2]. split; auto. intros g X M p t. etransitivity; [apply S1|apply S2].
Qed.
Lemma eq_step_vals : forall (Q : var -> Prop) (ps m : list (var * var)), (forall v w : var, In (v, w) ps -> Q v /\ Q w) ->
  (forall v w : var, lookup v m = Some w -> Q w) -> forall v w : var, lookup v (fold_left eq_step ps m) = Some w -> Q w.
Proof.
  intros Q. induction ps as [|[a b] ps IH]; intros m Hp Hm; cbn [fold_left]; auto.
  apply IH; [intros; apply Hp; right; auto|]. intros v w. unfold eq_step; cbn [fst snd].
  destruct (Hp a b (or_introl eq_refl)) as [Pa Pb].
  destruct (lookup a m) as [x|] eqn:La; [|destruct (lookup b m) as [x|] eqn:Lb]; cbn.
  - destruct (Nat.eqb_spec v b); [intros Z; inversion Z; subst; eauto|apply Hm].
  - destruct (Nat.eqb_spec v a); [intros Z; inversion Z; subst; eauto|apply Hm].
  - destruct (Nat.eqb_spec v a); [intros Z; inversion Z; subst; eauto|apply Hm].
Qed.
Lemma plain_eq : forall B gr nb r r', plain (r_body r) -> NoDup (eq_vars (r_body r)) ->
  propagate_equality gr nb r = Fine r' -> plain (r_body r') /\ same_rule B r r'.
Proof.
  intros B gr nb r r' P N H. split.
  - unfold propagate_equality in H. destruct (bounded gr nb (r_body r)) as [bd| |]; try discriminate. injection H as <-.
    set (cs := eq_cannot (r_body r)). set (m := eq_collect cs bd (r_body r)).
    assert (Kv : forall v w, lookup v m = Some w -> In v (ceqv (r_body r)) /\ In w (ceqv (r_body r))).
    { intros v w L.
      assert (Pr : forall a b, In (a, b) (pairs_dropped cs bd (r_body r)) -> In a (ceqv (r_body r)) /\ In b (ceqv (r_body r))).
      { intros a b Hab. destruct (dropped_var_eq _ _ _ _ _ Hab). split; apply var_eq_ceqv; auto. }
      split.
      - eapply (eq_step_keys (fun v => In v (ceqv (r_body r))) _ []); eauto. intros ? ? Z; discriminate.
      - eapply (eq_step_vals (fun v => In v (ceqv (r_body r))) _ []); eauto. intros ? ? Z; discriminate. }
    unfold eq_apply; cbn [r_body]. apply plain_map with (f := tsub m); auto.
    + intros x Hx. cbn. unfold vsub. destruct (lookup x m) eqn:L; auto. destruct (Kv _ _ L). contradiction.
    + intros [w|c] x E; cbn in E; [|discriminate]. injection E as E. unfold vsub in E.
      destruct (lookup w m) as [y|] eqn:L; [|subst; auto]. subst y. right. exact (proj2 (Kv _ _ L)).
    + intros x e Hx. cbn [eq_lit]. unfold vsub. destruct (lookup x m) as [y|] eqn:L; auto.
      destruct (pl_noeq _ P x); [apply in_asg; eauto|]. exact (proj1 (Kv _ _ L)).
    + intros l. destruct l; auto; cbn; repeat split; intros; discriminate.
  - intros g X M p t. apply C29_equality_partial with (gr := gr) (nb := nb); auto.
    intros v Hv d Hd Hi. apply (proj1 (pl_red _ P d v Hd Hi)). apply var_eq_ceqv; auto.
Qed.

Lemma remove_true_same : forall B r, same_rule B r (remove_true r).
Proof.
  intros B r g X M p t. unfold consequence, remove_true. cbn [r_body].
  set (K := fun l : lit => match l with LTrue => false | _ => true end).
  assert (YM : forall s, yields B g r s p t <-> yields B g (mkRule (r_head r) (filter K (r_body r))) s p t).
  { intros s. split; intros Y.
    - destruct Y as [a Ha|v f l Hl|v f l q t Hl Ef A C|a q t Ha Fo Fe A C].
      + apply (y_head B g (mkRule (r_head r) (filter K (r_body r)))); auto.
      + apply (y_new B g (mkRule (r_head r) (filter K (r_body r))) s v f l). apply filter_In; auto.
      + eapply (y_call B g (mkRule (r_head r) (filter K (r_body r))) s v f l); eauto. apply filter_In; auto.
      + eapply (y_fp B g (mkRule (r_head r) (filter K (r_body r))) s a); eauto. apply filter_In; auto.
    - destruct Y as [a Ha|v f l Hl|v f l q t Hl Ef A C|a q t Ha Fo Fe A C]; cbn [r_body r_head] in *;
        try (apply filter_In in Hl; destruct Hl as [Hl _]); try (apply filter_In in Ha; destruct Ha as [Ha _]).
      + apply (y_head B g r); auto.
      + eapply (y_new B g r); eauto.
      + eapply (y_call B g r); eauto.
      + eapply (y_fp B g r); eauto. }
  split; intros (s & S & Y); exists s; (split; [|apply YM; exact Y]); intros l Hl.
  - apply filter_In in Hl. apply S, Hl.
  - destruct (K l) eqn:E; [apply S; apply filter_In; auto|]. destruct l; try discriminate. cbn. exact I.
Qed.

Lemma has_false_none : forall B g X M r p t, has_false r = true -> ~ consequence B g X M r p t.
Proof.
  intros B g X M r p t H (s & S & _). unfold has_false in H. apply existsb_exists in H. destruct H as (l & Hl & Q).
  destruct l; try discriminate. exact (S _ Hl).
Qed.
Lemma empty_to_fact_spec : forall rs ks fs, empty_to_fact rs = Some (ks, fs) ->
  forall B g X M p t, (exists r, In r rs /\ consequence B g X M r p t) <->
   ((exists f, In f fs /\ p = f_pred f /\ t = f_args f) \/ exists r, In r ks /\ consequence B g X M r p t).
Proof.
  induction rs as [|r rs IH]; intros ks fs H B g X M p t; cbn [empty_to_fact] in H.
  - injection H as <- <-. split; [intros (r & [] & _)|intros [(f & [] & _)|(r & [] & _)]].
  - destruct (empty_to_fact rs) as [[ks0 fs0]|]; [|discriminate]. specialize (IH _ _ eq_refl B g X M p t).
    assert (Keep : (ks, fs) = (r :: ks0, fs0) -> (exists r0, In r0 (r :: rs) /\ consequence B g X M r0 p t) <->
      ((exists f, In f fs /\ p = f_pred f /\ t = f_args f) \/ exists r0, In r0 ks /\ consequence B g X M r0 p t)).
    { intros Q. injection Q as -> ->. split.
      - intros (r0 & [<-|Hr] & C); [right; exists r; cbn; auto|].
        destruct (proj1 IH (ex_intro _ r0 (conj Hr C))) as [Z|(r1 & H1 & C1)]; auto. right; exists r1; cbn; auto.
      - intros [Z|(r0 & [<-|Hr] & C)].
        + destruct (proj2 IH (or_introl Z)) as (r1 & H1 & C1). exists r1; cbn; auto.
        + exists r; cbn; auto.
        + destruct (proj2 IH (or_intror (ex_intro _ r0 (conj Hr C)))) as (r1 & H1 & C1). exists r1; cbn; auto. }
    destruct (r_body r) as [|l b] eqn:Eb; [|injection H as <- <-; auto].
    destruct (r_head r) as [a|a l] eqn:Eh; [|injection H as <- <-; auto].
    destruct (consts (a_args a)) as [cs|] eqn:Ec; [|discriminate]. injection H as <- <-.
    assert (C : consequence B g X M r p t <-> p = a_pred a /\ t = cs).
    { split.
      - intros (s & _ & Y).
        destruct Y as [a' Ha|v f l Hl|v f l q t Hl Ef A C|a' q t Ha Fo Fe A C]; try (rewrite Eb in Hl; destruct Hl); try (rewrite Eb in Ha; destruct Ha).
        rewrite Eh in Ha. destruct Ha as [<-|[]]. split; auto. apply consts_tvals; auto.
      - intros [-> ->]. exists (fun _ => I32 0). rewrite Eb. split; [intros l []|].
        rewrite <- (consts_tvals (fun _ => I32 0) _ _ Ec). apply y_head. rewrite Eh. left; auto. }
    split.
    + intros (r0 & [<-|Hr] & D).
      * apply C in D. destruct D as [-> ->]. left. exists (mkFact (a_pred a) cs). cbn; auto.
      * destruct (proj1 IH (ex_intro _ r0 (conj Hr D))) as [(f & Hf & Z)|Z]; auto. left. exists f. cbn; auto.
    + intros [(f & [<-|Hf] & Z)|Z].
      * exists r. split; [left; auto|]. apply C. exact Z.
      * destruct (proj2 IH (or_introl (ex_intro _ f (conj Hf Z)))) as (r1 & H1 & C1). exists r1; cbn; auto.
      * destruct (proj2 IH (or_intror Z)) as (r1 & H1 & C1). exists r1; cbn; auto.
Qed.

(** C49: a program in whose rules every variable occurs in at most one equality
    between variables, is assigned at most once and not both, whose entity
    constructors keep a variable and whose conditionals keep their condition,
    and whose unjoined group-by variables occur in neither, has the same stable
    models after all rule optimizations. *)
Theorem C49_optimized_partial : forall B nb P P',
  (forall r, In r (p_rules P) -> plain (r_body r) /\ NoDup (eq_vars (r_body r))) ->
  apply_optimizations (b_env B) nb P = Fine P' ->
  forall M, stable B P M <-> stable B P' M.
Proof.
  intros B nb P P' Safe H. unfold apply_optimizations in H.
  destruct (opt_rules (b_env B) (p_reg P) nb (p_rules P)) as [rs| |] eqn:O; try discriminate. cbn [obindo] in H.
  destruct (empty_to_fact (remove_false_rules rs)) as [[ks fs]|] eqn:Ef; [|discriminate]. injection H as <-.
  assert (F : Forall2 (same_rule B) (p_rules P) rs).
  { clear Ef. revert rs O. revert Safe. generalize (p_rules P). induction l as [|r l IH]; intros Safe rs O; cbn [opt_rules] in O.
    - injection O as <-. constructor.
    - destruct (opt_rule (b_env B) (p_reg P) nb r) as [r'| |] eqn:R; try discriminate. cbn [obindo] in O.
      destruct (opt_rules (b_env B) (p_reg P) nb l) as [rs'| |] eqn:R'; try discriminate. injection O as <-.
      assert (Sl : forall r, In r l -> plain (r_body r) /\ NoDup (eq_vars (r_body r))) by (intros; apply Safe; right; auto).
      constructor; [|apply IH; auto].
      destruct (Safe r (or_introl eq_refl)) as [Pr Nr]. unfold opt_rule in R.
      destruct (propagate_equality (p_reg P) nb r) as [r1| |] eqn:Q; try discriminate. cbn [obindo] in R.
      destruct (plain_eq B _ _ _ _ Pr Nr Q) as [P1 S1].
      destruct (opt_loop (b_env B) (S (weight (r_body r1))) r1) as [r2| |] eqn:L; try discriminate. injection R as <-.
      destruct (plain_loop _ _ _ _ P1 L) as [_ S2].
      intros g X M p t. etransitivity; [apply S1|]. etransitivity; [apply S2|]. apply remove_true_same. }
  apply step_stable; [reflexivity|]. intros X M p t. unfold step. cbn [p_facts p_rules p_reg].
  assert (R : (exists r, In r (p_rules P) /\ consequence B (p_reg P) X M r p t) <->
              (exists r, In r (remove_false_rules rs) /\ consequence B (p_reg P) X M r p t)).
  { clear - F. split.
    - intros (r & Hr & C). induction F as [|r0 r' l l' S F IH]; [destruct Hr|]. destruct Hr as [->|Hr].
      + apply S in C. exists r'. split; auto. apply filter_In. split; [left; auto|].
        destruct (has_false r') eqn:E; auto. destruct (has_false_none _ _ _ _ _ _ _ E C).
      + destruct (IH Hr) as (r1 & H1 & C1). exists r1. split; auto. apply filter_In in H1. apply filter_In. split; [right|]; tauto.
    - intros (r & Hr & C). apply filter_In in Hr. destruct Hr as [Hr _].
      induction F as [|r0 r' l l' S F IH]; [destruct Hr|]. destruct Hr as [->|Hr].
      + exists r0. split; [left; auto|]. apply S; auto.
      + destruct (IH Hr) as (r1 & H1 & C1). exists r1. split; [right|]; auto. }
  rewrite R, (empty_to_fact_spec _ _ _ Ef). split.
  - intros [(f & Hf & Q)|[(f & Hf & Q)|Q]]; auto; left; exists f; (split; [apply in_or_app; auto|exact Q]).
  - intros [(f & Hf & Q)|Q]; auto. apply in_app_or in Hf. destruct Hf as [Hf|Hf]; [left|right; left]; eauto.
Qed.

(** [r(x, y) :- q(x, z), w = 1 + 2, y = w + z, x == 1, z == v];
    [s(t) :- t == 3, 1 < 2]; [u(x) :- q(x, z), 2 < 1]. *)
Definition C49_P : program := mkProg [] [0; 2; 3] [mkFact 1 [I32 1; I32 2]]
  [mkRule (HAtom (mkAtom 0 [TVar 0; TVar 1]))
     [LAtom (mkAtom 1 [TVar 0; TVar 2]); LAssign 3 (ABin OAdd (TConst (I32 1)) (TConst (I32 2)));
      LAssign 1 (ABin OAdd (TVar 3) (TVar 2)); LBin CEq (TVar 0) (TConst (I32 1)); LBin CEq (TVar 2) (TVar 4)];
   mkRule (HAtom (at1 2 0)) [LBin CEq (TVar 0) (TConst (I32 3)); LBin CLt (TConst (I32 1)) (TConst (I32 2))];
   mkRule (HAtom (at1 3 0)) [LAtom (mkAtom 1 [TVar 0; TVar 1]); LBin CLt (TConst (I32 2)) (TConst (I32 1))]] reg_none.
Example C49_ex :
  (forall r, In r (p_rules C49_P) -> plain (r_body r) /\ NoDup (eq_vars (r_body r))) /\
  apply_optimizations (b_env benv_none) (fun _ => 0) C49_P =
    Fine (mkProg [] [0; 2; 3] [mkFact 1 [I32 1; I32 2]; mkFact 2 [I32 3]]
      [mkRule (HAtom (mkAtom 0 [TConst (I32 1); TVar 1]))
        [LAtom (mkAtom 1 [TConst (I32 1); TVar 4]); LAssign 1 (ABin OAdd (TConst (I32 3)) (TVar 4))]] reg_none).
Proof.
  split; [|vm_compute; reflexivity].
  intros r Hr. cbn in Hr. destruct Hr as [<-|[<-|[<-|[]]]]; (split; [constructor|]); cbn;
    repeat (constructor; cbn; try (intuition discriminate));
    try (intros; repeat match goal with H : _ \/ _ |- _ => destruct H end; try discriminate; try contradiction; subst; intuition discriminate).
Qed.
Print Assumptions C49_optimized_partial.
