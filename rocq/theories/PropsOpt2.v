(** C28 (constant propagation) and C29 (equality propagation). *)
From Coq Require Import List ZArith Bool Arith Lia.
From Verif Require Import Order Value Back Eval Scc SccFacts BackSem Optimize PropsOpt.
Import ListNotations.

(** *** Rewriting the terms of a rule *)
Section MapRule.
  Variables (B : benv) (f : term -> term) (s s' : subst).
  Hypothesis R : forall t, tval s' (f t) = tval s t.
  Lemma tvals_map : forall l, tvals s' (map f l) = tvals s l.
  Proof. induction l as [|t l IH]; cbn; [reflexivity|]. unfold tvals in IH. rewrite R, IH. reflexivity. Qed.
  Lemma aeval_map : forall E e, aeval E s' (map_aexpr f e) = aeval E s e.
  Proof. intros E e. destruct e; cbn; rewrite ?R, ?tvals_map; reflexivity. Qed.

  Variables (r : rule) (F : lit -> lit) (K : lit -> bool).
  Hypothesis FA : forall a, F (LAtom a) = LAtom (map_atom f a).
  Hypothesis FS : forall x e, In (LAssign x e) (r_body r) -> exists x', F (LAssign x e) = LAssign x' (map_aexpr f e).
  Hypothesis FI : forall l, match l with LAtom _ | LAssign _ _ => True
                            | _ => forall x e a, F l <> LAssign x e /\ F l <> LAtom a end.
  Hypothesis KA : forall a, K (LAtom a) = true.
  Hypothesis KS : forall x e, K (LAssign x e) = true.
  Let r' := mkRule (map_head f (r_head r)) (map F (filter K (r_body r))).

  Lemma head_map : head_atoms (map_head f (r_head r)) = map (map_atom f) (head_atoms (r_head r)).
  Proof. destruct (r_head r); reflexivity. Qed.
  Lemma map_atoms : forall a', In (LAtom a') (r_body r') <-> exists a, a' = map_atom f a /\ In (LAtom a) (r_body r).
  Proof.
    intros a'. unfold r'; cbn [r_body]. rewrite in_map_iff. split.
    - intros (l & E & Hl). apply filter_In in Hl. destruct Hl as [Hl _].
      pose proof (FI l) as I. destruct l; try (destruct (I 0 (ANew 0 []) a'); contradiction).
      + rewrite FA in E. injection E as <-. eauto.
      + destruct (FS _ _ Hl) as (x' & E'). rewrite E' in E. discriminate.
    - intros (a & -> & Ha). exists (LAtom a). split; [apply FA|]. apply filter_In; auto.
  Qed.
  Lemma map_assigns : forall e', (exists x', In (LAssign x' e') (r_body r')) <->
    exists x e, e' = map_aexpr f e /\ In (LAssign x e) (r_body r).
  Proof.
    intros e'. unfold r'; cbn [r_body]. split.
    - intros (x' & H). apply in_map_iff in H. destruct H as (l & E & Hl). apply filter_In in Hl. destruct Hl as [Hl _].
      pose proof (FI l) as I. destruct l; try (destruct (I x' e' (mkAtom 0 [])); contradiction).
      + rewrite FA in E. discriminate.
      + destruct (FS _ _ Hl) as (x2 & E'). rewrite E' in E. injection E as _ <-. eauto.
    - intros (x & e & -> & H). destruct (FS _ _ H) as (x' & E'). exists x'. apply in_map_iff.
      exists (LAssign x e). split; auto. apply filter_In; auto.
  Qed.

  Lemma yields_map : forall g p t, yields B g r s p t <-> yields B g r' s' p t.
  Proof.
    intros g p t. split; intros Y.
    - destruct Y as [a Ha|v h l Hl|v h l q t Hl Ef A C|a q t Ha Fo Fe A C].
      + change (a_pred a) with (a_pred (map_atom f a)).
        replace (tvals s (a_args a)) with (tvals s' (a_args (map_atom f a))) by (cbn; apply tvals_map).
        apply y_head. unfold r'; cbn [r_head]. rewrite head_map. apply in_map; auto.
      + destruct (proj2 (map_assigns (map_aexpr f (ANew h l)))) as (x' & H'); [eauto|].
        rewrite <- (tvals_map l). eapply y_new. exact H'.
      + destruct (proj2 (map_assigns (map_aexpr f (ACall h l)))) as (x' & H'); [eauto|].
        rewrite <- (tvals_map l) in C. eapply y_call; eauto.
      + apply (y_fp B g r' s' (map_atom f a)); auto; [apply map_atoms; eauto|]. cbn [a_pred a_args map_atom]. rewrite tvals_map. auto.
    - destruct Y as [a' Ha|v h l' Hl|v h l' q t Hl Ef A C|a' q t Ha Fo Fe A C].
      + unfold r' in Ha; cbn [r_head] in Ha. rewrite head_map in Ha. apply in_map_iff in Ha.
        destruct Ha as (a & <- & Ha). cbn [a_pred a_args map_atom]. rewrite tvals_map. apply y_head; auto.
      + destruct (proj1 (map_assigns (ANew h l'))) as (x & e & E & H); [eauto|].
        destruct e; try discriminate. cbn in E. injection E as -> ->. rewrite tvals_map. eapply y_new; eauto.
      + destruct (proj1 (map_assigns (ACall h l'))) as (x & e & E & H); [eauto|].
        destruct e; try discriminate. cbn in E. injection E as -> ->. rewrite tvals_map in C. eapply y_call; eauto.
      + apply map_atoms in Ha. destruct Ha as (a & -> & Ha). cbn [a_pred a_args map_atom] in *. rewrite tvals_map in C. eapply y_fp; eauto.
  Qed.
End MapRule.

(** *** C28 *)
Lemma insert_In : forall x y l, In y (insert x l) <-> y = x \/ In y l.
Proof.
  intros x y l. unfold insert. destruct (memb x l) eqn:M.
  - apply memb_In in M. split; [auto|]. intros [->|H]; auto.
  - cbn. intuition.
Qed.
Lemma extend_In : forall xs y l, In y (extend xs l) <-> In y xs \/ In y l.
Proof.
  unfold extend. induction xs as [|x xs IH]; intros y l; cbn; [tauto|]. rewrite IH, insert_In. intuition.
Qed.
Definition assign_step (i x : nat) := (fun (st : list nat * list nat) a =>
  if memb a (snd st) then (insert i (fst st), insert x (snd st)) else st).
Lemma assign_step_mono : forall i x args st y, In y (snd st) -> In y (snd (fold_left (assign_step i x) args st)).
Proof.
  induction args as [|a args IH]; intros st y H; cbn; auto. apply IH. unfold assign_step.
  destruct (memb a (snd st)); auto. cbn. apply insert_In; auto.
Qed.
Lemma cs_pass_mono : forall body i vis cs y, In y cs -> In y (snd (cs_pass i body vis cs)).
Proof.
  induction body as [|l body IH]; intros i vis cs y H; cbn [cs_pass]; auto.
  destruct (memb i vis); auto. destruct l; auto.
  - fold (assign_step i v). destruct (fold_left (assign_step i v) (aexpr_vars e) (vis, cs)) as [v' c'] eqn:E.
    apply IH. pose proof (assign_step_mono i v (aexpr_vars e) (vis, cs) y H) as Q. rewrite E in Q. exact Q.
  - apply IH. apply extend_In; auto.
Qed.
Lemma cs_pass_vis : forall body i vis cs j, In j (fst (cs_pass i body vis cs)) -> In j vis \/ i <= j.
Proof.
  induction body as [|l body IH]; intros i vis cs j H; cbn [cs_pass] in H; auto.
  assert (N : forall vis' cs', In j (fst (cs_pass (S i) body vis' cs')) -> (In j vis' -> In j vis \/ i <= j) -> In j vis \/ i <= j).
  { intros vis' cs' H' Q. destruct (IH _ _ _ _ H'); auto. right; lia. }
  destruct (memb i vis); [eapply N; eauto|]. destruct l; try (eapply N; eauto; fail).
  - fold (assign_step i v) in H. destruct (fold_left (assign_step i v) (aexpr_vars e) (vis, cs)) as [v' c'] eqn:E.
    eapply N; eauto.
    assert (G : forall args st, (In j (fst st) -> In j vis \/ i <= j) -> In j (fst (fold_left (assign_step i v) args st)) -> In j vis \/ i <= j).
    { induction args as [|a args IHa]; intros st Q; cbn; auto. apply IHa. unfold assign_step.
      destruct (memb a (snd st)); auto. cbn. rewrite insert_In. intros [->|]; auto. }
    intros Hj. apply (G (aexpr_vars e) (vis, cs)); cbn; auto. rewrite E. exact Hj.
  - eapply N; eauto. rewrite insert_In. intros [->|]; auto.
Qed.
Lemma cs_pass_reduce : forall body i vis cs d v, (forall j, In j vis -> j < i) ->
  In (LReduce d) body -> In v (reduce_vars d) -> In v (snd (cs_pass i body vis cs)).
Proof.
  induction body as [|l body IH]; intros i vis cs d v V Hd Hv; [destruct Hd|]. cbn [cs_pass].
  assert (memb i vis = false) as ->.
  { destruct (memb i vis) eqn:M; auto. apply memb_In in M. specialize (V i M). lia. }
  assert (V' : forall j, In j vis -> j < S i) by (intros j Hj; specialize (V j Hj); lia).
  destruct Hd as [->|Hd].
  - apply cs_pass_mono. apply extend_In; auto.
  - destruct l; try (eapply IH; eauto; fail).
    + fold (assign_step i v0). destruct (fold_left (assign_step i v0) (aexpr_vars e) (vis, cs)) as [v' c'] eqn:E.
      eapply IH; eauto.
      assert (G : forall args st, (forall j, In j (fst st) -> j < S i) ->
         forall j, In j (fst (fold_left (assign_step i v0) args st)) -> j < S i).
      { induction args as [|a args IHa]; intros st Q; cbn; auto. apply IHa. unfold assign_step.
        destruct (memb a (snd st)); auto. cbn. intros j. rewrite insert_In. intros [->|]; auto. }
      intros j Hj. apply (G (aexpr_vars e) (vis, cs)); cbn; auto. rewrite E. exact Hj.
    + eapply IH; eauto. intros j. rewrite insert_In. intros [->|]; auto.
Qed.
Lemma cs_loop_mono : forall fuel body vis cs cs' y, cs_loop fuel body vis cs = Fine cs' -> In y cs -> In y cs'.
Proof.
  induction fuel as [|fuel IH]; intros body vis cs cs' y H Hy; [discriminate|]. cbn [cs_loop] in H.
  destruct (cs_pass 0 body vis cs) as [v' c'] eqn:E.
  assert (In y c') by (pose proof (cs_pass_mono body 0 vis cs y Hy) as Q; rewrite E in Q; exact Q).
  destruct (length c' <=? length cs); [injection H as <-; auto|]. eapply IH; eauto.
Qed.
Lemma cannot_substitute_reduce : forall body cs d v, cannot_substitute body = Fine cs ->
  In (LReduce d) body -> In v (reduce_vars d) -> In v cs.
Proof.
  intros body cs d v H Hd Hv. unfold cannot_substitute in H. cbn [cs_loop] in H.
  assert (Q : In v (snd (cs_pass 0 body [] []))) by (eapply cs_pass_reduce; eauto; intros j []).
  destruct (cs_pass 0 body [] []) as [v' c']. cbn in Q.
  destruct (length c' <=? length []); [injection H as <-; auto|]. eapply cs_loop_mono; eauto.
Qed.

Lemma prop_dropped_sat : forall B g X M s cs l v c, prop_dropped cs l = Some (v, c) ->
  (lit_sat B g X M s l <-> s v = c).
Proof.
  intros B g X M s cs l v c H. destruct l as [| | |k t u| | | |]; try discriminate.
  destruct k, t, u; try discriminate; cbn in H; destruct (memb _ cs); try discriminate; injection H as -> ->; cbn;
    split; congruence.
Qed.
Lemma prop_collect_spec : forall cs body m bad m' bad', prop_collect cs body m bad = (m', bad') ->
  (forall v c, lookup v m = Some c -> lookup v m' = Some c) /\
  (bad = true -> bad' = true) /\
  (bad' = false -> forall l v c, In l body -> prop_dropped cs l = Some (v, c) -> lookup v m' = Some c) /\
  (forall v c, lookup v m' = Some c -> lookup v m = Some c \/ exists l, In l body /\ prop_dropped cs l = Some (v, c)) /\
  (bad' = true -> bad = true \/ exists l v c c', In l body /\ prop_dropped cs l = Some (v, c) /\ lookup v m' = Some c' /\ c <> c').
Proof.
  induction body as [|l body IH]; intros m bad m' bad' H; cbn [prop_collect] in H.
  - injection H as <- <-. split; [auto|]. split; [auto|]. split; [intros _ l v c []|]. split; auto.
  - destruct (prop_dropped cs l) as [[v c]|] eqn:D.
    + destruct (lookup v m) as [c'|] eqn:L.
      * destruct (IH _ _ _ _ H) as (A1 & A2 & A3 & A4 & A5).
        split; [exact A1|]. split; [intros ->; apply A2; destruct (value_eq_dec c' c); auto|]. split.
        { intros Bf l' v' c0 [<-|Hl] D'; [|eauto]. rewrite D in D'. injection D' as <- <-.
          destruct (value_eq_dec c' c) as [->|N]; [apply A1; auto|]. rewrite (A2 eq_refl) in Bf. discriminate. }
        split.
        { intros v' c0 Lk. destruct (A4 _ _ Lk) as [|(l' & Hl & D')]; auto. right. exists l'; cbn; auto. }
        { intros Bt. destruct (A5 Bt) as [Bb|(l' & v' & c1 & c2 & Hl & Q)].
          - destruct (value_eq_dec c' c) as [->|N]; auto. right. exists l, v, c, c'. repeat split; cbn; auto.
          - right. exists l', v', c1, c2. split; [cbn; auto|exact Q]. }
      * destruct (IH _ _ _ _ H) as (A1 & A2 & A3 & A4 & A5).
        assert (Lv : lookup v m' = Some c) by (apply A1; cbn; rewrite Nat.eqb_refl; reflexivity).
        split. { intros w c0 Lw. apply A1. cbn. destruct (Nat.eqb_spec w v); [congruence|auto]. }
        split; [exact A2|]. split.
        { intros Bf l' v' c0 [<-|Hl] D'; [|eauto]. rewrite D in D'. injection D' as <- <-. exact Lv. }
        split.
        { intros v' c0 Lk. destruct (A4 _ _ Lk) as [Q|(l' & Hl & D')]; [|right; exists l'; cbn; auto].
          cbn in Q. destruct (Nat.eqb_spec v' v); [|auto]. injection Q as <-. subst v'. right. exists l; cbn; auto. }
        { intros Bt. destruct (A5 Bt) as [Bb|(l' & v' & c1 & c2 & Hl & Q)]; auto.
          right. exists l', v', c1, c2. split; [cbn; auto|exact Q]. }
    + destruct (IH _ _ _ _ H) as (A1 & A2 & A3 & A4 & A5).
      split; [exact A1|]. split; [exact A2|]. split.
      { intros Bf l' v' c0 [<-|Hl] D'; [congruence|eauto]. }
      split.
      { intros v' c0 Lk. destruct (A4 _ _ Lk) as [|(l' & Hl & D')]; auto. right. exists l'; cbn; auto. }
      { intros Bt. destruct (A5 Bt) as [Bb|(l' & v' & c1 & c2 & Hl & Q)]; auto.
        right. exists l', v', c1, c2. split; [cbn; auto|exact Q]. }
Qed.

(** A variable that the body compares with a constant. *)
Definition const_eq (body : list lit) (v : var) : Prop :=
  exists c, In (LBin CEq (TVar v) (TConst c)) body \/ In (LBin CEq (TConst c) (TVar v)) body.

Lemma dropped_const_eq : forall cs body l v c, In l body -> prop_dropped cs l = Some (v, c) ->
  const_eq body v /\ ~ In v cs.
Proof.
  intros cs body l v c Hl D. destruct l as [| | |k t u| | | |]; try discriminate.
  destruct k, t, u; try discriminate; cbn in D; destruct (memb _ cs) eqn:M; try discriminate; injection D as -> ->;
    (split; [exists c; auto|intros Hin; apply memb_In in Hin; congruence]).
Qed.

(** C28: if no variable that is compared with a constant is assigned by a
    computation or is a group-by variable bound only by the aggregation, then
    propagation keeps everything the rule yields on every database. *)
Theorem C28_prop_partial : forall B r r',
  (forall v, const_eq (r_body r) v ->
     (forall e, ~ In (LAssign v e) (r_body r)) /\
     (forall d, In (LReduce d) (r_body r) -> ~ In v (rd_other d))) ->
  constant_prop r = Fine r' ->
  forall g X M p t, consequence B g X M r p t <-> consequence B g X M r' p t.
Proof.
  intros B r r' Safe H g X M p t. unfold constant_prop in H.
  destruct (cannot_substitute (r_body r)) as [cs| |] eqn:C; try discriminate. cbn [obindo] in H.
  destruct (prop_collect cs (r_body r) [] false) as [m bad] eqn:PC.
  destruct (prop_collect_spec _ _ _ _ _ _ PC) as (_ & _ & A3 & A4 & A5).
  assert (D : forall v c, lookup v m = Some c -> const_eq (r_body r) v /\ ~ In v cs /\ exists l, In l (r_body r) /\ prop_dropped cs l = Some (v, c)).
  { intros v c L. destruct (A4 v c L) as [Q|(l & Hl & Dl)]; [discriminate|].
    destruct (dropped_const_eq _ _ _ _ _ Hl Dl). eauto. }
  destruct bad.
  - injection H as <-. destruct (A5 eq_refl) as [Q|(l & v & c & c' & Hl & Dl & Lk & N)]; [discriminate|].
    destruct (D _ _ Lk) as (_ & _ & l' & Hl' & Dl'). split.
    + intros (s & S & _). exfalso. apply N.
      rewrite <- (proj1 (prop_dropped_sat B g X M s _ _ _ _ Dl) (S l Hl)).
      apply (proj1 (prop_dropped_sat B g X M s _ _ _ _ Dl') (S l' Hl')).
    + intros (s & S & _). exfalso. exact (S LFalse (or_introl eq_refl)).
  - injection H as <-. specialize (A3 eq_refl).
    assert (Nassign : forall x e, In (LAssign x e) (r_body r) -> lookup x m = None).
    { intros x e Hx. destruct (lookup x m) as [c|] eqn:L; auto. destruct (D _ _ L) as (Ce & _).
      destruct (proj1 (Safe x Ce) e Hx). }
    assert (Nred : forall d v, In (LReduce d) (r_body r) -> In v (reduce_free d) -> lookup v m = None).
    { intros d v Hd Hv. destruct (lookup v m) as [c|] eqn:L; auto. destruct (D _ _ L) as (Ce & Nc & _).
      unfold reduce_free in Hv. apply in_app_or in Hv. destruct Hv as [Hv|Hv].
      - destruct Nc. eapply cannot_substitute_reduce; eauto.
      - destruct (proj2 (Safe v Ce) d Hd Hv). }
    (** literal by literal, for related substitutions *)
    assert (Lit : forall s s', (forall t, tval s' (psub m t) = tval s t) -> (forall v, lookup v m = None -> s' v = s v) ->
       forall l, In l (r_body r) -> lit_sat B g X M s l <-> lit_sat B g X M s' (prop_lit m l)).
    { intros s s' R R0 l Hl. destruct l as [a|a|x e|k u w|u|d| |]; cbn [prop_lit].
      - unfold lit_sat; cbn [other_sat a_pred a_args map_atom]. rewrite (tvals_map _ s s' R). tauto.
      - unfold lit_sat; cbn [other_sat a_pred a_args map_atom]. rewrite (tvals_map _ s s' R). tauto.
      - rewrite (Nassign x e Hl). cbn. rewrite (aeval_map _ s s' R), (R0 x (Nassign x e Hl)). tauto.
      - cbn. rewrite !R. tauto.
      - cbn. rewrite R. tauto.
      - cbn. split; apply b_agg_local; intros v Hv; [symmetry|]; apply R0; eapply Nred; eauto.
      - tauto.
      - tauto. }
    assert (YM : forall s s', (forall t, tval s' (psub m t) = tval s t) ->
       yields B g r s p t <-> yields B g (mkRule (map_head (psub m) (r_head r))
         (map (prop_lit m) (filter (fun l => is_none (prop_dropped cs l)) (r_body r)))) s' p t).
    { intros s s' R. apply yields_map; auto.
      - intros x e Hx. exists x. cbn [prop_lit]. rewrite (Nassign x e Hx). reflexivity.
      - intros l. destruct l; auto; intros; cbn; split; discriminate. }
    split.
    + intros (s & S & Y). exists s.
      assert (R : forall t, tval s (psub m t) = tval s t).
      { intros [v|c]; [|reflexivity]. cbn. destruct (lookup v m) as [c|] eqn:L; [|reflexivity]. cbn.
        destruct (D _ _ L) as (_ & _ & l & Hl & Dl). symmetry. apply (proj1 (prop_dropped_sat B g X M s _ _ _ _ Dl) (S l Hl)). }
      split; [|apply (YM s s R); exact Y]. cbn [r_body]. intros l' Hl'.
      apply in_map_iff in Hl'. destruct Hl' as (l & <- & Hl). apply filter_In in Hl. destruct Hl as [Hl _].
      apply (Lit s s R (fun _ _ => eq_refl) l Hl). auto.
    + intros (s' & S & Y). exists (fun v => match lookup v m with Some c => c | None => s' v end).
      set (s := fun v => _).
      assert (R : forall t, tval s' (psub m t) = tval s t).
      { intros [v|c]; [|reflexivity]. unfold s; cbn. destruct (lookup v m); reflexivity. }
      assert (R0 : forall v, lookup v m = None -> s' v = s v) by (intros v L; unfold s; rewrite L; reflexivity).
      split; [|apply (YM s s' R); exact Y]. intros l Hl.
      destruct (prop_dropped cs l) as [[v c]|] eqn:Dl.
      * apply (prop_dropped_sat B g X M s _ _ _ _ Dl). unfold s. rewrite (A3 _ _ _ Hl Dl). reflexivity.
      * apply (Lit s s' R R0 l Hl). apply S. cbn [r_body]. apply in_map. apply filter_In. rewrite Dl. auto.
Qed.

(** [r(x, y) :- q(x, y, z), z == 3, w = z + x, w < 10]: the hypotheses hold and
    the rule changes. *)
Definition C28_r := mkRule (HAtom (mkAtom 0 [TVar 0; TVar 1]))
  [LAtom (mkAtom 1 [TVar 0; TVar 1; TVar 2]); LBin CEq (TVar 2) (TConst (I32 3));
   LAssign 3 (ABin OAdd (TVar 2) (TVar 0)); LBin CLt (TVar 3) (TConst (I32 10))].
Example C28_ex : (forall v, const_eq (r_body C28_r) v ->
     (forall e, ~ In (LAssign v e) (r_body C28_r)) /\
     (forall d, In (LReduce d) (r_body C28_r) -> ~ In v (rd_other d))) /\
  constant_prop C28_r = Fine (mkRule (HAtom (mkAtom 0 [TVar 0; TVar 1]))
   [LAtom (mkAtom 1 [TVar 0; TVar 1; TConst (I32 3)]);
    LAssign 3 (ABin OAdd (TConst (I32 3)) (TVar 0)); LBin CLt (TVar 3) (TConst (I32 10))]).
Proof.
  split; [|vm_compute; reflexivity]. intros v (c & H). cbn in H.
  assert (v = 2) as -> by (intuition congruence). split.
  - intros e He. cbn in He. intuition discriminate.
  - intros d Hd. cbn in Hd. intuition discriminate.
Qed.

(** [r(x) :- q(y), x = y + 1, x == 3] becomes [r(3) :- q(y)]: with [q(7)] the
    result contains [r(3)], which the rule does not derive. *)
Theorem C28_assigned_refuted : exists B r r' g X M p t, constant_prop r = Fine r' /\
  ~ consequence B g X M r p t /\ consequence B g X M r' p t.
Proof.
  pose (r := mkRule (HAtom (at1 0 0)) [LAtom (at1 1 1);
    LAssign 0 (ABin OAdd (TVar 1) (TConst (I32 1))); LBin CEq (TVar 0) (TConst (I32 3))]).
  exists benv_none, r. eexists. exists reg_none, (fun p t => p = 1 /\ t = [I32 7]), (fun _ _ => False), 0, [I32 3].
  split; [vm_compute; reflexivity|]. split.
  - intros (s & S & _).
    pose proof (S _ (or_introl eq_refl)) as S1. pose proof (S _ (or_intror (or_introl eq_refl))) as S2.
    pose proof (S _ (or_intror (or_intror (or_introl eq_refl)))) as S3.
    cbn in S1, S2, S3. destruct S1 as [_ S1]. injection S1 as S1. rewrite S1, S3 in S2. vm_compute in S2. discriminate.
  - exists (fun _ => I32 7). split.
    + intros l [<-|[<-|[]]]; cbn; auto.
    + match goal with |- yields _ _ ?r _ _ _ => apply (y_head benv_none reg_none r (fun _ => I32 7) (mkAtom 0 [TConst (I32 3)])) end.
      left; reflexivity.
Qed.

(** A group-by variable that is not joined with the aggregated relation is
    bound by the aggregation but not protected: [r(z, n) :- n = agg(x: q(x, y)
    where y, z: g(y, z)), z == 3] becomes [r(3, n) :- n = agg(...)], whose
    aggregation is no longer restricted to [z = 3].  Here the aggregation yields
    [z = 5, n = 1]. *)
Definition benv_agg5 : benv.
Proof.
  refine (mkBenv env_none (fun _ _ => False)
    (fun r _ _ s => (forall v, In v (rd_other r) -> s v = I32 5) /\ (forall v, In v (rd_left r) -> s v = I32 1))
    _ _ (fun _ _ _ _ => False) (fun _ _ _ _ => False)).
  - intros. assumption.
  - intros r A B0 s s' E [H1 H2]. split; intros v Hv.
    + rewrite <- E; auto. unfold reduce_free. apply in_or_app; auto.
    + rewrite <- E; auto. unfold reduce_free, reduce_vars. apply in_or_app; left. apply in_or_app; auto.
Defined.
Theorem C28_groupby_refuted : exists B r r' g X M p t, constant_prop r = Fine r' /\
  ~ consequence B g X M r p t /\ consequence B g X M r' p t.
Proof.
  pose (r := mkRule (HAtom (mkAtom 0 [TVar 0; TVar 1]))
    [LReduce (mkReduce 0 [1] [3] [0] [] [2] (mkAtom 1 [TVar 3; TVar 2]) (Some (mkAtom 2 [TVar 3; TVar 0])));
     LBin CEq (TVar 0) (TConst (I32 3))]).
  exists benv_agg5, r. eexists. exists reg_none, (fun _ _ => False), (fun _ _ => False), 0, [I32 3; I32 1].
  split; [vm_compute; reflexivity|]. split.
  - intros (s & S & _).
    pose proof (S _ (or_introl eq_refl)) as S1. pose proof (S _ (or_intror (or_introl eq_refl))) as S2.
    cbn in S1, S2. destruct S1 as [S1 _]. rewrite (S1 0 (or_introl eq_refl)) in S2. discriminate.
  - pose (s := fun v : var => (if Nat.eqb v 0 then I32 5 else I32 1) : value).
    exists s. split.
    + intros l [<-|[]]; cbn. split; intros v [<-|[]]; reflexivity.
    + match goal with |- yields _ _ ?r _ _ _ =>
        apply (y_head benv_agg5 reg_none r s (mkAtom 0 [TConst (I32 3); TVar 1])) end.
      left; reflexivity.
Qed.

(** *** C29 *)
Lemma eq_cannot_reduce : forall body d v, In (LReduce d) body -> In v (reduce_vars d) -> In v (eq_cannot body).
Proof.
  intros body d v Hd Hv. unfold eq_cannot.
  assert (G : forall body cs, In v cs \/ In (LReduce d) body ->
     In v (fold_left (fun cs l => match l with LReduce d => extend (reduce_vars d) cs | _ => cs end) body cs)).
  { clear Hd. induction body0 as [|l b IH]; intros cs H; cbn; [destruct H as [H|[]]; auto|].
    apply IH. destruct H as [H|[->|H]]; auto.
    - left. destruct l; auto. apply extend_In; auto.
    - left. apply extend_In; auto. }
  apply G; auto.
Qed.
Lemma eq_dropped_sat : forall B g X M s cs bd l v w, eq_dropped cs bd l = Some (v, w) ->
  (lit_sat B g X M s l <-> s v = s w) /\ ~ In v cs /\ ~ In w cs.
Proof.
  intros B g X M s cs bd l v w H. destruct l as [| | |k t u| | | |]; try discriminate.
  destruct k, t, u; try discriminate. cbn in H.
  destruct (memb v0 cs) eqn:M1; [discriminate|]. destruct (memb v1 cs) eqn:M2; [discriminate|]. cbn in H.
  destruct (memb v0 bd && memb v1 bd); [discriminate|]. injection H as <- <-. cbn. split; [tauto|].
  split; intros Q; apply memb_In in Q; congruence.
Qed.
Lemma eq_step_sound : forall (s : subst) ps m, (forall v w, In (v, w) ps -> s v = s w) ->
  (forall v w, lookup v m = Some w -> s v = s w) ->
  forall v w, lookup v (fold_left eq_step ps m) = Some w -> s v = s w.
Proof.
  intros s. induction ps as [|[a b] ps IH]; intros m Hp Hm; cbn [fold_left]; auto.
  apply IH; [intros; apply Hp; right; auto|]. intros v w. unfold eq_step; cbn [fst snd].
  pose proof (Hp a b (or_introl eq_refl)) as E.
  destruct (lookup a m) as [x|] eqn:La.
  - cbn. destruct (Nat.eqb_spec v b); [|apply Hm]. intros Q; injection Q as <-. subst v. rewrite <- E. apply Hm; auto.
  - destruct (lookup b m) as [x|] eqn:Lb; cbn; (destruct (Nat.eqb_spec v a); [|apply Hm]); intros Q; injection Q as <-; subst v; auto.
    rewrite E. apply Hm; auto.
Qed.
Lemma eq_step_keys : forall (P : nat -> Prop) ps m, (forall v w, In (v, w) ps -> P v /\ P w) ->
  (forall v w, lookup v m = Some w -> P v) -> forall v w, lookup v (fold_left eq_step ps m) = Some w -> P v.
Proof.
  intros P. induction ps as [|[a b] ps IH]; intros m Hp Hm; cbn [fold_left]; auto.
  apply IH; [intros; apply Hp; right; auto|]. intros v w. unfold eq_step; cbn [fst snd].
  destruct (Hp a b (or_introl eq_refl)) as [Pa Pb].
  destruct (lookup a m) as [x|]; [|destruct (lookup b m) as [x|]]; cbn.
  - destruct (Nat.eqb_spec v b); [subst; auto|apply Hm].
  - destruct (Nat.eqb_spec v a); [subst; auto|apply Hm].
  - destruct (Nat.eqb_spec v a); [subst; auto|apply Hm].
Qed.

Lemma pairs_dropped_In : forall cs bd body v w, In (v, w) (pairs_dropped cs bd body) <->
  exists l, In l body /\ eq_dropped cs bd l = Some (v, w).
Proof.
  intros. unfold pairs_dropped. rewrite in_flat_map. split.
  - intros (l & Hl & H). exists l. split; auto. destruct (eq_dropped cs bd l); [|destruct H]. destruct H as [H|[]]. congruence.
  - intros (l & Hl & H). exists l. split; auto. rewrite H. left; auto.
Qed.

(** A variable of an equality between variables. *)
Definition var_eq (body : list lit) (v : var) : Prop :=
  exists w, In (LBin CEq (TVar v) (TVar w)) body \/ In (LBin CEq (TVar w) (TVar v)) body.
Lemma dropped_var_eq : forall cs bd body v w, In (v, w) (pairs_dropped cs bd body) ->
  var_eq body v /\ var_eq body w.
Proof.
  intros cs bd body v w H. apply pairs_dropped_In in H. destruct H as (l & Hl & D).
  destruct l as [| | |k t u| | | |]; try discriminate. destruct k, t, u; try discriminate. cbn in D.
  destruct (memb v0 cs || memb v1 cs); [discriminate|]. destruct (memb v0 bd && memb v1 bd); [discriminate|].
  injection D as -> ->. split; [exists w|exists v]; auto.
Qed.

(** The general form: whichever equalities are removed, the rewriting is right
    if the substitution that was collected unifies all of them. *)
Lemma eq_apply_correct : forall B r bd,
  let cs := eq_cannot (r_body r) in let ps := pairs_dropped cs bd (r_body r) in
  let m := eq_collect cs bd (r_body r) in
  (forall v, var_eq (r_body r) v -> forall d, In (LReduce d) (r_body r) -> ~ In v (rd_other d)) ->
  (forall v w, In (v, w) ps -> vsub m v = vsub m w) ->
  forall g X M p t, consequence B g X M r p t <-> consequence B g X M (eq_apply m cs bd r) p t.
Proof.
  intros B r bd cs ps m Safe Uni g X M p t.
  assert (Keys : forall v w, lookup v m = Some w -> var_eq (r_body r) v /\ ~ In v cs).
  { intros v w L. apply (eq_step_keys (fun v => var_eq (r_body r) v /\ ~ In v cs) ps []) with (w := w); auto.
    - intros a b Hab. pose proof (dropped_var_eq _ _ _ _ _ Hab) as [V1 V2].
      apply pairs_dropped_In in Hab. destruct Hab as (l & Hl & D).
      destruct (eq_dropped_sat B g X M (fun _ => I32 0) _ _ _ _ _ D) as (_ & N1 & N2). auto.
    - intros a b Q; discriminate. }
  assert (Nred : forall d v, In (LReduce d) (r_body r) -> In v (reduce_free d) -> vsub m v = v).
  { intros d v Hd Hv. unfold vsub. destruct (lookup v m) as [w|] eqn:L; auto. exfalso.
    destruct (Keys _ _ L) as [V N]. unfold reduce_free in Hv. apply in_app_or in Hv. destruct Hv as [Hv|Hv].
    - apply N. eapply eq_cannot_reduce; eauto.
    - exact (Safe v V d Hd Hv). }
  assert (Lit : forall s s', (forall v, s' (vsub m v) = s v) ->
     forall l, In l (r_body r) -> lit_sat B g X M s l <-> lit_sat B g X M s' (eq_lit m l)).
  { intros s s' R0 l Hl.
    assert (R : forall t, tval s' (tsub m t) = tval s t) by (intros [v|c]; cbn; auto).
    destruct l as [a|a|x e|k u w|u|d| |]; cbn [eq_lit].
    - unfold lit_sat; cbn [other_sat a_pred a_args map_atom]. rewrite (tvals_map _ s s' R). tauto.
    - unfold lit_sat; cbn [other_sat a_pred a_args map_atom]. rewrite (tvals_map _ s s' R). tauto.
    - cbn. rewrite (aeval_map _ s s' R), R0. tauto.
    - cbn. rewrite !R. tauto.
    - cbn. rewrite R. tauto.
    - cbn. split; apply b_agg_local; intros v Hv; rewrite <- R0, (Nred d v Hl Hv); reflexivity.
    - tauto.
    - tauto. }
  assert (YM : forall s s', (forall v, s' (vsub m v) = s v) ->
     yields B g r s p t <-> yields B g (eq_apply m cs bd r) s' p t).
  { intros s s' R0. apply yields_map; auto.
    - intros [v|c]; cbn; auto.
    - intros x e Hx. exists (vsub m x). reflexivity.
    - intros l. destruct l; auto; intros; cbn; split; discriminate. }
  split.
  - intros (s & S & Y). exists s.
    assert (R0 : forall v, s (vsub m v) = s v).
    { intros v. unfold vsub. destruct (lookup v m) as [w|] eqn:L; auto. symmetry.
      apply (eq_step_sound s ps []) with (v := v); auto; [|intros a b Q; discriminate].
      intros a b Hab. apply pairs_dropped_In in Hab. destruct Hab as (l & Hl & D).
      apply (eq_dropped_sat B g X M s _ _ _ _ _ D). auto. }
    split; [|apply (YM s s R0); exact Y]. cbn [r_body eq_apply]. intros l' Hl'.
    apply in_map_iff in Hl'. destruct Hl' as (l & <- & Hl). apply filter_In in Hl. destruct Hl as [Hl _].
    apply (Lit s s R0 l Hl). auto.
  - intros (s' & S & Y). exists (fun v => s' (vsub m v)). set (s := fun v => _).
    assert (R0 : forall v, s' (vsub m v) = s v) by reflexivity.
    split; [|apply (YM s s' R0); exact Y]. intros l Hl.
    destruct (eq_dropped cs bd l) as [[v w]|] eqn:Dl.
    + apply (eq_dropped_sat B g X M s _ _ _ _ _ Dl). unfold s. f_equal. apply Uni. apply pairs_dropped_In. eauto.
    + apply (Lit s s' R0 l Hl). apply S. cbn [r_body eq_apply]. apply in_map. apply filter_In. rewrite Dl. auto.
Qed.

(** The variables of the equalities between variables, in order. *)
Definition eq_vars (body : list lit) : list var :=
  flat_map (fun l => match l with LBin CEq (TVar v) (TVar w) => [v; w] | _ => [] end) body.

Lemma unify_fresh : forall ps m, NoDup (flat_map (fun p => [fst p; snd p]) ps) ->
  (forall v w, In (v, w) ps -> lookup v m = None /\ lookup w m = None) ->
  (forall v w, In (v, w) ps -> vsub (fold_left eq_step ps m) v = vsub (fold_left eq_step ps m) w) /\
  (forall v, ~ In v (flat_map (fun p => [fst p; snd p]) ps) -> lookup v (fold_left eq_step ps m) = lookup v m).
Proof.
  induction ps as [|[a b] ps IH]; intros m N F; [split; [intros v w []|auto]|].
  cbn [flat_map fold_left fst snd app] in *. inversion N as [|? ? Na N1]; subst. inversion N1 as [|? ? Nb N2]; subst.
  destruct (F a b (or_introl eq_refl)) as [La Lb].
  assert (Es : eq_step m (a, b) = (a, b) :: m) by (unfold eq_step; cbn; rewrite La, Lb; reflexivity).
  rewrite Es.
  assert (In2 : forall v w, In (v, w) ps -> In v (flat_map (fun p => [fst p; snd p]) ps) /\ In w (flat_map (fun p => [fst p; snd p]) ps)).
  { intros v w H. split; apply in_flat_map; exists (v, w); cbn; auto. }
  destruct (IH ((a, b) :: m)) as [I1 I2]; auto.
  { intros v w H. destruct (F v w (or_intror H)) as [Lv Lw]. destruct (In2 _ _ H) as [Iv Iw]. cbn.
    destruct (Nat.eqb_spec v a); [subst; destruct Na; right; exact Iv|].
    destruct (Nat.eqb_spec w a); [subst; destruct Na; right; exact Iw|]. auto. }
  split.
  - intros v w [E|H]; [|auto]. injection E as <- <-. unfold vsub.
    rewrite (I2 a) by (intros Q; apply Na; right; exact Q). rewrite (I2 b) by exact Nb.
    cbn. rewrite Nat.eqb_refl. destruct (Nat.eqb_spec b a); [subst; reflexivity|]. rewrite Lb. reflexivity.
  - intros v Hv. rewrite I2 by (intros Q; apply Hv; right; right; exact Q). cbn.
    destruct (Nat.eqb_spec v a); [subst; destruct Hv; left; reflexivity|reflexivity].
Qed.

Lemma pairs_sub : forall cs bd body, NoDup (eq_vars body) ->
  NoDup (flat_map (fun p => [fst p; snd p]) (pairs_dropped cs bd body)) /\
  forall v, In v (flat_map (fun p => [fst p; snd p]) (pairs_dropped cs bd body)) -> In v (eq_vars body).
Proof.
  intros cs bd. induction body as [|l body IH]; intros N; [split; [constructor|intros v []]|].
  destruct (eq_dropped cs bd l) as [[v w]|] eqn:D.
  - destruct l as [| | |k t u| | | |]; try discriminate. destruct k, t, u; try discriminate. pose proof D as D'. cbn in D.
    destruct (memb v0 cs || memb v1 cs); [discriminate|]. destruct (memb v0 bd && memb v1 bd); [discriminate|].
    injection D as -> ->.
    assert (Ev : eq_vars (LBin CEq (TVar v) (TVar w) :: body) = v :: w :: eq_vars body) by reflexivity.
    rewrite Ev in *. inversion N as [|? ? Nv N1]; subst. inversion N1 as [|? ? Nw N2]; subst.
    destruct (IH N2) as [I1 I2].
    assert (Ep : pairs_dropped cs bd (LBin CEq (TVar v) (TVar w) :: body) = (v, w) :: pairs_dropped cs bd body).
    { unfold pairs_dropped. cbn [flat_map]. rewrite D'. reflexivity. }
    rewrite Ep. cbn [flat_map fst snd app]. split.
    + constructor; [|constructor; auto]. intros [E|Q]; [apply Nv; left; auto|apply Nv; right; auto].
    + intros x [<-|[<-|Q]]; cbn; auto.
  - assert (Ep : pairs_dropped cs bd (l :: body) = pairs_dropped cs bd body).
    { unfold pairs_dropped. cbn [flat_map]. rewrite D. reflexivity. }
    rewrite Ep. unfold eq_vars in N; cbn [flat_map] in N. apply NoDup_app_r in N. fold (eq_vars body) in N.
    destruct (IH N) as [I1 I2]. split; auto. intros v Q. unfold eq_vars; cbn [flat_map]. apply in_or_app; right. apply I2; auto.
Qed.

(** C29: if every variable occurs in at most one equality between variables
    (once), and none of them is a group-by variable bound only by an aggregation,
    then propagation keeps everything the rule yields on every database. *)
Theorem C29_equality_partial : forall B gr nb r r',
  NoDup (eq_vars (r_body r)) ->
  (forall v, var_eq (r_body r) v -> forall d, In (LReduce d) (r_body r) -> ~ In v (rd_other d)) ->
  propagate_equality gr nb r = Fine r' ->
  forall g X M p t, consequence B g X M r p t <-> consequence B g X M r' p t.
Proof.
  intros B gr nb r r' N Safe H g X M p t. unfold propagate_equality in H.
  destruct (bounded gr nb (r_body r)) as [bd| |]; try discriminate. injection H as <-.
  apply eq_apply_correct; auto.
  destruct (pairs_sub (eq_cannot (r_body r)) bd (r_body r) N) as [N' _].
  exact (proj1 (unify_fresh _ [] N' (fun _ _ _ => conj eq_refl eq_refl))).
Qed.

(** More generally when the collected substitution unifies the removed
    equalities. *)
Theorem C29_unified_partial : forall B gr nb r r' bd,
  bounded gr nb (r_body r) = Fine bd ->
  (forall v w, In (v, w) (pairs_dropped (eq_cannot (r_body r)) bd (r_body r)) ->
    vsub (eq_collect (eq_cannot (r_body r)) bd (r_body r)) v =
    vsub (eq_collect (eq_cannot (r_body r)) bd (r_body r)) w) ->
  (forall v, var_eq (r_body r) v -> forall d, In (LReduce d) (r_body r) -> ~ In v (rd_other d)) ->
  propagate_equality gr nb r = Fine r' ->
  forall g X M p t, consequence B g X M r p t <-> consequence B g X M r' p t.
Proof.
  intros B gr nb r r' bd Bd U Safe H g X M p t. unfold propagate_equality in H.
  rewrite Bd in H. injection H as <-. apply eq_apply_correct; auto.
Qed.

(** [r(x, z) :- q(y), p(w), x == y, w == z]. *)
Definition C29_r := mkRule (HAtom (mkAtom 0 [TVar 0; TVar 3]))
  [LAtom (at1 1 1); LAtom (at1 2 2); LBin CEq (TVar 0) (TVar 1); LBin CEq (TVar 2) (TVar 3)].
Example C29_ex : NoDup (eq_vars (r_body C29_r)) /\
  (forall v, var_eq (r_body C29_r) v -> forall d, In (LReduce d) (r_body C29_r) -> ~ In v (rd_other d)) /\
  propagate_equality reg_none (fun _ => 0) C29_r =
    Fine (mkRule (HAtom (mkAtom 0 [TVar 1; TVar 3])) [LAtom (at1 1 1); LAtom (at1 2 3)]).
Proof.
  split; [|split; [|vm_compute; reflexivity]].
  - vm_compute. repeat constructor; cbn; intuition discriminate.
  - intros v _ d Hd. cbn in Hd. intuition discriminate.
Qed.

(** [r(a) :- q(c), a == b, b == c] becomes [r(b) :- q(c)]: both equalities are
    removed, [a] is replaced by [b] and [b] by [c], and [b] is left free. *)
Theorem C29_chain_refuted : exists B gr nb r r' g X M p t, propagate_equality gr nb r = Fine r' /\
  ~ consequence B g X M r p t /\ consequence B g X M r' p t.
Proof.
  pose (r := mkRule (HAtom (at1 0 0)) [LAtom (at1 1 2); LBin CEq (TVar 0) (TVar 1); LBin CEq (TVar 1) (TVar 2)]).
  exists benv_none, reg_none, (fun _ => 0), r. eexists.
  exists reg_none, (fun p t => p = 1 /\ t = [I32 7]), (fun _ _ => False), 0, [I32 8].
  split; [vm_compute; reflexivity|]. split.
  - intros (s & S & Y).
    pose proof (S _ (or_introl eq_refl)) as S1. pose proof (S _ (or_intror (or_introl eq_refl))) as S2.
    pose proof (S _ (or_intror (or_intror (or_introl eq_refl)))) as S3. cbn in S1, S2, S3.
    destruct S1 as [_ S1]. injection S1 as S1.
    inversion Y as [a Ha E1 E2|v f l Hl|v f l q t Hl Ef A C|a q t Ha Fo Fe A C]; subst.
    + destruct Ha as [<-|[]]. cbn in E2. injection E2 as E2. congruence.
    + destruct A.
    + destruct A.
  - pose (s := fun v : var => (if Nat.eqb v 1 then I32 8 else I32 7) : value).
    exists s. split.
    + intros l [<-|[]]; cbn. auto.
    + match goal with |- yields _ _ ?r _ _ _ => apply (y_head benv_none reg_none r s (mkAtom 0 [TVar 1])) end.
      left; reflexivity.
Qed.

Print Assumptions C28_prop_partial.
Print Assumptions C29_equality_partial.
Print Assumptions C29_unified_partial.
