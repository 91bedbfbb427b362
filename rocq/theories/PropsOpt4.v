(** C49 for rules in which assigned variables are compared: the result of a
    computation may be equated with one variable that is not computed and is in no
    other equality ([y == x + 1]). *)
From Coq Require Import List ZArith Bool Arith Lia.
From Verif Require Import Order Value ListAux Back Eval Scc SccFacts BackSem Optimize PropsOpt PropsOpt2 PropsOpt3.
Import ListNotations.
Set Implicit Arguments.

Definition mentions (x : var) (t u : term) : Prop := t = TVar x \/ u = TVar x.
Record tame (body : list lit) : Prop := mkTame {
  tm_once : NoDup (asg body);
  tm_eq : forall x t u, In x (asg body) -> In (LBin CEq t u) body -> mentions x t u ->
    exists y, ~ In y (asg body) /\ ((t = TVar x /\ u = TVar y) \/ (t = TVar y /\ u = TVar x)) /\
      forall t' u', In (LBin CEq t' u') body -> mentions y t' u' -> mentions x t' u';
  tm_ite : forall v c t u, In (LAssign v (AIte c t u)) body -> exists x, c = TVar x /\ free_of body x;
  tm_new : forall v f l, ~ In (LAssign v (ANew f l)) body;
  tm_red : forall d, ~ In (LReduce d) body }.

Lemma tame_const : forall b v, tame b -> const_eq b v -> ~ In v (asg b).
Proof.
  intros b v T (c & [H|H]) I; destruct (tm_eq T I H) as (y & _ & [[E1 E2]|[E1 E2]] & _); unfold mentions; auto; try discriminate.
Qed.
Lemma ceqv_mentions : forall b x, In x (ceqv b) <-> exists t u, In (LBin CEq t u) b /\ mentions x t u.
Proof. exact in_ceqv. Qed.

(** ** Folding *)
Lemma tame_fold : forall E b b', tame b -> Forall2 (fun x y => fold_lit E x = EOk y) b b' -> tame b'.
Proof.
  intros E b b' [P1 P2 P3 P4 P5] F.
  assert (Cases : Forall2 (fun l l' => l' = l \/ ((l' = LTrue \/ l' = LFalse) /\ forall x e, l <> LAssign x e) \/
     (exists x e, l = LAssign x e /\ (l' = LFalse \/ exists c, l' = LBin CEq (TVar x) (TConst c)))) b b').
  { assert (G : forall b0, Forall2 (fun x y => fold_lit E x = EOk y) b0 b' -> incl b0 b ->
       Forall2 (fun l l' => l' = l \/ ((l' = LTrue \/ l' = LFalse) /\ forall x e, l <> LAssign x e) \/
     (exists x e, l = LAssign x e /\ (l' = LFalse \/ exists c, l' = LBin CEq (TVar x) (TConst c)))) b0 b').
    { intros b0 F0. clear F. induction F0 as [|l l' b0 b' H F0 IH]; intros I; constructor; [|apply IH; intros z Hz; apply I; right; auto].
      destruct (fold_lit_cases _ _ _ H) as [->|[(W & D)|[(x & e & -> & D & _)|(x & v & t & u & -> & D)]]]; auto.
      - right; left. split; auto. intros x e ->. discriminate.
      - right; right. eauto.
      - destruct (P3 x (TConst v) t u (I _ (or_introl eq_refl))) as (y & Q & _). discriminate. }
    apply G; auto. apply incl_refl. }
  clear F.
  assert (A : NoDup (asg b') /\ incl (asg b') (asg b) /\
     (forall t u, In (LBin CEq t u) b' -> In (LBin CEq t u) b \/ exists z c, t = TVar z /\ u = TConst c /\ In z (asg b) /\ ~ In z (asg b'))).
  { clear P2 P3 P4 P5. revert P1. induction Cases as [|l l' b b' H F IH]; intros N.
    - split; [constructor|]. split; [apply incl_refl|intros t u []].
    - assert (Nb : NoDup (asg b)) by (unfold asg in N; cbn in N; apply NoDup_app_r in N; exact N).
      destruct (IH Nb) as (I1 & I2 & I3).
      destruct H as [->|[(D & Na)|(x & e & -> & D)]].
      + destruct l.
        3:{ change (asg (LAssign v e :: b')) with (v :: asg b'). change (asg (LAssign v e :: b)) with (v :: asg b) in *.
          inversion N as [|? ? Nv _]; subst. split; [constructor; auto|]. split.
          { intros z [<-|Hz]; [left; auto|right; auto]. }
          intros t u [Hz|Hz]; [discriminate|]. destruct (I3 t u Hz) as [|(z & c & Q1 & Q2 & Q3 & Q4)]; [left; right; auto|].
          right. exists z, c. split; auto. split; auto. split; [right; auto|]. intros [->|Q]; auto. }
        all: split; [exact I1|]; split; [exact I2|]; intros ? ? [Hz|Hz]; [left; left; exact Hz|];
             destruct (I3 _ _ Hz) as [|Q]; [left; right; auto|right; exact Q].
      + assert (El : asg (l :: b) = asg b) by (destruct l; auto; destruct (Na v e eq_refl)).
        rewrite El. assert (El' : asg (l' :: b') = asg b') by (destruct D; subst; auto). rewrite El'. split; [exact I1|]. split; [exact I2|].
        intros t u [Hz|Hz]; [destruct D; subst; discriminate|]. destruct (I3 t u Hz) as [|Q]; [left; right; auto|right; exact Q].
      + change (asg (LAssign x e :: b)) with (x :: asg b) in *. inversion N as [|? ? Nx _]; subst.
        assert (El : asg (l' :: b') = asg b') by (destruct D as [->|(c & ->)]; reflexivity). rewrite El.
        split; [exact I1|]. split; [intros z Hz; right; auto|]. intros t u [Hz|Hz].
        * destruct D as [->|(c & ->)]; [discriminate|]. injection Hz as <- <-. right. exists x, c. split; auto. split; auto. split; [left; auto|]. intros Q. apply Nx. auto.
        * destruct (I3 t u Hz) as [|(z & c & Q1 & Q2 & Q3 & Q4)]; [left; right; auto|]. right. exists z, c. split; auto. split; auto. split; auto. right; auto. }
  destruct A as (A1 & A2 & A3).
  assert (Old : forall l', In l' b' -> (exists x e, l' = LAssign x e) \/ (exists d, l' = LReduce d) -> In l' b).
  { intros l' Hl K. clear - Cases Hl K. induction Cases as [|l m b b' H F IH]; [destruct Hl|]. destruct Hl as [->|Hl]; [|right; auto].
    left. destruct H as [->|[(D & _)|(x & e & -> & D)]]; auto.
    - destruct K as [(? & ? & ->)|(? & ->)]; destruct D; discriminate.
    - destruct K as [(? & ? & ->)|(? & ->)]; destruct D as [|(? & ?)]; discriminate. }
  assert (Fr : forall x, free_of b x -> free_of b' x).
  { intros x [F1 F2]. split; intros H; [|apply F2, A2; auto]. apply ceqv_mentions in H. destruct H as (t & u & H & Q). destruct (A3 t u H) as [J|(z & c & -> & -> & Z & _)].
    - apply F1. apply ceqv_mentions. eauto.
    - destruct Q as [Q|Q]; [|discriminate]. injection Q as ->. auto. }
  constructor; auto.
  - intros x t u Hx H Q. destruct (A3 t u H) as [J|(z & c & -> & -> & Z & Z')].
    + destruct (P2 x t u (A2 x Hx) J Q) as (y & Y1 & Y2 & Y3). exists y. split; [intros K; apply Y1; auto|]. split; auto.
      intros t' u' H' Q'. destruct (A3 t' u' H') as [J'|(z & c & -> & -> & Z & Z')]; [eauto|]. destruct Q' as [Q'|Q']; [|discriminate]. injection Q' as ->. contradiction.
    + destruct Q as [Q|Q]; [|discriminate]. injection Q as ->. contradiction.
  - intros v c t u H. destruct (P3 v c t u) as (x & Hx & Q); [apply Old; eauto|]. eauto.
  - intros v f l H. eapply P4. apply Old; eauto.
  - intros d H. eapply P5. apply Old; eauto.
Qed.

(** ** Propagating constants *)
Lemma tame_false : tame [LFalse].
Proof. constructor; cbn; try (intros; tauto); try constructor; intros; intuition discriminate. Qed.
Lemma prop_lit_bin : forall m l k t' u', prop_lit m l = LBin k t' u' -> exists t u, l = LBin k t u /\ t' = psub m t /\ u' = psub m u.
Proof.
  intros m l k t' u' H. destruct l; cbn in H; try discriminate.
  - destruct (lookup v m); discriminate.
  - injection H as <- <- <-. eauto.
Qed.
Lemma prop_lit_asg : forall m l x e', prop_lit m l = LAssign x e' -> exists e, l = LAssign x e /\ e' = map_aexpr (psub m) e /\ lookup x m = None.
Proof.
  intros m l x e' H. destruct l; cbn in H; try discriminate. destruct (lookup v m) eqn:L; [discriminate|]. injection H as <- <-. eauto.
Qed.
Lemma psub_var : forall m t x, psub m t = TVar x -> t = TVar x /\ lookup x m = None.
Proof. intros m [v|c] x H; cbn in H; [|discriminate]. destruct (lookup v m) eqn:L; [discriminate|]. injection H as ->. auto. Qed.
Lemma nodup_sub : forall (A : Type) (f : lit -> list A) (F : lit -> lit) (K : lit -> bool) b,
  (forall l, f (F l) = f l \/ f (F l) = []) -> NoDup (flat_map f b) -> NoDup (flat_map f (map F (filter K b))).
Proof.
  intros A f F K b H. assert (G : NoDup (flat_map f b) -> NoDup (flat_map f (map F (filter K b))) /\ incl (flat_map f (map F (filter K b))) (flat_map f b)).
  { induction b as [|l b IH]; intros N; [split; [constructor|apply incl_refl]|]. cbn [flat_map] in N. assert (Nr : NoDup (flat_map f b)) by (eapply NoDup_app_r; eauto). destruct (IH Nr) as [I1 I2].
    cbn [filter]. destruct (K l); [|split; auto; cbn [flat_map]; apply incl_appr; auto]. cbn [map flat_map]. destruct (H l) as [-> | ->].
    - split; [|apply incl_app; [apply incl_appl, incl_refl|apply incl_appr; auto]].
      clear - N I1 I2. revert N. generalize (f l) as u. induction u as [|x u IHu]; intros N; cbn [app]; auto. cbn [app] in N. inversion N as [|? ? Nx N']; subst. constructor; auto.
      intros J. apply Nx. apply in_app_or in J. apply in_or_app. destruct J; auto.
    - cbn [app]. split; auto. apply incl_appr; auto. }
  intros N. apply G; auto.
Qed.
Lemma tame_prop : forall b m K, tame b -> (forall v c, lookup v m = Some c -> const_eq b v) -> tame (map (prop_lit m) (filter K b)).
Proof.
  intros b m K T D. set (b' := map (prop_lit m) (filter K b)).
  assert (Ia : forall x e', In (LAssign x e') b' -> exists e, In (LAssign x e) b /\ e' = map_aexpr (psub m) e).
  { intros x e' H. apply in_map_iff in H. destruct H as (l & E & H). apply filter_In in H. destruct H as [H _]. destruct (prop_lit_asg _ _ E) as (e & -> & -> & _). eauto. }
  assert (Ib : forall t' u', In (LBin CEq t' u') b' -> exists t u, In (LBin CEq t u) b /\ t' = psub m t /\ u' = psub m u).
  { intros t' u' H. apply in_map_iff in H. destruct H as (l & E & H). apply filter_In in H. destruct H as [H _]. destruct (prop_lit_bin _ _ E) as (t & u & -> & -> & ->). eauto. }
  assert (Is : incl (asg b') (asg b)). { intros x H. apply in_asg in H. destruct H as (e' & H). destruct (Ia _ _ H) as (e & He & _). apply in_asg; eauto. }
  assert (Im : forall x t u, mentions x (psub m t) (psub m u) -> mentions x t u /\ lookup x m = None).
  { intros x t u [H|H]; apply psub_var in H; destruct H as [-> L]; split; auto; unfold mentions; auto. }
  constructor.
  - unfold b', asg. apply nodup_sub; [|apply (tm_once T)]. intros l. destruct l; cbn; auto. destruct (lookup v m); auto.
  - intros x t' u' Hx H Q. destruct (Ib _ _ H) as (t & u & J & -> & ->). destruct (Im _ _ _ Q) as [Q' Lx]. destruct (tm_eq T (Is x Hx) J Q') as (y & Y1 & Y2 & Y3).
    assert (Ly : lookup y m = None).
    { destruct (lookup y m) as [c|] eqn:L; auto. exfalso. destruct (D y c L) as (c' & [Z|Z]).
      - destruct (Y3 _ _ Z (or_introl eq_refl)) as [Z'|Z']; [injection Z' as ->; apply Y1, Is; auto|discriminate].
      - destruct (Y3 _ _ Z (or_intror eq_refl)) as [Z'|Z']; [discriminate|injection Z' as ->; apply Y1, Is; auto]. }
    exists y. split; [intros Z; apply Y1, Is; auto|]. split.
    + destruct Y2 as [[-> ->]|[-> ->]]; [left|right]; cbn; rewrite Lx, Ly; auto.
    + intros t1 u1 H1 Q1. destruct (Ib _ _ H1) as (t2 & u2 & J2 & -> & ->). destruct (Im _ _ _ Q1) as [Q2 _].
      destruct (Y3 _ _ J2 Q2) as [-> | ->]; [left|right]; cbn; rewrite Lx; auto.
  - intros v c t u H. destruct (Ia _ _ H) as (e & He & E). destruct e; try discriminate. cbn in E. injection E as -> -> ->.
    destruct (tm_ite T _ _ _ _ He) as (x & -> & F1 & F2). exists x. split.
    + cbn. destruct (lookup x m) as [c'|] eqn:L; auto. exfalso. apply F1. destruct (D x c' L) as (c & [Z|Z]); apply ceqv_mentions; eexists _, _; (split; [exact Z|]); unfold mentions; auto.
    + split; [|intros Z; apply F2, Is; auto]. intros Z. apply ceqv_mentions in Z. destruct Z as (t' & u' & Z & Q). destruct (Ib _ _ Z) as (t2 & u2 & J2 & -> & ->).
      destruct (Im _ _ _ Q) as [Q2 _]. apply F1. apply ceqv_mentions. eauto.
  - intros v f l H. destruct (Ia _ _ H) as (e & He & E). destruct e; try discriminate. exact (tm_new T _ _ _ He).
  - intros d H. apply in_map_iff in H. destruct H as (l & E & H). apply filter_In in H. destruct H as [H _]. destruct l; cbn in E; try discriminate; [destruct (lookup v m); discriminate|].
    injection E as ->. exact (tm_red T _ H).
Qed.
Lemma tame_round : forall B r r', tame (r_body r) -> opt_round (b_env B) r = Fine r' -> tame (r_body r') /\ same_rule B r r'.
Proof.
  intros B r r' P H. unfold opt_round in H.
  destruct (constant_fold (b_env B) r) as [r1| |] eqn:C; try discriminate. cbn [obindo] in H.
  assert (S1 : same_rule B r r1).
  { intros g X M p t. apply C27_fold_entities; auto. intros v f l Hl. destruct (tm_new P _ _ _ Hl). }
  assert (P1 : tame (r_body r1)).
  { unfold constant_fold in C. destruct (emap (fold_lit (b_env B)) (r_body r)) as [b| |] eqn:Eb; try discriminate.
    injection C as <-. eapply tame_fold; eauto. apply emap_Forall2; eauto. }
  split.
  - unfold constant_prop in H. destruct (cannot_substitute (r_body r1)) as [cs| |]; try discriminate. cbn [obindo] in H.
    destruct (prop_collect cs (r_body r1) [] false) as [m bad] eqn:PC.
    destruct (prop_collect_spec _ _ _ _ _ _ PC) as (_ & _ & _ & A4 & _).
    assert (D : forall v c, lookup v m = Some c -> const_eq (r_body r1) v).
    { intros v c L. destruct (A4 v c L) as [Z|(l & Hl & Dl)]; [discriminate|]. eapply dropped_const_eq; eauto. }
    destruct bad; injection H as <-; cbn [r_body]; [apply tame_false|apply tame_prop; auto].
  - intros g X M p t. etransitivity; [apply S1|]. apply C28_prop_partial; auto. intros v Hv. split.
    + intros e He. apply (tame_const P1 Hv). apply in_asg. eauto.
    + intros d Hd. destruct (tm_red P1 _ Hd).
Qed.
Lemma tame_loop : forall B n r r', tame (r_body r) -> opt_loop (b_env B) n r = Fine r' -> tame (r_body r') /\ same_rule B r r'.
Proof.
  induction n as [|n IH]; intros r r' P H; [discriminate|]. cbn [opt_loop] in H.
  destruct (opt_round (b_env B) r) as [r1| |] eqn:O; try discriminate. cbn [obindo] in H.
  destruct (tame_round _ _ P O) as [P1 S1].
  destruct (rule_eq_dec r r1); [injection H as <-; auto|].
  destruct (IH _ _ P1 H) as [P2 S2]. split; auto. intros g X M p t. etransitivity; [apply S1|apply S2].
Qed.

(** ** Propagating equalities *)
Lemma nodup_flat_unique : forall (A B : Type) (f : A -> list B) l, NoDup (flat_map f l) -> forall x y v, In x l -> In y l -> In v (f x) -> In v (f y) -> x = y.
Proof.
  intros A B f. induction l as [|a l IH]; intros N x y v Ix Iy Jx Jy; [destruct Ix|]. cbn [flat_map] in N.
  assert (Dis : forall z, In z l -> In v (f a) -> In v (f z) -> False).
  { intros z Iz Ja Jz. clear - N Iz Ja Jz. induction (f a) as [|w u IHu]; [destruct Ja|]. cbn [app] in N. inversion N as [|? ? Nw N']; subst.
    destruct Ja as [->|Ja]; [|auto]. apply Nw. apply in_or_app. right. apply in_flat_map. eauto. }
  destruct Ix as [<-|Ix], Iy as [<-|Iy]; auto; try (exfalso; eauto; fail). eapply IH; eauto. eapply NoDup_app_r; eauto.
Qed.
Lemma collect_fresh : forall ps m, NoDup (flat_map (fun p : var * var => [fst p; snd p]) ps) -> (forall v, In v (flat_map (fun p => [fst p; snd p]) ps) -> lookup v m = None) ->
  forall v w, lookup v (fold_left eq_step ps m) = Some w <-> In (v, w) ps \/ lookup v m = Some w.
Proof.
  induction ps as [|[a b] ps IH]; intros m N F v w; cbn [fold_left]; [cbn; tauto|].
  cbn [flat_map fst snd app] in N, F. inversion N as [|? ? Na N1]; subst. inversion N1 as [|? ? Nb N2]; subst.
  assert (E : eq_step m (a, b) = (a, b) :: m) by (unfold eq_step; cbn [fst snd]; rewrite (F a), (F b) by (cbn; auto); reflexivity).
  rewrite E. rewrite IH; auto.
  - cbn [lookup]. destruct (Nat.eqb_spec v a) as [->|Ne].
    + split; [intros [I|I]; [left; right; auto|injection I as ->; left; left; auto]|]. intros [[I|I]|I].
      * injection I as ->. auto.
      * auto.
      * rewrite (F a) in I by (cbn; auto). discriminate.
    + split; [intros [I|I]; auto; left; right; auto|]. intros [[I|I]|I]; auto. injection I as -> ->. congruence.
  - intros x I. cbn [lookup]. destruct (Nat.eqb_spec x a) as [->|]; [destruct Na; right; auto|]. apply F. right; right; auto.
Qed.
Lemma eq_lit_bin : forall m l k t' u', eq_lit m l = LBin k t' u' -> exists t u, l = LBin k t u /\ t' = tsub m t /\ u' = tsub m u.
Proof. intros m l k t' u' H. destruct l; cbn in H; try discriminate. injection H as <- <- <-. eauto. Qed.
Lemma eq_lit_asg : forall m l x' e', eq_lit m l = LAssign x' e' -> exists x e, l = LAssign x e /\ e' = map_aexpr (tsub m) e /\ x' = vsub m x.
Proof. intros m l x e' H. destruct l; cbn in H; try discriminate. injection H as <- <-. eauto. Qed.

Section TameEq.
  Variables (cs bd : list nat) (b : list lit).
  Hypothesis T : tame b.
  Hypothesis N : NoDup (eq_vars b).
  Let m := eq_collect cs bd b.
  Let K := fun l => is_none (eq_dropped cs bd l).
  Let b' := map (eq_lit m) (filter K b).
  Lemma m_pairs : forall v w, lookup v m = Some w <-> In (LBin CEq (TVar v) (TVar w)) b /\ eq_dropped cs bd (LBin CEq (TVar v) (TVar w)) = Some (v, w).
  Proof.
    intros v w. unfold m, eq_collect. destruct (pairs_sub cs bd b N) as [N' _]. rewrite (collect_fresh _ _ N') by reflexivity. rewrite pairs_dropped_In. split.
    - intros [(l & Hl & D)|H]; [|discriminate]. destruct l as [| | |k t u| | | |]; try discriminate. destruct k, t, u; try discriminate. pose proof D as D'. cbn in D.
      destruct (memb v0 cs || memb v1 cs); [discriminate|]. destruct (memb v0 bd && memb v1 bd); [discriminate|]. injection D as -> ->. auto.
    - intros [H D]. left. eauto.
  Qed.
  Lemma eq_unique : forall t u t' u' v, In (LBin CEq (TVar t) (TVar u)) b -> In (LBin CEq (TVar t') (TVar u')) b -> v = t \/ v = u -> v = t' \/ v = u' -> t = t' /\ u = u'.
  Proof.
    intros t u t' u' v H H' Q Q'. assert (E : LBin CEq (TVar t) (TVar u) = LBin CEq (TVar t') (TVar u')).
    { eapply (nodup_flat_unique _ b N) with (v := v); eauto; cbn; intuition. }
    injection E as -> ->. auto.
  Qed.
  Lemma pair_distinct : forall v w, In (LBin CEq (TVar v) (TVar w)) b -> v <> w.
  Proof.
    intros v w H E. subst w. clear - H N. unfold eq_vars in N. induction b as [|l b0 IH]; [destruct H|]. cbn [flat_map] in N. destruct H as [->|H].
    - cbn in N. inversion N as [|? ? Z _]; subst. apply Z. left; auto.
    - apply IH; auto. eapply NoDup_app_r; eauto.
  Qed.
  (** A pair that is removed: its first variable is replaced by the second, which
      is not replaced. *)
  Lemma value_not_key : forall v w, lookup v m = Some w -> lookup w m = None.
  Proof.
    intros v w L. destruct (lookup w m) as [z|] eqn:L'; auto. exfalso. apply m_pairs in L. apply m_pairs in L'. destruct L as [H _], L' as [H' _].
    destruct (@eq_unique v w w z w H H') as [-> ->]; auto. exact (pair_distinct H eq_refl).
  Qed.
  Lemma vsub_cases : forall q z, vsub m q = z -> (q = z /\ lookup q m = None) \/ (lookup q m = Some z /\ q <> z).
  Proof.
    intros q z H. unfold vsub in H. destruct (lookup q m) as [w|] eqn:L; [|auto]. subst w. right. split; auto. apply m_pairs in L. apply pair_distinct. apply L.
  Qed.
  Lemma kept_bin : forall t' u', In (LBin CEq t' u') b' -> exists t u, In (LBin CEq t u) b /\ eq_dropped cs bd (LBin CEq t u) = None /\ t' = tsub m t /\ u' = tsub m u.
  Proof.
    intros t' u' H. apply in_map_iff in H. destruct H as (l & E & H). apply filter_In in H. destruct H as [H D]. destruct (eq_lit_bin _ _ E) as (t & u & -> & -> & ->).
    exists t, u. split; auto. split; auto. unfold K in D. destruct (eq_dropped cs bd (LBin CEq t u)); [discriminate|auto].
  Qed.
  Lemma tsub_var : forall t x, tsub m t = TVar x -> exists q, t = TVar q /\ vsub m q = x.
  Proof. intros [q|c] x H; cbn in H; [|discriminate]. injection H as H. eauto. Qed.
  Lemma kept_asg : forall x', In x' (asg b') <-> exists x, In x (asg b) /\ x' = vsub m x.
  Proof.
    intros x'. rewrite in_asg. split.
    - intros (e' & H). apply in_map_iff in H. destruct H as (l & E & H). apply filter_In in H. destruct H as [H _]. destruct (eq_lit_asg _ _ E) as (x & e & -> & _ & ->).
      exists x. split; auto. apply in_asg. eauto.
    - intros (x & H & ->). apply in_asg in H. destruct H as (e & H). exists (map_aexpr (tsub m) e). apply in_map_iff. exists (LAssign x e). split; auto. apply filter_In. auto.
  Qed.
  (** The other side of a removed equality with an assigned variable. *)
  Lemma pair_assigned : forall v w, lookup v m = Some w ->
    (In v (asg b) -> ~ In w (asg b) /\ forall t u, In (LBin CEq t u) b -> mentions w t u -> mentions v t u) /\
    (In w (asg b) -> ~ In v (asg b) /\ forall t u, In (LBin CEq t u) b -> mentions v t u -> mentions w t u).
  Proof.
    intros v w L. apply m_pairs in L. destruct L as [H _]. pose proof (pair_distinct H) as Ne. split; intros A.
    - destruct (tm_eq T A H (or_introl eq_refl)) as (y & Y1 & [[_ Y2]|[_ Y2]] & Y3); injection Y2 as ->; [auto|congruence].
    - destruct (tm_eq T A H (or_intror eq_refl)) as (y & Y1 & [[Y2 _]|[Y2 _]] & Y3); injection Y2 as ->; [congruence|auto].
  Qed.
  (** A kept equality shares no variable with a removed one, if it is between
      variables. *)
  Lemma kept_apart : forall t u v w, In (LBin CEq (TVar t) (TVar u)) b -> eq_dropped cs bd (LBin CEq (TVar t) (TVar u)) = None -> lookup v m = Some w ->
    forall z, z = t \/ z = u -> z = v \/ z = w -> False.
  Proof.
    intros t u v w H D L z Q Q'. apply m_pairs in L. destruct L as [H' D']. destruct (@eq_unique t u v w z H H' Q Q') as [-> ->]. congruence.
  Qed.
  Lemma tame_eq_body : tame b'.
  Proof.
    assert (Inj : forall x y, In x (asg b) -> In y (asg b) -> vsub m x = vsub m y -> x = y).
    { intros x y Ix Iy E. destruct (@vsub_cases x _ eq_refl) as [[E1 L1]|[L1 _]].
      - destruct (@vsub_cases y _ eq_refl) as [[E2 L2]|[L2 _]]; [congruence|]. rewrite <- E, <- E1 in L2.
        destruct (proj1 (@pair_assigned _ _ L2) Iy) as [Z _]. contradiction.
      - destruct (@vsub_cases y _ eq_refl) as [[E2 L2]|[L2 _]].
        + rewrite E, <- E2 in L1. destruct (proj1 (@pair_assigned _ _ L1) Ix) as [Z _]. contradiction.
        + rewrite <- E in L2. apply m_pairs in L1. apply m_pairs in L2. destruct L1 as [H1 _], L2 as [H2 _]. apply (@eq_unique _ _ _ _ (vsub m x) H1 H2); auto. }
    constructor.
    - assert (E : asg b' = map (vsub m) (asg b)).
      { unfold b', asg. generalize m. intros m0. clear - K. induction b as [|l b0 IH]; [reflexivity|]. cbn [filter flat_map]. destruct (K l) eqn:Kl.
        - cbn [map flat_map]. rewrite IH. destruct l; reflexivity.
        - rewrite IH. destruct l; try reflexivity. discriminate Kl. }
      rewrite E. clear E. pose proof (tm_once T) as N1. revert Inj N1. generalize (asg b). induction l as [|x l IH]; intros Inj N1; cbn; [constructor|].
      inversion N1 as [|? ? Nx N2]; subst. constructor; [|apply IH; auto; intros; apply Inj; cbn; auto].
      intros I. apply in_map_iff in I. destruct I as (y & E & I). apply Nx. rewrite <- (Inj y x); cbn; auto.
    - intros z t' u' Hz H Q. apply kept_asg in Hz. destruct Hz as (x & Hx & ->). destruct (kept_bin _ _ H) as (t & u & J & D & -> & ->).
      assert (Q0 : exists q, mentions q t u /\ vsub m q = vsub m x).
      { destruct Q as [Q|Q]; destruct (tsub_var _ Q) as (q & -> & E); exists q; split; auto; unfold mentions; auto. }
      destruct Q0 as (q & Qq & Eq).
      assert (Qx : mentions x t u).
      { destruct (@vsub_cases x _ eq_refl) as [[Ex Lx]|[Lx Nx]].
        - rewrite <- Ex in Eq. destruct (@vsub_cases _ _ Eq) as [[-> _]|[Lq _]]; auto. destruct (proj2 (@pair_assigned _ _ Lq) Hx) as [_ Z]. auto.
        - destruct (@vsub_cases _ _ Eq) as [[E _]|[Lq _]].
          + destruct (proj1 (@pair_assigned _ _ Lx) Hx) as [_ Z]. apply Z; auto. rewrite <- E. auto.
          + apply m_pairs in Lx. apply m_pairs in Lq. destruct Lx as [H1 _], Lq as [H2 _]. destruct (@eq_unique _ _ _ _ (vsub m x) H1 H2) as [E _]; auto. rewrite E. exact Qq. }
      destruct (tm_eq T Hx J Qx) as (y & Y1 & Y2 & Y3).
      assert (VV : In (LBin CEq (TVar x) (TVar y)) b /\ eq_dropped cs bd (LBin CEq (TVar x) (TVar y)) = None \/ In (LBin CEq (TVar y) (TVar x)) b /\ eq_dropped cs bd (LBin CEq (TVar y) (TVar x)) = None)
        by (destruct Y2 as [[-> ->]|[-> ->]]; auto).
      assert (Ap : forall v w z, lookup v m = Some w -> z = x \/ z = y -> z = v \/ z = w -> False).
      { intros v w z L Z1 Z2. destruct VV as [[V1 V2]|[V1 V2]]; [eapply (@kept_apart _ _ _ _ V1 V2 L z); eauto|eapply (@kept_apart _ _ _ _ V1 V2 L z); [destruct Z1; auto|eauto]]. }
      assert (Lx : lookup x m = None) by (destruct (lookup x m) as [w|] eqn:L; auto; destruct (Ap _ _ x L (or_introl eq_refl) (or_introl eq_refl))).
      assert (Ly : lookup y m = None) by (destruct (lookup y m) as [w|] eqn:L; auto; destruct (Ap _ _ y L (or_intror eq_refl) (or_introl eq_refl))).
      assert (Vx : vsub m x = x) by (unfold vsub; rewrite Lx; auto). assert (Vy : vsub m y = y) by (unfold vsub; rewrite Ly; auto).
      exists y. rewrite Vx. split.
      { intros Z. apply kept_asg in Z. destruct Z as (x' & Z1 & Z2). symmetry in Z2. destruct (@vsub_cases _ _ Z2) as [[-> _]|[L _]]; [contradiction|]. destruct (Ap _ _ y L (or_intror eq_refl) (or_intror eq_refl)). }
      split; [destruct Y2 as [[-> ->]|[-> ->]]; cbn; rewrite Vx, Vy; auto|].
      intros t1 u1 H1 Q1. destruct (kept_bin _ _ H1) as (t2 & u2 & J2 & _ & -> & ->).
      assert (Q2 : mentions y t2 u2).
      { destruct Q1 as [Q1|Q1]; destruct (tsub_var _ Q1) as (q2 & -> & E2); (destruct (@vsub_cases _ _ E2) as [[-> _]|[L2 _]]; [unfold mentions; auto|destruct (Ap _ _ y L2 (or_intror eq_refl) (or_intror eq_refl))]). }
      destruct (Y3 _ _ J2 Q2) as [-> | ->]; [left|right]; cbn; rewrite Vx; auto.
    - intros v c t u H. apply in_map_iff in H. destruct H as (l & E & H). apply filter_In in H. destruct H as [H _]. destruct (eq_lit_asg _ _ E) as (v0 & e & -> & E1 & E2).
      destruct e as [| |c0 t0 u0| |]; try discriminate. cbn in E1. injection E1 as -> -> ->. destruct (tm_ite T _ _ _ _ H) as (x & -> & F1 & F2).
      assert (No : forall a w, lookup a m = Some w -> x <> a /\ x <> w).
      { intros a w L. apply m_pairs in L. destruct L as [L _]. split; intros ->; apply F1; apply ceqv_mentions; eexists _, _; (split; [exact L|]); unfold mentions; auto. }
      exists x. split.
      + cbn. unfold vsub. destruct (lookup x m) as [w|] eqn:L; auto. destruct (No _ _ L) as [Z _]. congruence.
      + split.
        * intros Z. apply ceqv_mentions in Z. destruct Z as (t' & u' & Z & Q). destruct (kept_bin _ _ Z) as (t2 & u2 & J2 & _ & -> & ->). apply F1. apply ceqv_mentions. exists t2, u2. split; auto.
          destruct Q as [Q|Q]; destruct (tsub_var _ Q) as (q2 & -> & E3); (destruct (@vsub_cases _ _ E3) as [[-> _]|[L3 _]]; [unfold mentions; auto|destruct (No _ _ L3); congruence]).
        * intros Z. apply kept_asg in Z. destruct Z as (x' & Z1 & Z2). symmetry in Z2. destruct (@vsub_cases _ _ Z2) as [[-> _]|[L _]]; [contradiction|]. destruct (No _ _ L); congruence.
    - intros v f l H. apply in_map_iff in H. destruct H as (l0 & E & H). apply filter_In in H. destruct H as [H _]. destruct (eq_lit_asg _ _ E) as (v0 & e & -> & E1 & E2).
      destruct e; try discriminate. exact (tm_new T _ _ _ H).
    - intros d H. apply in_map_iff in H. destruct H as (l & E & H). apply filter_In in H. destruct H as [H _]. destruct l; cbn in E; try discriminate. injection E as ->. exact (tm_red T _ H).
  Qed.
End TameEq.
Lemma tame_propagate : forall B gr nb r r', tame (r_body r) -> NoDup (eq_vars (r_body r)) ->
  propagate_equality gr nb r = Fine r' -> tame (r_body r') /\ same_rule B r r'.
Proof.
  intros B gr nb r r' P N H. split.
  - unfold propagate_equality in H. destruct (bounded gr nb (r_body r)) as [bd| |]; try discriminate. injection H as <-. apply tame_eq_body; auto.
  - intros g X M p t. apply C29_equality_partial with (gr := gr) (nb := nb); auto. intros v Hv d Hd. destruct (tm_red P _ Hd).
Qed.

(** ** Programs *)
Lemma opted_stable : forall B nb P rs, (forall r r', In r (p_rules P) -> opt_rule (b_env B) (p_reg P) nb r = Fine r' -> same_rule B r r') ->
  opt_rules (b_env B) (p_reg P) nb (p_rules P) = Fine rs ->
  forall M, stable B P M <-> stable B (mkProg (p_rels P) (p_outputs P) (p_facts P) (remove_false_rules rs) (p_reg P)) M.
Proof.
  intros B nb P rs Safe O.
  assert (F : Forall2 (same_rule B) (p_rules P) rs).
  { revert rs O. revert Safe. generalize (p_rules P). induction l as [|r l IH]; intros Safe rs O; cbn [opt_rules] in O.
    - injection O as <-. constructor.
    - destruct (opt_rule (b_env B) (p_reg P) nb r) as [r'| |] eqn:R; try discriminate. cbn [obindo] in O.
      destruct (opt_rules (b_env B) (p_reg P) nb l) as [rs'| |] eqn:R'; try discriminate. injection O as <-.
      constructor; [apply Safe; auto; left; auto|apply IH; auto; intros; apply Safe; auto; right; auto]. }
  apply step_stable; [reflexivity|]. intros X M p t. unfold step. cbn [p_facts p_rules p_reg].
  assert (R : (exists r, In r (p_rules P) /\ consequence B (p_reg P) X M r p t) <->
              (exists r, In r (remove_false_rules rs) /\ consequence B (p_reg P) X M r p t)); [|rewrite R; tauto].
  clear - F. split.
  - intros (r & Hr & C). induction F as [|r0 r' l l' S F IH]; [destruct Hr|]. destruct Hr as [->|Hr].
    + apply S in C. exists r'. split; auto. apply filter_In. split; [left; auto|].
      destruct (has_false r') eqn:E; auto. destruct (has_false_none _ _ _ _ _ _ _ E C).
    + destruct (IH Hr) as (r1 & H1 & C1). exists r1. split; auto. apply filter_In in H1. apply filter_In. split; [right|]; tauto.
  - intros (r & Hr & C). apply filter_In in Hr. destruct Hr as [Hr _].
    induction F as [|r0 r' l l' S F IH]; [destruct Hr|]. destruct Hr as [->|Hr].
    + exists r0. split; [left; auto|]. apply S; auto.
    + destruct (IH Hr) as (r1 & H1 & C1). exists r1. split; [right|]; auto.
Qed.
Lemma to_fact_stable : forall B P ks fs, empty_to_fact (p_rules P) = Some (ks, fs) ->
  forall M, stable B P M <-> stable B (mkProg (p_rels P) (p_outputs P) (p_facts P ++ fs) ks (p_reg P)) M.
Proof.
  intros B P ks fs Ef. apply step_stable; [reflexivity|]. intros X M p t. unfold step. cbn [p_facts p_rules p_reg].
  rewrite (empty_to_fact_spec _ _ _ Ef). split.
  - intros [(f & Hf & Q)|[(f & Hf & Q)|Q]]; auto; left; exists f; (split; [apply in_or_app; auto|exact Q]).
  - intros [(f & Hf & Q)|Q]; auto. apply in_app_or in Hf. destruct Hf as [Hf|Hf]; [left|right; left]; eauto.
Qed.
Lemma rules_stable : forall B nb P P', (forall r r', In r (p_rules P) -> opt_rule (b_env B) (p_reg P) nb r = Fine r' -> same_rule B r r') ->
  apply_optimizations (b_env B) nb P = Fine P' -> forall M, stable B P M <-> stable B P' M.
Proof.
  intros B nb P P' Safe H M. unfold apply_optimizations in H.
  destruct (opt_rules (b_env B) (p_reg P) nb (p_rules P)) as [rs| |] eqn:O; try discriminate. cbn [obindo] in H.
  destruct (empty_to_fact (remove_false_rules rs)) as [[ks fs]|] eqn:Ef; [|discriminate]. injection H as <-.
  rewrite (@opted_stable B nb P rs Safe O M). exact (@to_fact_stable B (mkProg (p_rels P) (p_outputs P) (p_facts P) (remove_false_rules rs) (p_reg P)) ks fs Ef M).
Qed.
Lemma tame_same : forall B gr nb r r', tame (r_body r) -> NoDup (eq_vars (r_body r)) -> opt_rule (b_env B) gr nb r = Fine r' -> same_rule B r r'.
Proof.
  intros B gr nb r r' Pr Nr R. unfold opt_rule in R.
  destruct (propagate_equality gr nb r) as [r1| |] eqn:Q; try discriminate. cbn [obindo] in R.
  destruct (tame_propagate B _ _ _ Pr Nr Q) as [P1 S1].
  destruct (opt_loop (b_env B) (S (weight (r_body r1))) r1) as [r2| |] eqn:L; try discriminate. injection R as <-.
  destruct (tame_loop _ _ _ P1 L) as [_ S2].
  intros g X M p t. etransitivity; [apply S1|]. etransitivity; [apply S2|]. apply remove_true_same.
Qed.
(** C49 for rules in which the result of a computation is compared with a variable
    that is in no other equality. *)
Theorem C49_compared_partial : forall B nb P P',
  (forall r, In r (p_rules P) -> tame (r_body r) /\ NoDup (eq_vars (r_body r))) ->
  apply_optimizations (b_env B) nb P = Fine P' ->
  forall M, stable B P M <-> stable B P' M.
Proof.
  intros B nb P P' Safe H. apply rules_stable with (nb := nb); auto. intros r r' I R. destruct (Safe r I) as [Pr Nr]. eapply tame_same; eauto.
Qed.

(** [r(x, y) :- q(x, z), w = z * 2, y == w, z == 4]; [s(x) :- q(x, z), u = z + 1, u < x]. *)
Definition C49_Q : program := mkProg [] [0; 2] [mkFact 1 [I32 1; I32 4]]
  [mkRule (HAtom (mkAtom 0 [TVar 0; TVar 1]))
     [LAtom (mkAtom 1 [TVar 0; TVar 2]); LAssign 3 (ABin OMul (TVar 2) (TConst (I32 2))); LBin CEq (TVar 1) (TVar 3); LBin CEq (TVar 2) (TConst (I32 4))];
   mkRule (HAtom (at1 2 0)) [LAtom (mkAtom 1 [TVar 0; TVar 1]); LAssign 2 (ABin OAdd (TVar 1) (TConst (I32 1))); LBin CLt (TVar 2) (TVar 0)]] reg_none.
Example C49_compared_ex :
  (forall r, In r (p_rules C49_Q) -> tame (r_body r) /\ NoDup (eq_vars (r_body r))) /\
  ~ plain (r_body (nth 0 (p_rules C49_Q) (mkRule (HAtom (at1 0 0)) []))) /\
  apply_optimizations (b_env benv_none) (fun _ => 0) C49_Q =
    Fine (mkProg [] [0; 2] [mkFact 1 [I32 1; I32 4]]
      [mkRule (HAtom (mkAtom 0 [TVar 0; TConst (I32 8)])) [LAtom (mkAtom 1 [TVar 0; TConst (I32 4)])];
       mkRule (HAtom (at1 2 0)) [LAtom (mkAtom 1 [TVar 0; TVar 1]); LAssign 2 (ABin OAdd (TVar 1) (TConst (I32 1))); LBin CLt (TVar 2) (TVar 0)]] reg_none).
Proof.
  split; [|split; [|vm_compute; reflexivity]].
  - intros r Hr. cbn in Hr. destruct Hr as [<-|[<-|[]]]; (split; [constructor|]); cbn; unfold mentions;
      repeat (constructor; cbn; try (intuition discriminate));
      try (intros; repeat match goal with H : _ \/ _ |- _ => destruct H end; try discriminate; try contradiction; subst; intuition discriminate).
    intros x t u [<-|[]] [H|[H|[H|[H|[]]]]] Q; try discriminate; injection H as <- <-; [|destruct Q; discriminate].
    exists 1. split; [intros [Z|[]]; discriminate|]. split; [right; auto|]. intros t' u' [H|[H|[H|[H|[]]]]] Q'; try discriminate; injection H as <- <-; auto. destruct Q' as [Q'|Q']; discriminate.
  - intros P. exact (pl_noeq _ P 3 (or_introl eq_refl) ltac:(cbn; tauto)).
Qed.
Print Assumptions C49_compared_partial.
