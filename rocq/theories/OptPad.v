(** The rule optimizations (Optimize.v) treat padded rules (PlanPad.v) as the rules
    without the padding.  Used by C61. *)
From Coq Require Import List ZArith Bool Arith Lia.
From Verif Require Import Order Value ListAux Back Eval Scc SccFacts BackSem Optimize PropsOpt PropsOpt2 PropsOpt3 PropsOpt4 Plan PlanSem PlanFacts PlanPad PadRun.
Import ListNotations.
Set Implicit Arguments.

(** ** Bound variables *)
Inductive bnd (g : registry) (nb : pred -> nat) (b : list lit) : var -> Prop :=
| bnd_atom v : In v (flat_map (atom_bound g nb) b) -> bnd g nb b v
| bnd_asg x e : In (LAssign x e) b -> (forall v, In v (aexpr_vars e) -> bnd g nb b v) -> bnd g nb b x.
Definition bstep (b : list nat) (l : lit) : list nat :=
  match l with LAssign x e => if memb x b then b else if forallb (fun v => memb v b) (aexpr_vars e) then x :: b else b | _ => b end.
Lemma bstep_ext : forall l bd, exists ext, bstep bd l = ext ++ bd /\ (forall x, In x ext -> ~ In x bd /\ exists e, l = LAssign x e /\ forall v, In v (aexpr_vars e) -> In v bd).
Proof.
  intros l bd. assert (Z : exists ext : list nat, bd = ext ++ bd /\ (forall x, In x ext -> ~ In x bd /\ exists e, l = LAssign x e /\ forall v, In v (aexpr_vars e) -> In v bd)).
  { exists []. split; auto. intros x []. }
  destruct l; try exact Z. cbn [bstep]. destruct (memb v bd) eqn:M; [exact Z|]. destruct (forallb _ _) eqn:F; [|exact Z].
  exists [v]. split; auto. intros x [<-|[]]. split; [intros I; apply SccFacts.memb_In in I; congruence|]. exists e. split; auto.
  intros w I. rewrite forallb_forall in F. apply SccFacts.memb_In. auto.
Qed.
Lemma pass_ext : forall b bd, exists ext, bound_pass b bd = ext ++ bd /\ forall x, In x ext -> ~ In x bd /\ In x (asg b).
Proof.
  unfold bound_pass. fold bstep. induction b as [|l b IH]; intros bd; cbn [fold_left]; [exists []; split; auto; intros x []|].
  destruct (bstep_ext l bd) as (e1 & E1 & H1). destruct (IH (bstep bd l)) as (e2 & E2 & H2). exists (e2 ++ e1). split; [change (fold_left bstep b (bstep bd l) = (e2 ++ e1) ++ bd); rewrite <- app_assoc, <- E1; exact E2|].
  intros x I. apply in_app_or in I. destruct I as [I|I].
  - destruct (H2 x I) as [N A]. split; [intros J; apply N; rewrite E1; apply in_or_app; auto|]. unfold asg. cbn [flat_map]. apply in_or_app. right. exact A.
  - destruct (H1 x I) as (N & e & -> & _). split; auto. left; auto.
Qed.
Lemma pass_sound : forall g nb b0 b bd, incl b b0 -> (forall v, In v bd -> bnd g nb b0 v) -> forall v, In v (bound_pass b bd) -> bnd g nb b0 v.
Proof.
  unfold bound_pass. fold bstep. intros g nb b0. induction b as [|l b IH]; intros bd I H v J; [auto|]. cbn [fold_left] in J.
  eapply (IH (bstep bd l)); [intros z Z; apply I; right; auto| |exact J]. intros w K. destruct (bstep_ext l bd) as (ext & E & X). rewrite E in K.
  apply in_app_or in K. destruct K as [K|K]; auto. destruct (X w K) as (_ & e & -> & V). apply bnd_asg with (e := e); [apply I; left; auto|auto].
Qed.
Lemma pass_fix : forall b bd, length (bound_pass b bd) = length bd -> bound_pass b bd = bd /\ forall x e, In (LAssign x e) b -> (forall v, In v (aexpr_vars e) -> In v bd) -> In x bd.
Proof.
  intros b bd L. assert (E : bound_pass b bd = bd).
  { destruct (pass_ext b bd) as (ext & E & _). rewrite E in L |- *. rewrite app_length in L. destruct ext; [reflexivity|cbn in L; lia]. }
  split; auto. clear L. revert E. unfold bound_pass. fold bstep. induction b as [|l b IH]; intros E x e I V; [destruct I|]. cbn [fold_left] in E.
  assert (E1 : bstep bd l = bd).
  { destruct (bstep_ext l bd) as (e1 & E1 & _). destruct (pass_ext b (bstep bd l)) as (e2 & E2 & _). unfold bound_pass in E2. fold bstep in E2.
    assert (Q : e2 ++ e1 ++ bd = bd) by (rewrite <- E1, <- E2; exact E). apply (f_equal (@length nat)) in Q. rewrite !app_length in Q. destruct e1; [exact E1|cbn in Q; lia]. }
  rewrite E1 in E. destruct I as [->|I]; [|eapply IH; eauto].
  cbn [bstep] in E1. destruct (memb x bd) eqn:M; [apply SccFacts.memb_In; auto|]. destruct (forallb (fun v => memb v bd) (aexpr_vars e)) eqn:F.
  - apply (f_equal (@length nat)) in E1. cbn in E1. lia.
  - exfalso. rewrite <- not_true_iff_false in F. apply F. apply forallb_forall. intros v Iv. apply SccFacts.memb_In. auto.
Qed.
Lemma loop_bnd : forall g nb b n bd, (forall v, In v bd -> bnd g nb b v) -> (forall v, In v (flat_map (atom_bound g nb) b) -> In v bd) ->
  length (filter (fun v => negb (memb v bd)) (asg b)) < n ->
  exists r, bound_loop n b bd = Fine r /\ forall v, In v r <-> bnd g nb b v.
Proof.
  induction n as [|n IH]; intros bd H A L; [lia|]. cbn [bound_loop]. cbv zeta. unfold var in *. destruct (length (bound_pass b bd) =? length bd) eqn:E; [apply Nat.eqb_eq in E|apply Nat.eqb_neq in E].
  - destruct (pass_fix b bd E) as [E' C]. rewrite E'. exists bd. split; [reflexivity|]. intros v. split; [apply H|]. intros B. induction B as [v I|x e I B IHB]; auto. eapply C; eauto.
  - destruct (pass_ext b bd) as (ext & X & XI). apply IH.
    + apply pass_sound; auto. apply incl_refl.
    + intros v I. rewrite X. apply in_or_app. auto.
    + assert (exists x, In x ext) as (x & Ix). { destruct ext as [|x ext]; [rewrite X in E; cbn in E; congruence|exists x; left; auto]. }
      destruct (XI x Ix) as [Nx Ax]. assert (Lt : length (filter (fun v => negb (memb v (bound_pass b bd))) (asg b)) < length (filter (fun v => negb (memb v bd)) (asg b))); [|lia].
      assert (Mono : forall v, memb v bd = true -> memb v (bound_pass b bd) = true) by (intros v M; apply SccFacts.memb_In; rewrite X; apply in_or_app; right; apply SccFacts.memb_In; auto).
      assert (Mx : memb x (bound_pass b bd) = true) by (apply SccFacts.memb_In; rewrite X; apply in_or_app; auto).
      assert (Mx' : memb x bd = false) by (destruct (memb x bd) eqn:Z; auto; apply SccFacts.memb_In in Z; contradiction).
      assert (Le : forall l, length (filter (fun v => negb (memb v (bound_pass b bd))) l) <= length (filter (fun v => negb (memb v bd)) l)).
      { induction l as [|v l IHl]; auto. cbn [filter]. destruct (memb v bd) eqn:M1; [rewrite (Mono v M1); exact IHl|]. destruct (memb v (bound_pass b bd)); cbn [negb length]; lia. }
      clear - Ax Mx Mx' Le Mono. induction (asg b) as [|v l IHl]; [destruct Ax|]. cbn [filter]. destruct Ax as [->|Ax].
      * rewrite Mx, Mx'. cbn [negb length]. specialize (Le l). lia.
      * specialize (IHl Ax). destruct (memb v bd) eqn:M1; [rewrite (Mono v M1); exact IHl|]. destruct (memb v (bound_pass b bd)); cbn [negb length]; lia.
Qed.
Lemma extend_In : forall xs l x, In x (extend xs l) <-> In x xs \/ In x l.
Proof.
  unfold extend. induction xs as [|y xs IH]; intros l x; cbn [fold_left]; [cbn; tauto|]. rewrite IH. unfold insert. destruct (memb y l) eqn:M.
  - apply SccFacts.memb_In in M. split; [intros [I|I]; auto; left; right; auto|]. intros [[<-|I]|I]; auto.
  - cbn [In]. tauto.
Qed.
Lemma filter_le : forall (A : Type) (f : A -> bool) l, length (filter f l) <= length l.
Proof. intros A f. induction l as [|x l IH]; auto. cbn [filter]. destruct (f x); cbn [length]; lia. Qed.
Lemma asg_length : forall b, length (asg b) <= length b.
Proof. unfold asg. induction b as [|l b IH]; auto. cbn [flat_map]. rewrite app_length. assert (G : forall k n : nat, k <= 1 -> n <= length b -> k + n <= S (length b)) by (intros; lia). cbn [length]. apply G; [destruct l; cbn; auto|exact IH]. Qed.
(** The bound variables are those that follow from the atoms by the assignments. *)
Lemma bounded_bnd : forall g nb b, exists r, bounded g nb b = Fine r /\ forall v, In v r <-> bnd g nb b v.
Proof.
  intros g nb b. unfold bounded. apply loop_bnd.
  - intros v I. apply extend_In in I. destruct I as [I|[]]. apply bnd_atom; auto.
  - intros v I. apply extend_In. auto.
  - unfold lt. apply le_n_S. etransitivity; [apply filter_le|apply asg_length].
Qed.

(** ** Padding binds nothing more *)
Definition apart (b : list lit) : Prop := forall v e a, In (LAssign v e) b -> In (LAtom a) b -> ~ In v (flat_map tvar (a_args a)).
Lemma pad_back : forall A b b' l, pad A b b' -> In l b' -> l <> LTrue -> In l b \/ exists x e, l = LAssign x e /\ shadow A x e.
Proof.
  intros A b b' l H. induction H as [|h b b' H IH|b b' H IH|b b' H IH|x e b b' S H IH]; intros I N.
  - destruct I.
  - destruct I as [<-|I]; [left; left; auto|]. destruct (IH I N); auto. left; right; auto.
  - destruct (IH I N); auto. left; right; auto.
  - destruct I as [<-|I]; [destruct (N eq_refl)|auto].
  - destruct I as [<-|I]; [right; eauto|auto].
Qed.
Lemma pad_fwd : forall A b b' l, pad A b b' -> In l b -> l <> LTrue -> In l b'.
Proof.
  intros A b b' l H. induction H as [|h b b' H IH|b b' H IH|b b' H IH|x e b b' S H IH]; intros I N; auto.
  - destruct I as [<-|I]; [left; auto|right; auto].
  - destruct I as [<-|I]; [destruct (N eq_refl)|auto].
  - right; auto.
  - right; auto.
Qed.
Lemma pad_flat : forall (T : Type) (f : lit -> list T) A b b', f LTrue = [] -> (forall x e, f (LAssign x e) = []) -> pad A b b' -> flat_map f b' = flat_map f b.
Proof.
  intros T f A b b' F1 F2 H. induction H as [|h b b' H IH|b b' H IH|b b' H IH|x e b b' S H IH]; cbn [flat_map]; rewrite ?F1, ?F2, ?IH; auto.
Qed.
Lemma asg_unique : forall b x e e', NoDup (asg b) -> In (LAssign x e) b -> In (LAssign x e') b -> e = e'.
Proof.
  intros b x e e' N I J. assert (E : LAssign x e = LAssign x e').
  { eapply (nodup_flat_unique _ b N) with (v := x); eauto; left; auto. }
  injection E as ->. auto.
Qed.
Lemma pad_bnd : forall g nb b b', NoDup (asg b) -> apart b -> pad (assigns b) b b' -> forall v, bnd g nb b' v <-> bnd g nb b v.
Proof.
  intros g nb b b' N AP H v. split; intros B.
  - induction B as [v I|x e I B IH].
    + apply bnd_atom. rewrite (pad_flat (atom_bound g nb) eq_refl (fun _ _ => eq_refl) H) in I. exact I.
    + destruct (pad_back H I) as [J|(x' & e' & E & S)]; [discriminate|apply bnd_asg with (e := e); auto|].
      injection E as <- <-. destruct S as (left & op & t & op0 & t1 & t2 & -> & S1 & S2). apply in_assigns in S1.
      assert (L : bnd g nb b left) by (apply IH; left; auto). destruct L as [left L|left e L1 L2].
      * exfalso. apply in_flat_map in L. destruct L as (l & L1 & L2). destruct l; try (destruct L2; fail). apply (AP left _ a S1 L1). cbn in L2.
        destruct (g_foreign g (a_pred a)); auto. apply in_flat_map in L2. destruct L2 as (t' & T1 & T2). apply in_flat_map. exists t'. split; auto.
        rewrite <- (firstn_skipn (nb (a_pred a)) (a_args a)). apply in_or_app. auto.
      * rewrite (@asg_unique _ _ _ _ N L1 S1) in L2. apply L2. exact S2.
  - induction B as [v I|x e I B IH].
    + apply bnd_atom. rewrite (pad_flat (atom_bound g nb) eq_refl (fun _ _ => eq_refl) H). exact I.
    + apply bnd_asg with (e := e); auto. eapply pad_fwd; eauto. discriminate.
Qed.
Definition no_red (b : list lit) : Prop := forall d, ~ In (LReduce d) b.
Lemma no_red_pad : forall A b b', pad A b b' -> no_red b -> no_red b'.
Proof. intros A b b' H N d I. destruct (pad_back H I) as [J|(x & e & E & _)]; try discriminate. exact (N d J). Qed.
Lemma eq_cannot_none : forall b, no_red b -> eq_cannot b = [].
Proof.
  unfold eq_cannot. intros b. generalize (@nil nat). induction b as [|l b IH]; intros a N; [reflexivity|]. cbn [fold_left].
  assert (Nb : no_red b) by (intros d I; apply (N d); right; auto). destruct l; try (apply IH; auto). destruct (N _ (or_introl eq_refl)).
Qed.
Lemma fold_asg_none : forall (i : nat) (x : var) l (vis : list nat), fold_left (fun st a => if memb a (snd st) then (insert i (fst st), insert x (snd st)) else st) l (vis, []) = (vis, []).
Proof. intros i x. induction l as [|a l IH]; intros vis; [reflexivity|]. cbn [fold_left memb snd]. apply IH. Qed.
Lemma cs_pass_none : forall b i vis, no_red b -> cs_pass i b vis [] = (vis, []).
Proof.
  induction b as [|l b IH]; intros i vis N; [reflexivity|]. cbn [cs_pass]. assert (Nb : no_red b) by (intros d I; apply (N d); right; auto).
  destruct (memb i vis); [apply IH; auto|]. destruct l; try (apply IH; auto).
  - rewrite fold_asg_none. apply IH; auto.
  - destruct (N _ (or_introl eq_refl)).
Qed.
Lemma cannot_none : forall b, no_red b -> cannot_substitute b = Fine [].
Proof. intros b N. unfold cannot_substitute. cbn [cs_loop]. rewrite cs_pass_none by auto. reflexivity. Qed.

(** ** The passes on padded rules *)
Definition lock (r0 r : rule) : Prop := padded r0 r /\ tame (r_body r0).
(** Passes that act on each literal. *)
Lemma pad_map : forall (F : lit -> lit) (K : lit -> bool) A A' b b', pad A b b' -> F LTrue = LTrue -> K LTrue = true -> (forall x e, K (LAssign x e) = true) ->
  (forall x e, shadow A x e -> F (LAssign x e) = LTrue \/ exists x' e', F (LAssign x e) = LAssign x' e' /\ shadow A' x' e') ->
  pad A' (map F (filter K b)) (map F (filter K b')).
Proof.
  intros F K A A' b b' H F1 K1 K2 S. induction H as [|h b b' H IH|b b' H IH|b b' H IH|x e b b' Sx H IH]; cbn [filter].
  - constructor.
  - destruct (K h); auto. cbn [map]. apply pad_keep. exact IH.
  - rewrite K1. cbn [map]. rewrite F1. apply pad_left. exact IH.
  - rewrite K1. cbn [map]. rewrite F1. apply pad_right. exact IH.
  - rewrite K2. cbn [map]. destruct (S x e Sx) as [-> |(x' & e' & -> & Q)]; [apply pad_right|apply pad_shadow]; auto.
Qed.
Lemma filter_ext_in' : forall (f h : lit -> bool) b, (forall l, In l b -> f l = h l) -> filter f b = filter h b.
Proof. intros f h. induction b as [|l b IH]; intros E; [reflexivity|]. cbn [filter]. rewrite (E l) by (left; auto). rewrite IH; auto. intros; apply E; right; auto. Qed.
Lemma lock_propagate : forall g nb r0 r r0', lock r0 r -> NoDup (eq_vars (r_body r0)) -> apart (r_body r0) ->
  propagate_equality g nb r0 = Fine r0' -> exists r', propagate_equality g nb r = Fine r' /\ lock r0' r'.
Proof.
  intros g nb r0 r r0' [[EH PD] T] N AP H. pose proof H as H0. unfold propagate_equality in *.
  destruct (bounded_bnd g nb (r_body r0)) as (bd0 & B0 & S0). destruct (bounded_bnd g nb (r_body r)) as (bd & B1 & S1).
  rewrite B0 in H. rewrite B1. cbn [obindo] in *. assert (NR : no_red (r_body r0)) by exact (tm_red T).
  rewrite (eq_cannot_none NR) in H. rewrite (eq_cannot_none (no_red_pad PD NR)).
  assert (SS : forall v, memb v bd = memb v bd0).
  { intros v. apply eq_true_iff_eq. rewrite !SccFacts.memb_In, S0, S1. apply pad_bnd; auto. apply (tm_once T). }
  assert (ED : forall l, eq_dropped [] bd l = eq_dropped [] bd0 l).
  { intros l. destruct l as [| | |k t u| | | |]; try reflexivity. destruct k, t, u; try reflexivity. cbn. rewrite !SS. reflexivity. }
  assert (EM : eq_collect [] bd (r_body r) = eq_collect [] bd0 (r_body r0)).
  { unfold eq_collect. f_equal. unfold pairs_dropped. rewrite <- (pad_flat (fun l => match eq_dropped [] bd0 l with Some p => [p] | None => [] end) eq_refl (fun _ _ => eq_refl) PD).
    apply flat_map_ext. intros l. rewrite ED. reflexivity. }
  injection H as <-. eexists. split; [reflexivity|]. unfold eq_apply. rewrite EM. set (m := eq_collect [] bd0 (r_body r0)).
  split; [split; cbn [r_head r_body]; [congruence|]|cbn [r_body]; apply tame_eq_body; auto].
  rewrite (filter_ext_in' (fun l => is_none (eq_dropped [] bd l)) (fun l => is_none (eq_dropped [] bd0 l))) by (intros; rewrite ED; reflexivity).
  eapply pad_map; [exact PD| | | |]; try reflexivity. intros x e (left & op & t & op0 & t1 & t2 & -> & S & J). right. eexists _, _. split; [reflexivity|].
  exists (vsub m left), op, (tsub m t), op0, (tsub m t1), (tsub m t2). split; [reflexivity|]. split.
  - apply in_assigns. apply in_assigns in S. apply in_map_iff. exists (LAssign left (ABin op0 t1 t2)). split; auto. apply filter_In. auto.
  - apply in_app_or in J. apply in_or_app. destruct J as [J|J]; [left|right]; [destruct t1|destruct t2]; cbn in J; try (destruct J; fail); destruct J as [->|[]]; left; auto.
Qed.
Lemma emap_pad : forall E A b b' c, pad A b b' -> emap (fold_lit E) b = EOk c ->
  exists c', emap (fold_lit E) b' = EOk c' /\ forall A', (forall x e, shadow A x e -> shadow A' x e) -> pad A' c c'.
Proof.
  intros E A b b' c H. revert c. induction H as [|h b b' H IH|b b' H IH|b b' H IH|x e b b' S H IH]; intros c Q.
  - injection Q as <-. exists []. split; auto. intros; constructor.
  - cbn [emap] in *. destruct (fold_lit E h) as [y| |]; try discriminate. cbn [ebind] in *. destruct (emap (fold_lit E) b) as [c1| |] eqn:Q1; try discriminate. cbn [ebind] in Q. injection Q as <-.
    destruct (IH _ eq_refl) as (c' & -> & P). exists (y :: c'). split; auto. intros; constructor; auto.
  - cbn [emap] in *. cbn [fold_lit ebind] in Q. destruct (emap (fold_lit E) b) as [c1| |] eqn:Q1; try discriminate. cbn [ebind] in Q. injection Q as <-.
    destruct (IH _ eq_refl) as (c' & -> & P). exists c'. split; auto. intros; apply pad_left; auto.
  - destruct (IH _ Q) as (c' & Q' & P). cbn [emap fold_lit ebind]. rewrite Q'. exists (LTrue :: c'). split; auto. intros; apply pad_right; auto.
  - destruct (IH _ Q) as (c' & Q' & P). cbn [emap]. pose proof S as S'. destruct S' as (left & op & t & op0 & t1 & t2 & -> & _ & _). cbn [fold_lit ebind]. rewrite Q'.
    eexists. split; [reflexivity|]. intros A' SA. apply pad_shadow; auto.
Qed.
Lemma fold_keeps : forall E b c x e, emap (fold_lit E) b = EOk c -> shadow (assigns b) x e -> shadow (assigns c) x e.
Proof.
  intros E b c x e Q (left & op & t & op0 & t1 & t2 & -> & S & J). exists left, op, t, op0, t1, t2. split; auto. split; auto. apply in_assigns. apply in_assigns in S.
  apply emap_Forall2 in Q. assert (K : fold_lit E (LAssign left (ABin op0 t1 t2)) = EOk (LAssign left (ABin op0 t1 t2))).
  { destruct t1; [reflexivity|]. destruct t2; [reflexivity|]. destruct J. }
  clear - Q K S. induction Q as [|l l' b c H Q IH]; [destruct S|]. destruct S as [->|S]; [left; congruence|right; auto].
Qed.
Lemma prop_collect_pad : forall A b b' m bad, pad A b b' -> prop_collect [] b' m bad = prop_collect [] b m bad.
Proof.
  intros A b b' m bad H. revert m bad. induction H as [|h b b' H IH|b b' H IH|b b' H IH|x e b b' S H IH]; intros m bad; cbn [prop_collect prop_dropped]; auto.
  destruct (prop_dropped [] h) as [[v c]|]; auto. destruct (lookup v m); auto.
Qed.
Lemma lock_round : forall B r0 r r0', lock r0 r -> opt_round (b_env B) r0 = Fine r0' -> exists r', opt_round (b_env B) r = Fine r' /\ lock r0' r'.
Proof.
  intros B r0 r r0' [[EH PD] T] H. pose proof (tame_round _ _ T H) as [T' _]. unfold opt_round in *. unfold constant_fold in *.
  destruct (emap (fold_lit (b_env B)) (r_body r0)) as [c0| |] eqn:Q; try discriminate. cbn [obindo] in H.
  destruct (emap_pad _ PD Q) as (c & Q' & PC). rewrite Q'. cbn [obindo].
  assert (T1 : tame c0) by (eapply tame_fold; [exact T|apply emap_Forall2; exact Q]).
  specialize (PC (assigns c0) (fun x e S => fold_keeps _ _ Q S)). clear PD Q Q' T.
  assert (NR : no_red c0) by exact (tm_red T1). unfold constant_prop in *. cbn [r_body r_head] in *.
  rewrite (cannot_none NR) in H. rewrite (cannot_none (no_red_pad PC NR)). cbn [obindo] in *. rewrite (prop_collect_pad [] false PC).
  destruct (prop_collect [] c0 [] false) as [m bad] eqn:C. destruct (prop_collect_spec _ _ _ _ _ _ C) as (_ & _ & _ & A4 & _).
  assert (D : forall v c, lookup v m = Some c -> ~ In v (asg c0)).
  { intros v c1 L. destruct (A4 v c1 L) as [Z|(l & Hl & Dl)]; [discriminate|]. apply tame_const; auto. eapply dropped_const_eq; eauto. }
  destruct bad; injection H as <-.
  { eexists. split; [reflexivity|]. split; auto. split; [cbn; auto|]. cbn. apply pad_keep, pad_nil. }
  eexists. split; [reflexivity|]. split; auto. split; cbn [r_head r_body]; [congruence|].
  eapply pad_map; [exact PC| | | |]; try reflexivity. intros x e (left & op & t & op0 & t1 & t2 & -> & S & J). cbn [prop_lit]. destruct (lookup x m) eqn:Lx; [left; auto|]. right.
  apply in_assigns in S. assert (Ll : lookup left m = None) by (destruct (lookup left m) eqn:L; auto; destruct (D _ _ L); apply in_asg; eauto).
  eexists _, _. split; [reflexivity|]. exists left, op, (psub m t), op0, (psub m t1), (psub m t2). split; [cbn; rewrite Ll; reflexivity|]. split.
  - apply in_assigns. apply in_map_iff. exists (LAssign left (ABin op0 t1 t2)). split; [cbn; rewrite Ll; reflexivity|]. apply filter_In. auto.
  - apply in_app_or in J. apply in_or_app. destruct J as [J|J]; [left|right]; [destruct t1|destruct t2]; cbn in J; try (destruct J; fail); destruct J as [->|[]]; cbn; rewrite Lx; left; auto.
Qed.

(** ** Iterating *)
Fixpoint rounds (E : renv) (n : nat) (r : rule) : outcome rule :=
  match n with 0 => Fine r | S n => obindo (opt_round E r) (rounds E n) end.
Lemma rounds_fix : forall E n r, opt_round E r = Fine r -> rounds E n r = Fine r.
Proof. intros E. induction n as [|n IH]; intros r H; [reflexivity|]. cbn [rounds]. rewrite H. cbn [obindo]. auto. Qed.
Lemma rounds_app : forall E n m r, rounds E (n + m) r = obindo (rounds E n r) (rounds E m).
Proof.
  intros E. induction n as [|n IH]; intros m r; [reflexivity|]. cbn [rounds Nat.add]. destruct (opt_round E r); cbn [obindo]; auto.
Qed.
Lemma loop_rounds : forall E n r r', opt_loop E n r = Fine r' -> opt_round E r' = Fine r' /\ exists k, forall j, rounds E (k + j) r = Fine r'.
Proof.
  intros E. induction n as [|n IH]; intros r r' H; [discriminate|]. cbn [opt_loop] in H. destruct (opt_round E r) as [r1| |] eqn:O; try discriminate. cbn [obindo] in H.
  destruct (rule_eq_dec r r1) as [<-|Ne].
  - injection H as <-. split; auto. exists 0. intros j. apply rounds_fix; auto.
  - destruct (IH _ _ H) as (F & k & K). split; auto. exists (S k). intros j. cbn [rounds Nat.add]. rewrite O. cbn [obindo]. apply K.
Qed.
Lemma loop_panics : forall E n r, opt_loop E n r = Panicked -> exists k, rounds E k r = Panicked.
Proof.
  intros E. induction n as [|n IH]; intros r H; [discriminate|]. cbn [opt_loop] in H. destruct (opt_round E r) as [r1| |] eqn:O; try discriminate; cbn [obindo] in H.
  - destruct (rule_eq_dec r r1); [discriminate|]. destruct (IH _ H) as (k & K). exists (S k). cbn [rounds]. rewrite O. exact K.
  - exists 1. cbn [rounds]. rewrite O. reflexivity.
Qed.
Lemma lock_rounds : forall B n r0 r r0', lock r0 r -> rounds (b_env B) n r0 = Fine r0' -> exists r', rounds (b_env B) n r = Fine r' /\ lock r0' r'.
Proof.
  intros B. induction n as [|n IH]; intros r0 r r0' L H.
  - injection H as <-. exists r. auto.
  - cbn [rounds] in *. destruct (opt_round (b_env B) r0) as [r1| |] eqn:O; try discriminate. cbn [obindo] in H. destruct (lock_round _ L O) as (r2 & O2 & L2). rewrite O2. cbn [obindo]. eauto.
Qed.
Lemma lock_loop : forall B n0 n r0 r r0', lock r0 r -> weight (r_body r) < n -> opt_loop (b_env B) n0 r0 = Fine r0' -> exists r', opt_loop (b_env B) n r = Fine r' /\ lock r0' r'.
Proof.
  intros B n0 n r0 r r0' L W H. destruct (loop_rounds _ _ _ H) as (_ & k0 & K0).
  destruct (opt_loop (b_env B) n r) as [r'| |] eqn:O.
  - exists r'. split; auto. destruct (loop_rounds _ _ _ O) as (_ & k & K). specialize (K0 k). specialize (K k0). rewrite Nat.add_comm in K.
    destruct (lock_rounds _ _ L K0) as (r2 & R2 & L2). congruence.
  - exfalso. destruct (loop_panics _ _ _ O) as (k & K). specialize (K0 k). rewrite Nat.add_comm in K0. rewrite rounds_app in K0.
    destruct (rounds (b_env B) k r0) as [x| |] eqn:R; try discriminate. destruct (lock_rounds _ _ L R) as (r2 & R2 & _). congruence.
  - exfalso. exact (C48_terminates _ _ _ W O).
Qed.
Lemma pad_remove : forall A b b', pad A b b' -> pad A (filter not_true b) (filter not_true b').
Proof.
  intros A b b' H. induction H as [|h b b' H IH|b b' H IH|b b' H IH|x e b b' S H IH]; cbn [filter not_true]; auto; try (constructor; auto; fail).
  destruct (not_true h); [apply pad_keep|]; auto.
Qed.
Lemma assigns_remove : forall b, assigns (filter not_true b) = assigns b.
Proof. intros b. unfold assigns. induction b as [|l b IH]; [reflexivity|]. cbn [filter]. destruct l; cbn [not_true flat_map]; rewrite <- ?IH; reflexivity. Qed.
(** Rules. *)
Definition tidy (r : rule) : Prop := forall l, In l (r_body r) -> l <> LTrue.
Lemma lock_rule : forall B g nb r0 r r0', padded r0 r -> tame (r_body r0) -> NoDup (eq_vars (r_body r0)) -> apart (r_body r0) ->
  opt_rule (b_env B) g nb r0 = Fine r0' -> exists r', opt_rule (b_env B) g nb r = Fine r' /\ padded r0' r' /\ tidy r'.
Proof.
  intros B g nb r0 r r0' PD T N AP H. unfold opt_rule in *. destruct (propagate_equality g nb r0) as [r1| |] eqn:Q; try discriminate. cbn [obindo] in H.
  destruct (lock_propagate _ _ (conj PD T) N AP Q) as (r2 & Q2 & L2). rewrite Q2. cbn [obindo].
  destruct (opt_loop (b_env B) (S (weight (r_body r1))) r1) as [r3| |] eqn:O; try discriminate. cbn [obindo] in H. injection H as <-.
  destruct (lock_loop _ _ L2 (Nat.lt_succ_diag_r (weight (r_body r2))) O) as (r4 & O4 & [P4 P5] & _). rewrite O4. cbn [obindo]. eexists. split; [reflexivity|]. split.
  - split; [exact P4|]. cbn [remove_true r_body]. change (pad (assigns (filter not_true (r_body r3))) (filter not_true (r_body r3)) (filter not_true (r_body r4))). rewrite assigns_remove. apply pad_remove; auto.
  - intros l I ->. apply filter_In in I. destruct I. discriminate.
Qed.
Lemma padded_false : forall r0 r, padded r0 r -> has_false r = has_false r0.
Proof.
  intros r0 r [_ P]. unfold has_false. induction P as [|h b b' H IH|b b' H IH|b b' H IH|x e b b' S H IH]; cbn [existsb]; rewrite ?IH; auto.
Qed.
Lemma padded_nil : forall r0 r, padded r0 r -> tidy r -> r_body r = [] <-> (r_body r0 = [] \/ forall l, In l (r_body r0) -> l = LTrue).
Proof.
  intros r0 r [_ P] T. split.
  - intros E. right. intros l I. destruct (lit_eq_dec l LTrue); auto. exfalso. pose proof (pad_fwd P I n) as Z. rewrite E in Z. destruct Z.
  - intros D. assert (A : forall l, In l (r_body r0) -> l = LTrue) by (destruct D as [->|]; auto; intros l []). destruct (r_body r) as [|l b] eqn:E; auto. exfalso.
    assert (I : In l (r_body r)) by (rewrite E; left; auto). pose proof (T l I) as N. destruct (pad_back P (or_introl eq_refl) N) as [J|(x & e & -> & S)].
    + apply N. auto.
    + destruct S as (left & op & t & op0 & t1 & t2 & _ & S & _). apply in_assigns in S. specialize (A _ S). discriminate.
Qed.
Theorem padded_optimized : forall B nb P0 P P0',
  p_rels P = p_rels P0 -> p_outputs P = p_outputs P0 -> p_facts P = p_facts P0 -> p_reg P = p_reg P0 -> Forall2 padded (p_rules P0) (p_rules P) ->
  (forall r, In r (p_rules P0) -> tame (r_body r) /\ NoDup (eq_vars (r_body r)) /\ apart (r_body r)) ->
  apply_optimizations (b_env B) nb P0 = Fine P0' ->
  exists P', apply_optimizations (b_env B) nb P = Fine P' /\ p_rels P' = p_rels P0' /\ p_outputs P' = p_outputs P0' /\ p_facts P' = p_facts P0' /\ p_reg P' = p_reg P0' /\
    Forall2 padded (p_rules P0') (p_rules P').
Proof.
  intros B nb P0 P P0' E1 E2 E3 E4 F OK H. unfold apply_optimizations in *. rewrite E4.
  destruct (opt_rules (b_env B) (p_reg P0) nb (p_rules P0)) as [rs0| |] eqn:O; try discriminate. cbn [obindo] in H.
  assert (G : exists rs, opt_rules (b_env B) (p_reg P0) nb (p_rules P) = Fine rs /\ Forall2 (fun a b => padded a b /\ tidy a /\ tidy b) rs0 rs).
  { clear H. revert rs0 O OK. induction F as [|r0 r l0 l F1 F IH]; intros rs0 O OK; cbn [opt_rules] in *.
    - injection O as <-. exists []. split; auto.
    - destruct (opt_rule (b_env B) (p_reg P0) nb r0) as [r0'| |] eqn:R; try discriminate. cbn [obindo] in O.
      destruct (opt_rules (b_env B) (p_reg P0) nb l0) as [rs0'| |]; try discriminate. cbn [obindo] in O. injection O as <-.
      destruct (IH _ eq_refl) as (rs & -> & FF); [intros; apply OK; right; auto|]. destruct (OK r0 (or_introl eq_refl)) as (T1 & T2 & T3).
      destruct (lock_rule _ _ _ F1 T1 T2 T3 R) as (r' & -> & PD & TD). exists (r' :: rs). split; [reflexivity|]. constructor; auto. split; auto. split; auto.
      unfold opt_rule in R. destruct (propagate_equality (p_reg P0) nb r0); try discriminate. cbn [obindo] in R. destruct (opt_loop _ _ a); try discriminate. cbn [obindo] in R. injection R as <-.
      intros x I ->. apply filter_In in I. destruct I. discriminate. }
  destruct G as (rs & -> & FF). cbn [obindo]. clear O OK F.
  destruct (empty_to_fact (remove_false_rules rs0)) as [[ks fs]|] eqn:Ef; [|discriminate]. injection H as <-.
  assert (G : exists ks', empty_to_fact (remove_false_rules rs) = Some (ks', fs) /\ Forall2 padded ks ks').
  { revert ks fs Ef. induction FF as [|r0 r rs0 rs (F1 & F2 & F3) F IH]; intros ks fs Ef; unfold remove_false_rules in *; cbn [filter] in *.
    - cbn in *. injection Ef as <- <-. exists []. auto.
    - rewrite (padded_false F1). destruct (has_false r0); cbn [negb] in *; [apply IH; auto|]. cbn [empty_to_fact] in *.
      destruct (empty_to_fact (filter (fun r => negb (has_false r)) rs0)) as [[k1 f1]|]; [|discriminate]. destruct (IH _ _ eq_refl) as (k2 & -> & FK).
      assert (Z : r_body r = [] <-> r_body r0 = []).
      { rewrite (padded_nil F1 F3). split; auto. intros [|A]; auto. destruct (r_body r0) as [|l b] eqn:E; auto. exfalso. apply (F2 l); [rewrite E; left; auto|]. apply A; left; auto. }
      pose proof (proj1 F1) as EH. destruct (r_body r0) as [|l0 b0] eqn:B0.
      + rewrite (proj2 Z eq_refl). rewrite EH. destruct (r_head r0) as [a|a l].
        * destruct (consts (a_args a)); [|discriminate]. injection Ef as <- <-. exists k2. auto.
        * injection Ef as <- <-. exists (r :: k2). split; auto.
      + injection Ef as <- <-. exists (r :: k2). split; auto. destruct (r_body r) eqn:B1; [discriminate (proj1 Z eq_refl)|]. reflexivity. }
  destruct G as (ks' & -> & FK). eexists. split; [reflexivity|]. cbn. repeat (split; [congruence|]). exact FK.
Qed.
