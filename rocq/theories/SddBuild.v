(** The builder starts in a valid state and builds, for every formula, a node
    with the meaning of the formula; evaluation never fails. *)
From Coq Require Import List Arith Bool Lia.
From Verif Require Import ListAux VTree VTreeFacts Formula Sdd SddFacts.
Import ListNotations.
Set Implicit Arguments.

Lemma add_lits_spec : forall mk vars ns,
  add_lits ns mk vars = (ns ++ map (fun v => Some (SLit (mk v))) vars, combine vars (seq (length ns) (length vars))).
Proof.
  intros mk. induction vars as [|v vars IH]; intros ns; simpl.
  - rewrite app_nil_r. auto.
  - rewrite IH. rewrite app_assoc_reverse, app_length. simpl. rewrite Nat.add_1_r. auto.
Qed.
Lemma combine_seq_In : forall (vars : list nat) a v i, In (v, i) (combine vars (seq a (length vars))) <->
  exists j, nth_error vars j = Some v /\ i = a + j.
Proof.
  induction vars as [|x vars IH]; intros a v i; simpl.
  - split; [tauto|]. intros ([|j] & H & _); discriminate.
  - rewrite IH. split.
    + intros [H|(j & H & ->)]; [injection H as -> ->; exists 0; auto|exists (S j)]. split; auto. lia.
    + intros ([|j] & H & ->); [left; simpl in H; injection H as ->; f_equal; lia|right; exists j; split; auto; lia].
Qed.
Lemma pairs_spec : forall m other, (forall v i, In (v, i) m -> mget other v <> None) ->
  exists L, negation_pairs m other = Some L /\ leaf_pairs m other = Some L /\ map fst L = map snd m /\
    forall i j, In (i, j) L <-> exists v, In (v, i) m /\ mget other v = Some j.
Proof.
  induction m as [|(v & i) m IH]; intros other H.
  - exists []. simpl. repeat split; auto. tauto. intros (v & [] & _).
  - destruct (IH other) as (L & E1 & E2 & F & S); [intros; eapply H; simpl; eauto|].
    destruct (mget other v) as [j|] eqn:M; [|exfalso; eapply H; simpl; eauto].
    exists ((i, j) :: L). simpl. rewrite M. simpl. rewrite E1, E2. simpl. repeat split; auto; [congruence|..].
    + intros [X|X]; [injection X as <- <-; exists v; auto|]. apply S in X as (v' & X & Y). exists v'. auto.
    + intros (v' & [X|X] & Y); [injection X as <- <-; left; congruence|right; apply S; eauto].
Qed.
Lemma mget_iff : forall m k v, NoDup (map fst m) -> (mget m k = Some v <-> In (k, v) m).
Proof. intros. split; [apply mget_In|apply mget_NoDup; auto]. Qed.
Arguments mget_iff {m} k v _.

Section Config.
  Variables (vt : vtree) (T : option atree).
  Hypothesis OK : vt_ok vt T.

  Lemma with_config_ok : exists B st, with_config vt = Some (B, st) /\ b_vt B = vt /\ Inv B T st /\
    (forall v, In v (vt_vars vt) -> exists i, mget (b_pos B) v = Some i /\ forall w, V st w i = w v) /\
    (forall v, In v (vt_vars vt) -> exists i, mget (b_negv B) v = Some i /\ forall w, V st w i = negb (w v)) /\
    (forall v i, mget (b_pos B) v = Some i -> i < size_of st) /\
    (forall v i, mget (b_negv B) v = Some i -> i < size_of st).
  Proof.
    unfold with_config. rewrite !add_lits_spec. set (vars := vt_vars vt). set (n := length vars).
    pose proof (ok_nodup OK) as ND. fold vars in ND.
    set (ns := ([Some (SLit SFalse); Some (SLit STrue)] ++ map (fun v => Some (SLit (SPos v))) vars) ++
               map (fun v => Some (SLit (SNeg v))) vars).
    set (pos := combine vars (seq (length [Some (SLit SFalse); Some (SLit STrue)]) n)).
    set (neg := combine vars (seq (length ([Some (SLit SFalse); Some (SLit STrue)] ++ map (fun v => Some (SLit (SPos v))) vars)) n)).
    assert (Lp : length ([Some (SLit SFalse); Some (SLit STrue)] ++ map (fun v => Some (SLit (SPos v))) vars) = 2 + n).
    { rewrite app_length, map_length. auto. }
    assert (LN : length ns = 2 + n + n) by (unfold ns; rewrite app_length, Lp, map_length; auto).
    assert (Np : NoDup (map fst pos)) by (unfold pos; rewrite combine_fst; auto; rewrite seq_length; auto).
    assert (Nn : NoDup (map fst neg)) by (unfold neg; rewrite combine_fst; auto; rewrite seq_length; auto).
    assert (Ip : forall v i, mget pos v = Some i <-> exists j, nth_error vars j = Some v /\ i = 2 + j).
    { intros. rewrite mget_iff by auto. unfold pos, n. rewrite combine_seq_In. simpl. tauto. }
    assert (In_ : forall v i, mget neg v = Some i <-> exists j, nth_error vars j = Some v /\ i = 2 + n + j).
    { intros. rewrite mget_iff by auto. unfold neg, n. rewrite combine_seq_In. rewrite Lp. fold n. tauto. }
    assert (Gp : forall j v, nth_error vars j = Some v -> get_node ns (2 + j) = Some (SLit (SPos v))).
    { intros j v H. unfold get_node, ns. rewrite nth_error_app1.
      - simpl. rewrite nth_error_map, H. auto.
      - rewrite Lp. assert (j < n) by (apply nth_error_Some; congruence). lia. }
    assert (Gn : forall j v, nth_error vars j = Some v -> get_node ns (2 + n + j) = Some (SLit (SNeg v))).
    { intros j v H. unfold get_node, ns. rewrite nth_error_app2 by (rewrite Lp; lia). rewrite Lp.
      replace (2 + n + j - (2 + n)) with j by lia. rewrite nth_error_map, H. auto. }
    assert (GI : forall i, i < length ns -> i = 0 \/ i = 1 \/
              exists j v, nth_error vars j = Some v /\ (i = 2 + j \/ i = 2 + n + j)).
    { intros i L. destruct i as [|[|i]]; auto. right; right. rewrite LN in L.
      destruct (Nat.lt_ge_cases i n) as [Q|Q].
      - destruct (nth_error vars i) as [v|] eqn:E; [|apply nth_error_None in E; fold n in E; lia].
        exists i, v. auto.
      - destruct (nth_error vars (i - n)) as [v|] eqn:E; [|apply nth_error_None in E; fold n in E; lia].
        exists (i - n), v. split; auto. right. lia. }
    assert (Jn : forall j v, nth_error vars j = Some v -> j < n) by (intros j v H; apply nth_error_Some; congruence).
    assert (JU : forall j j' v, nth_error vars j = Some v -> nth_error vars j' = Some v -> j = j').
    { intros j j' v H H'. apply (proj1 (NoDup_nth_error vars) ND); [apply (Jn _ _ H)|congruence]. }
    destruct (@pairs_spec pos neg) as (np & E1 & _ & F1 & S1).
    { intros v i H. apply (mget_iff _ _ Np), Ip in H as (j & H & _). intros X.
      assert (mget neg v = Some (2 + n + j)) by (apply In_; eauto). congruence. }
    destruct (@pairs_spec neg pos) as (nn & E2 & _ & F2 & S2).
    { intros v i H. apply (mget_iff _ _ Nn), In_ in H as (j & H & _). intros X.
      assert (mget pos v = Some (2 + j)) by (apply Ip; eauto). congruence. }
    assert (LV : forall v j, nth_error vars j = Some v -> exists i k, mget (vt_var vt) v = Some i /\ sT T k (AL i v)).
    { intros v j H. apply (ok_leaf OK). eapply nth_error_In; eauto. }
    destruct (@pairs_spec pos (vt_var vt)) as (lp & _ & E3 & F3 & S3).
    { intros v i H. apply (mget_iff _ _ Np), Ip in H as (j & H & _). destruct (LV _ _ H) as (x & y & X & _). congruence. }
    destruct (@pairs_spec neg (vt_var vt)) as (ln & _ & E4 & F4 & S4).
    { intros v i H. apply (mget_iff _ _ Nn), In_ in H as (j & H & _). destruct (LV _ _ H) as (x & y & X & _). congruence. }
    rewrite E1, E2, E3, E4. simpl. eexists. eexists. split; [reflexivity|]. split; [reflexivity|].
    set (B := mkB vt pos neg).
    set (st := mkS ns (np ++ nn ++ [(false_node, true_node); (true_node, false_node)]) (lp ++ ln) []).
    assert (K1 : map snd pos = seq 2 n).
    { unfold pos. simpl length. clear. unfold n. generalize 2. induction vars as [|x vars IH]; intros a; simpl; auto. rewrite IH. auto. }
    assert (K2 : map snd neg = seq (2 + n) n).
    { unfold neg. rewrite Lp. clear. unfold n. generalize (2 + length vars). induction vars as [|x vars IH]; intros a; simpl; auto. rewrite IH. auto. }
    assert (DS : forall i, In i (seq 2 n) -> In i (seq (2 + n) n) -> False) by (intros i A D; apply in_seq in A, D; lia).
    assert (NDA : forall A D : list nat, NoDup A -> NoDup D -> (forall i, In i A -> In i D -> False) -> NoDup (A ++ D)).
    { clear. induction A as [|a A IH]; simpl; intros D NA ND H; auto. inversion NA; subst. constructor.
      - intros X. apply in_app_or in X as [X|X]; [auto|eapply H; eauto].
      - apply IH; auto. intros; eapply H; eauto. }
    assert (NDn : NoDup (map fst (s_neg st))).
    { simpl. rewrite !map_app, F1, F2, K1, K2. simpl. apply NDA; [apply seq_NoDup|apply NDA|].
      - apply seq_NoDup.
      - unfold false_node, true_node. repeat constructor; simpl; intuition discriminate.
      - intros i X [<-|[<-|[]]]; apply in_seq in X; unfold false_node, true_node in *; lia.
      - intros i X Y. apply in_app_or in Y as [Y|[<-|[<-|[]]]]; [eapply DS; eauto|..]; apply in_seq in X; unfold false_node, true_node in *; lia. }
    assert (NDv : NoDup (map fst (s_vt st))).
    { simpl. rewrite map_app, F3, F4, K1, K2. apply NDA; auto using seq_NoDup. }
    assert (MN : forall i j, mget (s_neg st) i = Some j <->
      (exists x v, nth_error vars x = Some v /\ (i = 2 + x /\ j = 2 + n + x \/ i = 2 + n + x /\ j = 2 + x)) \/
      (i = 0 /\ j = 1) \/ (i = 1 /\ j = 0)).
    { intros i j. rewrite mget_iff by auto. simpl. rewrite !in_app_iff, S1, S2. simpl. unfold false_node, true_node.
      split.
      - intros [(v & X & Y)|[(v & X & Y)|[X|[X|[]]]]].
        + apply (mget_iff _ _ Np), Ip in X as (x & X & ->). apply In_ in Y as (y & Y & ->).
          rewrite (JU _ _ _ Y X). left. exists x, v. auto.
        + apply (mget_iff _ _ Nn), In_ in X as (x & X & ->). apply Ip in Y as (y & Y & ->).
          rewrite (JU _ _ _ Y X). left. exists x, v. auto.
        + injection X as <- <-. auto.
        + injection X as <- <-. auto.
      - intros [(x & v & X & [[-> ->]|[-> ->]])|[[-> ->]|[-> ->]]]; auto.
        + left. exists v. split; [apply mget_iff; auto; apply Ip; eauto|apply In_; eauto].
        + right; left. exists v. split; [apply mget_iff; auto; apply In_; eauto|apply Ip; eauto]. }
    assert (MV : forall i u, mget (s_vt st) i = Some u <->
      exists x v, nth_error vars x = Some v /\ mget (vt_var vt) v = Some u /\ (i = 2 + x \/ i = 2 + n + x)).
    { intros i u. rewrite mget_iff by auto. simpl. rewrite in_app_iff, S3, S4. split.
      - intros [(v & X & Y)|(v & X & Y)].
        + apply (mget_iff _ _ Np), Ip in X as (x & X & ->). exists x, v. auto.
        + apply (mget_iff _ _ Nn), In_ in X as (x & X & ->). exists x, v. auto.
      - intros (x & v & X & Y & [->| ->]); [left|right]; exists v; (split; [apply mget_iff; auto|auto]); [apply Ip|apply In_]; eauto. }
    assert (Vp : forall w j v, nth_error vars j = Some v -> V st w (2 + j) = w v).
    { intros w j v H. unfold V. rewrite (val_lit _ _ _ (Gp _ _ H)). auto. }
    assert (Vn : forall w j v, nth_error vars j = Some v -> V st w (2 + n + j) = negb (w v)).
    { intros w j v H. unfold V. rewrite (val_lit _ _ _ (Gn _ _ H)). auto. }
    assert (G0 : get_node ns 0 = Some (SLit SFalse)) by auto.
    assert (G1 : get_node ns 1 = Some (SLit STrue)) by auto.
    assert (SZ : size_of st = 2 + n + n) by exact LN.
    split; [|split; [|split; [|split]]].
    - split.
      + intros i L. change (i < length ns) in L. destruct (GI i L) as [->|[->|(j & v & H & [->| ->])]]; simpl s_nodes; eauto.
      + auto.
      + auto.
      + intros i cs H. exfalso. pose proof (get_len _ _ H) as L. change (i < length ns) in L. simpl s_nodes in H.
        destruct (GI i L) as [->|[->|(j & v & Hj & [->| ->])]]; try congruence;
          [rewrite (Gp _ _ Hj) in H|rewrite (Gn _ _ Hj) in H]; discriminate.
      + intros i l G H. pose proof (get_len _ _ H) as L. change (i < length ns) in L. simpl s_nodes in H.
        destruct (GI i L) as [->|[->|(j & v & Hj & D)]]; [lia|lia|].
        destruct (LV _ _ Hj) as (id & k & M & S). exists id, v, k. split; auto.
        split; [apply MV; exists j, v; auto|]. destruct D as [->| ->].
        * rewrite (Gp _ _ Hj) in H. left. split; [congruence|]. apply Ip. eauto.
        * rewrite (Gn _ _ Hj) in H. right. split; [congruence|]. apply In_. eauto.
      + intros i u H. apply MV in H as (x & v & X & _ & D). apply Jn in X. rewrite SZ. lia.
      + apply MN. auto.
      + apply MN. auto.
      + intros v i j P Q. simpl in P, Q. apply Ip in P as (x & P & ->). apply In_ in Q as (y & Q & ->).
        rewrite (JU _ _ _ Q P). apply MN. left. exists x, v. auto.
      + intros v. simpl. split; intros H.
        * destruct (mget neg v) as [i|] eqn:Q; auto. apply In_ in Q as (x & Q & ->).
          assert (mget pos v = Some (2 + x)) by (apply Ip; eauto). congruence.
        * destruct (mget pos v) as [i|] eqn:Q; auto. apply Ip in Q as (x & Q & ->).
          assert (mget neg v = Some (2 + n + x)) by (apply In_; eauto). congruence.
      + intros i j H. pose proof (proj1 (MN i j) H) as H'. rewrite SZ.
        assert (VTN : forall i, i <= 1 -> mget (s_vt st) i = None).
        { intros i' L. destruct (mget (s_vt st) i') as [u|] eqn:Q; auto. apply MV in Q as (x & v & _ & _ & D). lia. }
        destruct H' as [(x & v & X & D)|[[-> ->]|[-> ->]]].
        * pose proof (Jn _ _ X). assert (mget (s_vt st) j = mget (s_vt st) i).
          { destruct (LV _ _ X) as (id & k & M & _). transitivity (Some id); [|symmetry]; apply MV; exists x, v; intuition. }
          destruct D as [[-> ->]|[-> ->]]; (split; [lia|]); (split; [lia|]); (split; [apply MN; left; exists x, v; auto|]);
            (split; [auto|]); intros w; rewrite (Vp w _ _ X), (Vn w _ _ X); rewrite ?negb_involutive; auto.
        * split; [lia|]. split; [lia|]. split; [apply MN; auto|]. split; [rewrite !VTN; auto|]. intros w. reflexivity.
        * split; [lia|]. split; [lia|]. split; [apply MN; auto|]. split; [rewrite !VTN; auto|]. intros w. reflexivity.
      + intros i p0 s0 p1 s1 H. exfalso. pose proof (get_len _ _ H) as L. change (i < length ns) in L. simpl s_nodes in H.
        destruct (GI i L) as [->|[->|(j & v & Hj & [->| ->])]]; try congruence;
          [rewrite (Gp _ _ Hj) in H|rewrite (Gn _ _ Hj) in H]; discriminate.
      + intros a b op r H. discriminate.
    - intros v H. apply In_nth_error in H as (j & H). exists (2 + j). split; [apply Ip; eauto|]. intros w. apply (Vp w _ _ H).
    - intros v H. apply In_nth_error in H as (j & H). exists (2 + n + j). split; [apply In_; eauto|]. intros w. apply (Vn w _ _ H).
    - intros v i H. apply Ip in H as (j & H & ->). apply Jn in H. lia.
    - intros v i H. apply In_ in H as (j & H & ->). apply Jn in H. lia.
  Qed.
End Config.

(** ** building *)

(** the meaning of a formula *)
Fixpoint bf_sem (w : nat -> bool) (f : bform) : bool :=
  match f with
  | BFalse => false
  | BTrue => true
  | BPos v => w v
  | BNeg v => negb (w v)
  | BNot g => negb (bf_sem w g)
  | BAnd l r => bf_sem w l && bf_sem w r
  | BOr l r => bf_sem w l || bf_sem w r
  end.
Fixpoint bf_vars (f : bform) : list nat :=
  match f with
  | BFalse | BTrue => []
  | BPos v | BNeg v => [v]
  | BNot g => bf_vars g
  | BAnd l r | BOr l r => bf_vars l ++ bf_vars r
  end.

Section Build.
  Variables (B : sbuilder) (T : option atree).
  Hypothesis OK : vt_ok (b_vt B) T.
  Variable st0 : sstate.
  Hypothesis I0 : Inv B T st0.
  Hypothesis HP : forall v, In v (vt_vars (b_vt B)) -> exists i, mget (b_pos B) v = Some i /\ i < size_of st0 /\ forall w, V st0 w i = w v.
  Hypothesis HN : forall v, In v (vt_vars (b_vt B)) -> exists i, mget (b_negv B) v = Some i /\ i < size_of st0 /\ forall w, V st0 w i = negb (w v).

  Definition all_under (st : sstate) (i : nat) : Prop :=
    match T with Some t => under t st i | None => i <= 1 end.
  Definition hT : nat := match T with Some t => height t | None => 0 end.
  Lemma all_under_lt : forall st i, Inv B T st -> i < size_of st -> all_under st i.
  Proof.
    intros st i I L. destruct (Nat.le_gt_cases 2 i) as [G|G].
    - destruct (placed I G L) as (k & u & S & M). unfold all_under. destruct T as [t|]; [|contradiction].
      split; auto. right. exists k, u. auto.
    - unfold all_under. destruct T as [t|]; [|lia]. apply under_const with (B := B) (T := Some t); auto. lia.
  Qed.
  Lemma apply_any : forall fuel st a b op, Inv B T st -> a < size_of st -> b < size_of st -> hT < fuel ->
    exists st' r, apply B fuel st a b op = Some (st', r) /\ Inv B T st' /\ ext st st' /\ r < size_of st' /\
      forall w, V st' w r = opb op (V st w a) (V st w b).
  Proof.
    intros fuel st a b op I La Lb F.
    assert (CASE : (exists t, T = Some t) \/ T = None) by (destruct T; eauto).
    destruct CASE as [(t & ET)|ET].
    - pose proof (all_under_lt I La) as Ua. pose proof (all_under_lt I Lb) as Ub.
      unfold all_under in Ua, Ub. unfold hT in F. rewrite ET in Ua, Ub, F.
      assert (S0 : sT T 0 t) by (rewrite ET; apply sub_refl).
      destruct (@L_apply B T OK fuel t 0 st a b op I S0 Ua Ub F) as (st' & r & E & I' & X & U & W).
      exists st', r. split; auto. split; auto. split; auto. split; auto. apply U.
    - assert (LE : forall i, i < size_of st -> i <= 1).
      { intros i L. destruct (Nat.le_gt_cases 2 i) as [G|G]; [|lia].
        destruct (placed I G L) as (k & u & S & _). rewrite ET in S. destruct S. }
      apply LE in La as La'. apply LE in Lb as Lb'. clear LE. destruct fuel as [|f]; [lia|]. cbn [apply].
      unfold negation_of.
      destruct a as [|[|a]]; [| |lia]; destruct b as [|[|b]]; try lia; rewrite ?(I_c0 I), ?(I_c1 I); destruct op; simpl;
        eexists; eexists; (split; [reflexivity|]); (split; [auto|]); (split; [apply ext_refl|]); (split; [auto|]);
        intros w; unfold zero_of, false_node, true_node; rewrite ?(V_0 w I), ?(V_1 w I); auto.
  Qed.
  Lemma negate_any : forall fuel st a, Inv B T st -> a < size_of st -> hT < fuel ->
    exists st' r, negate_node fuel st a = Some (st', r) /\ Inv B T st' /\ ext st st' /\ r < size_of st' /\
      forall w, V st' w r = negb (V st w a).
  Proof.
    intros fuel st a I La F.
    assert (CASE : (exists t, T = Some t) \/ T = None) by (destruct T; eauto).
    destruct CASE as [(t & ET)|ET].
    - pose proof (all_under_lt I La) as Ua. unfold all_under in Ua. unfold hT in F. rewrite ET in Ua, F.
      assert (S0 : sT T 0 t) by (rewrite ET; apply sub_refl).
      destruct (@L_negate B T OK fuel st a t 0 I S0 Ua F) as (st' & r & E & I' & X & M & _).
      exists st', r. split; auto. split; auto. split; auto. apply (I_neg I') in M as (_ & L & _ & _ & VN). split; auto.
      intros w. rewrite VN. f_equal. apply (ext_V w I X La).
    - assert (a <= 1).
      { destruct (Nat.le_gt_cases 2 a) as [G|G]; [|lia].
        destruct (placed I G La) as (k & u & S & _). rewrite ET in S. destruct S. }
      destruct fuel as [|f]; [lia|]. cbn [negate_node]. unfold negation_of. pose proof (size_ge2 I).
      destruct a as [|[|a]]; [| |lia]; rewrite ?(I_c0 I), ?(I_c1 I);
        eexists; eexists; (split; [reflexivity|]); (split; [auto|]); (split; [apply ext_refl|]); (split; [lia|]);
        intros w; rewrite ?(V_0 w I), ?(V_1 w I); auto.
  Qed.

  Theorem build_sdd_ok : forall fuel f st, hT < fuel -> Inv B T st -> ext st0 st -> incl (bf_vars f) (vt_vars (b_vt B)) ->
    exists st' r, build_sdd B fuel st f = Some (st', r) /\ Inv B T st' /\ ext st st' /\ r < size_of st' /\
      forall w, V st' w r = bf_sem w f.
  Proof.
    intros fuel f. induction f as [| |v|v|g IH|l IHl r IHr|l IHl r IHr]; intros st F I X HV.
    - exists st, 0. pose proof (size_ge2 I). cbn [build_sdd]. split; auto. split; auto. split; [apply ext_refl|]. split; [lia|].
      intros w. apply (V_0 w I).
    - exists st, 1. pose proof (size_ge2 I). cbn [build_sdd]. split; auto. split; auto. split; [apply ext_refl|]. split; [lia|].
      intros w. apply (V_1 w I).
    - destruct (HP v (HV v (or_introl eq_refl))) as (i & M & L & W). cbn [build_sdd]. rewrite M. ob.
      exists st, i. split; auto. split; auto. split; [apply ext_refl|]. pose proof (ext_size X). split; [lia|].
      intros w. rewrite (ext_V w I0 X L). apply W.
    - destruct (HN v (HV v (or_introl eq_refl))) as (i & M & L & W). cbn [build_sdd]. rewrite M. ob.
      exists st, i. split; auto. split; auto. split; [apply ext_refl|]. pose proof (ext_size X). split; [lia|].
      intros w. rewrite (ext_V w I0 X L). apply W.
    - destruct (IH st F I X HV) as (st1 & i & E1 & I1 & X1 & L1 & W1). cbn [build_sdd]. rewrite E1. ob.
      destruct (negate_any I1 L1 F) as (st2 & j & E2 & I2 & X2 & L2 & W2). exists st2, j. split; auto. split; auto.
      split; [eapply ext_trans; eauto|]. split; auto. intros w. rewrite W2, W1. auto.
    - simpl in HV. destruct (IHl st F I X) as (st1 & i & E1 & I1 & X1 & L1 & W1); [intros x Hx; apply HV, in_or_app; auto|].
      destruct (IHr st1 F I1 (ext_trans X X1)) as (st2 & j & E2 & I2 & X2 & L2 & W2); [intros x Hx; apply HV, in_or_app; auto|].
      cbn [build_sdd]. rewrite E1. ob. rewrite E2. ob. pose proof (ext_size X2).
      destruct (@apply_any fuel st2 i j Conjoin I2) as (st3 & k & E3 & I3 & X3 & L3 & W3); auto; [lia|].
      exists st3, k. split; auto. split; auto. split; [eapply ext_trans; [exact X1|eapply ext_trans; eauto]|]. split; auto.
      intros w. rewrite W3, W2. rewrite (ext_V w I1 X2 L1), W1. auto.
    - simpl in HV. destruct (IHl st F I X) as (st1 & i & E1 & I1 & X1 & L1 & W1); [intros x Hx; apply HV, in_or_app; auto|].
      destruct (IHr st1 F I1 (ext_trans X X1)) as (st2 & j & E2 & I2 & X2 & L2 & W2); [intros x Hx; apply HV, in_or_app; auto|].
      cbn [build_sdd]. rewrite E1. ob. rewrite E2. ob. pose proof (ext_size X2).
      destruct (@apply_any fuel st2 i j Disjoin I2) as (st3 & k & E3 & I3 & X3 & L3 & W3); auto; [lia|].
      exists st3, k. split; auto. split; auto. split; [eapply ext_trans; [exact X1|eapply ext_trans; eauto]|]. split; auto.
      intros w. rewrite W3, W2. rewrite (ext_V w I1 X2 L1), W1. auto.
  Qed.

  (** several formulas in one store *)
  Theorem add_formulas_ok : forall fuel fs st, hT < fuel -> Inv B T st -> ext st0 st ->
    (forall f, In f fs -> incl (bf_vars f) (vt_vars (b_vt B))) ->
    exists st' rs, add_formulas B fuel st fs = Some (st', rs) /\ Inv B T st' /\ ext st st' /\
      Forall2 (fun f r => r < size_of st' /\ forall w, V st' w r = bf_sem w f) fs rs.
  Proof.
    intros fuel. induction fs as [|f fs IH]; intros st F I X HV.
    - exists st, []. split; auto. split; auto. split; [apply ext_refl|constructor].
    - destruct (@build_sdd_ok fuel f st F I X) as (st1 & r & E1 & I1 & X1 & L1 & W1); [apply HV; simpl; auto|].
      destruct (IH st1 F I1 (ext_trans X X1)) as (st2 & rs & E2 & I2 & X2 & FA); [intros; apply HV; simpl; auto|].
      cbn [add_formulas]. rewrite E1. ob. rewrite E2. ob. exists st2, (r :: rs). split; auto. split; auto.
      split; [eapply ext_trans; eauto|]. constructor; auto. pose proof (ext_size X2). split; [lia|].
      intros w. rewrite (ext_V w I1 X2 L1). auto.
  Qed.
End Build.

(** evaluation returns the value and never fails *)
Section EvalOk.
  Variables (B : sbuilder) (T : option atree).
  Theorem eval_node_ok : forall st w, Inv B T st -> forall fuel i, i < fuel -> i < size_of st ->
    eval_node (s_nodes st) w fuel i = Some (V st w i).
  Proof.
    intros st w I. induction fuel as [|f IH]; intros i L LS; [lia|]. cbn [eval_node].
    destruct (I_nodes I LS) as ([cs|l] & E); rewrite E; [|unfold V; rewrite (val_lit _ _ _ E); auto].
    destruct (I_or I _ E) as (id & l & r & k & _ & _ & C & P). specialize (P w).
    assert (G : forall ds, (forall p s, In (p, s) ds -> p < i /\ s < i) -> pvl (V st w) ds = [V st w i] ->
              eval_children (eval_node (s_nodes st) w f) ds = Some (V st w i)).
    { induction ds as [|(p & s) ds IHd]; intros D Pd; [discriminate|].
      cbn [eval_children]. destruct (D p s (or_introl eq_refl)). rewrite (IH p) by lia. ob.
      rewrite pvl_cons in Pd. destruct (V st w p).
      - injection Pd as Pd _. rewrite (IH s) by lia. congruence.
      - apply IHd; auto. intros p' s' Hin. apply D; simpl; auto. }
    apply G; auto. intros p s H. destruct (C p s H); tauto.
  Qed.
End EvalOk.
