(** Weighted model counting on the diagrams of the builder, over any
    commutative ring; garbage collection. *)
From Coq Require Import List Arith Bool Lia Ring.
From Verif Require Import ListAux VTree VTreeFacts Formula Sdd SddFacts SddBuild.
Import ListNotations.
Set Implicit Arguments.

Definition upd (w : nat -> bool) (v : nat) (b : bool) : nat -> bool := fun x => if x =? v then b else w x.

(** a commutative ring whose negation is [1 - x] *)
Record ring_like (S : semiring) : Type := {
  rl_sub : sr_t S -> sr_t S -> sr_t S;
  rl_opp : sr_t S -> sr_t S;
  rl_ring : ring_theory (sr_zero S) (sr_one S) (sr_add S) (sr_mult S) rl_sub rl_opp eq;
  rl_neg : forall x, sr_negate S x = rl_sub (sr_one S) x
}.

(** the sum over all assignments of [vars] of the product of the weights,
    restricted to the assignments satisfying [F] *)
Fixpoint wsum (S : semiring) (wt : nat -> sr_t S) (vars : list nat) (F : (nat -> bool) -> bool) (w : nat -> bool) : sr_t S :=
  match vars with
  | [] => if F w then sr_one S else sr_zero S
  | v :: r => sr_add S (sr_mult S (wt v) (wsum S wt r F (upd w v true)))
                       (sr_mult S (sr_negate S (wt v)) (wsum S wt r F (upd w v false)))
  end.

Section Wmc.
  Variables (S : semiring) (RL : ring_like S) (wt : nat -> sr_t S).
  Notation R := (sr_t S).
  Let zero : R := sr_zero S.
  Let one : R := sr_one S.
  Let add : R -> R -> R := sr_add S.
  Let mul : R -> R -> R := sr_mult S.
  Let sub_ : R -> R -> R := rl_sub RL.
  Let opp : R -> R := rl_opp RL.
  Lemma RT : ring_theory zero one add mul sub_ opp eq.
  Proof. exact (rl_ring RL). Qed.
  Add Ring RR : RT.

  Fixpoint esum (vars : list nat) (G : (nat -> bool) -> R) (w : nat -> bool) : R :=
    match vars with
    | [] => G w
    | v :: r => add (mul (wt v) (esum r G (upd w v true))) (mul (sub_ one (wt v)) (esum r G (upd w v false)))
    end.
  Definition ind (b : bool) : R := if b then one else zero.
  Lemma wsum_esum : forall vars F w, wsum S wt vars F w = esum vars (fun w => ind (F w)) w.
  Proof.
    induction vars as [|v vars IH]; intros F w; simpl; auto. rewrite !IH, (rl_neg RL). auto.
  Qed.

  Definition deps (G : (nat -> bool) -> R) (A : list nat) : Prop :=
    forall w w', (forall v, In v A -> w v = w' v) -> G w = G w'.
  Lemma esum_ext : forall vars G H w, (forall w, G w = H w) -> esum vars G w = esum vars H w.
  Proof. induction vars; intros G H w E; simpl; auto. rewrite !(IHvars G H); auto. Qed.
  Lemma esum_add : forall vars G H w, esum vars (fun w => add (G w) (H w)) w = add (esum vars G w) (esum vars H w).
  Proof. induction vars; intros; simpl; auto. rewrite !IHvars. ring. Qed.
  Lemma esum_const : forall vars c w, esum vars (fun _ => c) w = c.
  Proof. induction vars; intros; simpl; auto. rewrite !IHvars. ring. Qed.
  Lemma esum_scale : forall vars c G w, esum vars (fun w => mul c (G w)) w = mul c (esum vars G w).
  Proof. induction vars; intros; simpl; auto. rewrite !IHvars. ring. Qed.
  (** the value does not depend on the starting assignment outside of the
      dependencies that are not summed *)
  Lemma esum_agree : forall vars G A w w', deps G A -> (forall v, In v A -> ~ In v vars -> w v = w' v) ->
    esum vars G w = esum vars G w'.
  Proof.
    induction vars as [|v vars IH]; intros G A w w' D H; simpl.
    - apply D. intros x I. apply H; auto.
    - assert (X : forall b, esum vars G (upd w v b) = esum vars G (upd w' v b)).
      { intros b. apply IH with (A := A); auto. intros x I N. unfold upd. destruct (x =? v) eqn:E; auto.
        apply Nat.eqb_neq in E. apply H; auto. simpl. intros [->|]; auto. }
      rewrite !X. auto.
  Qed.
  (** independence *)
  Lemma esum_prod : forall A B G H w, NoDup (A ++ B) -> deps G A -> deps H B ->
    esum (A ++ B) (fun w => mul (G w) (H w)) w = mul (esum A G w) (esum B H w).
  Proof.
    induction A as [|a A IH]; intros B G H w ND DG DH.
    - simpl. assert (C : forall w', G w' = G w) by (intros; apply DG; intros v []).
      rewrite <- esum_scale. apply esum_ext. intros w'. rewrite C. auto.
    - (* condition on [a] *)
      simpl in ND. inversion ND as [|? ? Na ND']; subst. cbn [app esum].
      assert (C : forall b w', (forall v, In v [a] -> w' v = upd w a b v) ->
                esum (A ++ B) (fun w => mul (G w) (H w)) w' =
                mul (esum A G w') (esum B H w')).
      { intros b w' Hw.
        (* fix the value of [a] in G *)
        set (G' := fun x => G (upd x a b)).
        assert (DG' : deps G' A).
        { intros x y Hxy. unfold G'. apply DG. intros v [<-|I]; unfold upd; [rewrite Nat.eqb_refl; auto|].
          destruct (v =? a); auto. }
        assert (AG : forall vars (K : (nat -> bool) -> R -> R) x, ~ In a vars -> x a = b ->
                  esum vars (fun x => K x (G x)) x = esum vars (fun x => K x (G' x)) x).
        { induction vars as [|v vars IHv]; intros K x NI Hx; simpl.
          - unfold G'. f_equal. apply DG. intros v _. unfold upd. destruct (v =? a) eqn:E; auto.
            apply Nat.eqb_eq in E. congruence.
          - simpl in NI. rewrite !IHv; auto; unfold upd; destruct (a =? v) eqn:E; auto;
              apply Nat.eqb_eq in E; exfalso; apply NI; auto. }
        assert (Hb : w' a = b) by (rewrite Hw; [unfold upd; rewrite Nat.eqb_refl; auto|simpl; auto]).
        rewrite (AG (A ++ B) (fun x g => mul g (H x))) by auto.
        rewrite (AG A (fun x g => g)) by (auto; intros I; apply Na, in_or_app; auto).
        apply IH; auto. }
      rewrite (C true) by (intros v [<-|[]]; auto). rewrite (C false) by (intros v [<-|[]]; auto).
      assert (HB : forall b, esum B H (upd w a b) = esum B H w).
      { intros b. apply esum_agree with (A := B); auto. intros v I N. contradiction. }
      rewrite !HB. ring.
  Qed.
  (** summing out unused variables *)
  Lemma esum_pad_r : forall A B G w, NoDup (A ++ B) -> deps G A -> esum (A ++ B) G w = esum A G w.
  Proof.
    intros A B G w ND D.
    rewrite esum_ext with (H := fun w => mul (G w) ((fun _ => one) w)) by (intros; ring).
    rewrite esum_prod by (auto; intros x y _; auto). rewrite esum_const. ring.
  Qed.
  Lemma esum_pad_l : forall A B G w, NoDup (A ++ B) -> deps G B -> esum (A ++ B) G w = esum B G w.
  Proof.
    intros A B G w ND D.
    rewrite esum_ext with (H := fun w => mul ((fun _ => one) w) (G w)) by (intros; ring).
    rewrite esum_prod by (auto; intros x y _; auto). rewrite esum_const. ring.
  Qed.

  Lemma sub_vars : forall t k u, sub t k u -> exists X Y, avars t = X ++ avars u ++ Y.
  Proof.
    induction 1 as [t|i l r k u _ (X & Y & E)|i l r k u _ (X & Y & E)].
    - exists [], []. rewrite app_nil_r. auto.
    - exists X, (Y ++ avars r). simpl. rewrite E, !app_assoc_reverse. auto.
    - exists (avars l ++ X), Y. simpl. rewrite E, !app_assoc_reverse. auto.
  Qed.
  Lemma esum_sub : forall t k u G w, sub t k u -> NoDup (avars t) -> deps G (avars u) ->
    esum (avars t) G w = esum (avars u) G w.
  Proof.
    intros t k u G w SB ND D. destruct (sub_vars SB) as (X & Y & E). rewrite E in *.
    assert (ND' : NoDup (avars u ++ Y)) by (apply NoDup_split in ND; tauto).
    rewrite esum_pad_l; auto.
    - apply esum_pad_r; auto.
    - intros x y H. apply D. intros v I. apply H, in_or_app; auto.
  Qed.

  (** a partition adds up *)
  Lemma pvl_sum : forall (f : nat -> bool) cs,
    fold_right add zero (map (fun c => mul (ind (f (fst c))) (ind (f (snd c)))) cs) =
    fold_right add zero (map ind (pvl f cs)).
  Proof.
    induction cs as [|(p & s) cs IH]; auto. rewrite pvl_cons. simpl. rewrite IH.
    destruct (f p); simpl; ring.
  Qed.
  Lemma esum_fold : forall vars (L : list ((nat -> bool) -> R)) w,
    esum vars (fun w => fold_right add zero (map (fun g => g w) L)) w =
    fold_right add zero (map (fun g => esum vars g w) L).
  Proof.
    intros vars. induction L as [|g L IH]; intros w; simpl; [apply esum_const|].
    rewrite esum_add, IH. auto.
  Qed.

  Section Node.
    Variables (B : sbuilder) (T : option atree).
    Hypothesis OK : vt_ok (b_vt B) T.
    Variable st : sstate.
    Hypothesis I : Inv B T st.

    Lemma sT_nodup : forall k u, sT T k u -> NoDup (avars u).
    Proof.
      intros k u SB. pose proof (ok_nodup OK) as ND. pose proof (ok_vars OK) as E.
      destruct T as [t|]; [|destruct SB]. rewrite <- E in ND.
      destruct (sub_vars SB) as (X & Y & E'). rewrite E' in ND.
      apply NoDup_split in ND as (_ & ND & _). apply NoDup_split in ND. tauto.
    Qed.

    (** a node depends only on the variables below it *)
    Lemma node_deps : forall i t k, sT T k t -> under t st i ->
      forall w w', (forall v, In v (avars t) -> w v = w' v) -> V st w i = V st w' i.
    Proof.
      induction i as [i IH] using (well_founded_induction lt_wf). intros t k ST U w w' H.
      destruct (Nat.le_gt_cases 2 i) as [G|G].
      2:{ destruct i as [|[|i]]; [rewrite !(V_0 _ I)|rewrite !(V_1 _ I)|lia]; auto. }
      destruct (I_nodes I (proj1 U)) as ([cs|l] & E).
      - destruct (@or_at B T OK st t k i cs I ST U E) as (j & id & l & r & Sj & M & C & P).
        assert (Q : [V st w i] = [V st w' i]); [|congruence]. rewrite <- !P. apply pvl_ext. intros p s Hin.
        destruct (C p s Hin) as (Lp & Ls & Up & Us).
        destruct (sub_vars Sj) as (X & Y & EV). simpl in EV.
        split.
        + eapply IH with (t := l); eauto.
          * eapply sT_trans; [exact (sT_trans _ _ ST Sj)|apply sub_l, sub_refl].
          * intros v Iv. apply H. rewrite EV. rewrite !in_app_iff. auto.
        + eapply IH with (t := r); eauto.
          * eapply sT_trans; [exact (sT_trans _ _ ST Sj)|apply sub_r, sub_refl].
          * intros v Iv. apply H. rewrite EV. rewrite !in_app_iff. auto.
      - destruct (I_lit I G E) as (id & v & k' & S' & M & D).
        destruct (@under_at B T st t k i I ST U G) as (j & u & Su & Mu).
        rewrite M in Mu. injection Mu as Mu.
        destruct (ok_unique OK (sT_trans _ _ ST Su) S') as [-> _]; [simpl; auto|].
        destruct (sub_vars Su) as (X & Y & EV). simpl in EV.
        assert (Hv : w v = w' v) by (apply H; rewrite EV; rewrite !in_app_iff; simpl; auto).
        unfold V. rewrite !(val_lit _ _ _ E). destruct D as [[-> _]|[-> _]]; simpl; congruence.
    Qed.

    Theorem eval_t_ok : forall fuel i t k w, i < fuel -> sT T k t -> under t st i ->
      eval_node_t S (s_nodes st) wt fuel i = Some (esum (avars t) (fun w => ind (V st w i)) w).
    Proof.
      induction fuel as [|f IH]; intros i t k w L ST U; [lia|]. cbn [eval_node_t].
      destruct (I_nodes I (proj1 U)) as ([cs|l] & E); rewrite E.
      - destruct (@or_at B T OK st t k i cs I ST U E) as (j & id & l & r & Sj & M & C & P).
        pose proof (sT_trans _ _ ST Sj) as SN.
        assert (Sl : sT T (k + j + 0) l) by (eapply sT_trans; [exact SN|apply sub_l, sub_refl]).
        assert (Sr : sT T (k + j + (size l + 1 + 0)) r) by (eapply sT_trans; [exact SN|apply sub_r, sub_refl]).
        assert (UN : under (AB id l r) st i).
        { split; [apply U|]. right. exists 0, (AB id l r). split; [apply sub_refl|auto]. }
        rewrite (@esum_sub t j (AB id l r)); auto; [|eapply sT_nodup; eauto|].
        2:{ intros x y H. f_equal. exact (@node_deps i (AB id l r) _ SN UN x y H). }
        pose proof (sT_nodup _ _ SN) as ND. simpl in ND. simpl avars.
        (* the loop *)
        assert (LOOP : forall ds acc, (forall c, In c ds -> In c cs) ->
          eval_children_t S (eval_node_t S (s_nodes st) wt f) acc ds =
          Some (add acc (fold_right add zero (map (fun c =>
             mul (esum (avars l) (fun w => ind (V st w (fst c))) w) (esum (avars r) (fun w => ind (V st w (snd c))) w)) ds)))).
        { induction ds as [|(p & s) ds IHd]; intros acc Hin.
          - simpl. f_equal. change (@eq R acc (add acc zero)). ring.
          - destruct (C p s) as (Lp & Ls & Up & Us); [apply Hin; simpl; auto|].
            cbn [eval_children_t].
            rewrite (IH p l _ w ltac:(lia) Sl Up). ob. rewrite (IH s r _ w ltac:(lia) Sr Us). ob.
            rewrite IHd by (intros; apply Hin; simpl; auto). simpl. f_equal.
            match goal with |- @eq _ ?a ?b => change (@eq R a b) end. fold add mul. ring. }
        rewrite LOOP by auto. f_equal. fold zero.
        transitivity (esum (avars l ++ avars r) (fun w => fold_right add zero
          (map (fun c => mul (ind (V st w (fst c))) (ind (V st w (snd c)))) cs)) w).
        2:{ apply esum_ext. intros w'. rewrite pvl_sum, P. simpl. ring. }
        transitivity (esum (avars l ++ avars r) (fun w => fold_right add zero
          (map (fun g : (nat -> bool) -> R => g w) (map (fun c w => mul (ind (V st w (fst c))) (ind (V st w (snd c)))) cs))) w).
        2:{ apply esum_ext. intros w'. rewrite map_map. auto. }
        rewrite esum_fold, map_map.
        transitivity (fold_right add zero (map (fun c : nat * nat =>
          mul (esum (avars l) (fun w => ind (V st w (fst c))) w) (esum (avars r) (fun w => ind (V st w (snd c))) w)) cs)).
        { ring. }
        f_equal. apply map_ext_in. intros (p & s) Hin. destruct (C p s Hin) as (_ & _ & Up & Us). simpl.
        rewrite esum_prod; auto.
        + intros x y H. f_equal. exact (@node_deps p l _ Sl Up x y H).
        + intros x y H. f_equal. exact (@node_deps s r _ Sr Us x y H).
      - destruct (Nat.le_gt_cases 2 i) as [G|G].
        + destruct (I_lit I G E) as (id & v & k' & S' & M & D).
          destruct (@under_at B T st t k i I ST U G) as (j & u & Su & Mu).
          rewrite M in Mu. injection Mu as Mu.
          destruct (ok_unique OK (sT_trans _ _ ST Su) S') as [-> _]; [simpl; auto|].
          rewrite (@esum_sub t j (AL id v)); auto; [|eapply sT_nodup; eauto|].
          * simpl. f_equal. unfold V, ind. rewrite !(val_lit _ _ _ E).
            destruct D as [[-> _]|[-> _]]; simpl; unfold upd; rewrite Nat.eqb_refl; simpl.
            -- match goal with |- @eq _ ?a ?b => change (@eq R a b) end. ring.
            -- rewrite (rl_neg RL). match goal with |- @eq _ ?a ?b => change (@eq R a b) end. fold sub_ one. ring.
          * intros x y H. f_equal. unfold V. rewrite !(val_lit _ _ _ E).
            assert (Hv : x v = y v) by (apply H; simpl; auto).
            destruct D as [[-> _]|[-> _]]; simpl; congruence.
        + rewrite esum_ext with (H := fun _ => eval_lit_t S wt l).
          * rewrite esum_const. auto.
          * intros w'. destruct i as [|[|i]]; [| |lia].
            -- rewrite (V_0 _ I). rewrite (I_false I) in E. injection E as <-. auto.
            -- rewrite (V_1 _ I). rewrite (I_true I) in E. injection E as <-. auto.
    Qed.
  End Node.
End Wmc.

(** ** garbage collection *)

(** the nodes reachable from [i] *)
Inductive reach (ns : snodes) : nat -> nat -> Prop :=
| reach_refl : forall i, reach ns i i
| reach_step : forall i cs p s j, get_node ns i = Some (SOr cs) -> In (p, s) cs ->
    (reach ns p j \/ reach ns s j) -> reach ns i j.

Section Gc.
  Variable ns : snodes.

  Definition closed (A : nat -> Prop) : Prop := forall i cs p s, A i -> get_node ns i = Some (SOr cs) -> In (p, s) cs -> A p /\ A s.

  (** a successful marking adds exactly the reachable nodes *)
  Lemma mark_spec : forall fuel i vis vis', mark_visited ns fuel i vis = Some vis' ->
    forall j, In j vis' <-> In j vis \/ reach ns i j.
  Proof.
    induction fuel as [|f IH]; intros i vis vis' H j; [discriminate|]. cbn [mark_visited] in H.
    destruct (get_node ns i) as [[cs|l]|] eqn:E; [| |discriminate].
    - assert (G : forall ds vis vis', mark_children (mark_visited ns f) ds vis = Some vis' ->
                In j vis' <-> In j vis \/ exists p s, In (p, s) ds /\ (reach ns p j \/ reach ns s j)).
      { induction ds as [|(p & s) ds IHd]; intros v v' Hm.
        - injection Hm as <-. split; auto. intros [X|(p & s & [] & _)]; auto.
        - cbn [mark_children] in Hm. destruct (mark_visited ns f p v) as [v1|] eqn:E1; [|discriminate].
          cbn [VTree.obind] in Hm. destruct (mark_visited ns f s v1) as [v2|] eqn:E2; [|discriminate].
          cbn [VTree.obind] in Hm. apply IHd in Hm. rewrite Hm, (IH _ _ _ E2), (IH _ _ _ E1). split.
          + intros [[[X|X]|X]|(p' & s' & X & Y)]; auto.
            * right. exists p, s. simpl. auto.
            * right. exists p, s. simpl. auto.
            * right. exists p', s'. simpl. auto.
          + intros [X|(p' & s' & [X|X] & Y)]; auto; [injection X as <- <-; tauto|]. right. exists p', s'. auto. }
      apply G in H. rewrite H. simpl. split.
      + intros [[<-|X]|(p & s & X & Y)]; auto; [right; apply reach_refl|]. right. eapply reach_step; eauto.
      + intros [X|X]; auto. inversion X as [|? cs' p s ? E' Hin Hr]; subst; auto.
        rewrite E in E'. injection E' as <-. right. exists p, s. auto.
    - injection H as <-. simpl. split.
      + intros [<-|X]; auto. right. apply reach_refl.
      + intros [X|X]; auto. inversion X as [|? cs' p s ? E' Hin Hr]; subst; auto. congruence.
  Qed.
  Lemma mark_roots_spec : forall fuel roots vis vis', mark_roots ns fuel roots vis = Some vis' ->
    forall j, In j vis' <-> In j vis \/ exists r, In r roots /\ reach ns r j.
  Proof.
    intros fuel. induction roots as [|r roots IH]; intros vis vis' H j.
    - injection H as <-. split; auto. intros [X|(r & [] & _)]; auto.
    - cbn [mark_roots] in H. destruct (mark_visited ns fuel r vis) as [v|] eqn:E; [|discriminate].
      cbn [VTree.obind] in H. rewrite (IH _ _ H), (mark_spec _ _ _ E). split.
      + intros [[X|X]|(r' & X & Y)]; auto; right; [exists r|exists r']; simpl; auto.
      + intros [X|(r' & [<-|X] & Y)]; auto. right. exists r'. auto.
  Qed.
  Lemma retain_nth : forall keep (l : snodes) a i, nth_error (retain_from a l keep) i =
    match nth_error l i with Some n => Some (if keep (a + i) then n else None) | None => None end.
  Proof.
    intros keep. induction l as [|n l IH]; intros a [|i]; simpl; auto.
    - rewrite Nat.add_0_r. auto.
    - rewrite IH. replace (a + S i) with (S a + i) by lia. auto.
  Qed.

  (** exactly the nodes reachable from a root are kept, unchanged *)
  Theorem gc_spec : forall roots ns', roots <> [] -> garbage_collect ns roots = Some ns' ->
    length ns' = length ns /\
    (forall i, (exists r, In r roots /\ reach ns r i) -> get_node ns' i = get_node ns i) /\
    (forall i, ~ (exists r, In r roots /\ reach ns r i) -> get_node ns' i = None).
  Proof.
    intros roots ns' NE H. unfold garbage_collect in H. destruct roots as [|r0 rs]; [congruence|]. clear NE.
    set (roots := r0 :: rs) in *. destruct (mark_roots ns (S (length ns)) roots []) as [vis|] eqn:E; [|discriminate].
    cbn [VTree.obind] in H. injection H as <-.
    assert (K : forall i, existsb (Nat.eqb i) vis = true <-> exists r, In r roots /\ reach ns r i).
    { intros i. rewrite existsb_exists. split.
      - intros (x & X & Y). apply Nat.eqb_eq in Y. subst x. apply (mark_roots_spec _ _ _ E) in X as [[]|X]; auto.
      - intros X. exists i. rewrite Nat.eqb_refl. split; auto. apply (mark_roots_spec _ _ _ E). auto. }
    split; [|split].
    - clear. generalize 0. induction ns as [|n l IH]; intros a; simpl; auto.
    - intros i Hi. unfold get_node. rewrite retain_nth. simpl. apply K in Hi. rewrite Hi.
      destruct (nth_error ns i) as [[n|]|]; auto.
    - intros i Hi. unfold get_node. rewrite retain_nth. simpl.
      destruct (existsb (Nat.eqb i) vis) eqn:Q; [exfalso; apply Hi, K; auto|].
      destruct (nth_error ns i); auto.
  Qed.

  (** marking succeeds on a complete acyclic store *)
  Lemma mark_total : acyc ns -> (forall i cs p s, get_node ns i = Some (SOr cs) -> In (p, s) cs ->
      get_node ns p <> None /\ get_node ns s <> None) ->
    forall fuel i vis, i < fuel -> get_node ns i <> None -> exists vis', mark_visited ns fuel i vis = Some vis'.
  Proof.
    intros A C. induction fuel as [|f IH]; intros i vis L N; [lia|]. cbn [mark_visited].
    destruct (get_node ns i) as [[cs|l]|] eqn:E; [|eauto|congruence].
    assert (G : forall ds vis, (forall c, In c ds -> In c cs) ->
              exists vis', mark_children (mark_visited ns f) ds vis = Some vis').
    { induction ds as [|(p & s) ds IHd]; intros v H; [simpl; eauto|].
      assert (Hc : In (p, s) cs) by (apply H; simpl; auto).
      destruct (A _ _ _ _ E Hc) as [Lp Ls]. destruct (C _ _ _ _ E Hc) as [Np Ns].
      cbn [mark_children]. destruct (IH p v ltac:(lia) Np) as (v1 & E1). rewrite E1. ob.
      destruct (IH s v1 ltac:(lia) Ns) as (v2 & E2). rewrite E2. ob. apply IHd. intros; apply H; simpl; auto. }
    apply G; auto.
  Qed.
End Gc.

(** evaluation of a node looks only at the nodes reachable from it *)
Lemma eval_gc : forall ns ns' w i, (forall j, reach ns i j -> get_node ns' j = get_node ns j) ->
  forall fuel, eval_node ns' w fuel i = eval_node ns w fuel i.
Proof.
  intros ns ns' w i H fuel. revert i H. induction fuel as [|f IH]; intros i H; auto. cbn [eval_node].
  rewrite (H i (reach_refl ns i)). destruct (get_node ns i) as [[cs|l]|] eqn:E; auto.
  assert (G : forall ds, (forall c, In c ds -> In c cs) ->
            eval_children (eval_node ns' w f) ds = eval_children (eval_node ns w f) ds).
  { induction ds as [|(p & s) ds IHd]; intros Hd; auto. cbn [eval_children].
    assert (Hc : In (p, s) cs) by (apply Hd; simpl; auto).
    rewrite (IH p) by (intros j R; apply H; eapply reach_step; eauto).
    destruct (eval_node ns w f p) as [[|]|]; auto; cbn [VTree.obind].
    - apply IH. intros j R. apply H. eapply reach_step; eauto.
    - apply IHd. intros; apply Hd; simpl; auto. }
  apply G; auto.
Qed.
Lemma eval_t_gc : forall S ns ns' v i, (forall j, reach ns i j -> get_node ns' j = get_node ns j) ->
  forall fuel, eval_node_t S ns' v fuel i = eval_node_t S ns v fuel i.
Proof.
  intros S ns ns' v i H fuel. revert i H. induction fuel as [|f IH]; intros i H; auto. cbn [eval_node_t].
  rewrite (H i (reach_refl ns i)). destruct (get_node ns i) as [[cs|l]|] eqn:E; auto.
  assert (G : forall ds acc, (forall c, In c ds -> In c cs) ->
            eval_children_t S (eval_node_t S ns' v f) acc ds = eval_children_t S (eval_node_t S ns v f) acc ds).
  { induction ds as [|(p & s) ds IHd]; intros acc Hd; auto. cbn [eval_children_t].
    assert (Hc : In (p, s) cs) by (apply Hd; simpl; auto).
    rewrite (IH p) by (intros j R; apply H; eapply reach_step; eauto).
    rewrite (IH s) by (intros j R; apply H; eapply reach_step; eauto).
    destruct (eval_node_t S ns v f p) as [a|]; auto; cbn [VTree.obind].
    destruct (eval_node_t S ns v f s) as [b|]; auto; cbn [VTree.obind].
    apply IHd. intros; apply Hd; simpl; auto. }
  apply G; auto.
Qed.
