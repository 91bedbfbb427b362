(** Facts about the formula models: Boolean semantics of clause operations,
    sorting, and the best-first search. *)
From Coq Require Import List Arith Bool ZArith QArith Qcanon Lia Permutation.
From Verif Require Import Order OSet Prov ProvInst Views Formula Utils PropsUtils.
Import ListNotations.
Open Scope nat_scope.
Set Implicit Arguments.

(** ** Boolean semantics (the specification) *)
Definition world := nat -> bool.
Definition lholds (w : world) (l : lit) : bool := match l with Pos n => w n | Neg n => negb (w n) end.
Definition conj (w : world) (c : clause) : bool := forallb (lholds w) c.
Definition disjn (w : world) (c : clause) : bool := existsb (lholds w) c.
Definition dnf_sem (w : world) (f : list clause) : bool := existsb (conj w) f.
Definition cnf_sem (w : world) (f : list clause) : bool := forallb (disjn w) f.

Lemma lholds_negate : forall w l, lholds w (lnegate l) = negb (lholds w l).
Proof. destruct l; simpl; auto. rewrite negb_involutive; auto. Qed.

Lemma conj_negate : forall w c, conj w (map lnegate c) = negb (disjn w c).
Proof. induction c; simpl; auto. rewrite lholds_negate, negb_orb. f_equal; auto. Qed.
Lemma disjn_negate : forall w c, disjn w (map lnegate c) = negb (conj w c).
Proof. induction c; simpl; auto. rewrite lholds_negate, negb_andb. f_equal; auto. Qed.
Lemma cnf_negate : forall w f, cnf_sem w (map (map lnegate) f) = negb (dnf_sem w f).
Proof. induction f; simpl; auto. rewrite disjn_negate, negb_orb. f_equal; auto. Qed.
Lemma dnf_negate : forall w f, dnf_sem w (map (map lnegate) f) = negb (cnf_sem w f).
Proof. induction f; simpl; auto. rewrite conj_negate, negb_andb. f_equal; auto. Qed.

Lemma lit_eqb_true : forall a b, lit_eqb a b = true <-> a = b.
Proof.
  intros a b. unfold lit_eqb. rewrite andb_true_iff, Nat.eqb_eq, Bool.eqb_true_iff.
  destruct a, b; simpl; split; intros; try (destruct H; congruence); inversion H; auto.
Qed.
Lemma list_eqb_true : forall A (eqb : A -> A -> bool),
  (forall a b, eqb a b = true <-> a = b) -> forall l m, list_eqb eqb l m = true <-> l = m.
Proof.
  intros A eqb H. induction l; destruct m; simpl; try (split; congruence).
  rewrite andb_true_iff, H, IHl. split; [intros [-> ->]; auto|]. intros E; injection E; auto.
Qed.
Lemma clause_eqb_true : forall a b, clause_eqb a b = true <-> a = b.
Proof. apply list_eqb_true, lit_eqb_true. Qed.
Lemma nlist_eqb_true : forall a b : list nat, list_eqb Nat.eqb a b = true <-> a = b.
Proof. apply list_eqb_true, Nat.eqb_eq. Qed.

(** ** Merging *)
Lemma same_lit : forall x y, fact_id x = fact_id y -> lsign x = lsign y -> x = y.
Proof. destruct x, y; simpl; intros; try congruence. Qed.

Lemma merge_sem : forall w a b,
  match merge a b with
  | Some c => conj w c = conj w a && conj w b
  | None => conj w a && conj w b = false
  end.
Proof.
  intros w. induction a as [|x a IH]; [simpl; auto|].
  induction b as [|y b IHb].
  - simpl. specialize (IH []). destruct (merge a []); simpl in *; rewrite ?andb_true_r in *.
    + rewrite IH; auto.
    + rewrite IH, andb_false_r; auto.
  - cbn [merge]. destruct (Nat.compare (fact_id x) (fact_id y)) eqn:E.
    + apply Nat.compare_eq in E.
      destruct (lsign x) eqn:Sx, (lsign y) eqn:Sy.
      * specialize (IH b). assert (x = y) by (apply same_lit; congruence). subst y.
        replace (Pos (fact_id x)) with x by (destruct x; simpl in *; congruence).
        destruct (merge a b); simpl in *; [rewrite IH|];
          destruct (lholds w x), (conj w a), (conj w b); simpl in *; auto.
      * clear -E Sx Sy. destruct x, y; simpl in *; try discriminate. subst.
        destruct (w n0); simpl; auto. rewrite andb_false_r; auto.
      * clear -E Sx Sy. destruct x, y; simpl in *; try discriminate. subst.
        destruct (w n0); simpl; auto. rewrite andb_false_r; auto.
      * specialize (IH b). assert (x = y) by (apply same_lit; congruence). subst y.
        replace (Neg (fact_id x)) with x by (destruct x; simpl in *; congruence).
        destruct (merge a b); simpl in *; [rewrite IH|];
          destruct (lholds w x), (conj w a), (conj w b); simpl in *; auto.
    + specialize (IH (y :: b)). destruct (merge a (y :: b)); cbn [ocons].
      * simpl in *. rewrite IH. destruct (lholds w x), (conj w a); auto.
      * simpl in *. destruct (lholds w x), (conj w a); simpl in *; auto.
    + cbn [merge] in IHb. set (m := (fix go (b : clause) : option clause := _) b) in *.
      destruct m; cbn [ocons].
      * simpl in *. rewrite IHb. destruct (lholds w x), (conj w a), (lholds w y); simpl; auto.
      * simpl in *. destruct (lholds w x), (conj w a), (lholds w y); simpl in *; auto.
Qed.

Lemma mu_cases : forall (h : clause -> bool) (op : bool -> bool -> bool) u,
  (forall x y z, op x (op y z) = op (op x y) z) -> (forall x y, op x y = op y x) ->
  (forall x, op x x = x) -> (forall x, op u x = x) ->
  h [] = u -> (forall x c, h (x :: c) = op (h [x]) (h c)) ->
  forall a b, h (merge_unchecked a b) = op (h a) (h b).
Proof.
  intros h op u As Co Id Un Hn Hc. induction a as [|x a IH].
  - simpl. intros; rewrite Hn, Un; auto.
  - induction b as [|y b IHb].
    + cbn [merge_unchecked]. rewrite Hc, IH, (Hc x a), Hn. rewrite As; auto.
    + cbn [merge_unchecked]. destruct (Nat.compare (fact_id x) (fact_id y)) eqn:E.
      * apply Nat.compare_eq in E.
        destruct (lsign x) eqn:Sx, (lsign y) eqn:Sy.
        -- assert (x = y) by (apply same_lit; congruence). subst y.
           replace (Pos (fact_id x)) with x by (destruct x; simpl in *; congruence).
           rewrite Hc, IH, (Hc x a), (Hc x b).
           rewrite (Co (op (h [x]) (h a))), <- (As (h [x]) (h b)), (Co (h b)).
           rewrite !As, Id. auto.
        -- replace (Pos (fact_id x)) with x by (destruct x; simpl in *; congruence).
           replace (Neg (fact_id x)) with y by (destruct y; simpl in *; congruence).
           rewrite Hc, (Hc y (merge_unchecked _ _)), IH, (Hc x a), (Hc y b).
           rewrite <- (As (h [x]) (h a)), !As. f_equal. rewrite <- !As. f_equal. apply Co.
        -- replace (Pos (fact_id x)) with y by (destruct y; simpl in *; congruence).
           replace (Neg (fact_id x)) with x by (destruct x; simpl in *; congruence).
           rewrite Hc, (Hc x (merge_unchecked _ _)), IH, (Hc x a), (Hc y b).
           rewrite (As (h [y])), (Co (h [y]) (h [x])).
           rewrite <- (As (h [x]) (h a)), !As. f_equal. rewrite <- !As. f_equal. apply Co.
        -- assert (x = y) by (apply same_lit; congruence). subst y.
           replace (Neg (fact_id x)) with x by (destruct x; simpl in *; congruence).
           rewrite Hc, IH, (Hc x a), (Hc x b).
           rewrite (Co (op (h [x]) (h a))), <- (As (h [x]) (h b)), (Co (h b)).
           rewrite !As, Id. auto.
      * rewrite Hc, IH, (Hc x a). rewrite As; auto.
      * cbn [merge_unchecked] in IHb. rewrite Hc, IHb, (Hc y b).
        rewrite (As (h [y])), (Co (h [y])), <- As. auto.
Qed.

Lemma mu_conj : forall w a b, conj w (merge_unchecked a b) = conj w a && conj w b.
Proof.
  intros w. apply mu_cases with (u := true); try (intros; destruct x; try destruct y; try destruct z; auto; fail); auto.
  - intros. simpl. rewrite andb_true_r; auto.
Qed.
Lemma mu_disj : forall w a b, disjn w (merge_unchecked a b) = disjn w a || disjn w b.
Proof.
  intros w. apply mu_cases with (u := false); try (intros; destruct x; try destruct y; try destruct z; auto; fail); auto.
  - intros. simpl. rewrite orb_false_r; auto.
Qed.

Lemma invalid_sem : forall w c, is_valid c = false -> conj w c = false /\ disjn w c = true.
Proof.
  intros w. induction c as [|a c IH]; [discriminate|]. destruct c as [|b c]; [discriminate|].
  cbn [is_valid]. destruct (_ && _) eqn:E.
  - intros _. apply andb_true_iff in E as [E1 E2]. apply Nat.eqb_eq in E1.
    destruct a, b; simpl in *; try discriminate; subst; destruct (w n0); auto.
  - intros H. destruct (IH H) as [C D]. split; cbn [conj disjn forallb existsb] in *.
    + unfold conj in *; simpl in *. rewrite C, andb_false_r; auto.
    + unfold disjn in *; simpl in *. rewrite D, orb_true_r; auto.
Qed.

(** ** Sets of literals *)
Lemma conj_incl : forall w c d, (forall l, In l c <-> In l d) -> conj w c = conj w d.
Proof.
  intros w c d H. apply eq_true_iff_eq. unfold conj. rewrite !forallb_forall.
  split; intros G l I; apply G, H; auto.
Qed.
Lemma disjn_incl : forall w c d, (forall l, In l c <-> In l d) -> disjn w c = disjn w d.
Proof.
  intros w c d H. apply eq_true_iff_eq. unfold disjn. rewrite !existsb_exists.
  split; intros (l & I & L); exists l; split; auto; apply H; auto.
Qed.

Section SortFacts.
  Variables (A : Type) (le : A -> A -> bool).
  Lemma sinsert_perm : forall x l, Permutation (sinsert le x l) (x :: l).
  Proof.
    induction l; simpl; auto. destruct (le x a); auto.
    apply perm_trans with (a :: x :: l); [apply perm_skip; auto|apply perm_swap].
  Qed.
  Lemma ssort_perm : forall l, Permutation (ssort le l) l.
  Proof.
    induction l; simpl; auto. eapply perm_trans; [apply sinsert_perm|]. apply perm_skip; auto.
  Qed.
  Hypothesis total : forall x y, le x y = false -> le y x = true.
  Hypothesis trans : forall x y z, le x y = true -> le y z = true -> le x z = true.
  Lemma ssort_sorted : forall l, Sorting.Sorted.StronglySorted (fun a b => le a b = true) (ssort le l).
  Proof.
    assert (I : forall x l, Sorting.Sorted.StronglySorted (fun a b => le a b = true) l ->
                 Sorting.Sorted.StronglySorted (fun a b => le a b = true) (sinsert le x l)).
    { intros x l S. induction S as [|y l S IH F]; simpl; [repeat constructor|].
      destruct (le x y) eqn:E.
      - constructor; [constructor; auto|]. constructor; auto.
        eapply Forall_impl; [|exact F]. intros; eapply trans; eauto.
      - constructor; auto. apply Forall_forall. intros z Z.
        apply (Permutation_in _ (sinsert_perm x l)) in Z as [<-|Z]; [auto|].
        rewrite Forall_forall in F; auto. }
    induction l; simpl; [constructor|auto].
  Qed.
End SortFacts.

Lemma vdedup_In : forall l x, In x (vdedup l) <-> In x l.
Proof.
  induction l as [|a l IH]; [simpl; tauto|]. intros x. destruct l as [|b l]; [simpl; tauto|].
  change (vdedup (a :: b :: l)) with (if lit_eqb a b then vdedup (b :: l) else a :: vdedup (b :: l)).
  destruct (lit_eqb a b) eqn:E.
  - apply lit_eqb_true in E; subst. rewrite IH. simpl. tauto.
  - simpl in *. rewrite IH. tauto.
Qed.

Lemma chosen_clause_In : forall cls v x, In x (chosen_clause cls v) <-> In x (chosen cls v).
Proof.
  intros. unfold chosen_clause. rewrite vdedup_In. split; apply Permutation_in;
  [apply ssort_perm|apply Permutation_sym, ssort_perm].
Qed.

(** ** The best-first search *)
Lemma in_bounds_iff : forall v lens, in_bounds v lens = true <-> Forall2 lt v lens.
Proof.
  induction v; destruct lens; simpl; split; intros H; try (constructor; fail); try discriminate; auto.
  - inversion H.
  - inversion H.
  - apply andb_true_iff in H as [H1 H2]. apply Nat.ltb_lt in H1. constructor; auto. apply IHv; auto.
  - inversion H; subst. apply andb_true_iff. split; [apply Nat.ltb_lt; auto|apply IHv; auto].
Qed.

Lemma incr_decr : forall v, (exists x, In x v /\ x <> 0) ->
  exists i u, i < length u /\ v = incr i u /\ length u = length v /\
    (forall lens, Forall2 lt v lens -> Forall2 lt u lens) /\
    fold_right plus 0 v = S (fold_right plus 0 u).
Proof.
  induction v as [|y v IH]; intros (x & I & N); [destruct I|]. destruct y as [|y].
  - destruct IH as (i & u & L & E & Le & B & Su).
    { destruct I as [E|I]; [lia|eauto]. }
    exists (S i), (0 :: u). simpl. split; [lia|]. split; [f_equal; auto|]. split; [lia|].
    split; [intros lens F; inversion F; subst; constructor; auto|]. lia.
  - exists 0, (y :: v). simpl. split; [lia|]. split; [f_equal; lia|]. split; [auto|].
    split; [intros lens F; inversion F; subst; constructor; auto; lia|]. lia.
Qed.

Lemma incr_length : forall i v, length (incr i v) = length v.
Proof. induction i; destruct v; simpl; auto. Qed.

Lemma filter_length_le : forall A (f : A -> bool) l, length (filter f l) <= length l.
Proof. induction l; simpl; auto. destruct (f a); simpl; lia. Qed.

Definition pop_perm (pop : popper) : Prop :=
  (forall key h, pop key h = None -> h = []) /\
  (forall key h x h', pop key h = Some (x, h') ->
     Permutation h (x :: h') /\ forall y, In y h -> (key y <= key x)%Qc).

Section SearchFacts.
  Variable pop : popper.
  Hypothesis POP : pop_perm pop.
  Variables (lens : list nat) (key : list nat -> Qc) (clause_of : list nat -> clause)
            (accept : clause -> bool).

  Definition ok (v : list nat) : Prop := Forall2 lt v lens.
  Definition zeros := repeat 0 (length lens).
  Definition out (vis : list (list nat)) : list clause :=
    filter accept (map clause_of (rev vis)).

  Lemma next_iff : forall v w, ok v -> (In w (next lens v) <-> ok w /\ exists i, i < length v /\ w = incr i v).
  Proof.
    intros v w O. unfold next. rewrite filter_In, in_map_iff, in_bounds_iff. split.
    - intros ((i & <- & I) & B). apply in_seq in I. split; auto. exists i. split; [lia|auto].
    - intros (B & i & I & ->). split; auto. exists i. split; auto. apply in_seq. lia.
  Qed.
  Lemma next_length : forall v, ok v -> length (next lens v) <= length lens.
  Proof.
    intros v O. unfold next. apply Forall2_len in O. rewrite <- O.
    eapply Nat.le_trans; [apply filter_length_le|]. rewrite map_length, seq_length. auto.
  Qed.

  Record inv (heap vis : list (list nat)) : Prop := {
    inv_heap : forall v, In v heap -> ok v;
    inv_vis : forall v, In v vis -> ok v;
    inv_nodup : NoDup vis;
    inv_zero : In zeros vis \/ In zeros heap;
    inv_next : forall v w, In v vis -> In w (next lens v) -> In w vis \/ In w heap
  }.

  Lemma zero_or_pos : forall v, ok v -> v = zeros \/ exists x, In x v /\ x <> 0.
  Proof.
    unfold ok, zeros. intros v O. induction O as [|x n v l L F IH]; simpl; auto.
    destruct x; [|right; exists (S x); split; [left; auto|lia]].
    destruct IH as [->|(y & I & N)]; [left; auto|right; exists y; split; [right; auto|auto]].
  Qed.

  Lemma reach : forall heap vis, inv heap vis ->
    forall n v, fold_right plus 0 v = n -> ok v ->
    In v vis \/ exists h, In h heap /\
      ((forall a b, ok a -> In b (next lens a) -> (key b <= key a)%Qc) -> (key v <= key h)%Qc).
  Proof.
    intros heap vis I. induction n as [|n IH]; intros v S O;
      (destruct (zero_or_pos O) as [->|NZ];
       [destruct (inv_zero I) as [Z|Z]; [left; auto|right; exists zeros; split; auto; intros; apply Qcle_refl]|]).
    - destruct (incr_decr _ NZ) as (i & u & _ & _ & _ & _ & Su). lia.
    - destruct (incr_decr _ NZ) as (i & u & L & E & Le & B & Su).
      assert (Ou : ok u) by (apply B; auto).
      assert (Nx : In v (next lens u)) by (apply next_iff; auto; split; auto; exists i; auto).
      destruct (IH u) as [V|(h & H & K)]; [lia|auto| |].
      + destruct (inv_next I u v V Nx) as [X|X]; [left; auto|].
        right; exists v; split; auto. intros; apply Qcle_refl.
      + right. exists h. split; auto. intros M. eapply Qcle_trans; [apply (M u v); auto|auto].
  Qed.

  Hypothesis POS : forall n, In n lens -> 0 < n.
  Lemma zeros_ok : ok zeros.
  Proof.
    unfold ok, zeros. clear -POS. induction lens as [|n l IH]; simpl; constructor.
    - apply POS; left; auto.
    - apply IH. intros; apply POS; right; auto.
  Qed.

  Lemma vis_bound : forall heap vis, inv heap vis -> length vis <= prod lens.
  Proof.
    intros heap vis I. destruct (@C36_cartesian lens (prod lens)) as (l & _ & N & L & M); [lia|].
    rewrite <- L. apply NoDup_incl_length; [apply (inv_nodup I)|].
    intros v V. apply M. apply (inv_vis I); auto.
  Qed.

  Lemma vis_full : forall heap vis, inv heap vis -> prod lens <= length vis -> forall v, ok v -> In v vis.
  Proof.
    intros heap vis I F v O. destruct (@C36_cartesian lens (prod lens)) as (l & _ & N & L & M); [lia|].
    assert (incl l vis).
    { apply NoDup_length_incl; [apply (inv_nodup I)|lia|].
      intros u U. apply M. apply (inv_vis I); auto. }
    apply H. apply M. auto.
  Qed.

  Definition mono := forall a b, ok a -> In b (next lens a) -> (key b <= key a)%Qc.
  Definition best_first (vis : list (list nat)) : Prop :=
    forall v u, In v vis -> ok u -> ~ In u vis -> (key u <= key v)%Qc.

  Lemma out_cons : forall v vis, out (v :: vis) = if accept (clause_of v) then out vis ++ [clause_of v] else out vis.
  Proof.
    intros. unfold out. simpl. rewrite map_app, filter_app. simpl.
    destruct (accept (clause_of v)); auto. rewrite app_nil_r; auto.
  Qed.

  Lemma search_inv : forall fuel k heap vis,
    inv heap vis -> length (out vis) <= k -> (mono -> best_first vis) ->
    length heap + (length lens + 1) * (prod lens - length vis) < fuel ->
    exists vis', search pop lens key clause_of accept fuel k heap vis (out vis) = Some (out vis') /\
      (forall v, In v vis' -> ok v) /\ NoDup vis' /\ length (out vis') <= k /\
      (length (out vis') = k \/ forall v, ok v -> In v vis') /\ (mono -> best_first vis').
  Proof.
    induction fuel as [|fuel IH]; intros k heap vis I K BF P; [exfalso; apply (Nat.nlt_0_r _ P)|]. cbn [search].
    destruct (k <=? length (out vis)) eqn:E.
    - apply Nat.leb_le in E. exists vis. split; auto. split; [apply (inv_vis I)|].
      split; [apply (inv_nodup I)|]. split; [lia|]. split; [left; lia|auto].
    - apply Nat.leb_gt in E. destruct POP as [P0 P1].
      destruct (pop key heap) as [[v heap']|] eqn:Ep.
      + destruct (P1 _ _ _ _ Ep) as [Pm Mx].
        assert (Ov : ok v) by (apply (inv_heap I); apply (Permutation_in _ (Permutation_sym Pm)); left; auto).
        assert (Lh : length heap = S (length heap')) by (apply Permutation_length in Pm; auto).
        destruct (existsb (list_eqb Nat.eqb v) vis) eqn:Ex.
        * apply existsb_exists in Ex as (u & U & Eu). apply nlist_eqb_true in Eu. subst u.
          apply IH; auto; [|lia]. constructor.
          -- intros x X. apply (inv_heap I). apply (Permutation_in _ (Permutation_sym Pm)); right; auto.
          -- apply (inv_vis I).
          -- apply (inv_nodup I).
          -- destruct (inv_zero I) as [Z|Z]; auto. apply (Permutation_in _ Pm) in Z as [<-|Z]; auto.
          -- intros a b A B. destruct (inv_next I a b A B) as [Z|Z]; auto.
             apply (Permutation_in _ Pm) in Z as [<-|Z]; auto.
        * assert (NV : ~ In v vis).
          { intros V. rewrite <- not_true_iff_false in Ex. apply Ex. apply existsb_exists.
            exists v; split; auto. apply nlist_eqb_true; auto. }
          rewrite <- out_cons.
          assert (I' : inv (heap' ++ next lens v) (v :: vis)).
          { constructor.
            - intros x X. apply in_app_or in X as [X|X].
              + apply (inv_heap I). apply (Permutation_in _ (Permutation_sym Pm)); right; auto.
              + apply (next_iff x Ov) in X. tauto.
            - intros x [<-|X]; auto. apply (inv_vis I); auto.
            - constructor; auto. apply (inv_nodup I).
            - destruct (inv_zero I) as [Z|Z]; [left; right; auto|].
              apply (Permutation_in _ Pm) in Z as [<-|Z]; [left; left; auto|right; apply in_or_app; auto].
            - intros a b [<-|A] B; [right; apply in_or_app; auto|].
              destruct (inv_next I a b A B) as [Z|Z]; [left; right; auto|].
              apply (Permutation_in _ Pm) in Z as [<-|Z]; [left; left; auto|right; apply in_or_app; auto]. }
          apply IH; auto.
          -- rewrite out_cons. destruct (accept _); rewrite ?app_length; cbn [length]; lia.
          -- intros M a u [<-|A] Ou NU.
             ++ destruct (@reach _ _ I _ u eq_refl Ou) as [V|(h & H & Kh)]; [exfalso; apply NU; right; auto|].
                eapply Qcle_trans; [apply Kh; exact M|apply Mx; auto].
             ++ apply BF; auto. intros V; apply NU; right; auto.
          -- rewrite app_length. pose proof (next_length Ov). pose proof (vis_bound I') as VB.
             simpl length in *.
             replace (prod lens - length vis) with (S (prod lens - S (length vis))) in P by lia.
             rewrite Nat.mul_succ_r in P. lia.
      + apply P0 in Ep. subst heap. exists vis. split; auto. split; [apply (inv_vis I)|].
        split; [apply (inv_nodup I)|]. split; [lia|]. split; [|auto]. right.
        intros v O. destruct (@reach _ _ I _ v eq_refl O) as [V|(h & [] & _)]; auto.
  Qed.

  Definition search_fuel := 2 + (length lens + 1) * prod lens.

  Theorem search_spec : forall fuel k, search_fuel <= fuel ->
    exists vis, search pop lens key clause_of accept fuel k [zeros] [] [] =
        Some (filter accept (map clause_of vis)) /\
      (forall v, In v vis -> ok v) /\ NoDup vis /\ length (filter accept (map clause_of vis)) <= k /\
      ((length (filter accept (map clause_of vis)) = k) \/ forall v, ok v -> In v vis) /\
      (prod lens <= k -> forall v, ok v -> In v vis) /\ (mono -> best_first vis).
  Proof.
    intros fuel k F. unfold search_fuel in F.
    destruct (@search_inv fuel k [zeros] []) as (vis & E & V & N & L & C & B).
    - constructor; simpl.
      + intros v [<-|[]]. apply zeros_ok.
      + tauto.
      + constructor.
      + auto.
      + tauto.
    - simpl; lia.
    - intros _ v u [].
    - simpl. rewrite Nat.sub_0_r. lia.
    - exists (rev vis). unfold out in *. simpl in E. split; auto.
      assert (IR : forall v, In v (rev vis) <-> In v vis) by (intros; rewrite <- in_rev; tauto).
      split; [intros v Vv; apply V, IR; auto|].
      split; [apply (Permutation_NoDup (Permutation_rev vis)); auto|].
      split; auto. split; [|split].
      + destruct C as [C|C]; [left; auto|right; intros; apply IR; auto].
      + intros Pk v O. apply IR. destruct C as [C|C]; auto.
        destruct (@C36_cartesian lens (prod lens)) as (l & _ & Nl & Ll & M); [lia|].
        assert (incl l vis).
        { apply NoDup_length_incl; auto.
          - rewrite Ll. eapply Nat.le_trans; [exact Pk|]. rewrite <- C.
            eapply Nat.le_trans; [apply filter_length_le|]. rewrite map_length, rev_length. auto.
          - intros u U. apply M. apply V; auto. }
        apply H, M; auto.
      + intros M a u A Ou NU. apply (B M); auto; [apply IR; auto|rewrite <- IR; auto].
  Qed.
End SearchFacts.

(** the concrete pop strategy satisfies the contract *)
Lemma best_spec : forall key h b, In (best key b h) (b :: h) /\
  forall y, In y (b :: h) -> (key y <= key (best key b h))%Qc.
Proof.
  induction h as [|x h IH]; intros b; simpl.
  - split; auto. intros y [<-|[]]. apply Qcle_refl.
  - destruct (qc_ltb (key b) (key x)) eqn:E.
    + destruct (IH x) as [A B]. split; [right; auto|]. intros y [<-|Y].
      * apply qc_ltb_lt in E. eapply Qcle_trans; [apply Qclt_le_weak, E|apply B; left; auto].
      * apply B; auto.
    + destruct (IH b) as [A B]. split; [destruct A; auto|]. intros y [<-|[<-|Y]].
      * apply B; left; auto.
      * apply qc_ltb_ge in E. eapply Qcle_trans; [exact E|apply B; left; auto].
      * apply B; right; auto.
Qed.
Lemma remove1_perm : forall v h, In v h -> Permutation h (v :: remove1 v h).
Proof.
  induction h as [|x h IH]; simpl; [tauto|]. intros I. destruct (list_eqb Nat.eqb v x) eqn:E.
  - apply nlist_eqb_true in E. subst; auto.
  - destruct I as [->|I]; [rewrite (proj2 (nlist_eqb_true v v) eq_refl) in E; discriminate|].
    apply perm_trans with (x :: v :: remove1 v h); [apply perm_skip; auto|apply perm_swap].
Qed.
Lemma pop_first_ok : pop_perm pop_first.
Proof.
  split.
  - intros key [|x h]; auto. discriminate.
  - intros key [|x h] y h' E; [discriminate|]. unfold pop_first in E. injection E as <- <-.
    destruct (best_spec key h x) as [A B]. split; auto. apply remove1_perm; auto.
Qed.
