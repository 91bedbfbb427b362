(** C17-C20: Boolean-formula tags. *)
From Coq Require Import List Arith Bool ZArith QArith Qcanon Lia Permutation.
From Coq Require Import Sorting.Sorted.
From Verif Require Import Order OSet Prov ProvInst Views Formula Utils PropsUtils FormulaFacts.
Import ListNotations.
Open Scope nat_scope.
Set Implicit Arguments.

(** ** C20 *)
Lemma nat_cmp_TOrder : TOrder Nat.compare.
Proof.
  constructor.
  - intros; apply Nat.compare_eq_iff.
  - intros; apply Nat.compare_antisym.
  - intros a b c H1 H2. apply Nat.compare_lt_iff in H1, H2. apply Nat.compare_lt_iff. lia.
Qed.
Notation nsorted := (osorted Nat.compare).
Lemma nsorted_cons : forall x l, nsorted (x :: l) -> nsorted l /\ forall y, In y l -> x < y.
Proof.
  intros x l S. inversion S; subst. split; auto. intros y Y. rewrite Forall_forall in H2.
  apply Nat.compare_lt_iff; auto.
Qed.

Lemma disj_loop_true : forall j f, nsorted j -> nsorted f ->
  (disj_loop j f true = true <-> exists x, In x j /\ In x f).
Proof.
  induction j as [|je j IH]; intros f Sj; [simpl; split; [discriminate|intros (x & [] & _)]|].
  destruct (nsorted_cons Sj) as [Sj' Lj].
  induction f as [|fe f IHf]; intros Sf; [simpl; split; [discriminate|intros (x & _ & [])]|].
  destruct (nsorted_cons Sf) as [Sf' Lf]. cbn [disj_loop].
  destruct (je =? fe) eqn:E; [apply Nat.eqb_eq in E|apply Nat.eqb_neq in E; destruct (je <? fe) eqn:E2].
  - subst. split; auto. intros _. exists fe; split; left; auto.
  - apply Nat.ltb_lt in E2. rewrite (IH (fe :: f) Sj' Sf). split; intros (x & A & B).
    + exists x; split; [right; auto|auto].
    + exists x. split; [|auto]. destruct A as [<-|A]; auto. exfalso. destruct B as [->|B]; [lia|].
      apply Lf in B. lia.
  - apply Nat.ltb_ge in E2. cbn [disj_loop] in IHf. rewrite (IHf Sf'). split; intros (x & A & B).
    + exists x; split; [auto|right; auto].
    + exists x. split; [auto|]. destruct B as [<-|B]; auto. exfalso. destruct A as [->|A]; [lia|].
      apply Lj in A. lia.
Qed.

Lemma disj_loop_false : forall j f, nsorted j -> nsorted f ->
  (disj_loop j f false = true <-> exists x y, x <> y /\ In x j /\ In y j /\ In x f /\ In y f).
Proof.
  induction j as [|je j IH]; intros f Sj; [simpl; split; [discriminate|intros (x & y & _ & [] & _)]|].
  destruct (nsorted_cons Sj) as [Sj' Lj].
  induction f as [|fe f IHf]; intros Sf; [simpl; split; [discriminate|intros (x & y & _ & _ & _ & [] & _)]|].
  destruct (nsorted_cons Sf) as [Sf' Lf]. cbn [disj_loop].
  destruct (je =? fe) eqn:E; [apply Nat.eqb_eq in E|apply Nat.eqb_neq in E; destruct (je <? fe) eqn:E2].
  - subst. rewrite (disj_loop_true Sj' Sf'). split.
    + intros (x & A & B). exists fe, x. pose proof (Lf _ B). split; [lia|]. simpl; tauto.
    + intros (x & y & N & A & B & C & D).
      destruct (Nat.eq_dec x fe) as [->|Nx].
      * exists y. destruct B as [->|B]; [congruence|]. destruct D as [->|D]; [congruence|]. auto.
      * exists x. destruct A as [->|A]; [congruence|]. destruct C as [->|C]; [congruence|]. auto.
  - apply Nat.ltb_lt in E2. rewrite (IH (fe :: f) Sj' Sf).
    assert (NJ : ~ In je (fe :: f)) by (intros [->|B]; [lia|apply Lf in B; lia]).
    split; intros (x & y & N & A & B & C & D).
    + exists x, y. simpl in *; tauto.
    + exists x, y. split; [auto|]. split; [|split; [|auto]].
      * destruct A as [<-|A]; auto; tauto.
      * destruct B as [<-|B]; auto; tauto.
  - apply Nat.ltb_ge in E2. cbn [disj_loop] in IHf. rewrite (IHf Sf').
    assert (NF : ~ In fe (je :: j)) by (intros [->|B]; [lia|apply Lj in B; lia]).
    split; intros (x & y & N & A & B & C & D).
    + exists x, y. simpl in *; tauto.
    + exists x, y. split; [auto|]. split; [auto|]. split; [auto|]. split.
      * destruct C as [<-|C]; auto; tauto.
      * destruct D as [<-|D]; auto; tauto.
Qed.

Lemma last_max : forall l x, nsorted l -> In x l -> x <= last l 0.
Proof.
  induction l as [|a l IH]; intros x S I; [destruct I|]. destruct (nsorted_cons S) as [S' L].
  destruct l as [|b l]; [destruct I as [->|[]]; simpl; auto|].
  change (last (a :: b :: l) 0) with (last (b :: l) 0). destruct I as [->|I]; [|apply IH; auto].
  pose proof (L b (or_introl eq_refl)). pose proof (IH b S' (or_introl eq_refl)). lia.
Qed.
Lemma hd_min : forall l x, nsorted l -> In x l -> hd 0 l <= x.
Proof.
  destruct l as [|a l]; intros x S I; [destruct I|]. destruct (nsorted_cons S) as [S' L].
  simpl. destruct I as [->|I]; auto. apply L in I. lia.
Qed.

Lemma disj_conflict_iff : forall d f, nsorted d -> nsorted f ->
  (disj_conflict d f = true <-> exists x y, x <> y /\ In x d /\ In y d /\ In x f /\ In y f).
Proof.
  intros d f Sd Sf. unfold disj_conflict.
  destruct (length d <? 2) eqn:E1.
  { apply Nat.ltb_lt in E1. split; [discriminate|]. intros (x & y & N & A & B & _).
    destruct d as [|a [|b d]]; simpl in *; try tauto; [|lia]. intuition congruence. }
  destruct (_ || _) eqn:E2; [|apply disj_loop_false; auto].
  split; [discriminate|]. intros (x & y & N & A & B & C & D). exfalso.
  apply orb_true_iff in E2 as [E2|E2]; apply Nat.ltb_lt in E2.
  - pose proof (last_max _ Sd A). pose proof (hd_min _ Sf C). lia.
  - pose proof (last_max _ Sf C). pose proof (hd_min _ Sd A). lia.
Qed.

Record dinv (h : list (nat * nat)) (d : disjs) : Prop := {
  di_grp : forall g i, nfind (dj_map d) g = Some i ->
    exists s, nth_error (dj_list d) i = Some s /\ nsorted s /\ forall f, In f s <-> In (g, f) h;
  di_idx : forall i s, nth_error (dj_list d) i = Some s -> exists g, nfind (dj_map d) g = Some i;
  di_all : forall g f, In (g, f) h -> exists i, nfind (dj_map d) g = Some i;
  di_inj : forall g g' i, nfind (dj_map d) g = Some i -> nfind (dj_map d) g' = Some i -> g = g'
}.

Lemma nth_error_upd : forall l i j f,
  nth_error (upd l i f) j = if Nat.eqb i j then option_map f (nth_error l j) else nth_error l j.
Proof.
  induction l; destruct i; simpl; intros; destruct j; simpl; auto.
  destruct (Nat.eqb i j); auto.
Qed.

Lemma declare_inv : forall h, dinv h (declare h).
Proof.
  intros h. unfold declare. induction h as [|[g f] h IH] using rev_ind.
  - constructor; simpl.
    + discriminate.
    + intros [|i] s; discriminate.
    + tauto.
    + discriminate.
  - rewrite fold_left_app. simpl. set (d := fold_left _ h disjs_new) in *. clearbody d.
    unfold add_disjunction. destruct (nfind (dj_map d) g) as [i|] eqn:E.
    + constructor; simpl.
      * intros g' i' E'. destruct (di_grp IH _ E') as (s & N & S & M). rewrite nth_error_upd.
        destruct (Nat.eqb i i') eqn:Ei.
        -- apply Nat.eqb_eq in Ei. subst i'. assert (g = g') by (eapply (di_inj IH); eauto). subst g'.
           rewrite N. simpl. eexists. split; [reflexivity|]. split; [apply oins_sorted; auto; apply nat_cmp_TOrder|].
           intros x. rewrite (oins_In nat_cmp_TOrder), in_app_iff, M. simpl. intuition congruence.
        -- exists s. split; auto. split; auto. intros x. rewrite in_app_iff, M. simpl.
           assert (g <> g') by (intros ->; rewrite E in E'; injection E' as ->; rewrite Nat.eqb_refl in Ei; discriminate).
           intuition congruence.
      * intros i' s. rewrite nth_error_upd. destruct (Nat.eqb i i') eqn:Ei.
        -- apply Nat.eqb_eq in Ei. subst i'. eauto.
        -- apply (di_idx IH).
      * intros g' x I. apply in_app_or in I as [I|[I|[]]]; [eapply (di_all IH); eauto|].
        injection I as <- <-. eauto.
      * apply (di_inj IH).
    + assert (NG : forall x, ~ In (g, x) h) by (intros x I; destruct (di_all IH _ _ I); congruence).
      constructor; simpl.
      * intros g' i'. destruct (g =? g') eqn:Eg.
        -- apply Nat.eqb_eq in Eg. subst g'. intros X; injection X as <-. exists [f].
           split; [rewrite nth_error_app2 by lia; rewrite Nat.sub_diag; auto|].
           split; [repeat constructor|]. intros x. rewrite in_app_iff. simpl. specialize (NG x). intuition congruence.
        -- apply Nat.eqb_neq in Eg. intros X. destruct (di_grp IH _ X) as (s & N & S & M). exists s.
           split; [rewrite nth_error_app1; auto; apply nth_error_Some; congruence|].
           split; auto. intros x. rewrite in_app_iff, M. simpl. intuition congruence.
      * intros i s N. destruct (Nat.lt_ge_cases i (length (dj_list d))).
        -- rewrite nth_error_app1 in N by auto. destruct (di_idx IH _ N) as [g' G']. exists g'.
           destruct (g =? g') eqn:Eg; auto. apply Nat.eqb_eq in Eg. congruence.
        -- rewrite nth_error_app2 in N by auto.
           destruct (i - length (dj_list d)) as [|[|?]] eqn:Z; try discriminate.
           exists g. rewrite Nat.eqb_refl. f_equal. lia.
      * intros g' x I. apply in_app_or in I as [I|[I|[]]].
        -- destruct (g =? g'); eauto. eapply (di_all IH); eauto.
        -- injection I as <- <-. rewrite Nat.eqb_refl. eauto.
      * assert (B : forall g' i, nfind (dj_map d) g' = Some i -> i < length (dj_list d)).
        { intros g' i G. destruct (di_grp IH _ G) as (s & N & _). apply nth_error_Some. congruence. }
        intros g1 g2 i. destruct (g =? g1) eqn:E1, (g =? g2) eqn:E2; intros X1 X2.
        -- apply Nat.eqb_eq in E1, E2. congruence.
        -- injection X1 as <-. apply B in X2. lia.
        -- injection X2 as <-. apply B in X1. lia.
        -- eapply (di_inj IH); eauto.
Qed.

(** After any history [h] of declarations (group, fact), a set of facts is
    reported as conflicting iff it contains two distinct facts declared in the
    same group. *)
Theorem C20_exclusion : forall h facts, nsorted facts ->
  (has_conflict (declare h) facts = true <->
   exists g a b, a <> b /\ In (g, a) h /\ In (g, b) h /\ In a facts /\ In b facts).
Proof.
  intros h facts S. pose proof (declare_inv h) as I. unfold has_conflict.
  destruct (length facts <? 2) eqn:E.
  - apply Nat.ltb_lt in E. split; [discriminate|]. intros (g & a & b & N & _ & _ & A & B).
    destruct facts as [|x [|y r]]; simpl in *; try tauto; [|lia]. intuition congruence.
  - rewrite existsb_exists. split.
    + intros (s & Is & C). apply In_nth_error in Is as [i Ni].
      destruct (di_idx I _ Ni) as [g G]. destruct (di_grp I _ G) as (s' & N' & S' & M).
      assert (s' = s) by congruence. subst s'.
      apply disj_conflict_iff in C; auto. destruct C as (x & y & N & A & B & C & D).
      exists g, x, y. rewrite <- !M. auto.
    + intros (g & a & b & N & A & B & C & D). destruct (di_all I _ _ A) as [i G].
      destruct (di_grp I _ G) as (s & N' & S' & M). exists s. split; [eapply nth_error_In; eauto|].
      apply disj_conflict_iff; auto. exists a, b. rewrite !M. auto.
Qed.
Print Assumptions C20_exclusion.

Example C20_example :
  let d := declare [(7, 0); (9, 1); (7, 2); (9, 5)] in
  nsorted [1; 2; 5] /\ has_conflict d [1; 2; 5] = true /\ has_conflict d [0; 1] = false /\
  has_conflict d [1; 2; 3] = false.
Proof. repeat split. repeat constructor. Qed.

(** ** C17 *)

(** A world is consistent with the exclusion check when no set of facts that
    all hold is reported as conflicting. *)
Definition consistent (conflict : list nat -> bool) (w : world) : Prop :=
  forall facts, nsorted facts -> (forall f, In f facts -> w f = true) -> conflict facts = false.

(** For a declared context: at most one fact of each group holds. *)
Theorem C17_consistent_worlds : forall h w,
  (forall g a b, In (g, a) h -> In (g, b) h -> w a = true -> w b = true -> a = b) <->
  consistent (has_conflict (declare h)) w.
Proof.
  intros h w. split.
  - intros H facts S F. destruct (has_conflict _ _) eqn:E; auto. apply C20_exclusion in E; auto.
    destruct E as (g & a & b & N & A & B & C & D). exfalso. apply N. eapply H; eauto.
  - intros H g a b A B Wa Wb. destruct (Nat.eq_dec a b) as [|N]; auto. exfalso.
    assert (S : nsorted (oof Nat.compare [a; b])) by (apply oof_sorted, nat_cmp_TOrder).
    assert (M : forall x, In x (oof Nat.compare [a; b]) <-> x = a \/ x = b).
    { intros. rewrite (oof_In nat_cmp_TOrder). simpl. intuition. }
    assert (C : has_conflict (declare h) (oof Nat.compare [a; b]) = true).
    { apply C20_exclusion; auto. exists g, a, b. rewrite !M. intuition. }
    rewrite H in C; [discriminate|auto|]. intros f F. apply M in F as [->| ->]; auto.
Qed.
Print Assumptions C17_consistent_worlds.

Lemma pos_fact_ids_In : forall c f, In f (pos_fact_ids c) <-> In (Pos f) c.
Proof.
  intros. unfold pos_fact_ids. rewrite (oof_In nat_cmp_TOrder), in_flat_map. split.
  - intros ([n|n] & I & J); simpl in J; [destruct J as [<-|[]]; auto|tauto].
  - intros I. exists (Pos f). split; auto. left; auto.
Qed.
Lemma pos_fact_ids_sorted : forall c, nsorted (pos_fact_ids c).
Proof. intros. apply oof_sorted, nat_cmp_TOrder. Qed.

Lemma conflict_sem : forall conflict w c, consistent conflict w ->
  conflict (pos_fact_ids c) = true -> conj w c = false.
Proof.
  intros conflict w c C H. destruct (conj w c) eqn:E; auto.
  rewrite (C (pos_fact_ids c)) in H; [discriminate|apply pos_fact_ids_sorted|].
  intros f F. apply pos_fact_ids_In in F. unfold conj in E. rewrite forallb_forall in E.
  apply (E _ F).
Qed.

Lemma dnf_sem_In : forall w f, dnf_sem w f = true <-> exists c, In c f /\ conj w c = true.
Proof. intros; apply existsb_exists. Qed.
Lemma cnf_sem_In : forall w f, cnf_sem w f = true <-> forall c, In c f -> disjn w c = true.
Proof. intros; apply forallb_forall. Qed.

Lemma dnf_and_In : forall a b c, In c (dnf_and a b) <->
  exists x y, In x a /\ In y b /\ merge x y = Some c.
Proof.
  intros. unfold dnf_and. rewrite in_flat_map. split.
  - intros (x & X & I). apply in_flat_map in I as (y & Y & I). destruct (merge x y) eqn:E; [|destruct I].
    destruct I as [<-|[]]. exists x, y; auto.
  - intros (x & y & X & Y & E). exists x. split; auto. apply in_flat_map. exists y. split; auto.
    rewrite E. left; auto.
Qed.

Lemma dnf_and_sem : forall w a b, dnf_sem w (dnf_and a b) = dnf_sem w a && dnf_sem w b.
Proof.
  intros. apply eq_true_iff_eq. rewrite andb_true_iff, !dnf_sem_In. split.
  - intros (c & I & C). apply dnf_and_In in I as (x & y & X & Y & E).
    pose proof (merge_sem w x y) as M. rewrite E in M. rewrite C in M. symmetry in M.
    apply andb_true_iff in M as [M1 M2]. split; eauto.
  - intros ((x & X & Cx) & (y & Y & Cy)). pose proof (merge_sem w x y) as M.
    destruct (merge x y) as [c|] eqn:E.
    + exists c. split; [apply dnf_and_In; eauto|]. rewrite M, Cx, Cy; auto.
    + rewrite Cx, Cy in M. discriminate.
Qed.

Lemma dedup_fold_In : forall l acc c, In c (fold_left dedup_step l acc) <-> In c acc \/ In c l.
Proof.
  induction l as [|x l IH]; intros acc c; simpl; [tauto|]. rewrite IH. unfold dedup_step.
  destruct (existsb _ acc) eqn:E.
  - apply existsb_exists in E as (y & Y & E). apply clause_eqb_true in E. subst y.
    split; [tauto|]. intros [H|[->|H]]; auto.
  - rewrite in_app_iff. simpl. intuition.
Qed.
Lemma dnf_dedup_In : forall l c, In c (dnf_dedup l) <-> In c l.
Proof. intros. unfold dnf_dedup. rewrite dedup_fold_In. simpl. tauto. Qed.
Lemma dnf_dedup_NoDup : forall l, NoDup (dnf_dedup l).
Proof.
  assert (G : forall l acc, NoDup acc -> NoDup (fold_left dedup_step l acc)).
  { induction l as [|x l IH]; intros acc N; simpl; auto. apply IH. unfold dedup_step.
    destruct (existsb _ acc) eqn:E; auto.
    apply (Permutation_NoDup (Permutation_cons_append acc x)). constructor; auto.
    intros I. rewrite <- not_true_iff_false in E. apply E. apply existsb_exists. exists x; split; auto.
    apply clause_eqb_true; auto. }
  intros; apply G; constructor.
Qed.

Lemma dnf_sem_ext : forall w f g, (forall c, In c f <-> In c g) -> dnf_sem w f = dnf_sem w g.
Proof.
  intros w f g H. apply eq_true_iff_eq. rewrite !dnf_sem_In. split; intros (c & I & C); exists c; split; auto; apply H; auto.
Qed.

Section Ctx.
  Variables (prob : nat -> Qc) (conflict : list nat -> bool) (pop : popper).
  Hypothesis POP : pop_perm pop.

  Lemma retain_no_conflict_sem : forall w f, consistent conflict w ->
    dnf_sem w (retain_no_conflict conflict f) = dnf_sem w f.
  Proof.
    intros w f C. apply eq_true_iff_eq. rewrite !dnf_sem_In. unfold retain_no_conflict. split.
    - intros (c & I & H). apply filter_In in I as [I _]. eauto.
    - intros (c & I & H). exists c. split; auto. apply filter_In. split; auto.
      destruct (conflict (pos_fact_ids c)) eqn:E; auto. apply (conflict_sem _ C) in E. congruence.
  Qed.

  Lemma retain_top_k_incl : forall f k c, In c (retain_top_k prob f k) -> In c f.
  Proof.
    intros f k c I. unfold retain_top_k in I. apply (Permutation_in _ (ssort_perm (fun a b => qc_leb (clause_prob prob b) (clause_prob prob a)) f)).
    rewrite <- (firstn_skipn k). apply in_or_app; auto.
  Qed.
  Lemma retain_top_k_all : forall f k, length f <= k -> Permutation (retain_top_k prob f k) f.
  Proof.
    intros f k L. unfold retain_top_k. rewrite firstn_all2; [apply ssort_perm|].
    rewrite (Permutation_length (ssort_perm _ f)). auto.
  Qed.

  (** Disjunction and conjunction without pruning ([base_add], [base_mult]):
      the exact Boolean combination in every world. *)
  Theorem C17_or : forall w a b, dnf_sem w (dnf_or a b) = dnf_sem w a || dnf_sem w b.
  Proof. intros. apply existsb_app. Qed.
  Theorem C17_and : forall w a b, dnf_sem w (dnf_and a b) = dnf_sem w a && dnf_sem w b.
  Proof. apply dnf_and_sem. Qed.
  Theorem C17_units : forall w f, dnf_sem w dnf_zero = false /\ dnf_sem w dnf_one = true /\
    dnf_sem w (dnf_singleton f) = w f.
  Proof. intros. simpl. rewrite andb_true_r, orb_false_r. auto. Qed.

  (** The top-k operations when [k] is large enough not to prune: exact on
      every consistent world. *)
  Theorem C17_add : forall w a b k, length a + length b <= k ->
    dnf_sem w (top_k_add prob a b k) = dnf_sem w a || dnf_sem w b.
  Proof.
    intros w a b k L. rewrite <- C17_or. apply dnf_sem_ext. intros c. unfold top_k_add.
    assert (P : Permutation (retain_top_k prob (dnf_dedup (dnf_or a b)) k) (dnf_dedup (dnf_or a b))).
    { apply retain_top_k_all. eapply Nat.le_trans; [|exact L]. unfold dnf_or.
      rewrite <- app_length. apply NoDup_incl_length; [apply dnf_dedup_NoDup|].
      intros x X. apply (proj1 (dnf_dedup_In _ _)) in X; auto. }
    rewrite <- (dnf_dedup_In (dnf_or a b)). split; apply Permutation_in; [exact P|apply Permutation_sym; exact P].
  Qed.

  Lemma dnf_and_length : forall a b, length (dnf_and a b) <= length a * length b.
  Proof.
    intros a b. unfold dnf_and. induction a as [|x a IH]; simpl; auto. rewrite app_length.
    assert (length (flat_map (fun c2 => match merge x c2 with Some c => [c] | None => [] end) b) <= length b).
    { clear. induction b; simpl; auto. rewrite app_length. destruct (merge x a); simpl; lia. }
    lia.
  Qed.
  Theorem C17_mult : forall w a b k, consistent conflict w -> length a * length b <= k ->
    dnf_sem w (top_k_mult prob conflict a b k) = dnf_sem w a && dnf_sem w b.
  Proof.
    intros w a b k C L. rewrite <- C17_and. unfold top_k_mult.
    transitivity (dnf_sem w (retain_no_conflict conflict (dnf_dedup (dnf_and a b)))).
    - set (f := retain_no_conflict conflict (dnf_dedup (dnf_and a b))).
      assert (P : Permutation (retain_top_k prob f k) f).
      { apply retain_top_k_all. eapply Nat.le_trans; [|exact L].
        eapply Nat.le_trans; [|apply dnf_and_length]. unfold f, retain_no_conflict.
        eapply Nat.le_trans; [apply filter_length_le|].
        apply NoDup_incl_length; [apply dnf_dedup_NoDup|]. intros x X. apply (proj1 (dnf_dedup_In _ _)) in X; auto. }
      apply dnf_sem_ext. intros c. split; apply Permutation_in; [auto|apply Permutation_sym; auto].
    - rewrite retain_no_conflict_sem by auto. apply dnf_sem_ext. apply dnf_dedup_In.
  Qed.

  (** *** Negation *)
  Definition cprod (f : list clause) : nat := prod (map (@length lit) f).
  Definition cfuel (f : list clause) : nat := 2 + (length f + 1) * cprod f.

  Lemma chosen_In : forall cls v, Forall2 lt v (map (@length lit) cls) ->
    forall l, In l (chosen cls v) -> exists c, In c cls /\ In l c.
  Proof.
    intros cls v F l I. unfold chosen in I. apply in_map_iff in I as ([c i] & E & I). simpl in E.
    pose proof (in_combine_l _ _ _ _ I) as Ic. exists c. split; auto. subst l. apply nth_In.
    revert v F I. clear Ic. induction cls as [|d cls IH]; intros v F I; [destruct I|].
    destruct v as [|j v]; [destruct I|]. inversion F; subst. destruct I as [I|I]; [|eapply IH; eauto].
    injection I as -> ->. auto.
  Qed.

  (** choosing one literal of every clause: some choice is all true iff every
      clause has a true literal *)
  Lemma choice_sem : forall w cls,
    cnf_sem w cls = true <->
    exists v, Forall2 lt v (map (@length lit) cls) /\ conj w (chosen cls v) = true.
  Proof.
    intros w. induction cls as [|c cls IH].
    - simpl. split; auto. intros _. exists []. split; [constructor|auto].
    - simpl. rewrite andb_true_iff, IH. split.
      + intros (D & v & F & C). apply existsb_exists in D as (l & I & L).
        destruct (In_nth _ _ (Pos 0) I) as (i & B & N). exists (i :: v). split; [constructor; auto|].
        unfold chosen in *. simpl. rewrite N, L. auto.
      + intros (v & F & C). inversion F as [|i n v' l' B F']; subst. unfold chosen in C. simpl in C.
        apply andb_true_iff in C as [C1 C2]. split.
        * apply existsb_exists. exists (nth i c (Pos 0)). split; auto. apply nth_In; auto.
        * exists v'. split; auto.
  Qed.
  Lemma choice_sem_dnf : forall w cls,
    dnf_sem w cls = false <->
    exists v, Forall2 lt v (map (@length lit) cls) /\ disjn w (chosen cls v) = false.
  Proof.
    intros w cls. rewrite <- negb_true_iff, <- cnf_negate, choice_sem.
    assert (L : map (@length lit) (map (map lnegate) cls) = map (@length lit) cls).
    { rewrite map_map. apply map_ext. intros. apply map_length. }
    rewrite L.
    assert (N : forall v, Forall2 lt v (map (@length lit) cls) -> chosen (map (map lnegate) cls) v = map lnegate (chosen cls v)).
    { clear. induction cls as [|c cls IH]; intros v F; [reflexivity|].
      inversion F as [|i n v' l' B F']; subst. unfold chosen in *. simpl. f_equal; auto.
      rewrite (nth_indep (map lnegate c) (Pos 0) (lnegate (Pos 0))) by (rewrite map_length; auto).
      apply map_nth. }
    split; intros (v & F & C); exists v; (split; [auto|]).
    - rewrite N, conj_negate in C by auto. apply negb_true_iff in C. auto.
    - rewrite N, conj_negate by auto. rewrite C. auto.
  Qed.

  Lemma sort_cnf : forall w (le : lit -> lit -> bool) f, cnf_sem w (map (ssort le) f) = cnf_sem w f.
  Proof.
    intros. unfold cnf_sem. induction f as [|c f IH]; simpl; auto. f_equal; auto.
    apply disjn_incl. intros l; split; apply Permutation_in; [apply ssort_perm|apply Permutation_sym, ssort_perm].
  Qed.
  Lemma sort_dnf : forall w (le : lit -> lit -> bool) f, dnf_sem w (map (ssort le) f) = dnf_sem w f.
  Proof.
    intros. unfold dnf_sem. induction f as [|c f IH]; simpl; auto. f_equal; auto.
    apply conj_incl. intros l; split; apply Permutation_in; [apply ssort_perm|apply Permutation_sym, ssort_perm].
  Qed.
  Lemma sort_lens : forall (le : lit -> lit -> bool) f, map (@length lit) (map (ssort le) f) = map (@length lit) f.
  Proof.
    intros. rewrite map_map. apply map_ext. intros c. apply Permutation_length, ssort_perm.
  Qed.
  Lemma chosen_clause_conj : forall w cls v, conj w (chosen_clause cls v) = conj w (chosen cls v).
  Proof. intros. apply conj_incl, chosen_clause_In. Qed.
  Lemma chosen_clause_disjn : forall w cls v, disjn w (chosen_clause cls v) = disjn w (chosen cls v).
  Proof. intros. apply disjn_incl, chosen_clause_In. Qed.

  (** [cnf2dnf_k] always finishes; every clause it returns entails the CNF; it
      returns at most [k]; and when [k] is at least the number of literal
      choices it is equivalent on consistent worlds. *)
  Theorem cnf2dnf_sem : forall f k fuel, cfuel f <= fuel -> 0 < k ->
    exists r, cnf2dnf_k prob conflict pop fuel f k = Some r /\ (length r <= k /\ length r <= cprod f) /\
      (forall w, dnf_sem w r = true -> cnf_sem w f = true) /\
      (cprod f <= k -> forall w, consistent conflict w -> dnf_sem w r = cnf_sem w f).
  Proof.
    intros f k fuel Fu K. unfold cnf2dnf_k. set (le := fun x y => qc_leb (literal_prob prob y) (literal_prob prob x)).
    destruct f as [|c0 f0]; [|set (f := c0 :: f0) in *].
    { simpl. exists dnf_one. unfold cprod. simpl. repeat split; auto. }
    assert (NE : exists a b, map (ssort le) f = a :: b) by (unfold f; simpl; eauto).
    destruct NE as (a & b & NE). rewrite NE. rewrite <- NE. clear NE a b.
    set (cls := map (ssort le) f) in *.
    destruct (existsb (fun c => length c =? 0) cls) eqn:Em.
    - apply existsb_exists in Em as (c & I & L). apply Nat.eqb_eq in L. destruct c; [|discriminate].
      exists dnf_zero. split; auto. split; [simpl; split; lia|].
      assert (Z : forall w, cnf_sem w f = false).
      { intros w. rewrite <- (sort_cnf w le). fold cls. unfold cnf_sem.
        destruct (forallb (disjn w) cls) eqn:E; auto. rewrite forallb_forall in E. apply E in I. discriminate. }
      split; intros; rewrite ?Z; auto.
    - assert (POS : forall n, In n (map (@length lit) cls) -> 0 < n).
      { intros n I. apply in_map_iff in I as (c & <- & I). destruct (length c) eqn:E; [|lia].
        rewrite <- not_true_iff_false in Em. exfalso. apply Em. apply existsb_exists. exists c.
        split; auto. rewrite E; auto. }
      destruct (@search_spec pop POP (map (@length lit) cls) (fun v => clause_prob prob (chosen_clause cls v))
                  (chosen_clause cls) (valid_clause conflict) POS fuel k) as (vis & E & V & N & L & _ & Full & _).
      { unfold search_fuel. unfold cls. rewrite sort_lens, map_length. exact Fu. }
      unfold zeros in E. rewrite map_length in E. rewrite E. eexists. split; [reflexivity|]. split.
      { split; auto. eapply Nat.le_trans; [apply filter_length_le|]. rewrite map_length.
        destruct (@C36_cartesian (map (@length lit) cls) (prod (map (@length lit) cls))) as (l & _ & _ & Ll & Ml); [lia|].
        unfold cprod. rewrite <- (sort_lens le f). fold cls. rewrite <- Ll.
        apply NoDup_incl_length; auto. intros v Iv. apply Ml. apply V; auto. }
      assert (Snd : forall w, dnf_sem w (filter (valid_clause conflict) (map (chosen_clause cls) vis)) = true -> cnf_sem w f = true).
      { intros w H. apply dnf_sem_In in H as (c & I & C). apply filter_In in I as [I _].
        apply in_map_iff in I as (v & <- & I). rewrite <- (sort_cnf w le). fold cls.
        apply choice_sem. exists v. split; [apply V; auto|]. rewrite <- chosen_clause_conj. auto. }
      split; auto. intros Pk w C. apply eq_true_iff_eq. split; auto.
      intros H. rewrite <- (sort_cnf w le) in H. fold cls in H. apply choice_sem in H as (v & F & H).
      apply dnf_sem_In. exists (chosen_clause cls v). rewrite chosen_clause_conj. split; auto.
      apply filter_In. split.
      + apply in_map. apply Full; auto. unfold cls. rewrite sort_lens. auto.
      + unfold valid_clause. rewrite <- chosen_clause_conj in H. apply andb_true_iff. split.
        * destruct (is_valid _) eqn:Z; auto. apply (invalid_sem w) in Z as [Z _]. congruence.
        * destruct (conflict _) eqn:Z; auto. apply (conflict_sem _ C) in Z. congruence.
  Qed.

  (** Negation: always finishes, sound for every [k], exact on consistent
      worlds when [k] covers all literal choices. *)
  Theorem C17_negate : forall t k fuel, cfuel t <= fuel -> 0 < k ->
    exists r, top_k_negate prob conflict pop fuel t k = Some r /\
      (forall w, dnf_sem w r = true -> dnf_sem w t = false) /\
      (cprod t <= k -> forall w, consistent conflict w -> dnf_sem w r = negb (dnf_sem w t)).
  Proof.
    intros t k fuel Fu K. unfold top_k_negate.
    assert (L : map (@length lit) (map (map lnegate) t) = map (@length lit) t).
    { rewrite map_map. apply map_ext. intros. apply map_length. }
    destruct (@cnf2dnf_sem (map (map lnegate) t) k fuel) as (r & E & _ & S & X); auto.
    { unfold cfuel, cprod in *. rewrite L, map_length. auto. }
    exists r. split; auto. split.
    - intros w H. apply S in H. rewrite cnf_negate in H. apply negb_true_iff; auto.
    - intros Pk w C. rewrite X; auto; [apply cnf_negate|]. unfold cprod in *. rewrite L. auto.
  Qed.

  (** Pruned operations never claim too much: the result of a top-k operation
      only holds in worlds where the exact result holds. *)
  Theorem C17_pruned_sound : forall w a b k,
    (dnf_sem w (top_k_add prob a b k) = true -> dnf_sem w a || dnf_sem w b = true) /\
    (dnf_sem w (top_k_mult prob conflict a b k) = true -> dnf_sem w a && dnf_sem w b = true).
  Proof.
    intros w a b k. split; intros H; apply dnf_sem_In in H as (c & I & C); apply retain_top_k_incl in I.
    - rewrite <- C17_or. apply dnf_sem_In. exists c. split; auto. apply dnf_dedup_In; auto.
    - rewrite <- C17_and. apply dnf_sem_In. exists c. split; auto. unfold retain_no_conflict in I.
      apply filter_In in I as [I _]. apply dnf_dedup_In; auto.
  Qed.

  (** The tag of a chosen subset of formulas (used by aggregations): whatever
      [k], it only holds in worlds where exactly the chosen formulas hold. *)
  Lemma chosen_from_sound : forall all k fuel i ids acc, 0 < k ->
    (forall f, In f all -> cfuel f <= fuel) ->
    exists r, chosen_set_from prob conflict pop fuel k i ids all acc = Some r /\
      forall w, dnf_sem w r = true -> dnf_sem w acc = true /\
        forall j f, nth_error all j = Some f -> (dnf_sem w f = true <-> In (i + j) ids).
  Proof.
    induction all as [|f all IH]; intros k fuel i ids acc K Fu; cbn [chosen_set_from].
    - exists acc. split; auto. intros w H. split; auto. intros [|j] g; discriminate.
    - assert (X : exists t, match (if existsb (Nat.eqb i) ids then Some f else top_k_negate prob conflict pop fuel f k) with
                   | Some t => chosen_set_from prob conflict pop fuel k (S i) ids all (top_k_mult prob conflict acc t k)
                   | None => None end =
                   chosen_set_from prob conflict pop fuel k (S i) ids all (top_k_mult prob conflict acc t k) /\
                 forall w, dnf_sem w t = true -> (dnf_sem w f = true <-> In i ids)).
      { destruct (existsb (Nat.eqb i) ids) eqn:E.
        - exists f. split; auto. intros w H. split; auto. intros _.
          apply existsb_exists in E as (x & I & E). apply Nat.eqb_eq in E. subst; auto.
        - destruct (@C17_negate f k fuel) as (t & Et & S & _); [apply Fu; left; auto|auto|].
          exists t. rewrite Et. split; auto. intros w H. rewrite (S w H). split; [discriminate|]. intros I.
          rewrite <- not_true_iff_false in E. exfalso. apply E. apply existsb_exists. exists i.
          split; auto. apply Nat.eqb_refl. }
      destruct X as (t & Et & St).
      destruct (IH k fuel (S i) ids (top_k_mult prob conflict acc t k) K) as (r & Er & Sr); [intros; apply Fu; right; auto|].
      exists r. split; [etransitivity; [exact Et|auto]|]. intros w H. destruct (Sr w H) as [A B].
      apply (proj2 (C17_pruned_sound w acc t k)) in A. apply andb_true_iff in A as [A1 A2]. split; auto.
      intros [|j] g G; simpl in G.
      + injection G as <-. rewrite Nat.add_0_r. auto.
      + rewrite (B j g G). replace (i + S j) with (S i + j) by lia. tauto.
  Qed.
  Theorem C17_chosen_set : forall all ids k fuel, 0 < k -> (forall f, In f all -> cfuel f <= fuel) ->
    exists r, top_k_tag_of_chosen_set prob conflict pop fuel all ids k = Some r /\
      forall w, dnf_sem w r = true ->
        forall j f, nth_error all j = Some f -> (dnf_sem w f = true <-> In j ids).
  Proof.
    intros all ids k fuel K Fu. destruct (@chosen_from_sound all k fuel 0 ids dnf_one K Fu) as (r & E & S).
    exists r. split; auto. intros w H. apply (S w H).
  Qed.

  (** ** C18 *)
  Lemma lit_leb_total : forall x y : clause, qc_leb (clause_prob prob y) (clause_prob prob x) = false ->
    qc_leb (clause_prob prob x) (clause_prob prob y) = true.
  Proof.
    intros x y H. apply qc_leb_le. apply Qclt_le_weak, Qcnot_le_lt.
    rewrite <- not_true_iff_false, qc_leb_le in H. auto.
  Qed.

  Lemma retain_top_k_spec : forall f k, NoDup f ->
    length (retain_top_k prob f k) = Nat.min k (length f) /\ NoDup (retain_top_k prob f k) /\
    (forall c, In c (retain_top_k prob f k) -> In c f) /\
    (forall c d, In c f -> ~ In c (retain_top_k prob f k) -> In d (retain_top_k prob f k) ->
       (clause_prob prob c <= clause_prob prob d)%Qc) /\
    (length f <= k -> forall c, In c f -> In c (retain_top_k prob f k)).
  Proof.
    intros f k N. split; [|split; [|split; [|split]]].
    - unfold retain_top_k. rewrite firstn_length. f_equal. apply Permutation_length, ssort_perm.
    - unfold retain_top_k. set (s := ssort _ f).
      assert (NS : NoDup s) by (apply (Permutation_NoDup (Permutation_sym (ssort_perm _ f))); auto).
      rewrite <- (firstn_skipn k s) in NS. clearbody s. revert NS. generalize (firstn k s) as p, (skipn k s) as q. clear.
      induction p as [|x p IH]; intros q D; [constructor|]. simpl in D. inversion D; subst. constructor; eauto.
      intros X; apply H1, in_or_app; auto.
    - apply retain_top_k_incl.
    - intros c d I NI Id. unfold retain_top_k in *.
      set (le := fun a b => qc_leb (clause_prob prob b) (clause_prob prob a)) in *.
      assert (S : StronglySorted (fun a b => le a b = true) (ssort le f)).
      { apply ssort_sorted.
        - intros x y H. apply lit_leb_total. auto.
        - intros x y z H1 H2. unfold le in *. apply qc_leb_le in H1, H2. apply qc_leb_le. eapply Qcle_trans; eauto. }
      assert (J : In c (ssort le f)) by (apply (Permutation_in _ (Permutation_sym (ssort_perm le f))); auto).
      rewrite <- (firstn_skipn k) in J. apply in_app_or in J as [J|J]; [tauto|].
      rewrite <- (firstn_skipn k (ssort le f)) in S. revert S J Id. generalize (firstn k (ssort le f)) as p, (skipn k (ssort le f)) as q. clear.
      induction p as [|x p IH]; intros q S J Id; [destruct Id|]. simpl in S. inversion S; subst.
      destruct Id as [<-|Id]; [|eapply IH; eauto].
      rewrite Forall_forall in H2. apply qc_leb_le. apply H2. apply in_or_app; auto.
    - intros L c I. apply (Permutation_in _ (Permutation_sym (retain_top_k_all _ L))). auto.
  Qed.

  (** Specification of a pruned list [r] of the candidates satisfying [cand]. *)
  Definition top_of (cand : clause -> Prop) (k : nat) (r : dnf) : Prop :=
    length r <= k /\ NoDup r /\ (forall c, In c r -> cand c) /\
    (forall c d, cand c -> ~ In c r -> In d r -> (clause_prob prob c <= clause_prob prob d)%Qc) /\
    (forall all, (forall c, cand c -> In c all) -> length all <= k -> forall c, cand c -> In c r) /\
    (forall c, cand c -> ~ In c r -> length r = k).

  Lemma retain_top_of : forall f k, NoDup f -> top_of (fun c => In c f) k (retain_top_k prob f k).
  Proof.
    intros f k N. destruct (retain_top_k_spec k N) as (L & ND & I & B & A).
    split; [lia|]. split; [auto|]. split; [auto|]. split; [auto|]. split.
    - intros all H La. apply A. eapply Nat.le_trans; [|exact La]. apply NoDup_incl_length; auto.
    - intros c Ic NI. destruct (Nat.le_gt_cases (length f) k) as [H|H]; [exfalso; apply NI; apply A; auto|lia].
  Qed.

  (** Top-k disjunction keeps the [k] most probable proofs of the two operands. *)
  Theorem C18_add : forall a b k, top_of (fun c => In c a \/ In c b) k (top_k_add prob a b k).
  Proof.
    intros a b k. unfold top_k_add.
    pose proof (retain_top_of k (dnf_dedup_NoDup (dnf_or a b))) as (L & N & I & B & A & F).
    assert (M : forall c, In c (dnf_dedup (dnf_or a b)) <-> In c a \/ In c b).
    { intros c. rewrite dnf_dedup_In. unfold dnf_or. apply in_app_iff. }
    split; [auto|]. split; [auto|]. split; [intros c Ic; apply M; auto|].
    split; [intros c d C; apply B; apply M; auto|]. split.
    - intros all H La c C. apply (A all); auto; [intros x X; apply H, M; auto|apply M; auto].
    - intros c C. apply F. apply M; auto.
  Qed.

  (** Top-k conjunction keeps the [k] most probable of the consistent merges. *)
  Theorem C18_mult : forall a b k,
    top_of (fun c => (exists x y, In x a /\ In y b /\ merge x y = Some c) /\ conflict (pos_fact_ids c) = false)
      k (top_k_mult prob conflict a b k).
  Proof.
    intros a b k. unfold top_k_mult.
    assert (ND : NoDup (retain_no_conflict conflict (dnf_dedup (dnf_and a b)))).
    { apply NoDup_filter, dnf_dedup_NoDup. }
    pose proof (retain_top_of k ND) as (L & N & I & B & A & F).
    assert (M : forall c, In c (retain_no_conflict conflict (dnf_dedup (dnf_and a b))) <->
              (exists x y, In x a /\ In y b /\ merge x y = Some c) /\ conflict (pos_fact_ids c) = false).
    { intros c. unfold retain_no_conflict. rewrite filter_In, dnf_dedup_In, dnf_and_In, negb_true_iff. tauto. }
    split; [auto|]. split; [auto|]. split; [intros c Ic; apply M; auto|].
    split; [intros c d C; apply B; apply M; auto|]. split.
    - intros all H La c C. apply (A all); auto; [intros x X; apply H, M; auto|apply M; auto].
    - intros c C. apply F. apply M; auto.
  Qed.
End Ctx.
Print Assumptions C17_or.
Print Assumptions C17_and.
Print Assumptions C17_units.
Print Assumptions C17_add.
Print Assumptions C17_mult.
Print Assumptions C17_negate.
Print Assumptions C17_pruned_sound.
Print Assumptions C17_chosen_set.
Print Assumptions C18_add.
Print Assumptions C18_mult.
