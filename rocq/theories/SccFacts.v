(** Facts about the model of Scc.v. *)
From Coq Require Import List ZArith Bool Arith Lia Permutation.
From Verif Require Import Back Scc.
Import ListNotations.

(** ** Specification vocabulary, independent of the model's computations *)

(** [reach g u v]: a path of dependency edges leads from [u] to [v]. *)
Inductive reach (g : graph) : pred -> pred -> Prop :=
| reach_refl u : reach g u u
| reach_step u v w k : In (u, v, k) (g_edges g) -> reach g v w -> reach g u w.

Definition wf_graph (g : graph) : Prop :=
  NoDup (g_nodes g) /\
  forall s d k, In (s, d, k) (g_edges g) -> In s (g_nodes g) /\ In d (g_nodes g).

(** The contract of petgraph's [kosaraju_scc]: the components partition the
    nodes, and two nodes share a component iff they reach each other. *)
Definition scc_contract (g : graph) (cs : sccs) : Prop :=
  Permutation (concat cs) (g_nodes g) /\
  (forall c, In c cs -> c <> []) /\
  (forall u v, In u (g_nodes g) -> In v (g_nodes g) ->
    ((exists c, In c cs /\ In u c /\ In v c) <-> reach g u v /\ reach g v u)).

(** ** Lists and reachability *)
Lemma memb_In : forall x l, memb x l = true <-> In x l.
Proof.
  unfold memb; intros. rewrite existsb_exists. split.
  - intros (y & H & E). apply Nat.eqb_eq in E; subst; auto.
  - intros H; exists x; split; auto. apply Nat.eqb_refl.
Qed.
Lemma memb_nIn : forall x l, memb x l = false <-> ~ In x l.
Proof.
  intros. rewrite <- memb_In. destruct (memb x l); split; congruence.
Qed.

Lemma reach_trans : forall g u v w, reach g u v -> reach g v w -> reach g u w.
Proof. induction 1; intros; eauto using reach. Qed.
Lemma reach_one : forall g u v k, In (u, v, k) (g_edges g) -> reach g u v.
Proof. intros; econstructor; eauto; constructor. Qed.
Lemma reach_node : forall g u v, wf_graph g -> In u (g_nodes g) -> reach g u v -> In v (g_nodes g).
Proof.
  intros g u v [_ W] Hu R. induction R; auto. apply IHR. eapply W; eauto.
Qed.

Lemma succs_In : forall g u v, In v (succs g u) <-> exists k, In (u, v, k) (g_edges g).
Proof.
  unfold succs; intros. rewrite in_flat_map. split.
  - intros ([[s d] k] & H & E). destruct (Nat.eqb_spec s u); [|destruct E].
    destruct E as [E|[]]; subst; eauto.
  - intros (k & H). exists (u, v, k); split; auto. rewrite Nat.eqb_refl; simpl; auto.
Qed.

Lemma expand_In : forall g l v, In v (expand g l) <->
  In v (g_nodes g) /\ (In v l \/ exists u k, In u l /\ In (u, v, k) (g_edges g)).
Proof.
  intros. unfold expand. rewrite filter_In, orb_true_iff, memb_In, existsb_exists.
  split; intros [H1 [H2|H2]]; split; auto; right.
  - destruct H2 as (u & Hu & E). apply memb_In, succs_In in E. destruct E as (k & E). eauto.
  - destruct H2 as (u & k & Hu & E). exists u; split; auto. apply memb_In, succs_In; eauto.
Qed.

Definition closed (g : graph) (l : list pred) : Prop :=
  forall u v k, In u l -> In (u, v, k) (g_edges g) -> In v l.

Lemma reach_from_sound : forall g n l v, In v (reach_from g n l) ->
  exists u, In u l /\ reach g u v.
Proof.
  induction n; simpl; intros l v H.
  - exists v; split; auto; constructor.
  - destruct (IHn _ _ H) as (u & Hu & R). apply expand_In in Hu.
    destruct Hu as [_ [Hu|(w & k & Hw & E)]]; eauto.
    exists w; split; auto. econstructor; eauto.
Qed.

Lemma expand_NoDup : forall g l, wf_graph g -> NoDup (expand g l).
Proof. intros g l [N _]. apply NoDup_filter; auto. Qed.

Lemma reach_from_incl : forall g n l, incl l (g_nodes g) -> incl l (reach_from g n l).
Proof.
  induction n; simpl; intros l H x Hx; auto.
  apply IHn.
  - intros y Hy. apply expand_In in Hy; tauto.
  - apply expand_In; auto.
Qed.

Lemma reach_from_nodes : forall g n l, incl l (g_nodes g) -> incl (reach_from g n l) (g_nodes g).
Proof.
  induction n; simpl; intros l H; auto. apply IHn. intros y Hy. apply expand_In in Hy; tauto.
Qed.
Lemma reach_from_NoDup : forall g n l, wf_graph g -> NoDup l -> NoDup (reach_from g n l).
Proof.
  induction n; simpl; intros l W H; auto. apply IHn; auto. apply expand_NoDup; auto.
Qed.

Lemma expand_closed : forall g l, wf_graph g -> incl l (g_nodes g) -> closed g l ->
  forall x, In x (expand g l) <-> In x l.
Proof.
  intros g l W I C x. rewrite expand_In. split.
  - intros [_ [H|(u & k & Hu & E)]]; eauto.
  - intros H; split; auto.
Qed.

Lemma reach_from_closed : forall g n l, wf_graph g -> incl l (g_nodes g) -> closed g l ->
  closed g (reach_from g n l).
Proof.
  induction n; simpl; intros l W I C; auto.
  apply IHn; auto.
  - intros y Hy; apply expand_In in Hy; tauto.
  - intros u v k Hu E. rewrite expand_closed in * by auto. eauto.
Qed.

Lemma reach_from_grow : forall g n l, wf_graph g -> incl l (g_nodes g) -> NoDup l ->
  closed g (reach_from g n l) \/ length l + n <= length (reach_from g n l).
Proof.
  induction n; simpl; intros l W I N; [right; lia|].
  assert (I2 : incl (expand g l) (g_nodes g)) by (intros y Hy; apply expand_In in Hy; tauto).
  assert (I3 : incl l (expand g l)) by (intros y Hy; apply expand_In; auto).
  pose proof (NoDup_incl_length N I3) as L.
  destruct (Nat.eq_dec (length l) (length (expand g l))) as [E|NE].
  - left. apply reach_from_closed; auto.
    assert (I4 : incl (expand g l) l).
    { apply NoDup_length_incl; auto. lia. }
    intros u v k Hu Ed. apply expand_In; split.
    + eapply W; eauto.
    + right; exists u, k; split; auto.
  - destruct (IHn (expand g l) W I2 (expand_NoDup g l W)); auto. right. lia.
Qed.

Lemma closed_reach : forall g l u v, closed g l -> In u l -> reach g u v -> In v l.
Proof. intros g l u v C Hu R. induction R; eauto. Qed.

Lemma has_path_spec : forall g u v, wf_graph g -> In u (g_nodes g) ->
  (has_path g u v = true <-> reach g u v).
Proof.
  intros g u v W Hu. unfold has_path. rewrite memb_In.
  assert (I : incl [u] (g_nodes g)) by (intros x [<-|[]]; auto).
  assert (N1 : NoDup [u]) by (constructor; [simpl; tauto|constructor]).
  split.
  - intros H. destruct (reach_from_sound _ _ _ _ H) as (w & [<-|[]] & R); auto.
  - intros R.
    destruct (reach_from_grow g (length (g_nodes g)) [u] W I N1) as [C|L].
    + eapply closed_reach; eauto. apply reach_from_incl; simpl; auto.
    + exfalso.
      pose proof (NoDup_incl_length (reach_from_NoDup g (length (g_nodes g)) [u] W N1)
        (reach_from_nodes g _ _ I)). simpl in L. lia.
Qed.

(** ** The component table *)
Lemma comp_index_In : forall cs u, In u (concat cs) ->
  exists c, nth_error cs (comp_index cs u) = Some c /\ In u c.
Proof.
  induction cs as [|c r IH]; simpl; intros u H; [tauto|].
  destruct (memb u c) eqn:E.
  - exists c; split; auto. apply memb_In; auto.
  - apply in_app_or in H. apply memb_nIn in E. destruct H as [H|H]; [tauto|]. apply IH; auto.
Qed.

Lemma NoDup_app_l : forall (A : Type) (l m : list A), NoDup (l ++ m) -> NoDup l.
Proof.
  induction l; simpl; intros m H; constructor; inversion H; subst; eauto.
  intros I; apply H2, in_or_app; auto.
Qed.
Lemma NoDup_app_r : forall (A : Type) (l m : list A), NoDup (l ++ m) -> NoDup m.
Proof. induction l; simpl; intros m H; auto. inversion H; auto. Qed.
Lemma NoDup_app_disj : forall (A : Type) (l m : list A) x, NoDup (l ++ m) -> In x l -> In x m -> False.
Proof.
  induction l; simpl; intros m x H H1 H2; auto. inversion H; subst.
  destruct H1 as [->|H1]; eauto. apply H4, in_or_app; auto.
Qed.

Lemma comp_index_nth : forall cs i c u, NoDup (concat cs) -> nth_error cs i = Some c -> In u c ->
  comp_index cs u = i.
Proof.
  induction cs as [|c0 r IH]; intros i c u N H Hu; [destruct i; discriminate|].
  simpl. simpl in N. destruct i; simpl in H.
  - inversion H; subst. apply memb_In in Hu. rewrite Hu; auto.
  - destruct (memb u c0) eqn:E.
    + apply memb_In in E. exfalso. eapply NoDup_app_disj; eauto.
      apply in_concat. exists c; split; auto. eapply nth_error_In; eauto.
    + f_equal. eapply IH; eauto. eapply NoDup_app_r; eauto.
Qed.

Section Strat.
  Variable g : graph.
  Variable cs : sccs.
  Hypothesis W : wf_graph g.
  Hypothesis C : scc_contract g cs.

  Lemma cs_NoDup : NoDup (concat cs).
  Proof.
    destruct C as [P _]. destruct W as [N _]. eapply Permutation_NoDup; [apply Permutation_sym; eauto|auto].
  Qed.
  Lemma cs_nodes : forall u, In u (g_nodes g) <-> In u (concat cs).
  Proof. destruct C as [P _]. intros; split; apply Permutation_in; auto. apply Permutation_sym; auto. Qed.

  Lemma comp_lt : forall u, In u (g_nodes g) -> comp_index cs u < length cs.
  Proof.
    intros u H. apply cs_nodes in H. destruct (comp_index_In _ _ H) as (c & E & _).
    apply nth_error_Some. congruence.
  Qed.

  Lemma comp_same : forall u v, In u (g_nodes g) -> In v (g_nodes g) ->
    (comp_index cs u = comp_index cs v <-> reach g u v /\ reach g v u).
  Proof.
    intros u v Hu Hv. destruct C as (P & _ & S). rewrite <- (S u v Hu Hv). split.
    - intros E. apply cs_nodes in Hu. apply cs_nodes in Hv.
      destruct (comp_index_In _ _ Hu) as (c & E1 & I1).
      destruct (comp_index_In _ _ Hv) as (c' & E2 & I2).
      rewrite E in E1. assert (c = c') by congruence. subst c'.
      exists c; repeat split; auto. eapply nth_error_In; eauto.
    - intros (c & Hc & I1 & I2). apply In_nth_error in Hc. destruct Hc as (i & Hi).
      rewrite (comp_index_nth cs i c u), (comp_index_nth cs i c v); auto using cs_NoDup.
  Qed.

  Lemma comp_nonempty : forall i, i < length cs -> exists u, In u (g_nodes g) /\ comp_index cs u = i.
  Proof.
    intros i H. destruct (nth_error cs i) as [c|] eqn:E; [|apply nth_error_None in E; lia].
    destruct C as (P & NE & _).
    assert (c <> []) by (apply NE; eapply nth_error_In; eauto).
    destruct c as [|u c]; [congruence|]. exists u. split.
    - apply cs_nodes, in_concat. exists (u :: c); split; simpl; auto. eapply nth_error_In; eauto.
    - eapply comp_index_nth; eauto using cs_NoDup. simpl; auto.
  Qed.

  (** *** Condensation *)
  Lemma cmem_In : forall e l, cmem e l = true <-> In e l.
  Proof.
    unfold cmem; intros [a b] l. rewrite existsb_exists. split.
    - intros ([x y] & H & E). simpl in E. apply andb_true_iff in E. destruct E as [E1 E2].
      apply Nat.eqb_eq in E1, E2; subst; auto.
    - intros H; exists (a, b); split; auto. simpl. rewrite !Nat.eqb_refl; auto.
  Qed.
  Lemma update_edge_In : forall l e f, In f (update_edge l e) <-> In f l \/ f = e.
  Proof.
    intros. unfold update_edge. destruct (cmem e l) eqn:E.
    - apply cmem_In in E. split; auto. intros [H| ->]; auto.
    - rewrite in_app_iff; simpl. split; intros [H|H]; auto.
      + destruct H as [H|[]]; auto.
  Qed.

  Lemma cond_edges_In : forall i j, In (i, j) (cond_edges g cs) <->
    i <> j /\ exists s d k, In (s, d, k) (g_edges g) /\ comp_index cs s = i /\ comp_index cs d = j.
  Proof.
    intros i j. unfold cond_edges.
    assert (G : forall (es : list edge) (acc : list (nat * nat)), In (i, j) (fold_left (fun acc e => match e with (s, d, _) =>
      let i := comp_index cs s in let j := comp_index cs d in
      if Nat.eqb i j then acc else update_edge acc (i, j) end) es acc) <->
      In (i, j) acc \/ (i <> j /\ exists s d k, In (s, d, k) es /\ comp_index cs s = i /\ comp_index cs d = j)).
    { induction es as [|[[s d] k] es IH]; intros acc; simpl.
      - split; auto. intros [H|(_ & s & d & k & [] & _)]; auto.
      - rewrite IH. destruct (Nat.eqb_spec (comp_index cs s) (comp_index cs d)) as [E|NE].
        + split; intros [H|(N & s' & d' & k' & H & E1 & E2)]; auto; right; split; auto.
          * exists s', d', k'; auto.
          * destruct H as [H|H]; [inversion H; subst; congruence|]. exists s', d', k'; auto.
        + rewrite update_edge_In. split.
          * intros [[H|H]|(N & s' & d' & k' & H & E1 & E2)]; auto.
            -- inversion H; subst. right; split; auto. exists s, d, k; auto.
            -- right; split; auto. exists s', d', k'; auto.
          * intros [H|(N & s' & d' & k' & [H|H] & E1 & E2)]; auto.
            -- inversion H; subst. auto.
            -- right; split; auto. exists s', d', k'; auto. }
    rewrite G. simpl. split; auto. intros [[]|H]; auto.
  Qed.

  Lemma outs_In : forall ce i j, In j (outs ce i) <-> In (i, j) ce.
  Proof.
    intros. unfold outs. rewrite in_flat_map. split.
    - intros ([a b] & H & E). apply in_rev in H. simpl in E.
      destruct (Nat.eqb_spec a i); [|destruct E]. destruct E as [E|[]]; subst; auto.
    - intros H. exists (i, j); split; [apply -> in_rev; auto|]. simpl. rewrite Nat.eqb_refl; simpl; auto.
  Qed.
  Lemma ins_In : forall ce i j, In i (ins ce j) <-> In (i, j) ce.
  Proof.
    intros. unfold ins. rewrite in_flat_map. split.
    - intros ([a b] & H & E). apply in_rev in H. simpl in E.
      destruct (Nat.eqb_spec b j); [|destruct E]. destruct E as [E|[]]; subst; auto.
    - intros H. exists (i, j); split; [apply -> in_rev; auto|]. simpl. rewrite Nat.eqb_refl; simpl; auto.
  Qed.

  Definition crank (i : nat) : nat :=
    length (filter (fun v => existsb (fun u => Nat.eqb (comp_index cs u) i && has_path g u v) (g_nodes g))
              (g_nodes g)).

  Lemma filter_length_lt : forall (A : Type) (p q : A -> bool) l x,
    (forall y, In y l -> p y = true -> q y = true) -> In x l -> p x = false -> q x = true ->
    length (filter p l) < length (filter q l).
  Proof.
    induction l as [|y l IH]; intros x H Hx Hp Hq; simpl in *; [tauto|].
    assert (M : length (filter p l) <= length (filter q l)).
    { clear -H. induction l as [|z l IH]; simpl; auto.
      assert (IH' := IH (fun y Hy => H y (match Hy with or_introl e => or_introl e | or_intror h => or_intror (or_intror h) end))).
      destruct (p z) eqn:E.
      - rewrite (H z) by (simpl; auto). simpl; lia.
      - destruct (q z); simpl; lia. }
    destruct Hx as [->|Hx].
    - rewrite Hp, Hq. simpl; lia.
    - specialize (IH x (fun y Hy => H y (or_intror Hy)) Hx Hp Hq).
      destruct (p y) eqn:E.
      + rewrite (H y) by auto. simpl; lia.
      + destruct (q y); simpl; lia.
  Qed.

  Lemma crank_dec : forall i j, In (i, j) (cond_edges g cs) -> crank j < crank i.
  Proof.
    intros i j H. apply cond_edges_In in H. destruct H as (NE & s & d & k & E & Ei & Ej).
    destruct (proj2 W _ _ _ E) as [Ns Nd].
    unfold crank. apply filter_length_lt with (x := s); auto.
    - intros v Hv. rewrite !existsb_exists. intros (u & Hu & A). apply andb_true_iff in A.
      destruct A as [A1 A2]. apply Nat.eqb_eq in A1.
      apply has_path_spec in A2; auto.
      exists s; split; auto. rewrite Ei, Nat.eqb_refl. simpl. apply has_path_spec; auto.
      assert (comp_index cs u = comp_index cs d) as Q by congruence.
      apply comp_same in Q; auto. destruct Q as [_ Q].
      econstructor; [exact E|]. eapply reach_trans; eauto.
    - destruct (existsb _ _) eqn:X; auto. exfalso.
      apply existsb_exists in X. destruct X as (u & Hu & A). apply andb_true_iff in A.
      destruct A as [A1 A2]. apply Nat.eqb_eq in A1. apply has_path_spec in A2; auto.
      assert (comp_index cs u = comp_index cs d) as Q by congruence.
      apply comp_same in Q; auto. destruct Q as [_ Q].
      assert (comp_index cs s = comp_index cs d); [|congruence].
      apply comp_same; auto. split; [eapply reach_one; eauto|]. eapply reach_trans; eauto.
    - apply existsb_exists. exists s; split; auto. rewrite Ei, Nat.eqb_refl. simpl.
      apply has_path_spec; auto. constructor.
  Qed.

  (** *** The worklist loop *)
  Let ce := cond_edges g cs.
  Definition ordered (l : list nat) : Prop :=
    forall l1 x l2, l = l1 ++ x :: l2 -> forall y, In (x, y) ce -> In y l1.

  Lemma ordered_snoc : forall l x, ordered l -> (forall y, In (x, y) ce -> In y l) -> ordered (l ++ [x]).
  Proof.
    intros l x O H l1 z l2 E y Hy.
    destruct l2 as [|w l2].
    - apply app_inj_tail in E. destruct E; subst; auto.
    - assert (exists l3, w :: l2 = l3 ++ [x] /\ l = l1 ++ z :: l3) as (l3 & E1 & E2).
      { destruct (exists_last (l := w :: l2)) as (l3 & x' & E'); [discriminate|].
        rewrite E' in E. replace (l1 ++ z :: l3 ++ [x']) with ((l1 ++ z :: l3) ++ [x']) in E
          by (rewrite <- app_assoc; auto).
        apply app_inj_tail in E. destruct E; subst. exists l3; auto. }
      eapply O; eauto.
  Qed.

  (** State: [done] are the components already emitted. *)
  Record inv (done visited fringe : list nat) : Prop := {
    i_nodup : NoDup (done ++ fringe);
    i_vis : forall x, In x visited <-> In x (done ++ fringe);
    i_ord : ordered (done ++ fringe);
    i_rng : forall x, In x (done ++ fringe) -> x < length cs;
    i_todo : forall x, x < length cs -> ~ In x (done ++ fringe) ->
      exists y, In (x, y) ce /\ ~ In y done }.

  Lemma ce_range : forall x y, In (x, y) ce -> x < length cs /\ y < length cs.
  Proof.
    intros x y H. apply cond_edges_In in H. destruct H as (_ & s & d & k & E & <- & <-).
    destruct (proj2 W _ _ _ E). split; apply comp_lt; auto.
  Qed.

  (** Expanding component [c]: invariant of the inner loop; [seen] are the
      predecessors already looked at. *)
  Record iinv (done : list nat) (c : nat) (seen visited fringe : list nat) : Prop := {
    j_nodup : NoDup (done ++ c :: fringe);
    j_vis : forall x, In x visited <-> In x (done ++ c :: fringe);
    j_ord : ordered (done ++ c :: fringe);
    j_rng : forall x, In x (done ++ c :: fringe) -> x < length cs;
    j_todo : forall x, x < length cs -> ~ In x (done ++ c :: fringe) ->
      exists y, In (x, y) ce /\ ~ In y done /\ (In x seen \/ ~ In (x, c) ce -> y <> c) }.

  Lemma in_mid : forall (A : Type) (x a : A) l m, In x (l ++ a :: m) <-> In x l \/ x = a \/ In x m.
  Proof.
    intros. rewrite in_app_iff. simpl. split; intros [H|[H|H]]; auto.
  Qed.

  Lemma visit_step : forall done c seen visited fringe n,
    iinv done c seen visited fringe -> In (n, c) ce ->
    let '(v', f') := visit_in ce (visited, fringe) n in iinv done c (n :: seen) v' f'.
  Proof.
    intros done c seen visited fringe n I Hn. unfold visit_in.
    destruct (memb n visited) eqn:M.
    - apply memb_In in M. destruct I as [I1 I2 I3 I4 I5]. constructor; auto.
      intros x Lx Nx. destruct (I5 x Lx Nx) as (y & Y1 & Y2 & Y3).
      exists y; repeat split; auto. intros [[<-|H]|H]; auto. apply I2 in M. tauto.
    - apply memb_nIn in M.
      destruct (forallb _ _) eqn:F.
      + rewrite forallb_forall in F. destruct I as [I1 I2 I3 I4 I5].
        assert (AP : done ++ c :: fringe ++ [n] = (done ++ c :: fringe) ++ [n])
          by (rewrite <- app_assoc; auto).
        assert (Nn : ~ In n (done ++ c :: fringe)) by (rewrite <- I2; auto).
        constructor; rewrite ?AP.
        * apply Permutation_NoDup with (n :: done ++ c :: fringe).
          { apply Permutation_cons_append. } constructor; auto.
        * intros x. rewrite in_app_iff. simpl. rewrite I2. split; intros H; tauto.
        * apply ordered_snoc; auto. intros y Hy. apply I2. apply memb_In. apply F.
          apply outs_In; auto.
        * intros x Hx. apply in_app_or in Hx. destruct Hx as [Hx|[<-|[]]]; auto.
          exact (proj1 (ce_range n c Hn)).
        * intros x Lx Nx. rewrite in_app_iff in Nx.
          destruct (I5 x Lx) as (y & Y1 & Y2 & Y3); [tauto|].
          exists y; repeat split; auto. intros [[<-|H]|H]; auto. exfalso; apply Nx; simpl; auto.
      + assert (exists t, In t (outs ce n) /\ memb t visited = false) as (t & T1 & T2).
        { clear -F. induction (outs ce n) as [|t l IH]; simpl in F; [discriminate|].
          apply andb_false_iff in F. destruct F as [F|F].
          - exists t; simpl; auto.
          - destruct (IH F) as (t' & H1 & H2). exists t'; simpl; auto. }
        apply outs_In in T1. apply memb_nIn in T2.
        destruct I as [I1 I2 I3 I4 I5]. constructor; auto.
        intros x Lx Nx. destruct (Nat.eq_dec x n) as [->|Q].
        * exists t. rewrite I2, in_mid in T2. split; [auto|split; [tauto|intros _ ->; tauto]].
        * destruct (I5 x Lx Nx) as (y & Y1 & Y2 & Y3).
          exists y; repeat split; auto. intros [[<-|H]|H]; auto.
  Qed.

  Lemma visit_fold : forall done c l seen visited fringe,
    iinv done c seen visited fringe -> (forall n, In n l -> In (n, c) ce) ->
    let '(v', f') := fold_left (visit_in ce) l (visited, fringe) in
    iinv done c (rev l ++ seen) v' f'.
  Proof.
    induction l as [|n l IH]; intros seen visited fringe I H; [exact I|].
    change (fold_left (visit_in ce) (n :: l) (visited, fringe))
      with (fold_left (visit_in ce) l (visit_in ce (visited, fringe) n)).
    pose proof (visit_step done c seen visited fringe n I (H n (or_introl eq_refl))) as S.
    destruct (visit_in ce (visited, fringe) n) as [v' f'].
    specialize (IH (n :: seen) v' f' S (fun m Hm => H m (or_intror Hm))).
    cbn [rev]. rewrite <- app_assoc. exact IH.
  Qed.

  Lemma inv_pop : forall done visited c rest, inv done visited (c :: rest) ->
    let '(v', f') := fold_left (visit_in ce) (ins ce c) (visited, rest) in
    inv (done ++ [c]) v' f'.
  Proof.
    intros done visited c rest I.
    assert (J : iinv done c [] visited rest).
    { destruct I as [I1 I2 I3 I4 I5]. constructor; auto.
      intros x Lx Nx. destruct (I5 x Lx Nx) as (y & Y1 & Y2).
      exists y; repeat split; auto. intros [[]|H] ->. auto. }
    pose proof (visit_fold done c (ins ce c) [] visited rest J
      (fun n Hn => proj1 (ins_In ce n c) Hn)) as K.
    destruct (fold_left (visit_in ce) (ins ce c) (visited, rest)) as [v' f'].
    destruct K as [K1 K2 K3 K4 K5].
    assert (AP : (done ++ [c]) ++ f' = done ++ c :: f') by (rewrite <- app_assoc; auto).
    constructor; rewrite ?AP; auto.
    intros x Lx Nx. destruct (K5 x Lx Nx) as (y & Y1 & Y2 & Y3).
    exists y; split; auto. rewrite in_app_iff. simpl.
    assert (y <> c).
    { apply Y3. rewrite app_nil_r.
      destruct (in_dec Nat.eq_dec x (ins ce c)) as [H|H].
      - left. apply -> in_rev; auto.
      - right. rewrite <- ins_In; auto. }
    intros [H1|[H1|[]]]; auto.
  Qed.

  Lemma inv_end : forall done visited, inv done visited [] -> forall x, x < length cs -> In x done.
  Proof.
    intros done visited I.
    assert (G : forall n x, crank x < n -> x < length cs -> In x done).
    { induction n; intros x H L; [lia|].
      destruct (in_dec Nat.eq_dec x done) as [|N]; auto. exfalso.
      destruct (i_todo _ _ _ I x L) as (y & Y1 & Y2).
      { rewrite app_nil_r; auto. }
      apply Y2. apply IHn; [|exact (proj2 (ce_range x y Y1))].
      pose proof (crank_dec x y Y1). lia. }
    intros x; apply (G (S (crank x))). lia.
  Qed.

  Lemma inv_done_len : forall done visited fringe, inv done visited fringe ->
    length done + length fringe <= length cs.
  Proof.
    intros done visited fringe I. rewrite <- app_length, <- (seq_length (length cs) 0).
    apply NoDup_incl_length; [apply I|]. intros x Hx. apply in_seq.
    pose proof (i_rng _ _ _ I x Hx). lia.
  Qed.

  Lemma strata_loop_ok : forall fuel done visited fringe, inv done visited fringe ->
    length cs <= length done + fuel ->
    exists l, strata_loop fuel ce visited fringe = Some l /\
      NoDup (done ++ l) /\ ordered (done ++ l) /\
      (forall x, In x (done ++ l) <-> x < length cs).
  Proof.
    induction fuel; intros done visited fringe I L.
    - pose proof (inv_done_len _ _ _ I). destruct fringe as [|c rest]; [|simpl in *; lia].
      exists []. simpl. pose proof (inv_end _ _ I). destruct I as [I1 I2 I3 I4 I5].
      split; [auto|split; [auto|split; [auto|]]].
      intros x; split; auto. intros; rewrite app_nil_r; auto.
    - destruct fringe as [|c rest].
      + exists []. simpl. pose proof (inv_end _ _ I). destruct I as [I1 I2 I3 I4 I5].
        split; [auto|split; [auto|split; [auto|]]].
      intros x; split; auto. intros; rewrite app_nil_r; auto.
      + cbn [strata_loop]. pose proof (inv_pop _ _ _ _ I) as J.
        destruct (fold_left (visit_in ce) (ins ce c) (visited, rest)) as [v' f'].
        destruct (IHfuel _ _ _ J) as (l & E & N & O & R).
        { rewrite app_length; simpl; lia. }
        rewrite E. exists (c :: l).
        replace (done ++ c :: l) with ((done ++ [c]) ++ l) by (rewrite <- app_assoc; auto).
        auto.
  Qed.

  Definition sources : list nat :=
    filter (fun i => match outs ce i with [] => true | _ => false end) (seq 0 (length cs)).

  Lemma sources_In : forall x, In x sources <-> x < length cs /\ forall y, ~ In (x, y) ce.
  Proof.
    intros x. unfold sources. rewrite filter_In, in_seq. split.
    - intros [H1 H2]. split; [lia|]. intros y Hy. apply outs_In in Hy.
      destruct (outs ce x); [destruct Hy|discriminate].
    - intros [H1 H2]. split; [lia|]. destruct (outs ce x) as [|y l] eqn:E; auto.
      exfalso. apply (H2 y), outs_In. rewrite E; simpl; auto.
  Qed.

  Lemma inv_init : inv [] sources sources.
  Proof.
    constructor; simpl.
    - apply NoDup_filter, seq_NoDup.
    - tauto.
    - intros l1 x l2 E y Hy. assert (In x sources) as S by (rewrite E; apply in_elt).
      apply sources_In in S. exfalso; eapply S; eauto.
    - intros x Hx. apply sources_In in Hx; tauto.
    - intros x L N. destruct (outs ce x) as [|y l] eqn:E.
      + exfalso; apply N, sources_In. split; auto. intros y Hy. apply outs_In in Hy. rewrite E in Hy; auto.
      + exists y; split; auto. apply outs_In. rewrite E; simpl; auto.
  Qed.

  Theorem strata_loop_spec : exists l, strata_loop (length cs) ce sources sources = Some l /\
    NoDup l /\ ordered l /\ (forall x, In x l <-> x < length cs).
  Proof.
    destruct (strata_loop_ok (length cs) [] sources sources inv_init) as (l & H); [simpl; lia|].
    exists l; exact H.
  Qed.

  (** *** The check for cycles through negation or aggregation *)
  Lemma bad_edge_spec : forall e, bad_edge g cs = Some e ->
    let '(u, v, k) := e in In e (g_edges g) /\ k <> EPos /\ reach g v u.
  Proof.
    intros [[u v] k] H. unfold bad_edge in H. apply find_some in H. destruct H as [H _].
    apply in_flat_map in H. destruct H as (c & Hc & H).
    apply in_flat_map in H. destruct H as (x & Hx & H).
    apply filter_In in H. destruct H as [H1 H2]. apply in_rev in H1.
    apply andb_true_iff in H2. destruct H2 as [H2 H4]. apply andb_true_iff in H2. destruct H2 as [H2 H3].
    apply Nat.eqb_eq in H2; subst x. apply memb_In in H4.
    repeat split; auto.
    - intros ->; discriminate.
    - destruct (proj2 W _ _ _ H1) as [Nu Nv].
      destruct C as (_ & _ & S). destruct (proj1 (S u v Nu Nv)) as [_ R]; auto. exists c; auto.
  Qed.

  Lemma bad_edge_none : bad_edge g cs = None ->
    forall u v k, In (u, v, k) (g_edges g) -> k <> EPos -> ~ reach g v u.
  Proof.
    intros H u v k E K R. unfold bad_edge in H.
    destruct (proj2 W _ _ _ E) as [Nu Nv].
    destruct C as (_ & _ & S). destruct (proj2 (S u v Nu Nv)) as (c & Hc & Iu & Iv).
    { split; auto. eapply reach_one; eauto. }
    assert (X : In (u, v, k) (flat_map (fun c => flat_map (fun u =>
       filter (fun e => match e with (s, d, k) => Nat.eqb s u && needs_strat k && memb d c end)
         (rev (g_edges g))) c) cs)).
    { apply in_flat_map. exists c; split; auto. apply in_flat_map. exists u; split; auto.
      apply filter_In. split; [apply -> in_rev; auto|].
      rewrite Nat.eqb_refl. apply memb_In in Iv. rewrite Iv. destruct k; auto; congruence. }
    pose proof (find_none _ _ H _ X). discriminate.
  Qed.

  (** *** Strata *)
  Lemma cond_node_In : forall i u, In u (cond_node g cs i) <-> In u (g_nodes g) /\ comp_index cs u = i.
  Proof.
    intros. unfold cond_node. rewrite filter_In, Nat.eqb_eq. tauto.
  Qed.
End Strat.
