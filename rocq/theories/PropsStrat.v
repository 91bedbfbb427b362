(** C24: stratification.  Statements quantify over every result of the strongly
    connected components computation that satisfies its contract; [sccs_of]
    shows that the contract is satisfiable for every graph. *)
From Coq Require Import List ZArith Bool Arith Lia Permutation.
From Verif Require Import Back Scc SccFacts.
Import ListNotations.

(** [in_stratum ss p i]: relation [p] is in the [i]-th stratum. *)
Definition in_stratum (ss : list stratum) (p : pred) (i : nat) : Prop :=
  exists s, nth_error ss i = Some s /\ In p (st_preds s).

(** [cyclic g p]: [p] depends on itself. *)
Definition cyclic (g : graph) (p : pred) : Prop :=
  exists q k, In (p, q, k) (g_edges g) /\ reach g q p.

Lemma nth_error_map' : forall (A B : Type) (f : A -> B) l i,
  nth_error (map f l) i = option_map f (nth_error l i).
Proof. induction l; destruct i; simpl; auto. Qed.

Lemma ordered_before : forall g cs l i x, ordered g cs l -> nth_error l i = Some x ->
  forall y, In (x, y) (cond_edges g cs) -> exists j, j < i /\ nth_error l j = Some y.
Proof.
  intros g cs l i x O H y Hy. destruct (nth_error_split _ _ H) as (l1 & l2 & E & L).
  pose proof (O l1 x l2 E y Hy) as I. apply In_nth_error in I. destruct I as (j & J).
  assert (j < length l1) by (apply nth_error_Some; congruence).
  exists j; split; [lia|]. rewrite E, nth_error_app1; auto.
Qed.

Lemma NoDup_concat_map_nodes : forall (f : nat -> list pred) l,
  NoDup l -> (forall i, NoDup (f i)) -> (forall i j u, In u (f i) -> In u (f j) -> i = j) ->
  NoDup (concat (map f l)).
Proof.
  induction l as [|i l IH]; simpl; intros N1 N2 D; [constructor|].
  inversion N1; subst.
  assert (G : forall m, NoDup m -> (forall u, In u m -> ~ In u (concat (map f l))) -> NoDup (m ++ concat (map f l))).
  { induction m as [|a m IHm]; simpl; intros Nm Dm; auto. inversion Nm; subst.
    constructor; auto. intros I. apply in_app_or in I. destruct I; auto. eapply Dm; eauto. }
  apply G; auto. intros u Hu I. apply in_concat in I. destruct I as (c & Hc & Iu).
  apply in_map_iff in Hc. destruct Hc as (j & <- & Hj). apply H1. rewrite (D i j u); auto.
Qed.

Section C24.
  Variable g : graph.
  Variable cs : sccs.
  Hypothesis W : wf_graph g.
  Hypothesis C : scc_contract g cs.

  Lemma stratify_shape : forall ss, stratify g cs = Some (inr ss) ->
    bad_edge g cs = None /\
    exists l, ss = map (fun i => let ps := cond_node g cs i in mkStratum ps (has_cycle g ps)) l /\
      NoDup l /\ ordered g cs l /\ (forall x, In x l <-> x < length cs).
  Proof.
    intros ss H. unfold stratify in H. destruct (bad_edge g cs); [discriminate|].
    split; auto. destruct (strata_loop_spec g cs W C) as (l & E & P).
    unfold sources in E. rewrite E in H. inversion H; subst. exists l; split; auto.
  Qed.

  (** The loop always terminates within the number of components. *)
  Lemma C24_terminates : stratify g cs <> None.
  Proof.
    unfold stratify. destruct (bad_edge g cs); [discriminate|].
    destruct (strata_loop_spec g cs W C) as (l & E & P). unfold sources in E. rewrite E. discriminate.
  Qed.

  (** Every relation is in exactly one stratum. *)
  Lemma C24_partition : forall ss, stratify g cs = Some (inr ss) ->
    Permutation (concat (map st_preds ss)) (g_nodes g).
  Proof.
    intros ss H. destruct (stratify_shape ss H) as (_ & l & -> & N & _ & R).
    rewrite map_map. simpl.
    apply NoDup_Permutation.
    - apply NoDup_concat_map_nodes; auto.
      + intros i. apply NoDup_filter. apply W.
      + intros i j u Hi Hj. apply cond_node_In in Hi. apply cond_node_In in Hj. lia.
    - apply W.
    - intros u. rewrite in_concat. split.
      + intros (c & Hc & Iu). apply in_map_iff in Hc. destruct Hc as (i & <- & _).
        apply cond_node_In in Iu; tauto.
      + intros Hu. exists (cond_node g cs (comp_index cs u)). split.
        * apply in_map_iff. exists (comp_index cs u); split; auto. apply R, (comp_lt g cs C); auto.
        * apply cond_node_In; auto.
  Qed.

  (** Dependencies lead to the same or an earlier stratum, negative and
      aggregation dependencies to a strictly earlier one. *)
  Lemma C24_order : forall ss, stratify g cs = Some (inr ss) ->
    forall u v k, In (u, v, k) (g_edges g) ->
    exists i j, in_stratum ss u i /\ in_stratum ss v j /\ j <= i /\ (k <> EPos -> j < i).
  Proof.
    intros ss H u v k E. destruct (stratify_shape ss H) as (B & l & -> & N & O & R).
    destruct (proj2 W _ _ _ E) as [Nu Nv].
    assert (S : forall w i, In w (g_nodes g) -> nth_error l i = Some (comp_index cs w) ->
      in_stratum (map (fun i => let ps := cond_node g cs i in mkStratum ps (has_cycle g ps)) l) w i).
    { intros w i Nw Ei. eexists; split.
      - rewrite nth_error_map', Ei. reflexivity.
      - simpl. apply cond_node_In; auto. }
    assert (exists i, nth_error l i = Some (comp_index cs u)) as (i & Ei).
    { apply In_nth_error, R, (comp_lt g cs C); auto. }
    destruct (Nat.eq_dec (comp_index cs u) (comp_index cs v)) as [Q|Q].
    - exists i, i. repeat split; auto.
      + apply S; auto. congruence.
      + intros K. exfalso. apply (bad_edge_none g cs W C B u v k E K).
        apply (comp_same g cs W C u v Nu Nv); auto.
    - destruct (ordered_before g cs l i _ O Ei (comp_index cs v)) as (j & Lj & Ej).
      { apply cond_edges_In. split; auto. exists u, v, k; auto. }
      exists i, j. repeat split; auto; lia.
  Qed.

  (** Being recursive means containing a relation that depends on itself. *)
  Lemma C24_recursive : forall ss, stratify g cs = Some (inr ss) ->
    forall s, In s ss -> (st_rec s = true <-> exists p, In p (st_preds s) /\ cyclic g p).
  Proof.
    intros ss H s Hs. destruct (stratify_shape ss H) as (B & l & -> & N & O & R).
    apply in_map_iff in Hs. destruct Hs as (i & <- & Hi). simpl.
    assert (Q : forall u v, In u (cond_node g cs i) -> In v (cond_node g cs i) -> reach g u v).
    { intros u v Hu Hv. apply cond_node_In in Hu. apply cond_node_In in Hv.
      apply (comp_same g cs W C u v); intuition congruence. }
    assert (ND : NoDup (cond_node g cs i)) by (apply NoDup_filter; apply W).
    assert (CL : forall p q k, In p (cond_node g cs i) -> In (p, q, k) (g_edges g) -> reach g q p ->
                 In q (cond_node g cs i)).
    { intros p q k Hp E Rq. apply cond_node_In in Hp. destruct Hp as [Np Ep].
      destruct (proj2 W _ _ _ E). apply cond_node_In. split; auto. rewrite <- Ep.
      apply (comp_same g cs W C q p); auto. split; auto. eapply reach_one; eauto. }
    destruct (cond_node g cs i) as [|u [|v r]]; simpl.
    - split; [discriminate|]. intros (p & [] & _).
    - rewrite memb_In, succs_In. split.
      + intros (k & E). exists u; split; auto. exists u, k; split; auto. constructor.
      + intros (p & [<-|[]] & q & k & E & Rq).
        destruct (CL u q k) as [<-|[]]; simpl; eauto.
    - split; auto. intros _. exists u; split; auto.
      assert (u <> v) by (inversion ND; subst; simpl in *; intuition).
      pose proof (Q u v (or_introl eq_refl) (or_intror (or_introl eq_refl))) as P1.
      pose proof (Q v u (or_intror (or_introl eq_refl)) (or_introl eq_refl)) as P2.
      inversion P1; subst; [congruence|]. exists v0, k; split; auto. eapply reach_trans; eauto.
  Qed.

  (** Stratification fails exactly when a relation depends on itself through a
      negation or an aggregation, and the reported edge is such a dependency. *)
  Lemma C24_fails : (exists e, stratify g cs = Some (inl e)) <->
    exists u v k, In (u, v, k) (g_edges g) /\ k <> EPos /\ reach g v u.
  Proof.
    split.
    - intros ([[u v] k] & H). unfold stratify in H. destruct (bad_edge g cs) as [e|] eqn:B.
      + inversion H; subst. pose proof (bad_edge_spec g cs W C _ B) as (E & K & R).
        exists u, v, k; auto.
      + destruct (strata_loop _ _ _ _); discriminate.
    - intros (u & v & k & E & K & R). unfold stratify. destruct (bad_edge g cs) as [e|] eqn:B; eauto.
      exfalso. eapply (bad_edge_none g cs W C B); eauto.
  Qed.
  Lemma C24_reported : forall u v k, stratify g cs = Some (inl (u, v, k)) ->
    In (u, v, k) (g_edges g) /\ k <> EPos /\ reach g v u.
  Proof.
    intros u v k H. unfold stratify in H. destruct (bad_edge g cs) as [e|] eqn:B.
    - inversion H; subst. exact (bad_edge_spec g cs W C _ B).
    - destruct (strata_loop _ _ _ _); discriminate.
  Qed.
End C24.

(** ** An implementation of the contract *)
Lemma sccs_loop_spec : forall g, wf_graph g -> forall todo seen,
  incl todo (g_nodes g) -> incl seen (g_nodes g) -> NoDup seen ->
  (forall u v, In u seen -> In v (g_nodes g) -> reach g u v -> reach g v u -> In v seen) ->
  (forall x, In x (concat (sccs_loop g todo seen)) <->
     ~ In x seen /\ In x (g_nodes g) /\ exists u, In u todo /\ reach g u x /\ reach g x u) /\
  NoDup (concat (sccs_loop g todo seen)) /\
  (forall c, In c (sccs_loop g todo seen) ->
     exists u, In u c /\ In u (g_nodes g) /\ forall v, In v c <-> In v (g_nodes g) /\ reach g u v /\ reach g v u).
Proof.
  intros g W. induction todo as [|u r IH]; intros seen It Is Ns Cl; simpl.
  - split; [|split].
    + intros x; split; [tauto|]. intros (_ & _ & u & [] & _).
    + constructor.
    + tauto.
  - assert (Nu : In u (g_nodes g)) by (apply It; simpl; auto).
    assert (Ir : incl r (g_nodes g)) by (intros x Hx; apply It; simpl; auto).
    destruct (memb u seen) eqn:M.
    + apply memb_In in M. destruct (IH seen Ir Is Ns Cl) as (I1 & I2 & I3).
      split; [|split]; auto. intros x. rewrite I1. split.
      * intros (A & B & v & V & R). split; auto. split; auto. exists v; auto.
      * intros (A & B & v & [<-|V] & R1 & R2).
        -- exfalso; apply A. eapply Cl; eauto.
        -- split; auto. split; auto. exists v; auto.
    + apply memb_nIn in M.
      set (c := filter (fun v => has_path g u v && has_path g v u) (g_nodes g)).
      assert (Hc : forall v, In v c <-> In v (g_nodes g) /\ reach g u v /\ reach g v u).
      { intros v. unfold c. rewrite filter_In, andb_true_iff. split.
        - intros (A & B & D). rewrite has_path_spec in B, D by auto. auto.
        - intros (A & B & D). rewrite !has_path_spec by auto. auto. }
      assert (Nc : NoDup c) by (apply NoDup_filter; apply W).
      assert (D : forall v, In v c -> ~ In v seen).
      { intros v Hv S. apply Hc in Hv. destruct Hv as (A & B & E). apply M. eapply Cl; eauto. }
      destruct (IH (c ++ seen)) as (I1 & I2 & I3).
      * auto.
      * intros x Hx. apply in_app_or in Hx. destruct Hx as [Hx|Hx]; auto. apply Hc in Hx; tauto.
      * clear IH. revert D. clear Hc. induction c as [|a c0 IHc]; simpl; intros; auto.
        inversion Nc; subst. constructor.
        -- intros I. apply in_app_or in I. destruct I; auto. eapply D; eauto.
        -- apply IHc; auto.
      * intros a b Ha Nb R1 R2. apply in_app_or in Ha. apply in_or_app. destruct Ha as [Ha|Ha].
        -- left. apply Hc in Ha. destruct Ha as (A & B & E). apply Hc. split; auto.
           split; eapply reach_trans; eauto.
        -- right. eapply Cl; eauto.
      * simpl. split; [|split].
        -- intros x. rewrite in_app_iff, I1, in_app_iff. split.
           ++ intros [H|(A & B & v & V & R)].
              ** split; auto. apply Hc in H. split; [tauto|]. exists u; tauto.
              ** split; [tauto|]. split; auto. exists v; auto.
           ++ intros (A & B & v & V & R1 & R2).
              destruct (in_dec Nat.eq_dec x c) as [H|H]; auto. right. split; [tauto|].
              split; auto. destruct V as [<-|V]; [exfalso; apply H, Hc; auto|]. exists v; auto.
        -- clear IH. assert (D2 : forall v, In v c -> ~ In v (concat (sccs_loop g r (c ++ seen)))).
           { intros v Hv I. apply I1 in I. destruct I as (I & _). apply I, in_or_app; auto. }
           revert I2 D2. generalize (concat (sccs_loop g r (c ++ seen))). intros m I2 D2.
           clear I1 I3 Hc D. induction c as [|a c0 IHc]; simpl; auto. inversion Nc; subst.
           constructor.
           ++ intros I. apply in_app_or in I. destruct I; auto. apply (D2 a); simpl; auto.
           ++ apply IHc; auto. intros v Hv. apply D2. simpl; auto.
        -- intros c' [<-|H]; auto. exists u. split; [apply Hc; repeat split; auto; constructor|].
           split; auto.
Qed.

Theorem sccs_of_contract : forall g, wf_graph g -> scc_contract g (sccs_of g).
Proof.
  intros g W. unfold sccs_of.
  destruct (sccs_loop_spec g W (g_nodes g) []) as (I1 & I2 & I3).
  - intros x; auto.
  - intros x [].
  - constructor.
  - intros u v [].
  - split; [|split].
    + apply NoDup_Permutation; auto. apply W. intros x. rewrite I1. split; [tauto|].
      intros H. split; [tauto|]. split; auto. exists x; repeat split; auto; constructor.
    + intros c Hc. destruct (I3 c Hc) as (u & Hu & _). intros ->; auto.
    + intros u v Nu Nv. split.
      * intros (c & Hc & Hu & Hv). destruct (I3 c Hc) as (w & Hw & Nw & E).
        apply E in Hu. apply E in Hv. split; eapply reach_trans; try apply Hu; try apply Hv; tauto.
      * intros [R1 R2]. assert (In u (concat (sccs_loop g (g_nodes g) []))) as I.
        { apply I1. split; [tauto|]. split; auto. exists u; repeat split; auto; constructor. }
        apply in_concat in I. destruct I as (c & Hc & Hu). exists c; repeat split; auto.
        destruct (I3 c Hc) as (w & Hw & Nw & E). apply E. apply E in Hu. split; auto.
        destruct Hu as (_ & Hu1 & Hu2). split; eapply reach_trans; eauto.
Qed.

(** ** Programs *)
Lemma add_predicate_nodes : forall p g x, In x (g_nodes (add_predicate p g)) <-> In x (g_nodes g) \/ x = p.
Proof.
  intros. unfold add_predicate. destruct (memb p (g_nodes g)) eqn:M; simpl.
  - apply memb_In in M. split; auto. intros [H| ->]; auto.
  - rewrite in_app_iff; simpl. intuition.
Qed.
Lemma add_predicate_wf : forall p g, wf_graph g -> wf_graph (add_predicate p g).
Proof.
  intros p g [N E]. unfold add_predicate. destruct (memb p (g_nodes g)) eqn:M; [split; auto|].
  apply memb_nIn in M. split; simpl.
  - apply Permutation_NoDup with (p :: g_nodes g); [apply Permutation_cons_append|constructor; auto].
  - intros s d k H. rewrite !in_app_iff. destruct (E s d k H). auto.
Qed.
Lemma add_predicates_spec : forall l g, wf_graph g ->
  let g' := fold_left (fun g b => add_predicate (b_pred b) g) l g in
  wf_graph g' /\ g_edges g' = g_edges g /\
  forall x, In x (g_nodes g') <-> In x (g_nodes g) \/ In x (map b_pred l).
Proof.
  induction l as [|b l IH]; simpl; intros g W.
  - split; auto. split; auto. intros; tauto.
  - destruct (IH _ (add_predicate_wf (b_pred b) g W)) as (A & B & D). split; auto. split.
    + rewrite B. unfold add_predicate. destruct (memb _ _); auto.
    + intros x. rewrite D, add_predicate_nodes. intuition.
Qed.
Lemma add_dep_wf : forall g s d k, wf_graph g -> In s (g_nodes g) -> In d (g_nodes g) ->
  wf_graph (mkGraph (g_nodes g) (g_edges g ++ [(s, d, k)])).
Proof.
  intros g s d k [N E] Hs Hd. split; simpl; auto.
  intros s' d' k' H. apply in_app_or in H. destruct H as [H|[H|[]]]; eauto. inversion H; subst; auto.
Qed.
Lemma add_deps_spec : forall l g g', wf_graph g -> add_deps l g = Some g' ->
  wf_graph g' /\ g_nodes g' = g_nodes g /\ forall e, In e (g_edges g') <-> In e (g_edges g) \/ In e l.
Proof.
  induction l as [|[[s d] k] l IH]; simpl; intros g g' W H.
  - inversion H; subst. split; auto. split; auto. intros; tauto.
  - unfold add_dependency in H. destruct (memb s (g_nodes g) && memb d (g_nodes g)) eqn:M; [|discriminate].
    apply andb_true_iff in M. rewrite !memb_In in M. destruct M as [M1 M2].
    destruct (IH _ _ (add_dep_wf g s d k W M1 M2) H) as (A & B & D).
    simpl in *. split; auto. split; auto. intros e. rewrite D, in_app_iff. simpl. intuition.
Qed.

Lemma dependency_graph_spec : forall p g, dependency_graph p = Some g ->
  wf_graph g /\ (forall x, In x (g_nodes g) <-> In x (map b_pred (p_rels p))) /\
  (forall e, In e (g_edges g) <-> exists r, In r (p_rules p) /\ In e (rule_edges p r)).
Proof.
  intros p g H. unfold dependency_graph in H.
  assert (W0 : wf_graph (mkGraph [] [])) by (split; [constructor|simpl; tauto]).
  destruct (add_predicates_spec (p_rels p) _ W0) as (A & B & D).
  destruct (add_deps_spec _ _ _ A H) as (A' & B' & D').
  split; auto. split.
  - intros x. rewrite B', D. simpl. tauto.
  - intros e. rewrite D', B, in_flat_map. simpl. split; auto. intros [[]|H']; auto.
Qed.

(** What a rule reads: independent of the edges the compiler records. *)
Inductive reads (p : program) (r : rule) : pred -> bool -> Prop :=
| reads_pos a : In (LAtom a) (r_body r) -> g_foreign (p_reg p) (a_pred a) = false ->
    reads p r (a_pred a) false
| reads_neg a : In (LNeg a) (r_body r) -> g_foreign (p_reg p) (a_pred a) = false ->
    reads p r (a_pred a) true
| reads_red d : In (LReduce d) (r_body r) -> reads p r (a_pred (rd_body d)) true
| reads_grp d a : In (LReduce d) (r_body r) -> rd_groupby d = Some a -> reads p r (a_pred a) true.

Lemma reads_edge : forall p r q b, reads p r q b ->
  exists k, In (r_pred r, q, k) (rule_edges p r) /\ (b = true -> k <> EPos).
Proof.
  intros p r q b H. unfold rule_edges.
  assert (X : forall l e, In l (r_body r) -> In e (lit_edges p r l) ->
     In e (goal_edges p r ++ functor_edges p r ++ flat_map (lit_edges p r) (r_body r))).
  { intros l e Hl He. apply in_or_app; right. apply in_or_app; right. apply in_flat_map. eauto. }
  destruct H as [a Ha F|a Ha F|d Hd|d a Hd G].
  - exists EPos; split; [|discriminate]. eapply X; eauto. simpl. rewrite F. left; auto.
  - exists ENeg; split; [|discriminate]. eapply X; eauto. simpl. rewrite F. left; auto.
  - exists EAgg; split; [|discriminate]. eapply X; eauto. simpl. left; auto.
  - exists EAgg; split; [|discriminate]. eapply X; eauto. simpl. rewrite G.
    right. apply in_or_app. right. left; auto.
Qed.

(** C24 for programs: if the dependency graph can be built and stratified then
    every declared relation is in exactly one stratum, rules read relations of
    the same or an earlier stratum, and under negation or aggregation of a
    strictly earlier one. *)
Theorem C24_program : forall p g cs ss,
  dependency_graph p = Some g -> scc_contract g cs -> stratify g cs = Some (inr ss) ->
  (NoDup (concat (map st_preds ss)) /\
   forall q, In q (concat (map st_preds ss)) <-> In q (map b_pred (p_rels p))) /\
  (forall r q b, In r (p_rules p) -> reads p r q b ->
    exists i j, in_stratum ss (r_pred r) i /\ in_stratum ss q j /\ j <= i /\ (b = true -> j < i)).
Proof.
  intros p g cs ss G C S. destruct (dependency_graph_spec p g G) as (W & N & E).
  pose proof (C24_partition g cs W C ss S) as P. split; [split|].
  - eapply Permutation_NoDup; [apply Permutation_sym; eauto|apply W].
  - intros q. rewrite <- N. split; apply Permutation_in; auto. apply Permutation_sym; auto.
  - intros r q b Hr R. destruct (reads_edge p r q b R) as (k & Hk & K).
    destruct (C24_order g cs W C ss S (r_pred r) q k) as (i & j & A & B & D & F).
    { apply E; eauto. }
    exists i, j; repeat split; auto.
Qed.

(** Graph-level form with all the parts of the property. *)
Theorem C24_stratify : forall g cs, wf_graph g -> scc_contract g cs ->
  stratify g cs <> None /\
  (forall ss, stratify g cs = Some (inr ss) ->
    Permutation (concat (map st_preds ss)) (g_nodes g) /\
    (forall u v k, In (u, v, k) (g_edges g) ->
      exists i j, in_stratum ss u i /\ in_stratum ss v j /\ j <= i /\ (k <> EPos -> j < i)) /\
    (forall s, In s ss -> (st_rec s = true <-> exists q, In q (st_preds s) /\ cyclic g q))) /\
  ((exists e, stratify g cs = Some (inl e)) <->
    exists u v k, In (u, v, k) (g_edges g) /\ k <> EPos /\ reach g v u).
Proof.
  intros g cs W C. split; [apply C24_terminates; auto|]. split.
  - intros ss S. split; [|split].
    + eapply C24_partition; eauto.
    + eapply C24_order; eauto.
    + eapply C24_recursive; eauto.
  - apply C24_fails; auto.
Qed.

(** *** Examples *)
Definition a1 q := LAtom (mkAtom q [TVar 0]).
Definition n1 q := LNeg (mkAtom q [TVar 0]).
Definition h1 q := HAtom (mkAtom q [TVar 0]).
Definition ex_reg := mkReg (fun q => Nat.eqb q 9) (fun _ => false) (fun _ => false) [].
Definition mkp rules := mkProg (map (fun q => mkRel q false) [0; 1; 2; 3]) [3] []
  (rules : list rule) ex_reg.
(** 1 :- 0, 2.  2 :- 1.  3 :- 0, not 1, foreign 9. *)
Definition ex_prog := mkp [mkRule (h1 1) [a1 0; a1 2]; mkRule (h1 2) [a1 1];
                           mkRule (h1 3) [a1 0; n1 1; a1 9]].
Example C24_ex : exists g, dependency_graph ex_prog = Some g /\
  stratify g (sccs_of g) = Some (inr [mkStratum [0] false; mkStratum [1; 2] true; mkStratum [3] false]).
Proof. eexists; split; vm_compute; reflexivity. Qed.
(** 1 :- 2.  2 :- not 1. *)
Definition ex_bad := mkp [mkRule (h1 1) [a1 2]; mkRule (h1 2) [n1 1]].
Example C24_ex_bad : exists g, dependency_graph ex_bad = Some g /\
  stratify g (sccs_of g) = Some (inl (2, 1, ENeg)).
Proof. eexists; split; vm_compute; reflexivity. Qed.

Print Assumptions C24_stratify.
Print Assumptions C24_program.
Print Assumptions sccs_of_contract.
