(** C38: removing unused relations.  Also: a stratified program has exactly one
    stable model. *)
From Coq Require Import List ZArith Bool Arith Lia Permutation.
From Verif Require Import Value Back Eval Scc SccFacts PropsStrat BackSem.
Import ListNotations.

(** [σ] orders the relations: rules read downwards, strictly so under negation
    and aggregation, and entity relations are on the level of the rules that
    build their entities. *)
Definition stratified (P : program) (σ : pred -> nat) : Prop :=
  forall r, In r (p_rules P) ->
    (forall q b, reads P r q b -> σ q <= σ (r_pred r) /\ (b = true -> σ q < σ (r_pred r))) /\
    (forall f, In f (functor_preds P r) -> σ f = σ (r_pred r)).
(** "all atoms should have the same predicate" (ast.rs 160). *)
Definition wf_heads (P : program) : Prop :=
  forall r a, In r (p_rules P) -> In a (head_atoms (r_head r)) -> a_pred a = r_pred r.

Lemma new_functor_In : forall r v f l, In (LAssign v (ANew f l)) (r_body r) -> In f (new_functors r).
Proof. intros. unfold new_functors. apply in_flat_map. eexists; split; eauto. simpl; auto. Qed.

(** Building entities and calling code that creates entities in the same rule
    is only covered when the entity relations are registered. *)
Definition wf_functors (P : program) : Prop :=
  forall r v f l, In r (p_rules P) -> In (LAssign v (ANew f l)) (r_body r) -> In f (g_adts (p_reg P)).

Lemma yields_level : forall B P r s p t, wf_heads P -> wf_functors P -> In r (p_rules P) ->
  yields B (p_reg P) r s p t -> p = r_pred r \/ In p (functor_preds P r).
Proof.
  intros B P r s p t W F Hr Y. destruct Y as [a Ha|v f l Hl|v f l q t Hl Ef A C|a q t Ha Fo Fe A C].
  - left. apply (W r a); auto.
  - right. unfold functor_preds. destruct (needs_dyn_entity (p_reg P) r).
    + eapply F; eauto.
    + eapply new_functor_In; eauto.
  - right. unfold functor_preds.
    replace (needs_dyn_entity (p_reg P) r) with true; auto.
    symmetry. apply existsb_exists. exists (LAssign v (ACall f l)). split; auto.
  - right. unfold functor_preds.
    replace (needs_dyn_entity (p_reg P) r) with true; auto.
    symmetry. apply existsb_exists. exists (LAtom a). split; auto. rewrite Fo, Fe. reflexivity.
Qed.

Section Levels.
  Variable B : benv.

  Lemma other_sat_agree : forall P r M M' s l,
    In l (r_body r) ->
    (forall q, reads P r q true -> forall t, M q t <-> M' q t) ->
    other_sat B (p_reg P) M s l -> other_sat B (p_reg P) M' s l.
  Proof.
    intros P r M M' s l Hl Ag H. destruct l as [a|a|v e|c a b|t|d| |]; simpl in *; auto.
    - destruct (g_foreign (p_reg P) (a_pred a)) eqn:F; auto. rewrite <- Ag; auto.
      apply reads_neg; auto.
    - eapply b_agg_ext; [| |exact H].
      + apply Ag. apply reads_red; auto.
      + destruct (rd_groupby d) as [a|] eqn:G; [|tauto]. apply Ag. eapply reads_grp; eauto.
  Qed.

  Lemma der_local : forall P σ, stratified P σ -> wf_heads P -> wf_functors P -> forall n M M',
    (forall q, σ q < n -> forall t, M q t <-> M' q t) ->
    forall p t, der B P M p t -> σ p <= n -> der B P M' p t.
  Proof.
    intros P σ St W F n M M' Ag p t D. induction D as [f Hf|r s p t Hr Hp IH Ho Y]; intros L.
    - constructor; auto.
    - destruct (St r Hr) as [R Fu].
      assert (E : σ (r_pred r) = σ p).
      { destruct (yields_level B P r s p t W F Hr Y) as [->|H]; auto. symmetry; auto. }
      apply der_rule with (r := r) (s := s); auto.
      + intros a Ha Fa. apply IH; auto. destruct (R _ _ (reads_pos P r a Ha Fa)). lia.
      + intros l Hl. eapply other_sat_agree; eauto. intros q Rq. apply Ag.
        destruct (R _ _ Rq) as [_ Lt]. specialize (Lt eq_refl). lia.
  Qed.

  (** A stratified program has at most one stable model ... *)
  Theorem stable_unique : forall P σ, stratified P σ -> wf_heads P -> wf_functors P ->
    forall M M', stable B P M -> stable B P M' -> forall p t, M p t <-> M' p t.
  Proof.
    intros P σ St W F M M' S S'.
    assert (K : forall n p, σ p < n -> forall t, M p t <-> M' p t).
    { induction n as [|n IH]; [intros; lia|]. intros p Lp t. rewrite (S p t), (S' p t).
      split; intros D.
      - eapply (der_local P σ St W F n M M'); eauto; lia.
      - eapply (der_local P σ St W F n M' M); eauto; [|lia]. intros q Lq u. symmetry. auto. }
    intros p t. apply (K (Datatypes.S (σ p))). lia.
  Qed.

  (** ... and has one. *)
  Fixpoint levels (P : program) (n : nat) : interp :=
    match n with 0 => fun _ _ => False | S m => der B P (levels P m) end.
  Lemma levels_agree : forall P σ, stratified P σ -> wf_heads P -> wf_functors P -> forall n p t,
    σ p < n -> levels P n p t <-> levels P (S n) p t.
  Proof.
    intros P σ St W F. induction n as [|n IH]; intros p t L; [lia|].
    change (der B P (levels P n) p t <-> der B P (levels P (S n)) p t).
    split; intros D.
    - eapply (der_local P σ St W F n (levels P n) (levels P (S n))); eauto; lia.
    - eapply (der_local P σ St W F n (levels P (S n)) (levels P n)); eauto; [|lia].
      intros q Lq u. symmetry. auto.
  Qed.
  Lemma levels_from : forall P σ, stratified P σ -> wf_heads P -> wf_functors P -> forall k n p t,
    σ p < n -> levels P n p t <-> levels P (k + n) p t.
  Proof.
    intros P σ St W F. induction k as [|k IH]; intros n p t L; [tauto|].
    rewrite (IH n p t L). apply (levels_agree P σ St W F). lia.
  Qed.
  Theorem stable_exists : forall P σ, stratified P σ -> wf_heads P -> wf_functors P ->
    exists M, stable B P M.
  Proof.
    intros P σ St W F. exists (fun p => levels P (S (σ p)) p). intros p t.
    change (der B P (levels P (σ p)) p t <-> der B P (fun p => levels P (S (σ p)) p) p t).
    assert (K : forall q, σ q < σ p -> forall u, levels P (σ p) q u <-> levels P (S (σ q)) q u).
    { intros q L u. symmetry. replace (σ p) with ((σ p - S (σ q)) + S (σ q)) by lia.
      apply (levels_from P σ St W F). lia. }
    split; intros D.
    - eapply (der_local P σ St W F (σ p) (levels P (σ p)) (fun p => levels P (S (σ p)) p)); eauto.
    - eapply (der_local P σ St W F (σ p) (fun p => levels P (S (σ p)) p) (levels P (σ p))); eauto.
      intros q L u. symmetry. apply K. exact L.
  Qed.
End Levels.

(** Stratification by the compiler gives such an order. *)
Fixpoint level_of (ss : list stratum) (q : pred) : nat :=
  match ss with [] => 0 | s :: r => if memb q (st_preds s) then 0 else S (level_of r q) end.
Lemma level_of_spec : forall ss q i, NoDup (concat (map st_preds ss)) -> in_stratum ss q i -> level_of ss q = i.
Proof.
  induction ss as [|s ss IH]; intros q i N (x & E & I); [destruct i; discriminate|].
  cbn [level_of]. cbn [map concat] in N. destruct i as [|i]; cbn in E.
  - injection E as <-. apply memb_In in I. rewrite I. reflexivity.
  - assert (In q (concat (map st_preds ss))) as Hc.
    { apply in_concat. exists (st_preds x). split; auto. apply in_map. eapply nth_error_In; eauto. }
    destruct (memb q (st_preds s)) eqn:Mq.
    + apply memb_In in Mq. exfalso. eapply NoDup_app_disj; eauto.
    + f_equal. apply IH; [eapply NoDup_app_r; eauto|]. exists x; auto.
Qed.

Theorem stratify_stratified : forall P g cs ss,
  dependency_graph P = Some g -> scc_contract g cs -> stratify g cs = Some (inr ss) ->
  stratified P (level_of ss).
Proof.
  intros P g cs ss G C S r Hr. destruct (C24_program P g cs ss G C S) as [[N _] R].
  destruct (dependency_graph_spec P g G) as (W & _ & E). split.
  - intros q b Rq. destruct (R r q b Hr Rq) as (i & j & A & B & D & F).
    rewrite (level_of_spec _ _ _ N A), (level_of_spec _ _ _ N B). auto.
  - intros f Hf.
    assert (E1 : In (f, r_pred r, EPos) (g_edges g)).
    { apply E. exists r. split; auto. unfold rule_edges. apply in_or_app; right. apply in_or_app; left.
      apply in_flat_map. exists f; split; auto. left; auto. }
    assert (E2 : In (r_pred r, f, EPos) (g_edges g)).
    { apply E. exists r. split; auto. unfold rule_edges. apply in_or_app; right. apply in_or_app; left.
      apply in_flat_map. exists f; split; auto. right; left; auto. }
    destruct (C24_order g cs W C ss S _ _ _ E1) as (i & j & A1 & B1 & D1 & _).
    destruct (C24_order g cs W C ss S _ _ _ E2) as (i' & j' & A2 & B2 & D2 & _).
    rewrite (level_of_spec _ _ _ N A1), (level_of_spec _ _ _ N B1).
    pose proof (level_of_spec _ _ _ N A1). pose proof (level_of_spec _ _ _ N B2).
    pose proof (level_of_spec _ _ _ N B1). pose proof (level_of_spec _ _ _ N A2). lia.
Qed.

(** *** Removal *)
Definition kept (g : graph) (outs : list pred) (p : pred) : Prop :=
  ~ In p (g_nodes g) \/ In p outs \/ exists o, In o outs /\ reach g o p.

Section Removal.
  Variable B : benv.
  Variables (P : program) (P' : program) (g : graph).
  Hypothesis G : dependency_graph P = Some g.
  Hypothesis R : remove_unused P = Some P'.

  Lemma removal_shape : (forall o, In o (p_outputs P) -> In o (g_nodes g)) /\ p_reg P' = p_reg P /\
    (forall f, In f (p_facts P') <-> In f (p_facts P) /\ kept g (p_outputs P) (f_pred f)) /\
    (forall r, In r (p_rules P') <-> In r (p_rules P) /\ kept g (p_outputs P) (r_pred r)).
  Proof.
    destruct (dependency_graph_spec P g G) as (W & _ & _).
    unfold remove_unused in R. rewrite G in R.
    unfold unused_relations in R.
    destruct (forallb (fun t => memb t (g_nodes g)) (p_outputs P)) eqn:O; [|discriminate].
    rewrite forallb_forall in O. injection R as <-. cbn [p_reg p_facts p_rules].
    assert (K : forall p, negb (memb p (filter (fun p => negb (memb p (p_outputs P)) &&
                 negb (existsb (fun o => has_path g o p) (p_outputs P))) (g_nodes g))) = true
              <-> kept g (p_outputs P) p).
    { intros p. rewrite negb_true_iff. split.
      - intros H. unfold kept.
        destruct (in_dec Nat.eq_dec p (g_nodes g)) as [I|]; [|auto].
        destruct (memb p (p_outputs P)) eqn:Mo; [right; left; apply memb_In; auto|].
        destruct (existsb (fun o => has_path g o p) (p_outputs P)) eqn:Ex.
        + apply existsb_exists in Ex. destruct Ex as (o & Ho & Hp). right; right. exists o; split; auto.
          apply has_path_spec in Hp; auto. apply memb_In. auto.
        + exfalso. assert (X : memb p (filter (fun p => negb (memb p (p_outputs P)) &&
                 negb (existsb (fun o => has_path g o p) (p_outputs P))) (g_nodes g)) = true).
          { apply memb_In. apply filter_In. split; auto. rewrite Mo, Ex. reflexivity. }
          congruence.
      - intros H. destruct (memb p (filter _ _)) eqn:Mf; auto. apply memb_In, filter_In in Mf.
        destruct Mf as [I Hb]. apply andb_prop in Hb. destruct Hb as [H1 H2].
        apply negb_true_iff in H1, H2. destruct H as [H|[H|(o & Ho & Hr)]].
        + contradiction.
        + apply memb_In in H. congruence.
        + exfalso. assert (X : existsb (fun o => has_path g o p) (p_outputs P) = true).
          { apply existsb_exists. exists o; split; auto. apply has_path_spec; auto. apply memb_In; auto. }
          congruence. }
    split; [intros o Ho; apply memb_In; auto|]. split; [reflexivity|]. split.
    - intros f. rewrite filter_In, K. tauto.
    - intros r. rewrite filter_In, K. tauto.
  Qed.

  Lemma kept_edge : forall u v k, In (u, v, k) (g_edges g) -> kept g (p_outputs P) u -> kept g (p_outputs P) v.
  Proof.
    intros u v k E K. destruct (dependency_graph_spec P g G) as (W & _ & _).
    destruct (proj2 W _ _ _ E) as [Nu Nv].
    destruct K as [K|[K|(o & Ho & Hr)]]; [contradiction| |]; right; right.
    - exists u; split; auto. econstructor; eauto. constructor.
    - exists o; split; auto. eapply reach_trans; eauto. econstructor; eauto. constructor.
  Qed.
  Lemma kept_rule_edge : forall r u v k, In r (p_rules P) -> In (u, v, k) (rule_edges P r) ->
    kept g (p_outputs P) u -> kept g (p_outputs P) v.
  Proof.
    intros r u v k Hr E. eapply kept_edge. destruct (dependency_graph_spec P g G) as (_ & _ & Ed).
    apply Ed. exists r; eauto.
  Qed.
  Lemma kept_reads : forall r q b, In r (p_rules P) -> reads P r q b ->
    kept g (p_outputs P) (r_pred r) -> kept g (p_outputs P) q.
  Proof.
    intros r q b Hr Rq. destruct (reads_edge P r q b Rq) as (k & E & _). eapply kept_rule_edge; eauto.
  Qed.
  Lemma kept_yields : forall r s p t, wf_heads P -> wf_functors P -> In r (p_rules P) ->
    yields B (p_reg P) r s p t ->
    (kept g (p_outputs P) (r_pred r) <-> kept g (p_outputs P) p).
  Proof.
    intros r s p t W F Hr Y. destruct (yields_level B P r s p t W F Hr Y) as [->|H]; [tauto|].
    split; eapply kept_rule_edge; eauto; unfold rule_edges; apply in_or_app; right; apply in_or_app; left;
      apply in_flat_map; exists p; (split; [exact H|]); [right; left; auto|left; auto].
  Qed.

  Lemma reads_same : forall r q b, reads P r q b <-> reads P' r q b.
  Proof.
    destruct removal_shape as (_ & Er & _).
    intros r q b; split; intros H; destruct H; econstructor; eauto; congruence.
  Qed.
  Lemma functors_same : forall r, functor_preds P r = functor_preds P' r.
  Proof. destruct removal_shape as (_ & Er & _). intros r. unfold functor_preds. rewrite Er. reflexivity. Qed.
  Lemma removal_wf : wf_heads P -> wf_functors P -> wf_heads P' /\ wf_functors P'.
  Proof.
    destruct removal_shape as (_ & Er & _ & Rr). intros W F. split.
    - intros r a Hr. apply W. apply Rr; auto.
    - intros r v f l Hr Hl. rewrite Er. eapply F; eauto. apply Rr; auto.
  Qed.
  Lemma removal_stratified : forall σ, stratified P σ -> stratified P' σ.
  Proof.
    destruct removal_shape as (_ & Er & _ & Rr). intros σ St r Hr. apply Rr in Hr.
    destruct (St r (proj1 Hr)) as [A D]. split.
    - intros q b Rq. apply A. apply reads_same; auto.
    - intros f Hf. apply D. rewrite functors_same; auto.
  Qed.

  (** Every kept relation has the same extent in both programs. *)
  Lemma removal_agree : forall σ, stratified P' σ -> wf_heads P -> wf_functors P ->
    forall M M', stable B P M -> stable B P' M' ->
    forall p, kept g (p_outputs P) p -> forall t, M p t <-> M' p t.
  Proof.
    intros σ St W F M M' S S'. destruct removal_shape as (_ & Er & Rf & Rr).
    destruct (removal_wf W F) as [W' F'].
    assert (K : forall n p, σ p < n -> kept g (p_outputs P) p -> forall t, M p t <-> M' p t).
    { induction n as [|n IH]; [intros; lia|]. intros p Lp Kp t. rewrite (S p t), (S' p t).
      assert (Lp' : σ p <= n) by lia. clear Lp.
      assert (Lev : forall r s p t, In r (p_rules P') -> yields B (p_reg P') r s p t -> σ (r_pred r) = σ p).
      { intros r s p0 t0 Hr Y. destruct (yields_level B P' r s p0 t0 W' F' Hr Y) as [->|H]; auto.
        symmetry. apply St; auto. }
      split; intros D; revert Kp Lp'.
      - induction D as [f Hf|r s p t Hr Hp IHd Ho Y]; intros Kp Lp.
        + apply der_fact. apply Rf; auto.
        + assert (Kr : kept g (p_outputs P) (r_pred r)) by (eapply kept_yields; eauto).
          assert (Hr' : In r (p_rules P')) by (apply Rr; auto).
          assert (E : σ (r_pred r) = σ p) by (eapply Lev; eauto; rewrite Er; eauto).
          apply der_rule with (r := r) (s := s); auto.
          * intros a Ha Fa. rewrite Er in Fa. pose proof (reads_pos P r a Ha Fa) as Rq.
            apply IHd; auto; [eapply kept_reads; eauto|].
            apply reads_same in Rq. destruct (St r Hr') as [Rd _]. destruct (Rd _ _ Rq). lia.
          * intros l Hl. rewrite Er. eapply other_sat_agree with (r := r); eauto.
            intros q Rq. apply IH; [|eapply kept_reads; eauto].
            apply reads_same in Rq. destruct (St r Hr') as [Rd _]. destruct (Rd _ _ Rq) as [_ Lt].
            specialize (Lt eq_refl). lia.
          * rewrite Er. exact Y.
      - induction D as [f Hf|r s p t Hr' Hp IHd Ho Y]; intros Kp Lp.
        + apply der_fact. apply Rf; auto.
        + assert (Hr : In r (p_rules P)) by (apply Rr; auto).
          assert (Kr : kept g (p_outputs P) (r_pred r)) by (apply Rr; auto).
          assert (E : σ (r_pred r) = σ p) by (eapply Lev; eauto).
          apply der_rule with (r := r) (s := s); auto.
          * intros a Ha Fa. pose proof (reads_pos P r a Ha Fa) as Rq.
            apply IHd; auto; [rewrite Er; auto|eapply kept_reads; eauto|].
            apply reads_same in Rq. destruct (St r Hr') as [Rd _]. destruct (Rd _ _ Rq). lia.
          * intros l Hl. specialize (Ho l Hl). rewrite Er in Ho.
            eapply other_sat_agree with (r := r); eauto.
            intros q Rq u. symmetry. apply IH; [|eapply kept_reads; eauto].
            apply reads_same in Rq. destruct (St r Hr') as [Rd _]. destruct (Rd _ _ Rq) as [_ Lt].
            specialize (Lt eq_refl). lia.
          * rewrite Er in Y. exact Y. }
    intros p Kp t. apply (K (Datatypes.S (σ p)) p); auto.
  Qed.
End Removal.

(** C38: if the program can be stratified then it and the program without its
    unused relations both have exactly one stable model, and these agree on the
    outputs. *)
Theorem C38_unused : forall B P P' g cs ss,
  wf_heads P -> wf_functors P ->
  dependency_graph P = Some g -> scc_contract g cs -> stratify g cs = Some (inr ss) ->
  remove_unused P = Some P' ->
  (exists M, stable B P M) /\ (exists M', stable B P' M') /\
  (forall M1 M2, stable B P M1 -> stable B P M2 -> forall p t, M1 p t <-> M2 p t) /\
  (forall M1 M2, stable B P' M1 -> stable B P' M2 -> forall p t, M1 p t <-> M2 p t) /\
  (forall M M', stable B P M -> stable B P' M' -> forall o t, In o (p_outputs P) -> M o t <-> M' o t).
Proof.
  intros B P P' g cs ss W F G C S R.
  pose proof (stratify_stratified P g cs ss G C S) as St.
  pose proof (removal_stratified P P' g G R _ St) as St'.
  destruct (removal_wf P P' g G R W F) as [W' F'].
  split; [eapply stable_exists; eauto|]. split; [eapply stable_exists; eauto|].
  split; [eapply stable_unique; eauto|]. split; [eapply stable_unique; eauto|].
  intros M M' SM SM' o t Ho. apply (removal_agree B P P' g G R _ St' W F M M' SM SM'). right; left; exact Ho.
Qed.

(** The compiler removes before it stratifies: it is enough that what is left
    can be stratified. *)
Theorem C38_unused_reduced : forall B P P' g g' cs ss,
  wf_heads P -> wf_functors P -> dependency_graph P = Some g ->
  remove_unused P = Some P' -> dependency_graph P' = Some g' ->
  scc_contract g' cs -> stratify g' cs = Some (inr ss) ->
  (exists M', stable B P' M') /\
  (forall M M', stable B P M -> stable B P' M' -> forall o t, In o (p_outputs P) -> M o t <-> M' o t).
Proof.
  intros B P P' g g' cs ss W F G R G' C S.
  pose proof (stratify_stratified P' g' cs ss G' C S) as St.
  destruct (removal_wf P P' g G R W F) as [W' F'].
  split; [eapply stable_exists; eauto|].
  intros M M' SM SM' o t Ho. apply (removal_agree B P P' g G R _ St W F M M' SM SM'). right; left; exact Ho.
Qed.

(** *** Example: [out(x) :- e(x), not f(x).  f(x) :- h(x).  g(x) :- out(x), k(x)],
    facts for [e], [h], [k]; relations 0 = out, 1 = e, 2 = f, 3 = h, 4 = g,
    5 = k.  [g] and [k] are removed. *)
Definition C38_reg := mkReg (fun _ => false) (fun _ => false) (fun _ => false) [].
Definition C38_at (p : pred) := mkAtom p [TVar 0].
Definition C38_P : program := mkProg (map (fun p => mkRel p false) [0;1;2;3;4;5]) [0]
  [mkFact 1 [I32 1]; mkFact 1 [I32 2]; mkFact 3 [I32 2]; mkFact 5 [I32 1]]
  [mkRule (HAtom (C38_at 0)) [LAtom (C38_at 1); LNeg (C38_at 2)];
   mkRule (HAtom (C38_at 2)) [LAtom (C38_at 3)];
   mkRule (HAtom (C38_at 4)) [LAtom (C38_at 0); LAtom (C38_at 5)]] C38_reg.
Definition C38_B : benv.
Proof.
  refine (mkBenv (Verif.Eval.mkEnv (fun _ _ _ => None) (fun z => z) (fun _ _ _ => ENone) (fun _ _ => ENone)
    (fun _ _ => ENone) (fun _ _ => 0%Z)) (fun _ _ => False) (fun _ _ _ _ => False) _ _ (fun _ _ _ _ => False) (fun _ _ _ _ => False)); intros; assumption.
Defined.
Example C38_ex_hyps : exists P' g ss, wf_heads C38_P /\ wf_functors C38_P /\
  dependency_graph C38_P = Some g /\ stratify g (sccs_of g) = Some (inr ss) /\
  remove_unused C38_P = Some P' /\ map b_pred (p_rels P') = [0;1;2;3] /\ length (p_rules P') = 2.
Proof.
  do 3 eexists. split; [|split; [|split; [vm_compute; reflexivity|split; [vm_compute; reflexivity|
    split; [vm_compute; reflexivity|split; vm_compute; reflexivity]]]]].
  - intros r a Hr Ha. cbn in Hr. destruct Hr as [<-|[<-|[<-|[]]]]; cbn in Ha; destruct Ha as [<-|[]]; reflexivity.
  - intros r v f l Hr Hl. cbn in Hr. destruct Hr as [<-|[<-|[<-|[]]]]; cbn in Hl;
      repeat (destruct Hl as [Hl|Hl]; [discriminate|]); destruct Hl.
Qed.
Lemma C38_inv : forall M p t, der C38_B C38_P M p t ->
  In (mkFact p t) (p_facts C38_P) \/
  exists k body s, In (mkRule (HAtom (C38_at k)) body) (p_rules C38_P) /\ p = k /\ t = [s 0] /\
    (forall q, In (LAtom (C38_at q)) body -> der C38_B C38_P M q [s 0]) /\
    (forall q, In (LNeg (C38_at q)) body -> ~ M q [s 0]).
Proof.
  intros M p t D. destruct D as [[fp fa] Hf|r s p t Hr Hp Ho Y]; [left; exact Hf|right].
  assert (exists k body, r = mkRule (HAtom (C38_at k)) body /\ forall v e, ~ In (LAssign v e) body) as (k & body & -> & NA).
  { cbn in Hr. destruct Hr as [<-|[<-|[<-|[]]]]; do 2 eexists; (split; [reflexivity|]);
      intros v e Hl; repeat (destruct Hl as [Hl|Hl]; [discriminate|]); destruct Hl. }
  exists k, body, s. split; [exact Hr|].
  destruct Y as [a Ha|v f l Hl|v f l q t Hl Ef A C|a q t Ha Fo Fe A C]; [|exfalso; eapply NA; eauto|destruct A|destruct A].
  destruct Ha as [<-|[]]. repeat split.
  - intros q Hq. exact (Hp (C38_at q) Hq eq_refl).
  - intros q Hq. exact (Ho (LNeg (C38_at q)) Hq).
Qed.
(** The common answer: [out(1)] and not [out(2)]. *)
Example C38_ex_model : forall M, stable C38_B C38_P M -> M 0 [I32 1] /\ ~ M 0 [I32 2].
Proof.
  intros M S.
  assert (F3 : forall t, M 3 t -> t = [I32 2]).
  { intros t H. apply S, C38_inv in H. destruct H as [H|(k & body & s & Hr & E & _)].
    - cbn in H. intuition congruence.
    - cbn in Hr. subst k. destruct Hr as [Hr|[Hr|[Hr|[]]]]; discriminate. }
  assert (F2 : forall t, M 2 t -> t = [I32 2]).
  { intros t H. apply S, C38_inv in H. destruct H as [H|(k & body & s & Hr & E & Et & Hp & _)].
    - cbn in H. intuition congruence.
    - subst t k. cbn in Hr. destruct Hr as [Hr|[Hr|[Hr|[]]]]; try discriminate. injection Hr as <-.
      apply F3. apply S. apply Hp. left; reflexivity. }
  split.
  - apply S. apply (der_rule C38_B C38_P M (mkRule (HAtom (C38_at 0)) [LAtom (C38_at 1); LNeg (C38_at 2)]) (fun _ => I32 1)).
    + cbn; auto.
    + intros a [E|[E|[]]] _; [|discriminate]. injection E as <-. apply (der_fact C38_B C38_P M (mkFact 1 [I32 1])). cbn; auto.
    + intros l [<-|[<-|[]]]; cbn; [discriminate|]. intros H. apply F2 in H. discriminate.
    + apply (y_head C38_B C38_reg (mkRule (HAtom (C38_at 0)) [LAtom (C38_at 1); LNeg (C38_at 2)]) (fun _ => I32 1) (C38_at 0)).
      left; auto.
  - assert (M 2 [I32 2]) as H2.
    { apply S. apply (der_rule C38_B C38_P M (mkRule (HAtom (C38_at 2)) [LAtom (C38_at 3)]) (fun _ => I32 2)).
      - cbn; auto.
      - intros a [E|[]] _. injection E as <-. apply (der_fact C38_B C38_P M (mkFact 3 [I32 2])). cbn; auto.
      - intros l [<-|[]]; cbn; discriminate.
      - apply (y_head C38_B C38_reg (mkRule (HAtom (C38_at 2)) [LAtom (C38_at 3)]) (fun _ => I32 2) (C38_at 2)). left; auto. }
    intros H. apply S, C38_inv in H. destruct H as [H|(k & body & s & Hr & E & Et & _ & Hn)].
    + cbn in H. intuition congruence.
    + subst k. cbn in Hr. destruct Hr as [Hr|[Hr|[Hr|[]]]]; try discriminate. injection Hr as <-.
      apply (Hn 2); [right; left; reflexivity|]. rewrite <- Et. exact H2.
Qed.

Print Assumptions C38_unused.
Print Assumptions C38_unused_reduced.
