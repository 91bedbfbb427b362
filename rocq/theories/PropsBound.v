(** C60: the boundness analysis.  It computes the least set that is closed under
    the dependencies, it accepts the conjunctions whose variables get values from
    the flattened literals (with equalities read both ways), and the rules that it
    accepts have finitely many consequences. *)
From Coq Require Import List ZArith Bool Arith Lia.
From Verif Require Import Value ListAux Back Eval BackSem Scc SccFacts Optimize PropsOpt Plan PlanSem PlanFacts PropsPlan Front FrontSem FrontFacts PropsFront FlatFacts PropsFlat
  Bound BoundSem BoundFacts BoundFacts2 BoundFinite.
Import ListNotations.
Set Implicit Arguments.
Local Arguments bin_value : simpl never.
Local Arguments un_value : simpl never.

(** ** The fixpoint *)
Theorem C60_least : forall c fuel init r, NoDup init -> bound_fix fuel c init = Some r ->
  forall l, In l r <-> derivable (lc_deps c) (lc_vars c) init l.
Proof. intros c fuel init r N H l. eapply fix_least; eauto. Qed.
Lemma derivable_mono : forall deps deps' vars vars' init init', incl deps deps' -> incl vars vars' -> incl init init' -> forall l,
  derivable deps vars init l -> derivable deps' vars' init' l.
Proof.
  intros deps deps' vars vars' init init' Hd Hv Hi l H. induction H.
  - apply dv_init. auto.
  - apply dv_arg. auto.
  - apply dv_const. auto.
  - eapply dv_foreign; eauto.
  - eapply dv_bin; eauto.
  - eapply dv_eq1; eauto.
  - eapply dv_eq2; eauto.
  - eapply dv_as1; eauto.
  - eapply dv_as2; eauto.
  - eapply dv_as3; eauto.
  - eapply dv_un; eauto.
  - eapply dv_ite; eauto.
  - eapply dv_call; eauto.
  - eapply (@dv_var deps' vars' init' v l l'); eauto.
Qed.
(** The order in which dependencies and variables are looked at does not matter. *)
Theorem C60_order : forall c c' fuel fuel' init init' r r', NoDup init -> NoDup init' ->
  (forall d, In d (lc_deps c) <-> In d (lc_deps c')) -> (forall x, In x (lc_vars c) <-> In x (lc_vars c')) -> (forall l, In l init <-> In l init') ->
  bound_fix fuel c init = Some r -> bound_fix fuel' c' init' = Some r' -> forall l, In l r <-> In l r'.
Proof.
  intros c c' fuel fuel' init init' r r' N N' Ed Ev Ei H H' l. rewrite (C60_least _ _ N H), (C60_least _ _ N' H').
  split; apply derivable_mono; intros x I; try (apply Ed; exact I); try (apply Ev; exact I); try (apply Ei; exact I).
Qed.

(** ** Walks *)
Lemma walk_below : forall e n, exists n1, snd (walk_expr e n) = n1 /\ n < n1 /\ below n1 (fst (walk_expr e n)) /\ lc_cons (fst (walk_expr e n)) = [].
Proof.
  intros e n. destruct (nodes_all (fun i => i) e n 0) as (ns & n1 & k1 & E & Sg & R & W & Fl). rewrite W. exists n1. cbn [fst snd lc_cons]. split; auto. split; [|split; auto].
  - destruct R as (y & I & El & _). apply (sg_loc Sg) in I. cbn in El. unfold loc in *. lia.
  - assert (KB : forall x d, In x ns -> In d (nd_kids x) -> cloc d < n1).
    { intros x d I J. destruct (sg_kids Sg _ _ I J) as (y & Iy & <- & _). apply (sg_loc Sg) in Iy. unfold loc in *. lia. }
    split; [|split; [|intros l []]]; cbn [lc_deps lc_vars].
    + intros d l Id Il. apply in_flat_map in Id. destruct Id as (x & Ix & Jd). pose proof (sg_loc Sg x Ix) as Lx. pose proof (fun d => KB x d Ix) as Kx.
      unfold node_deps in Jd. destruct (nd_expr x); repeat (match goal with J : In _ (match ?K with _ => _ end) |- _ => destruct K eqn:? end); try (destruct Jd; fail); destruct Jd as [<-|[]];
        try destruct (is_add_sub op); cbn [dep_locs In] in Il;
        repeat (match goal with H : _ \/ _ |- _ => destruct H as [H|H] end); try contradiction; subst; try (unfold loc in *; lia); try (apply Kx; cbn [In]; auto; fail).
      apply in_map_iff in Il. destruct Il as (d & <- & Jd). apply Kx. auto.
    + intros v l I. apply in_flat_map in I. destruct I as (x & Ix & J). unfold node_vars in J. destruct (nd_expr x); try (destruct J; fail). destruct J as [J|[]]. injection J as <- <-. apply (sg_loc Sg x Ix).
Qed.
Lemma below_mono : forall n m c, n <= m -> below n c -> below m c.
Proof. intros n m c L (B1 & B2 & B3). split; [|split]; intros; [specialize (B1 _ _ H H0)|specialize (B2 _ _ H)|specialize (B3 _ H)]; lia. Qed.
Lemma below_app : forall n a b, below n a -> below n b -> below n (lc_app a b).
Proof. intros n a b (A1 & A2 & A3) (B1 & B2 & B3). split; [|split]; cbn; intros; apply in_app_or in H; destruct H; eauto. Qed.
Lemma args_below : forall l n, exists c ls n1, walk_args l n = (c, ls, n1) /\ n <= n1 /\ below n1 c /\ lc_cons c = [] /\ forall x, In x ls -> x < n1.
Proof.
  induction l as [|e l IH]; intros n; cbn [walk_args].
  - exists lc_empty, [], n. split; auto. split; auto. split; [repeat split; intros ? []; contradiction|]. split; auto. intros x [].
  - destruct (walk_below e n) as (n1 & E & L & Bd & Cn). destruct (walk_expr e n) as [c n1']. cbn [fst snd] in *. subst n1'. destruct (IH n1) as (cs & ls & n2 & -> & L2 & B2 & C2 & X2).
    exists (lc_app c cs), (n :: ls), n2. split; auto. split; [unfold loc in *; lia|]. split; [apply below_app; auto; eapply below_mono; eauto|].
    split; [cbn; rewrite Cn, C2; auto|]. intros x [<-|I]; auto. unfold loc in *. lia.
Qed.
Section Totality.
  Variables (foreign : pred -> bool) (nb ar : pred -> nat).
  Lemma formula_below : forall f n, exists c n1, walk_formula foreign nb ar f n = (c, n1) /\ n <= n1 /\ below n1 c.
  Proof.
    intros f n. destruct f as [p l| |e| | |]; cbn [walk_formula]; try (exists lc_empty, n; split; auto; split; auto; repeat split; intros ? []; contradiction).
    - destruct (args_below l n) as (c & ls & n1 & -> & L & Bd & Cn & X). eexists. exists n1. split; [reflexivity|]. split; auto. apply below_app; auto. split; [|split; cbn; intros ? []; contradiction].
      cbn [lc_deps]. intros d x Id Ix. apply X. unfold atom_deps in Id. destruct (foreign p).
      + destruct (Nat.eqb (length ls) (ar p)); [|destruct Id]. destruct Id as [<-|[]]. cbn [dep_locs] in Ix. rewrite firstn_skipn in Ix. auto.
      + apply in_map_iff in Id. destruct Id as (y & <- & J). destruct Ix as [<-|[]]. auto.
    - destruct (walk_below e n) as (n1 & E & L & Bd & Cn). destruct (walk_expr e n) as [c n1'] eqn:W. cbn [fst snd] in *. subst n1'. eexists. exists n1. split; [reflexivity|]. split; [unfold loc in *; lia|].
      apply below_app; auto. split; [|split; cbn; [intros ? ? []|intros l [<-|[]]; auto]]. cbn [lc_deps]. intros d x Id Ix.
      destruct e as [| | |op a b| | | |]; try (destruct Id; fail). destruct op; try (destruct Id; fail). destruct Id as [<-|[]]. cbn [walk_expr] in W.
      destruct (walk_below a (S n)) as (na & Ea & La & _). destruct (walk_expr a (S n)) as [ca na']. cbn [snd] in Ea. subst na'. destruct (walk_below b na) as (nb' & Eb & Lb & _).
      destruct (walk_expr b na) as [cb nb'']. cbn [snd] in Eb. subst nb''. injection W as _ <-. cbn [dep_locs snd In] in Ix. unfold loc in *. lia.
  Qed.
  Lemma formulas_below : forall l n, exists c n1, walk_formulas foreign nb ar l n = (c, n1) /\ n <= n1 /\ below n1 c.
  Proof.
    induction l as [|f l IH]; intros n; cbn [walk_formulas].
    - exists lc_empty, n. split; auto. split; auto. repeat split; intros ? []; contradiction.
    - destruct (formula_below f n) as (c & n1 & -> & L & Bd). destruct (IH n1) as (cs & n2 & -> & L2 & B2). exists (lc_app c cs), n2. split; auto. split; [unfold loc in *; lia|]. apply below_app; auto. eapply below_mono; eauto.
  Qed.
  Lemma fold_NoDup : forall l s, NoDup s -> NoDup (fold_left add l s).
  Proof. induction l as [|x l IH]; intros s H; cbn; auto. apply IH. unfold add. destruct (memb x s) eqn:E; auto. constructor; auto. intros I. apply SccFacts.memb_In in I. congruence. Qed.
  Lemma init_In : forall l x, In x (fold_left add l []) <-> In x l.
  Proof. intros l x. rewrite fold_add_In. cbn. tauto. Qed.
  (** The analysis of a conjunction ends with an answer: the bound locations are
      those that can be derived. *)
  Lemma conj_answer : forall c bexprs, exists x ls n s, conj_context foreign nb ar c bexprs = (x, ls, n) /\ (forall l, In l s <-> derivable (lc_deps x) (lc_vars x) ls l) /\
    conj_bound foreign nb ar c bexprs = Some (if forallb (fun v => forallb (has s) (locs_of (lc_vars x) v)) (variables x) && forallb (has s) (lc_cons x) then Bounded (variables x) else Unbound).
  Proof.
    intros c bexprs. unfold conj_bound, conj_context. destruct (formulas_below (c_pos c) 0) as (c1 & n1 & -> & L1 & B1). destruct (args_below bexprs n1) as (c2 & ls & n2 & -> & L2 & B2 & _ & X2).
    assert (Bd : below n2 (lc_app c1 c2)) by (apply below_app; auto; eapply below_mono; eauto).
    assert (Nd : NoDup (fold_left add ls [])) by (apply fold_NoDup; constructor).
    assert (Hs : exists s, bound_fix (S (S n2)) (lc_app c1 c2) (fold_left add ls []) = Some s).
    { eapply (fix_total Bd X2); auto; [|unfold loc in *; lia]. intros x I. apply dv_init. rewrite init_In in I. exact I. }
    destruct Hs as [s Hs].
    exists (lc_app c1 c2), ls, n2, s. split; auto. rewrite Hs. split; auto. intros l. rewrite (C60_least _ _ Nd Hs). split; apply derivable_mono; try (intros z J; exact J); intros z J; try (apply init_In; exact J); rewrite init_In in J; exact J.
  Qed.
  Lemma conjs_answer : forall cs bexprs, exists l, conjs_bound foreign nb ar cs bexprs = Some l /\ Forall2 (fun c a => conj_bound foreign nb ar c bexprs = Some a) cs l.
  Proof.
    induction cs as [|c cs IH]; intros bexprs; cbn [conjs_bound]; [exists []; split; auto|].
    destruct (conj_answer c bexprs) as (x & ls & n & s & _ & _ & E). destruct (IH bexprs) as (l & El & Fl). rewrite E, El. cbn [obnd]. eexists. split; [reflexivity|]. constructor; auto.
  Qed.
  Theorem C60_total : forall pattern r, rule_bound foreign nb ar pattern r = None <-> imp_free (fr_body r) = false.
  Proof.
    intros pattern r. rewrite <- dnf_total. unfold rule_bound, disj_bound. destruct (from_formula (fr_body r)) as [cs|]; cbn [obnd]; [|tauto].
    destruct (conjs_answer cs (demanded pattern (fr_head r))) as (l & -> & _). cbn [obnd]. split; discriminate.
  Qed.
  (** ** Answers *)
  Definition covers (a : answer) (vs : list var) : Prop := match a with Bounded l => forall v, In v vs -> In v l | Unbound => False end.
  Lemma covers_meet : forall a b vs, covers (meet a b) vs <-> covers a vs /\ covers b vs.
  Proof.
    intros [x|] [y|] vs; cbn; try tauto. split.
    - intros H. split; intros v I; specialize (H v I); apply filter_In in H; destruct H as [H1 H2]; auto. apply SccFacts.memb_In. auto.
    - intros [H1 H2] v I. apply filter_In. split; auto. apply SccFacts.memb_In. auto.
  Qed.
  Lemma covers_fold : forall r a vs, covers (fold_left meet r a) vs <-> covers a vs /\ forall b, In b r -> covers b vs.
  Proof.
    induction r as [|b r IH]; intros a vs; cbn.
    - split; [intros H; split; auto; intros b []|tauto].
    - rewrite IH, covers_meet. split.
      + intros [[H1 H2] H3]. split; auto. intros c [<-|I]; auto.
      + intros [H1 H2]. split; [split|]; auto.
  Qed.
  Lemma ehead_same : forall h, ehead_vars h = head_vars h.
  Proof. intros h. reflexivity. Qed.
  Lemma rule_answer : forall pattern r cs, from_formula (fr_body r) = Some cs -> cs <> [] ->
    (rule_bound foreign nb ar pattern r = Some true <-> forall c, In c cs -> exists a, conj_bound foreign nb ar c (demanded pattern (fr_head r)) = Some a /\ covers a (head_vars (fr_head r))).
  Proof.
    intros pattern r cs E NE. unfold rule_bound, disj_bound. rewrite E. cbn [obnd]. destruct (conjs_answer cs (demanded pattern (fr_head r))) as (l & -> & Fl). cbn [obnd].
    assert (Q : (match match l with [] => Bounded [] | a :: r => fold_left meet r a end with Bounded vs => forallb (fun v => memb v vs) (ehead_vars (fr_head r)) | Unbound => false end = true) <->
                forall a, In a l -> covers a (head_vars (fr_head r))).
    { destruct Fl as [|c a cs l Hc Fl]; [destruct (NE eq_refl)|]. rewrite ehead_same. transitivity (covers (fold_left meet l a) (head_vars (fr_head r))).
      - unfold covers. destruct (fold_left meet l a); [|split; [discriminate|tauto]]. rewrite forallb_forall. split; intros H v I; apply SccFacts.memb_In; auto; specialize (H v I); apply SccFacts.memb_In; auto.
      - rewrite covers_fold. split; [intros [H1 H2] b [<-|I]; auto|]. intros H. split; [apply H; left; auto|intros b I; apply H; right; auto]. }
    split.
    - intros H c I. injection H as H. apply Q in H || (rewrite Q in H). destruct (F2_in_l _ Fl I) as (a & Ia & Ha). eauto.
    - intros H. f_equal. apply Q. intros a I. destruct (F2_in_r _ Fl I) as (c & Ic & Hc). destruct (H c Ic) as (a' & Ha' & K). rewrite Hc in Ha'. injection Ha' as <-. auto.
  Qed.
End Totality.

(** ** Acceptance *)
Section Accept.
  Variables (N : penv) (ar : pred -> nat).
  Notation conj_bound := (conj_bound (pe_foreign N) (pe_bounded N) ar).
  Notation rule_bound := (rule_bound (pe_foreign N) (pe_bounded N) ar).
  Lemma context_nil : forall foreign nb c c1 n1, walk_formulas foreign nb ar (c_pos c) 0 = (c1, n1) -> conj_context foreign nb ar c [] = (c1, [], n1).
  Proof. intros foreign nb c c1 n1 H. unfold conj_context. rewrite H. cbn [walk_args]. f_equal. f_equal. destruct c1. unfold lc_app. cbn. rewrite !app_nil_r. reflexivity. Qed.
  Lemma variables_In : forall x v, In v (variables x) <-> exists l, In (v, l) (lc_vars x).
  Proof.
    intros x v. unfold variables. rewrite nodup_In, in_map_iff. split.
    - intros ([v' l] & E & I). cbn in E. subst v'. eauto.
    - intros (l & I). exists (v, l). auto.
  Qed.
  Lemma locs_In : forall vl v l, In l (locs_of vl v) <-> In (v, l) vl.
  Proof.
    intros vl v l. unfold locs_of. rewrite in_map_iff. split.
    - intros ([v' l'] & E & I). apply filter_In in I. destruct I as [I E']. cbn in *. apply Nat.eqb_eq in E'. subst. auto.
    - intros I. exists (v, l). split; auto. apply filter_In. split; auto. cbn. apply Nat.eqb_refl.
  Qed.
  Lemma conj_bounded : forall c bexprs, exists x ls n, conj_context (pe_foreign N) (pe_bounded N) ar c bexprs = (x, ls, n) /\
    forall vs, conj_bound c bexprs = Some (Bounded vs) <-> vs = variables x /\ (forall v l, In (v, l) (lc_vars x) -> derivable (lc_deps x) (lc_vars x) ls l) /\ (forall l, In l (lc_cons x) -> derivable (lc_deps x) (lc_vars x) ls l).
  Proof.
    intros c bexprs. destruct (conj_answer (pe_foreign N) (pe_bounded N) ar c bexprs) as (x & ls & n & s & E & Hs & ->). exists x, ls, n. split; auto. intros vs.
    assert (Q : forallb (fun v => forallb (has s) (locs_of (lc_vars x) v)) (variables x) && forallb (has s) (lc_cons x) = true <->
                (forall v l, In (v, l) (lc_vars x) -> derivable (lc_deps x) (lc_vars x) ls l) /\ (forall l, In l (lc_cons x) -> derivable (lc_deps x) (lc_vars x) ls l)).
    { rewrite andb_true_iff, !forallb_forall. split.
      - intros [H1 H2]. split.
        + intros v l I. apply Hs. assert (Iv : In v (variables x)) by (apply variables_In; eauto). specialize (H1 v Iv). rewrite forallb_forall in H1. apply SccFacts.memb_In. apply H1. apply locs_In. auto.
        + intros l I. apply Hs. apply SccFacts.memb_In. apply H2. auto.
      - intros [H1 H2]. split.
        + intros v I. apply forallb_forall. intros l J. apply locs_In in J. apply SccFacts.memb_In. apply Hs. eauto.
        + intros l I. apply SccFacts.memb_In. apply Hs. eauto. }
    destruct (forallb _ _ && _).
    - split; [intros H; injection H as <-; split; auto; apply Q; auto|]. intros [-> _]. reflexivity.
    - split; [discriminate|]. intros [_ H]. apply Q in H. discriminate.
  Qed.
  (** The variables of the nodes. *)
  Section Nodes.
    Variables (fr : nat -> var) (fs : list formula) (c : lctx) (lits : list lit) (ts : list top) (ns : list node) (n n1 : loc) (k k1 : nat).
    Hypothesis F : forms (pe_foreign N) (pe_bounded N) ar fr fs c lits ts ns n n1 k k1.
    Lemma top_vars : forall t, In t ts -> forall v, In v (form_vars (top_form t)) <-> exists d, In d (top_kids t) /\ In v (expr_vars (cexpr d)).
    Proof.
      intros [p cs|op o a b l|a l] I v; cbn.
      - rewrite in_flat_map. split.
        + intros (e & J & Jv). apply in_map_iff in J. destruct J as (d & <- & J). eauto.
        + intros (d & J & Jv). exists (cexpr d). split; auto. apply in_map. auto.
      - rewrite in_app_iff. split; [intros [J|J]; eauto|]. intros (d & [<-|[<-|[]]] & J); auto.
      - split; [intros J; eauto|]. intros (d & [<-|[]] & J). auto.
    Qed.
    Lemma form_vars_top : forall v, In v (flat_map form_vars fs) <-> exists t d, In t ts /\ In d (top_kids t) /\ In v (expr_vars (cexpr d)).
    Proof.
      intros v. rewrite in_flat_map, <- (fm_top F). split.
      - intros (f & I & J). apply in_map_iff in I. destruct I as (t & <- & I). apply (top_vars t I) in J. destruct J as (d & J1 & J2). eauto.
      - intros (t & d & I & J & Jv). exists (top_form t). split; [apply in_map; auto|]. apply (top_vars t I). eauto.
    Qed.
    Lemma node_has : forall e x, In x ns -> nd_expr x = e -> forall v, In v (expr_vars e) -> exists y, In y ns /\ nd_expr y = EVar v.
    Proof.
      induction e using expr_ind2; intros x Ix Ex w J; pose proof (sg_shape (fm_seg F) x Ix) as Sh; rewrite Ex in Sh; cbn [kids] in Sh;
        assert (KD : forall e', In e' (map cexpr (nd_kids x)) -> exists y, In y ns /\ nd_expr y = e') by
          (intros e' Je; apply in_map_iff in Je; destruct Je as (d & <- & Jd); destruct (kid_node N F _ _ Ix Jd) as (y & Iy & _ & _ & Ey); eauto); rewrite Sh in KD; cbn [expr_vars] in J.
      - destruct J as [<-|[]]. eauto.
      - destruct J.
      - destruct J.
      - apply in_app_or in J. destruct J as [J|J]; [destruct (KD e1) as (y & Iy & Ey)|destruct (KD e2) as (y & Iy & Ey)]; try (cbn; auto; fail); eauto.
      - destruct (KD e) as (y & Iy & Ey); [cbn; auto|]. eauto.
      - rewrite !in_app_iff in J. destruct J as [J|[J|J]]; [destruct (KD e1) as (y & Iy & Ey)|destruct (KD e2) as (y & Iy & Ey)|destruct (KD e3) as (y & Iy & Ey)]; try (cbn; auto; fail); eauto.
      - apply in_flat_map in J. destruct J as (e & Je & J). destruct (KD e Je) as (y & Iy & Ey). rewrite Forall_forall in H. eapply H; eauto.
      - apply in_flat_map in J. destruct J as (e & Je & J). destruct (KD e Je) as (y & Iy & Ey). rewrite Forall_forall in H. eapply H; eauto.
    Qed.
    Lemma node_var : forall v, (exists x, In x ns /\ nd_expr x = EVar v) <-> In v (flat_map form_vars fs).
    Proof.
      intros v. split.
      - intros (x & I & E). assert (G : forall x, In x ns -> forall w, In w (expr_vars (nd_expr x)) -> In w (flat_map form_vars fs)).
        + apply (fm_sub F (P := fun e => forall w, In w (expr_vars e) -> In w (flat_map form_vars fs))).
          * intros e d He J w Jw. apply He. destruct e; try (destruct J; fail); cbn in J |- *; rewrite ?in_app_iff; intuition (subst; auto); apply in_flat_map; eauto.
          * intros t d It J w Jw. apply form_vars_top. eauto.
        + apply (G x I). rewrite E. left. auto.
      - intros J. apply form_vars_top in J. destruct J as (t & d & It & Jd & Jv). destruct (fm_kids F _ _ It Jd) as (y & Iy & _ & _ & Ey). eapply node_has; eauto.
    Qed.
  End Nodes.
  Lemma pos_shape : forall f cs, from_formula f = Some cs -> forall c, In c cs -> forall l, In l (c_pos c) -> forall p es, l <> FNeg p es.
  Proof. intros f cs H c I l J p es ->. destruct (dnf_shape f H c I) as [K _]. rewrite forallb_forall in K. apply K in J. discriminate J. Qed.
  (** An accepted conjunction: all variables get values from the flattened
      literals, and they are the answer. *)
  Theorem C60_limited : forall fr c k lits k1 vs, (forall l, In l (c_pos c) -> forall p es, l <> FNeg p es) -> flat_lits fr (c_pos c) k = Some (lits, k1) ->
    conj_bound c [] = Some (Bounded vs) -> (forall v, In v vs <-> In v (flat_map form_vars (c_pos c))) /\ forall v, In v vs -> elimited N lits v.
  Proof.
    intros fr c k lits k1 vs Sh Fl H. destruct (@forms_ok (pe_foreign N) (pe_bounded N) ar fr (c_pos c) 0 k Sh lits k1 Fl) as (ts & ns & x & n1 & W & F).
    destruct (conj_bounded c []) as (x' & ls & n & E & Q). rewrite (context_nil _ _ _ W) in E. injection E as <- <- <-. apply Q in H. destruct H as (-> & H1 & H2).
    assert (NV : forall v, In v (variables x) <-> In v (flat_map form_vars (c_pos c))).
    { intros v. rewrite variables_In, <- (node_var F). split.
      - intros (l & J). apply (fm_vars F) in J. destruct J as (y & Iy & Ey & _). eauto.
      - intros (y & Iy & Ey). exists (nd_loc y). apply (fm_vars F). eauto. }
    split; auto. intros v I. apply NV in I. apply (node_var F) in I. destruct I as (y & Iy & Ey).
    assert (D : derivable (lc_deps x) (lc_vars x) [] (nd_loc y)) by (apply (H1 v); apply (fm_vars F); eauto).
    apply (derivable_limited N F D y v Iy eq_refl). unfold nd_term. rewrite Ey. left. auto.
  Qed.
  (** Conversely a conjunction whose variables all get values is accepted, if
      foreign atoms have the right arity and no constraint makes a new entity. *)
  Theorem C60_exact : forall fr c k lits k1, (forall l, In l (c_pos c) -> forall p es, l <> FNeg p es) -> flat_lits fr (c_pos c) k = Some (lits, k1) ->
    (forall i j, fr i = fr j -> i = j) -> (forall v i, In v (flat_map form_vars (c_pos c)) -> v <> fr i) ->
    (forall l, In l (c_pos c) -> foreign_arity (pe_foreign N) ar l = true /\ cons_plain l = true) ->
    ((exists vs, conj_bound c [] = Some (Bounded vs)) <-> forall v, In v (flat_map form_vars (c_pos c)) -> elimited N lits v).
  Proof.
    intros fr c k lits k1 Sh Fl Inj New Ok. split.
    - intros (vs & H) v I. destruct (@C60_limited fr c k lits k1 vs Sh Fl H) as [H1 H2]. apply H2, H1, I.
    - intros H. destruct (@forms_ok (pe_foreign N) (pe_bounded N) ar fr (c_pos c) 0 k Sh lits k1 Fl) as (ts & ns & x & n1 & W & F).
      destruct (conj_bounded c []) as (x' & ls & n & E & Q). rewrite (context_nil _ _ _ W) in E. injection E as <- <- <-. exists (variables x). apply Q. split; auto.
      assert (Hnew : forall y v i, In y ns -> nd_expr y = EVar v -> v <> fr i) by (intros y v i Iy Ey; apply New; apply (node_var F); eauto).
      assert (Tf : forall t, In t ts -> In (top_form t) (c_pos c)) by (intros t I; rewrite <- (fm_top F); apply in_map; auto).
      assert (Har : forall p cs, In (PAtom p cs) ts -> pe_foreign N p = true -> length cs = ar p).
      { intros p cs I Ef. destruct (Ok _ (Tf _ I)) as [A _]. cbn in A. rewrite Ef, map_length in A. apply Nat.eqb_eq. auto. }
      assert (V : forall y v, In y ns -> nd_expr y = EVar v -> derivable (lc_deps x) (lc_vars x) [] (nd_loc y)).
      { intros y v Iy Ey. apply (limited_derivable F Inj Hnew Har (v := v)); auto; [|unfold nd_term; rewrite Ey; auto]. apply H. apply (node_var F). eauto. }
      assert (K : forall t d, In t ts -> In d (top_kids t) -> no_new (cexpr d) = true -> no_wild (cexpr d) = true -> derivable (lc_deps x) (lc_vars x) [] (cloc d)).
      { intros t d It Jd Nn Nw. destruct (top_node N F _ _ It Jd) as (y & Iy & <- & _ & Ey). apply (vars_derivable N F Inj Nn Nw); auto. intros; eapply V; eauto. }
      split.
      + intros v l I. apply (fm_vars F) in I. destruct I as (y & Iy & Ey & <-). eapply V; eauto.
      + intros l I. apply (fm_cons F) in I. destruct I as (t & It & Jl). destruct (Ok _ (Tf _ It)) as [_ Cp]. destruct t as [p cs|op o a b l'|a l']; [destruct Jl| |]; destruct Jl as [<-|[]]; cbn in Cp; rewrite ?andb_true_iff in Cp.
        * eapply dv_bin; [apply (origin_iff N F); eapply or_cmp; exact It| |]; (eapply K; [exact It|cbn; auto|tauto|tauto]).
        * eapply dv_un; [apply (origin_iff N F); eapply or_not; exact It|]. eapply K; [exact It|cbn; auto|tauto|tauto].
  Qed.
  Lemma undemanded : forall h, demanded (fun _ => None) h = [].
  Proof. intros [[p es]| |]; reflexivity. Qed.
  (** An accepted rule: in every conjunction the variables of the head and of the
      positive literals get values. *)
  Theorem C60_rule : forall fr r cs, from_formula (fr_body r) = Some cs -> rule_bound (fun _ => None) r = Some true ->
    forall c k lits k1, In c cs -> flat_lits fr (c_pos c) k = Some (lits, k1) ->
      (forall v, In v (head_vars (fr_head r)) -> In v (flat_map form_vars (c_pos c))) /\ forall v, In v (flat_map form_vars (c_pos c)) -> elimited N lits v.
  Proof.
    intros fr r cs E H c k lits k1 I Fl. assert (NE : cs <> []) by (intros ->; destruct I). apply (proj1 (rule_answer _ _ _ (fun _ => None) r E NE)) with (c := c) in H; auto.
    rewrite undemanded in H. destruct H as ([vs|] & H & K); [|destruct K]. destruct (@C60_limited fr c k lits k1 vs (@pos_shape _ _ E c I) Fl H) as [H1 H2].
    split; intros v J; [apply H1; apply K; auto|apply H2, H1, J].
  Qed.

  (** ** Demand *)
  (** The demanded head expressions count as if the body had an atom of a relation
      with them as arguments. *)
  Lemma conj_demand : forall c pD bexprs, pe_foreign N pD = false -> conj_bound c bexprs = conj_bound (mkConj (c_pos c ++ [FAtom pD bexprs]) (c_neg c)) [].
  Proof.
    intros c pD bexprs Fp. destruct (conj_answer (pe_foreign N) (pe_bounded N) ar c bexprs) as (x & ls & n & s & E & Hs & ->).
    destruct (conj_answer (pe_foreign N) (pe_bounded N) ar (mkConj (c_pos c ++ [FAtom pD bexprs]) (c_neg c)) []) as (x' & ls' & n' & s' & E' & Hs' & ->).
    unfold conj_context in E, E'. cbn [c_pos] in E'.
    assert (WA : forall l m l', walk_formulas (pe_foreign N) (pe_bounded N) ar (l ++ l') m = let '(a, m1) := walk_formulas (pe_foreign N) (pe_bounded N) ar l m in let '(b, m2) := walk_formulas (pe_foreign N) (pe_bounded N) ar l' m1 in (lc_app a b, m2)).
    { induction l as [|f l IH]; intros m l'; cbn [app walk_formulas].
      - destruct (walk_formulas _ _ _ l' m) as [[d v q] m2]. reflexivity.
      - destruct (walk_formula _ _ _ f m) as [a m1]. rewrite IH. destruct (walk_formulas _ _ _ l m1) as [b m2]. destruct (walk_formulas _ _ _ l' m2) as [d m3]. f_equal. unfold lc_app. cbn. rewrite !app_assoc. reflexivity. }
    rewrite WA in E'. destruct (walk_formulas _ _ _ (c_pos c) 0) as [c1 n1]. cbn [walk_formulas walk_formula] in E'. destruct (walk_args bexprs n1) as [[c2 l2] n2]. injection E as <- <- <-.
    unfold atom_deps in E'. rewrite Fp in E'. cbn [walk_args] in E'. injection E' as <- <- <-.
    assert (Ev : lc_vars (lc_app (lc_app c1 (lc_app (lc_app (mkLctx (map DArg l2) [] []) c2) lc_empty)) lc_empty) = lc_vars (lc_app c1 c2)) by (cbn; rewrite !app_nil_r; reflexivity).
    assert (Ec : lc_cons (lc_app (lc_app c1 (lc_app (lc_app (mkLctx (map DArg l2) [] []) c2) lc_empty)) lc_empty) = lc_cons (lc_app c1 c2)) by (cbn; rewrite !app_nil_r; reflexivity).
    unfold variables. rewrite Ev, Ec. rewrite Ev in Hs'.
    assert (Es : forall l, has s l = has s' l).
    { assert (Q : forall l, In l s <-> In l s').
      { intros l. rewrite Hs, Hs'. cbn [lc_app lc_deps lc_empty]. rewrite !app_nil_r. split; intros D.
        - induction D as [l I|l I|l I|b f l I Hb IH If|a b e I Ha IHa Hb IHb|a b I Ha IHa|a b I Ha IHa|a b e I Ha IHa Hb IHb|a b e I Ha IHa Hb IHb|a b e I Ha IHa Hb IHb|a e I Ha IHa|d a b e I Hd IHd Ha IHa Hb IHb|l e I Hl IHl|v l l' I I' Hl IHl];
            try (assert (I2 : forall d, In d (lc_deps (lc_app c1 c2)) -> In d (lc_deps c1 ++ map DArg l2 ++ lc_deps c2)) by (intros d0 J; cbn in J; apply in_app_or in J; destruct J; rewrite !in_app_iff; auto); apply I2 in I).
          + apply dv_arg. rewrite !in_app_iff. right. left. apply in_map. auto.
          + apply dv_arg; auto.
          + apply dv_const; auto.
          + eapply dv_foreign; eauto.
          + eapply dv_bin; eauto.
          + eapply dv_eq1; eauto.
          + eapply dv_eq2; eauto.
          + eapply dv_as1; eauto.
          + eapply dv_as2; eauto.
          + eapply dv_as3; eauto.
          + eapply dv_un; eauto.
          + eapply dv_ite; eauto.
          + eapply dv_call; eauto.
          + eapply (@dv_var _ _ _ v l l'); eauto.
        - assert (I2 : forall d, In d (lc_deps c1 ++ map DArg l2 ++ lc_deps c2) -> (exists l, d = DArg l /\ In l l2) \/ In d (lc_deps (lc_app c1 c2))).
          { intros d J. rewrite !in_app_iff in J. cbn [lc_app lc_deps]. rewrite in_app_iff. destruct J as [J|[J|J]]; auto. apply in_map_iff in J. destruct J as (l0 & <- & J). eauto. }
          induction D as [l I|l I|l I|b f l I Hb IH If|a b e I Ha IHa Hb IHb|a b I Ha IHa|a b I Ha IHa|a b e I Ha IHa Hb IHb|a b e I Ha IHa Hb IHb|a b e I Ha IHa Hb IHb|a e I Ha IHa|d a b e I Hd IHd Ha IHa Hb IHb|l e I Hl IHl|v l l' I I' Hl IHl];
            try (apply I2 in I; destruct I as [(l0 & E0 & I)|I]; [try discriminate E0|]).
          + destruct I.
          + injection E0 as <-. apply dv_init. auto.
          + apply dv_arg; auto.
          + apply dv_const; auto.
          + eapply dv_foreign; eauto.
          + eapply dv_bin; eauto.
          + eapply dv_eq1; eauto.
          + eapply dv_eq2; eauto.
          + eapply dv_as1; eauto.
          + eapply dv_as2; eauto.
          + eapply dv_as3; eauto.
          + eapply dv_un; eauto.
          + eapply dv_ite; eauto.
          + eapply dv_call; eauto.
          + eapply (@dv_var _ _ _ v l l'); eauto. }
      intros l. unfold has. destruct (memb l s) eqn:M1, (memb l s') eqn:M2; auto.
      - apply SccFacts.memb_In in M1. apply Q in M1. apply SccFacts.memb_In in M1. congruence.
      - apply SccFacts.memb_In in M2. apply Q in M2. apply SccFacts.memb_In in M2. congruence. }
    assert (Fe : forall l, forallb (has s) l = forallb (has s') l) by (induction l as [|a l IH]; cbn; auto; rewrite Es, IH; auto).
    assert (Ge : forall l, forallb (fun v => forallb (has s) (locs_of (lc_vars (lc_app c1 c2)) v)) l = forallb (fun v => forallb (has s') (locs_of (lc_vars (lc_app c1 c2)) v)) l) by (induction l as [|a l IH]; cbn [forallb]; auto; rewrite Fe, IH; auto).
    rewrite Ge, Fe. reflexivity.
  Qed.
  Lemma product_one : forall (A : Type) (l : list A) a, product [l; [a]] = map (fun x => [x; a]) l.
  Proof. intros A l a. cbn. induction l as [|x l IH]; cbn; auto. Qed.
  Theorem C60_demand : forall pattern r pD, pe_foreign N pD = false ->
    rule_bound pattern r = rule_bound (fun _ => None) (mkFrule (fr_head r) (FConj [fr_body r; FAtom pD (demanded pattern (fr_head r))])).
  Proof.
    intros pattern r pD Fp. unfold Bound.rule_bound. cbn [fr_body fr_head from_formula map oall obnd]. rewrite undemanded. destruct (from_formula (fr_body r)) as [cs|] eqn:E; cbn [obnd]; auto.
    unfold multi_product. rewrite product_one, map_map.
    assert (Q : conjs_bound (pe_foreign N) (pe_bounded N) ar cs (demanded pattern (fr_head r)) =
                conjs_bound (pe_foreign N) (pe_bounded N) ar (map (fun x => conj_join [x; mkConj [FAtom pD (demanded pattern (fr_head r))] []]) cs) []).
    { clear E. induction cs as [|c cs IH]; cbn [conjs_bound map]; auto. rewrite <- IH. rewrite (@conj_demand c pD _ Fp). unfold conj_join. cbn [fold_left c_pos c_neg app].
      rewrite app_nil_r. reflexivity. }
    unfold disj_bound. rewrite Q. reflexivity.
  Qed.
End Accept.

(** ** Finiteness *)
Lemma part_wild : forall l f, part l f -> wild_ok f = true -> wild_ok l = true.
Proof. intros l f H. induction H; intros N; auto; cbn [wild_ok] in N; rewrite forallb_forall in N; auto. Qed.
Lemma part_foreign : forall fo nb l f, part l f -> foreign_args_ok fo nb f = true -> foreign_args_ok fo nb l = true.
Proof. intros fo nb l f H. induction H; intros N; auto; cbn [foreign_args_ok] in N; rewrite forallb_forall in N; auto. Qed.
Lemma part_consts : forall l f, part l f -> forall v, In v (form_consts l) -> In v (form_consts f).
Proof. intros l f H. induction H; intros v I; auto; cbn [form_consts]; apply in_flat_map; eauto. Qed.
(** A rule that is accepted has finitely many consequences for finite relations:
    foreign predicates have finitely many results, constants and results are
    values of the machine, and sums can be undone. *)
Theorem C60_finite : forall N ar ok B g X M r, (forall p, g_foreign g p = pe_foreign N p) ->
  finite_rels g X -> finite_foreign B g (pe_bounded N) -> undoable (b_env B) ok -> closed_values (b_env B) ok ->
  full (fr_body r) = true -> wild_ok (fr_body r) = true -> constraints_ok (fr_body r) = true -> foreign_args_ok (pe_foreign N) (pe_bounded N) (fr_body r) = true ->
  (forall x, In x (form_consts (fr_body r)) -> ok x) -> (forall a e, In a (fhead_atoms (fr_head r)) -> In e (snd a) -> no_wild e = true) ->
  rule_bound (pe_foreign N) (pe_bounded N) ar (fun _ => None) r = Some true ->
  finitely (fun x => front_consequence_in ok B g X M r (fst x) (snd x)).
Proof.
  intros N ar ok B g X M r Hg Hrel Hfor Hun Hcl Hfull Hwild Hcons Hargs Hconst Hhead H.
  destruct (from_formula (fr_body r)) as [cs|] eqn:E; [|unfold rule_bound in H; rewrite E in H; discriminate H].
  apply fin_sub with (Q := fun x => exists c, In c cs /\ exists a, In a (fhead_atoms (fr_head r)) /\ exists t, vals (b_env B) (sats (c_pos c) B g X M ok) (snd a) t /\ x = (fst a, t)).
  - apply fin_union. intros c I. apply fin_union. intros a Ia. apply fin_map. apply fin_vals. intros e Ie.
    assert (Shape := @pos_shape _ _ E c I).
    assert (P : forall l, In l (c_pos c) -> part l (fr_body r)) by (intros l J; apply (dnf_part _ E c l I); unfold clits; apply in_or_app; auto).
    destruct (@lits_total (fun n => n) (c_pos c) 0) as [[lits k1] Fl].
    { intros l J. destruct (dnf_shape _ E c I) as [K _]. rewrite forallb_forall in K. apply K in J. destruct l; try discriminate J; eauto. }
    { intros l J. eapply part_constraints; eauto. }
    destruct (@forms_ok (pe_foreign N) (pe_bounded N) ar (fun n => n) (c_pos c) 0 0 Shape lits k1 Fl) as (ts & ns & x & n1 & W & F).
    assert (NE : cs <> []) by (intros ->; destruct I). apply (proj1 (rule_answer _ _ _ (fun _ => None) r E NE)) with (c := c) in H; auto.
    rewrite undemanded in H. destruct H as ([vs|] & H & K); [|destruct K].
    destruct (conj_bounded N ar c []) as (x' & ls & n & E' & Q). rewrite (context_nil _ _ _ _ W) in E'. injection E' as <- <- <-. apply Q in H. destruct H as (-> & H1 & _).
    apply fin_expr; [eauto|]. intros v Jv.
    assert (Iv : In v (variables x)) by (apply K; unfold head_vars; apply in_flat_map; exists a; split; auto; apply in_flat_map; eauto).
    apply variables_In in Iv. destruct Iv as (l & Il). pose proof (H1 v l Il) as D. apply (fm_vars F) in Il. destruct Il as (y & Iy & Ey & <-).
    pose proof (@bound_fin N ar _ _ _ _ _ _ _ _ _ _ F B g X M ok Hg Hrel Hfor Hun Hcl (fun f J => part_wild (P f J) Hwild) (fun f J => part_foreign _ _ (P f J) Hargs) (fun f z J Jz => Hconst z (part_consts (P f J) z Jz)) _ D) as Fa.
    specialize (Fa y Iy eq_refl). rewrite Ey in Fa. specialize (Fa eq_refl). apply fin_vals_of in Fa. rewrite Ey in Fa. exact Fa.
  - intros [p t] (s & a & Ok & Hb & Ia & Ep & Hv). cbn [fst snd] in *. apply (dnf_sat B g X M s _ Hfull E) in Hb. destruct Hb as (c & I & Hc). exists c. split; auto. exists a. split; auto. exists t. split; [|congruence].
    exists s. split; auto. split; auto. intros f J. apply Hc. unfold clits. apply in_or_app. auto.
Qed.

(** ** Machines *)
Definition small (z : Z) : Prop := (- 2 ^ 128 <= z <= 2 ^ 128)%Z.
(** Floats, dates, casts, functions and entities have machine values. *)
Definition machine_env (E : renv) : Prop :=
  (forall op a b c, e_float E op a b = Some c -> small c) /\ (forall z, small z -> small (e_fneg E z)) /\
  (forall op x y r, machine x -> machine y -> e_time E op x y = EOk r -> machine r) /\
  (forall ty x r, machine x -> e_cast E ty x = EOk r -> machine r) /\
  (forall f l r, (forall x, In x l -> machine x) -> e_call E f l = EOk r -> machine r) /\ forall f l, small (e_entity E f l).
Lemma of_int_machine : forall k z, (imin k <= z <= imax k)%Z -> machine (of_int k z).
Proof. intros k z H. assert (small z); [|destruct k; exact H0]. unfold small. destruct k; cbv [imin imax isigned ibits] in H; cbn in H; lia. Qed.
Lemma checked_machine : forall k z r, checked k z = EOk r -> machine r.
Proof. intros k z r H. unfold checked in H. destruct ((imin k <=? z)%Z && (z <=? imax k)%Z) eqn:E; [|discriminate]. injection H as <-. apply of_int_machine. apply andb_true_iff in E. lia. Qed.
Lemma saturating_machine : forall k z r, saturating k z = EOk r -> machine r.
Proof. intros k z r H. injection H as <-. apply of_int_machine. assert (imin k <= imax k)%Z by (destruct k; cbv; discriminate). lia. Qed.
Lemma machine_closed : forall E, machine_env E -> closed_values E machine.
Proof.
  intros E (M1 & M2 & M3 & M4 & M5 & M6). split; [|split; [|split]].
  - intros op x y r Mx My H. assert (A : is_arith op = true -> arith E op x y = EOk r -> machine r).
    { clear H. intros Ar H. unfold arith in H. destruct (as_int x) as [[k a]|] eqn:Ex.
      - destruct (as_int y) as [[k' b]|] eqn:Ey.
        + destruct (ikind_eqb k k'); [|discriminate]. destruct op; try discriminate Ar; cbn [int_arith] in H; try (eapply saturating_machine; eauto; fail); try (eapply checked_machine; eauto; fail).
          * destruct (b =? 0)%Z; [discriminate|]. eapply checked_machine; eauto.
          * destruct (b =? 0)%Z; [discriminate|]. destruct (_ && isigned k); [discriminate|]. eapply checked_machine; eauto.
        + destruct x; try discriminate Ex; destruct y; try discriminate H; eapply M3; [| |exact H]; auto.
      - destruct x; try discriminate Ex; try discriminate H; destruct y; try discriminate H; try (eapply M3; [| |exact H]; auto; fail).
        + destruct op; try discriminate H; (destruct (e_float E _ _ _) as [c|] eqn:Q; [|discriminate H]); injection H as <-; exact (M1 _ _ _ _ Q).
        + destruct op; try discriminate H; (destruct (e_float E _ _ _) as [c|] eqn:Q; [|discriminate H]); injection H as <-; exact (M1 _ _ _ _ Q).
        + destruct op; try discriminate H. injection H as <-. exact Logic.I. }
    destruct op; try (apply A; [reflexivity|exact H]); unfold bin_value in H.
    1-3: destruct x; try discriminate H; destruct y; try discriminate H; injection H as <-; exact Logic.I.
    all: cbn [cmp_op] in H; destruct (_ && _); try discriminate H; injection H as <-; exact Logic.I.
  - intros op x r Mx H. unfold un_value in H. destruct op.
    + destruct x; try (unfold as_int in H; cbn [isigned] in H; try discriminate H; eapply checked_machine; eauto; fail); injection H as <-; exact (M2 _ Mx).
    + injection H as <-. auto.
    + destruct x; try discriminate H. injection H as <-. exact Logic.I.
    + eapply M4; eauto.
  - exact M5.
  - intros f l. exact (M6 f l).
Qed.

(** ** Examples *)
Definition C60_env : renv := Verif.Eval.mkEnv (fun _ _ _ => None) (fun z => z) (fun _ _ _ => ENone) (fun _ _ => ENone) (fun _ _ => ENone) (fun _ _ => 0%Z).
Definition C60_B : benv.
Proof. refine (mkBenv C60_env (fun p t => p = 7 /\ rng_rel t) (fun _ _ _ _ => False) _ _ (fun _ _ _ _ => False) (fun _ _ _ _ => False)); intros; assumption. Defined.
Definition C60_X : interp := fun p t => p = 1 /\ t = [I32 3].
Lemma C60_machine : machine_env C60_env.
Proof. repeat split; cbn; intros; try discriminate; try (destruct H; assumption); try lia. Qed.
Lemma C60_rels : finite_rels g1 C60_X.
Proof. intros p _. exists [[I32 3]]. intros t [_ ->]. left. auto. Qed.
Lemma C60_foreign : finite_foreign C60_B g1 (pe_bounded N1).
Proof.
  intros p vs _. destruct (Nat.eq_dec p 7) as [->|Np].
  - assert (Q : (exists a b, vs = [I32 a; I32 b]) \/ ~ exists a b, vs = [I32 a; I32 b]).
    { destruct vs as [|[] [|[] [|? ?]]]; try (right; intros (? & ? & K); discriminate K). left. eauto. }
    destruct Q as [(a & b & ->)|Q].
    + destruct (zs_between a b) as [l Hl]. exists (map (fun c => [I32 a; I32 b; I32 c]) l). intros ws (E & _ & a' & b' & c & -> & R). cbn in E. injection E as -> ->. apply in_map_iff. exists c. split; auto. apply Hl. lia.
    + exists []. intros ws (E & _ & a & b & c & -> & _). cbn in E. subst vs. destruct Q. eauto.
  - exists []. intros ws (_ & E & _). contradiction.
Qed.
(** [q(z + y) = p(x), range(0, x, y), z + y == x * 2]. *)
Definition C60_rule_ex : frule := mkFrule (FHAtom (9, [EBin OAdd (EVar 2) (EVar 1)]))
  (FConj [FAtom 1 [EVar 0]; FAtom 7 [EConst (I32 0); EVar 0; EVar 1]; FCons (EBin OEq (EBin OAdd (EVar 2) (EVar 1)) (EBin OMul (EVar 0) (EConst (I32 2))))]).
Definition C60_accepts := rule_bound (pe_foreign N1) (pe_bounded N1) (fun _ => 3) (fun _ => None).
Example C60_finite_ex : forall M, finitely (fun x => front_consequence_in machine C60_B g1 C60_X M C60_rule_ex (fst x) (snd x)).
Proof.
  intros M. apply C60_finite with (N := N1) (ar := fun _ => 3); try reflexivity.
  - apply C60_rels.
  - apply C60_foreign.
  - apply machine_undoable.
  - apply machine_closed. apply C60_machine.
  - intros x. cbn. intuition (subst; cbn; lia).
  - intros a e [<-|[]] [<-|[]]. reflexivity.
Qed.
(** It has the consequence [q(6)]. *)
Example C60_finite_nonempty : front_consequence_in machine C60_B g1 C60_X C60_X C60_rule_ex 9 [I32 6].
Proof.
  exists (fun v => match v with 0 => I32 3 | 1 => I32 2 | _ => I32 4 end), (9, [EBin OAdd (EVar 2) (EVar 1)]). split; [|split; [|split; [left; auto|split; auto]]].
  - intros [|[|v]]; cbn; lia.
  - cbn [fr_body C60_rule_ex fholds]. split; [|split; [|split; auto]].
    + exists [I32 3]. split; [repeat constructor|]. split; reflexivity.
    + exists [I32 0; I32 3; I32 2]. split; [repeat constructor|]. cbn. split; auto. exists 0%Z, 3%Z, 2%Z. split; auto. lia.
    + cbn [constraint_holds cop_of]. exists (I32 6), (I32 6). split; [|split; [|reflexivity]].
      * exists (I32 4), (I32 2). repeat split; reflexivity.
      * exists (I32 3), (I32 2). repeat split; reflexivity.
  - repeat constructor. exists (I32 4), (I32 2). repeat split; reflexivity.
Qed.
(** The answers: [q(y) = p(x)] and [q(x) = p(x), y > x] are rejected; with the
    first argument of [q] demanded, [q(x, y) = x + 1 == y] is accepted. *)
Example C60_ex_reject : C60_accepts (mkFrule (FHAtom (9, [EVar 1])) (FAtom 1 [EVar 0])) = Some false /\
  C60_accepts (mkFrule (FHAtom (9, [EVar 0])) (FConj [FAtom 1 [EVar 0]; FCons (EBin OGt (EVar 1) (EVar 0))])) = Some false /\
  C60_accepts (mkFrule (FHAtom (9, [EVar 0; EVar 1])) (FCons (EBin OEq (EBin OAdd (EVar 0) (EConst (I32 1))) (EVar 1)))) = Some false /\
  rule_bound (pe_foreign N1) (pe_bounded N1) (fun _ => 3) (fun p => if Nat.eqb p 9 then Some [true; false] else None)
    (mkFrule (FHAtom (9, [EVar 0; EVar 1])) (FCons (EBin OEq (EBin OAdd (EVar 0) (EConst (I32 1))) (EVar 1)))) = Some true.
Proof. vm_compute. auto. Qed.
Definition C60_conj_ex : cctx := mkConj [FAtom 1 [EVar 0]; FAtom 7 [EConst (I32 0); EVar 0; EVar 1]; FCons (EBin OEq (EBin OAdd (EVar 2) (EVar 1)) (EBin OMul (EVar 0) (EConst (I32 2))))] [].
Example C60_exact_ex : exists lits k1, flat_lits C59_fr (c_pos C60_conj_ex) 0 = Some (lits, k1) /\
  ((exists vs, conj_bound (pe_foreign N1) (pe_bounded N1) (fun _ => 3) C60_conj_ex [] = Some (Bounded vs)) <-> forall v, In v (flat_map form_vars (c_pos C60_conj_ex)) -> elimited N1 lits v) /\ elimited N1 lits 2.
Proof.
  eexists. eexists. split; [vm_compute; reflexivity|].
  assert (Q : (exists vs, conj_bound (pe_foreign N1) (pe_bounded N1) (fun _ => 3) C60_conj_ex [] = Some (Bounded vs)) <-> forall v, In v (flat_map form_vars (c_pos C60_conj_ex)) -> elimited N1 (fst (match flat_lits C59_fr (c_pos C60_conj_ex) 0 with Some x => x | None => ([], 0) end)) v).
  { eapply C60_exact with (fr := C59_fr) (k := 0).
    - intros l J p es. cbn in J. intuition (subst; discriminate).
    - vm_compute. reflexivity.
    - unfold C59_fr. intros i j Eq. lia.
    - intros v i J. unfold C59_fr. cbn in J. intuition (subst; lia).
    - intros l J. cbn in J. intuition (subst; reflexivity). }
  split; [exact Q|]. apply Q; [|cbn; auto 10]. eexists. vm_compute. reflexivity.
Qed.
(** The least set for [v1 = v0] with [v0] an argument, and what is not in it. *)
Example C60_least_ex : exists r, bound_fix 9 (mkLctx [DEq 2 3; DArg 0; DBin 2 3 1] [(0, 0); (0, 2); (1, 3); (2, 5)] [1]) [] = Some r /\ In 1 r /\ ~ In 5 r.
Proof. eexists. split; [vm_compute; reflexivity|]. cbn. split; [auto 10|]. intuition discriminate. Qed.

(** ** Rules that are accepted and not compiled right *)
(** The front end, the rule optimizations and the planner, with the foreign
    predicates of [N1]. *)
Definition C60_plan (r : frule) : option (head * plan) :=
  match rule_to_back C59_fr r with
  | Some [r1] => match opt_rule env_none g1 (pe_bounded N1) r1 with
                 | Fine r2 => obnd (query_plan N1 id_order (r_body r2)) (fun pl => Some (r_head r2, pl))
                 | _ => None end
  | _ => None
  end.
(** [q(x) = p(x), range(0, _, x)]: the wildcard is not bound, the atom is dropped
    from the plan.  From [p(-1)] the plan gives [q(-1)]. *)
Theorem C60_wildcard_refuted : exists r h pl X p t, full (fr_body r) = true /\ wild_ok (fr_body r) = true /\
  rule_bound (pe_foreign N1) (pe_bounded N1) (fun _ => 3) (fun _ => None) r = Some true /\ C60_plan r = Some (h, pl) /\
  plan_consequence C60_B X X h pl p t /\ ~ front_consequence C60_B g1 X X r p t.
Proof.
  exists (mkFrule (FHAtom (9, [EVar 0])) (FConj [FAtom 1 [EVar 0]; FAtom 7 [EConst (I32 0); EWild; EVar 0]])).
  eexists. eexists. exists (fun p t => p = 1 /\ t = [I32 (-1)]), 9, [I32 (-1)].
  split; [reflexivity|]. split; [reflexivity|]. split; [vm_compute; reflexivity|]. split; [vm_compute; reflexivity|]. split.
  - exists (fun _ => I32 (-1)). eexists. split; [|split; [left; reflexivity|split; reflexivity]]. cbn [psem bvars]. eexists. split; [apply agree_refl|]. split; reflexivity.
  - intros (s & a & H & _). cbn [fr_body fholds] in H. destruct H as ((vs & H1 & _ & ->) & (ws & H2 & _ & x & y & z & -> & R) & _).
    inversion H1 as [|? ? ? ? P1 _]; subst. inversion H2 as [|? ? ? ? P2 P3]; subst. inversion P3 as [|? ? ? ? _ P4]; subst. inversion P4 as [|? ? ? ? P5 _]; subst.
    cbn in P1, P2, P5. injection P2 as ->. rewrite <- P1 in P5. injection P5 as ->. lia.
Qed.
(** [q(y) = y == z, z == x, p(x)]: the equalities are substituted in turn, the head
    keeps [z], which the plan does not bind. *)
Theorem C60_chain_refuted : exists r h pl X p t, full (fr_body r) = true /\ wild_ok (fr_body r) = true /\
  rule_bound (pe_foreign N1) (pe_bounded N1) (fun _ => 3) (fun _ => None) r = Some true /\ C60_plan r = Some (h, pl) /\
  (exists v a, In a (head_atoms h) /\ In v (avars a) /\ ~ In v (bvars pl)) /\
  plan_consequence C60_B X X h pl p t /\ ~ front_consequence C60_B g1 X X r p t.
Proof.
  exists (mkFrule (FHAtom (9, [EVar 1])) (FConj [FCons (EBin OEq (EVar 1) (EVar 2)); FCons (EBin OEq (EVar 2) (EVar 0)); FAtom 1 [EVar 0]])).
  eexists. eexists. exists (fun p t => p = 1 /\ t = [I32 1]), 9, [I32 8].
  split; [reflexivity|]. split; [reflexivity|]. split; [vm_compute; reflexivity|]. split; [vm_compute; reflexivity|]. split; [|split].
  - exists 2. eexists. split; [left; reflexivity|]. split; [cbn; auto|]. cbn. intuition discriminate.
  - exists (fun v => match v with 0 => I32 1 | _ => I32 8 end). eexists. split; [|split; [left; reflexivity|split; reflexivity]]. cbn [psem bvars]. eexists. split; [apply agree_refl|]. split; reflexivity.
  - intros (s & a & H & [<-|[]] & _ & K). cbn [fr_body fholds] in H. destruct H as (H1 & H2 & (vs & H3 & _ & ->) & _). cbn [constraint_holds cop_of] in H1, H2.
    destruct H1 as (x1 & y1 & -> & -> & E1). destruct H2 as (x2 & y2 & -> & -> & E2). inversion H3 as [|? ? ? ? P1 _]; subst. cbn [snd] in K. inversion K as [|? ? ? ? P2 _]; subst. cbn in P1, P2, E1, E2.
    congruence.
Qed.
(** [q(x) = p(x), not n(x + y)]: [y] occurs in a negated atom only.  The plan asks
    that [n] be empty. *)
Theorem C60_negated_refuted : exists r h pl X p t, full (fr_body r) = true /\ wild_ok (fr_body r) = true /\ neg_wild_free (fr_body r) = true /\
  rule_bound (pe_foreign N1) (pe_bounded N1) (fun _ => 3) (fun _ => None) r = Some true /\ C60_plan r = Some (h, pl) /\
  front_consequence C60_B g1 X X r p t /\ ~ plan_consequence C60_B X X h pl p t.
Proof.
  exists (mkFrule (FHAtom (9, [EVar 0])) (FConj [FAtom 1 [EVar 0]; FNeg 2 [EBin OAdd (EVar 0) (EVar 1)]])).
  eexists. eexists. exists (fun p t => match p with 1 => t = [I32 1] | _ => t = [I32 7] end), 9, [I32 1].
  split; [reflexivity|]. split; [reflexivity|]. split; [reflexivity|]. split; [vm_compute; reflexivity|]. split; [vm_compute; reflexivity|]. split.
  - exists (fun _ => I32 1). eexists. split; [|split; [left; reflexivity|split; [reflexivity|repeat constructor]]]. cbn [fr_body fholds]. split; [|split; auto].
    + exists [I32 1]. split; [repeat constructor|]. reflexivity.
    + exists [Some (I32 2)]. split; [constructor; [|constructor]; split; [discriminate|]; exists (I32 1), (I32 1); repeat split; reflexivity|].
      intros vs F T. inversion F as [|? ? ? ? Q1 Q2]; subst. inversion Q2; subst. cbn in T; congruence.
  - intros (s & a & (s1 & A1 & (s2 & A2 & Hp) & Q) & _). apply Q. exists (fun v => match v with 50 => I32 7 | _ => s1 v end). split; [intros v J; cbn in J; destruct J|].
    cbn [psem bvars]. eexists. split; [apply agree_refl|]. reflexivity.
Qed.

(** The demanded expressions are the arguments of the head at the positions that
    the pattern marks. *)
Theorem C60_demanded : forall pattern p es e, In e (demanded pattern (FHAtom (p, es))) <->
  exists l i, pattern p = Some l /\ nth_error l i = Some true /\ nth_error es i = Some e.
Proof.
  intros pattern p es e. cbn [demanded]. destruct (pattern p) as [l|]; [|split; [intros []|intros (l & i & H & _); discriminate H]].
  assert (G : In e (map fst (filter snd (combine es l))) <-> exists i, nth_error l i = Some true /\ nth_error es i = Some e).
  { revert l. induction es as [|x es IH]; intros l; [split; [intros []|intros ([|i] & _ & H); discriminate H]|].
    destruct l as [|b l]; [split; [intros []|intros ([|i] & H & _); discriminate H]|]. specialize (IH l). split.
    - intros H. assert (K : (b = true /\ e = x) \/ In e (map fst (filter snd (combine es l)))).
      { cbn in H. destruct b; cbn in H; [destruct H as [<-|H]|]; auto. }
      destruct K as [[-> ->]|K]; [exists 0; auto|]. apply IH in K. destruct K as (i & K1 & K2). exists (S i). auto.
    - intros ([|i] & H & K).
      + injection H as ->. injection K as ->. left. reflexivity.
      + assert (J : In e (map fst (filter snd (combine es l)))) by (apply IH; eauto). cbn. destruct b; [right|]; exact J. }
  rewrite G. split; [intros (i & H); exists l, i; tauto|intros (l' & i & H & K); injection H as <-; eauto].
Qed.
Print Assumptions C60_least.
Print Assumptions C60_order.
Print Assumptions C60_total.
Print Assumptions C60_limited.
Print Assumptions C60_exact.
Print Assumptions C60_rule.
Print Assumptions C60_demand.
Print Assumptions C60_demanded.
Print Assumptions C60_finite.
Print Assumptions C60_wildcard_refuted.
Print Assumptions C60_chain_refuted.
Print Assumptions C60_negated_refuted.
