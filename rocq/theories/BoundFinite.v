(** Facts about the boundness analysis (Bound.v), continued: what is bound takes
    finitely many values.  Used by C60. *)
From Coq Require Import List ZArith Bool Arith Lia.
From Verif Require Import Value Back Eval BackSem Plan PlanSem Scc SccFacts Front FrontSem FrontFacts Bound BoundSem BoundFacts BoundFacts2.
Import ListNotations.
Set Implicit Arguments.
Local Arguments bin_value : simpl never.
Local Arguments un_value : simpl never.

(** ** Finite sets *)
Lemma fin_sub : forall A (P Q : A -> Prop), finitely Q -> (forall x, P x -> Q x) -> finitely P.
Proof. intros A P Q [l H] K. exists l. auto. Qed.
Lemma fin_or : forall A (P Q : A -> Prop), finitely P -> finitely Q -> finitely (fun x => P x \/ Q x).
Proof. intros A P Q [l H] [l' H']. exists (l ++ l'). intros x [K|K]; apply in_or_app; auto. Qed.
Lemma fin_one : forall A (a : A), finitely (fun x => x = a).
Proof. intros A a. exists [a]. intros x ->. left. auto. Qed.
Lemma fin_none : forall A, finitely (fun _ : A => False).
Proof. intros A. exists []. auto. Qed.
Lemma fin_in : forall A (l : list A), finitely (fun x => In x l).
Proof. intros A l. exists l. auto. Qed.
Lemma fin_union : forall A B (Q : A -> B -> Prop) l, (forall x, In x l -> finitely (Q x)) -> finitely (fun y => exists x, In x l /\ Q x y).
Proof.
  intros A B Q l. induction l as [|a l IH]; intros H.
  - exists []. intros y (x & [] & _).
  - destruct (H a (or_introl eq_refl)) as [l1 H1]. destruct IH as [l2 H2]; [intros x I; apply H; right; auto|].
    exists (l1 ++ l2). intros y (x & [<-|I] & J); apply in_or_app; [left; auto|right; apply H2; eauto].
Qed.
Lemma fin_bind : forall A B (P : A -> Prop) (Q : A -> B -> Prop), finitely P -> (forall x, finitely (Q x)) -> finitely (fun y => exists x, P x /\ Q x y).
Proof. intros A B P Q [l H] K. destruct (@fin_union A B Q l (fun x _ => K x)) as [l' H']. exists l'. intros y (x & Hx & J). apply H'. eauto. Qed.
Lemma fin_lists : forall A (Ps : list (A -> Prop)), (forall P, In P Ps -> finitely P) -> finitely (fun l => Forall2 (fun (P : A -> Prop) x => P x) Ps l).
Proof.
  intros A Ps. induction Ps as [|P Ps IH]; intros H.
  - exists [[]]. intros l F. inversion F. left. auto.
  - destruct IH as [ls Hl]; [intros Q I; apply H; right; auto|]. destruct (H P (or_introl eq_refl)) as [l Hp].
    exists (flat_map (fun x => map (cons x) ls) l). intros xs F. inversion F as [|? x ? xs' F1 F2]; subst. apply in_flat_map. exists x. split; auto. apply in_map. auto.
Qed.
Lemma fin_map : forall A B (P : A -> Prop) (f : A -> B), finitely P -> finitely (fun y => exists x, P x /\ y = f x).
Proof. intros A B P f H. apply fin_bind; auto. intros x. apply fin_one. Qed.
Lemma fin_ev : forall A B (P : A -> Prop) (f : A -> ev B), finitely P -> finitely (fun y => exists x, P x /\ f x = EOk y).
Proof. intros A B P f H. apply fin_bind; auto. intros x. destruct (f x) as [r| |]; [exists [r]; intros y E; injection E as ->; left; auto|exists []; intros y E; discriminate E|exists []; intros y E; discriminate E]. Qed.

(** ** Values of expressions *)
Section Values.
  Variables (E : renv) (ok : value -> Prop) (S : subst -> Prop).
  Hypothesis Hok : forall s, S s -> forall v, ok (s v).
  Definition val (e : expr) (r : value) : Prop := exists s, S s /\ has_value E s e r.
  Definition vals (l : list expr) (vs : list value) : Prop := exists s, S s /\ have_values E s l vs.
  Lemma fin_vals : forall l, (forall e, In e l -> finitely (val e)) -> finitely (vals l).
  Proof.
    intros l H. apply fin_sub with (Q := fun vs => Forall2 (fun (P : value -> Prop) x => P x) (map val l) vs).
    - apply fin_lists. intros P I. apply in_map_iff in I. destruct I as (e & <- & I). auto.
    - intros vs (s & Hs & F). unfold have_values in F. induction F; constructor; auto; [exists s; auto|]. apply IHF. intros e0 I. apply H. right. auto.
  Qed.
  Lemma fin_bin : forall op a b, finitely (val a) -> finitely (val b) -> finitely (val (EBin op a b)).
  Proof.
    intros op a b Fa Fb. apply fin_sub with (Q := fun r => exists x, val a x /\ exists y, val b y /\ bin_value E op x y = EOk r).
    - apply fin_bind; auto. intros x. apply fin_ev. auto.
    - intros r (s & Hs & x & y & Hx & Hy & Hr). exists x. split; [exists s; auto|]. exists y. split; [exists s; auto|auto].
  Qed.
  Lemma fin_un : forall op a, finitely (val a) -> finitely (val (EUn op a)).
  Proof. intros op a Fa. apply fin_sub with (Q := fun r => exists x, val a x /\ un_value E op x = EOk r); [apply fin_ev; auto|]. intros r (s & Hs & x & Hx & Hr). exists x. split; [exists s; auto|auto]. Qed.
  Lemma fin_ite : forall c a b, finitely (val a) -> finitely (val b) -> finitely (val (EIte c a b)).
  Proof. intros c a b Fa Fb. apply fin_sub with (Q := fun r => val a r \/ val b r); [apply fin_or; auto|]. intros r (s & Hs & [[_ H]|[_ H]]); [left|right]; exists s; auto. Qed.
  Lemma fin_call : forall f l, (forall e, In e l -> finitely (val e)) -> finitely (val (ECall f l)).
  Proof.
    intros f l H. apply fin_sub with (Q := fun r => exists vs, vals l vs /\ e_call E f vs = EOk r); [apply fin_ev, fin_vals; auto|].
    intros r (s & Hs & Hr). apply has_value_call in Hr. destruct Hr as (vs & Hv & Hr). exists vs. split; [exists s; auto|auto].
  Qed.
  Lemma fin_new : forall f l, (forall e, In e l -> finitely (val e)) -> finitely (val (ENew f l)).
  Proof.
    intros f l H. apply fin_sub with (Q := fun r => exists vs, vals l vs /\ r = VEntity (e_entity E f vs)); [apply fin_map, fin_vals; auto|].
    intros r (s & Hs & Hr). apply has_value_new in Hr. destruct Hr as (vs & Hv & Hr). exists vs. split; [exists s; auto|auto].
  Qed.
  Lemma fin_expr : forall e, no_wild e = true -> (forall v, In v (expr_vars e) -> finitely (val (EVar v))) -> finitely (val e).
  Proof.
    induction e using expr_ind2; intros W V.
    - apply V. left. auto.
    - discriminate W.
    - exists [c]. intros r (s & _ & ->). left. auto.
    - cbn in W. apply andb_true_iff in W. apply fin_bin; [apply IHe1|apply IHe2]; try tauto; intros v I; apply V; cbn; apply in_or_app; auto.
    - apply fin_un. auto.
    - cbn in W. rewrite !andb_true_iff in W. apply fin_ite; [apply IHe2|apply IHe3]; try tauto; intros v I; apply V; cbn; rewrite !in_app_iff; auto.
    - cbn in W. rewrite forallb_forall in W. rewrite Forall_forall in H. apply fin_call. intros e I. apply H; auto. intros v J. apply V. cbn. apply in_flat_map. eauto.
    - cbn in W. rewrite forallb_forall in W. rewrite Forall_forall in H. apply fin_new. intros e I. apply H; auto. intros v J. apply V. cbn. apply in_flat_map. eauto.
  Qed.
  Lemma value_ok : closed_values E ok -> forall e s r, S s -> no_wild e = true -> (forall x, In x (expr_consts e) -> ok x) -> has_value E s e r -> ok r.
  Proof.
    intros (C1 & C2 & C3 & C4). induction e using expr_ind2; intros s r Hs W K Hr.
    - cbn in Hr. subst r. auto.
    - discriminate W.
    - cbn in Hr. subst r. apply K. left. auto.
    - cbn in W, K. apply andb_true_iff in W. destruct W as [W1 W2]. destruct Hr as (x & y & Hx & Hy & Hr). eapply C1; [| |exact Hr].
      + eapply IHe1; eauto. intros z I. apply K. apply in_or_app. auto.
      + eapply IHe2; eauto. intros z I. apply K. apply in_or_app. auto.
    - destruct Hr as (x & Hx & Hr). eapply C2; [|exact Hr]. eauto.
    - cbn in W, K. rewrite !andb_true_iff in W. destruct W as [[W1 W2] W3]. destruct Hr as [[_ Hr]|[_ Hr]].
      + eapply IHe2; eauto. intros z I. apply K. rewrite !in_app_iff. auto.
      + eapply IHe3; eauto. intros z I. apply K. rewrite !in_app_iff. auto.
    - cbn in W, K. rewrite forallb_forall in W. rewrite Forall_forall in H. apply has_value_call in Hr. destruct Hr as (vs & Hv & Hr). eapply C3; [|exact Hr].
      intros x I. destruct (F2_in_r _ Hv I) as (e & Ie & He). eapply H; eauto. intros z J. apply K. apply in_flat_map. eauto.
    - apply has_value_new in Hr. destruct Hr as (vs & _ & ->). apply C4.
  Qed.
End Values.

(** ** Bound locations *)
Local Arguments kid_node {N ar fr fs c lits ts ns n n1 k k1} F.
Local Arguments top_node {N ar fr fs c lits ts ns n n1 k k1} F.
Local Arguments own_node {N ar fr fs c lits ts ns n n1 k k1} F.
Local Arguments origin_iff {N ar fr fs c lits ts ns n n1 k k1} F.
Local Arguments same_node {N ar fr fs c lits ts ns n n1 k k1} F.
Section Finite.
  Variables (N : penv) (ar : pred -> nat) (fr : nat -> var).
  Variables (fs : list formula) (c : lctx) (lits : list lit) (ts : list top) (ns : list node) (n n1 : loc) (k k1 : nat).
  Hypothesis F : forms (pe_foreign N) (pe_bounded N) ar fr fs c lits ts ns n n1 k k1.
  Variables (B : benv) (g : registry) (X M : interp) (ok : value -> Prop).
  Hypothesis Hg : forall p, g_foreign g p = pe_foreign N p.
  Hypothesis Hrel : finite_rels g X.
  Hypothesis Hfor : finite_foreign B g (pe_bounded N).
  Hypothesis Hun : undoable (b_env B) ok.
  Hypothesis Hcl : closed_values (b_env B) ok.
  Hypothesis Hwild : forall f, In f fs -> wild_ok f = true.
  Hypothesis Hargs : forall f, In f fs -> foreign_args_ok (pe_foreign N) (pe_bounded N) f = true.
  Hypothesis Hconst : forall f x, In f fs -> In x (form_consts f) -> ok x.
  Let D := derivable (lc_deps c) (lc_vars c) [].
  Definition sats (s : subst) : Prop := (forall v, ok (s v)) /\ forall f, In f fs -> fholds B g X M s f.
  Let V := val (b_env B) sats.

  Lemma top_fs : forall t, In t ts -> In (top_form t) fs.
  Proof. intros t I. rewrite <- (fm_top F). apply in_map. auto. Qed.
  Lemma nodes_arg : forall x, In x ns -> arg_ok (nd_expr x) = true.
  Proof.
    apply (fm_sub F (P := fun e => arg_ok e = true)).
    - intros e d He J. assert (W : e <> EWild -> no_wild e = true) by (destruct e; auto; intros Q; destruct (Q eq_refl)).
      assert (Wd : no_wild d = true); [|destruct d; auto]. destruct e; try (destruct J; fail); specialize (W ltac:(discriminate)); cbn in W, J; rewrite ?andb_true_iff in W; rewrite ?forallb_forall in W; intuition (subst; auto).
    - intros t x I J. pose proof (Hwild _ (top_fs _ I)) as W. destruct t as [p cs|op o a b l|a l]; cbn in W, J.
      + rewrite forallb_forall in W. apply W. apply in_map. auto.
      + apply andb_true_iff in W. destruct W. destruct J as [<-|[<-|[]]]; [destruct (cexpr a)|destruct (cexpr b)]; auto.
      + destruct J as [<-|[]]. destruct (cexpr a); auto.
  Qed.
  Lemma nodes_const : forall x v, In x ns -> In v (expr_consts (nd_expr x)) -> ok v.
  Proof.
    assert (G : forall x, In x ns -> forall v, In v (expr_consts (nd_expr x)) -> ok v); [|intros x v I; exact (G x I v)].
    apply (fm_sub F (P := fun e => forall v, In v (expr_consts e) -> ok v)).
    - intros e d He J v Jv. apply He. destruct e; try (destruct J; fail); cbn in J |- *; rewrite ?in_app_iff; intuition (subst; auto); apply in_flat_map; eauto.
    - intros t x I J v Jv. apply (Hconst _ v (top_fs _ I)). destruct t as [p cs|op o a b l|a l]; cbn in J |- *.
      + apply in_flat_map. exists (cexpr x). split; auto. apply in_map. auto.
      + apply in_or_app. destruct J as [<-|[<-|[]]]; auto.
      + destruct J as [<-|[]]; auto.
  Qed.
  Lemma kids_plain : forall x d, In x ns -> In d (nd_kids x) -> no_wild (nd_expr x) = true /\ no_wild (cexpr d) = true.
  Proof.
    intros x d I J. pose proof (nodes_arg _ I) as W. pose proof (sg_shape (fm_seg F) x I) as Sh.
    assert (Jc : In (cexpr d) (kids (nd_expr x))) by (rewrite <- Sh; apply in_map; auto).
    destruct (nd_expr x); try (destruct Jc; fail); cbn [arg_ok] in W; split; auto; cbn in W, Jc; rewrite ?andb_true_iff in W; rewrite ?forallb_forall in W; intuition (subst; auto).
  Qed.
  Definition strict (e : expr) : Prop := forall s, sats s -> exists r, has_value (b_env B) s e r.
  Inductive fin : node -> Prop :=
  | fin_intro x : finitely (V (nd_expr x)) -> strict (nd_expr x) \/ (forall d y, In d (nd_kids x) -> In y ns -> nd_loc y = cloc d -> fin y) -> fin x.
  Lemma fin_vals_of : forall x, fin x -> finitely (V (nd_expr x)).
  Proof. intros x []. auto. Qed.
  Lemma have_firstn : forall E s m l vs, have_values E s l vs -> have_values E s (firstn m l) (firstn m vs).
  Proof. intros E s m l vs H. revert m. induction H; intros [|m]; cbn; constructor; auto. apply IHForall2. Qed.
  Definition fin_at (l : loc) : Prop := forall x, In x ns -> nd_loc x = l -> no_wild (nd_expr x) = true -> fin x.
  Lemma kid_fin : forall d, at_node fr ns d -> no_wild (cexpr d) = true -> fin_at (cloc d) -> finitely (V (cexpr d)).
  Proof. intros d (y & I & E1 & E2 & E3) W H. rewrite <- E3. apply fin_vals_of. apply H; auto. congruence. Qed.
  Lemma fin_leaf : forall x, In x ns -> kids (nd_expr x) = [] -> finitely (V (nd_expr x)) -> fin x.
  Proof. intros x I K H. apply fin_intro; auto. right. intros d y J. pose proof (sg_shape (fm_seg F) x I) as Sh. rewrite K in Sh. destruct (nd_kids x); [destruct J|discriminate Sh]. Qed.
  Lemma fin_up : forall x, In x ns -> finitely (V (nd_expr x)) -> (forall d, In d (nd_kids x) -> fin_at (cloc d)) -> fin x.
  Proof. intros x I H K. apply fin_intro; auto. right. intros d y J Iy Ey. apply (K d J y Iy Ey). destruct (@node_at N ar fr fs c lits ts ns n n1 k k1 F y d Iy (kid_node F _ _ I J) Ey) as [_ ->]. apply (kids_plain _ _ I J). Qed.
  Lemma kid_expr : forall x d i, In x ns -> nth_error (nd_kids x) i = Some d -> nth_error (kids (nd_expr x)) i = Some (cexpr d).
  Proof. intros x d i I H. rewrite <- (sg_shape (fm_seg F) x I). apply map_nth_error. auto. Qed.
  Lemma at_is : forall x d, In x ns -> at_node fr ns d -> nd_loc x = cloc d -> nd_expr x = cexpr d.
  Proof. intros x d I A E. exact (proj2 (@node_at N ar fr fs c lits ts ns n n1 k k1 F x d I A E)). Qed.
  Lemma sat_atom : forall p cs s, In (PAtom p cs) ts -> sats s -> exists vs, have_values (b_env B) s (map cexpr cs) vs /\ tuples B g X p vs.
  Proof. intros p cs s I Hs. exact (proj2 Hs _ (top_fs _ I)). Qed.
  Lemma sat_value : forall (p : pred) cs s d vs, In d cs -> have_values (b_env B) s (map cexpr cs) vs -> exists r, In r vs /\ has_value (b_env B) s (cexpr d) r.
  Proof. intros p cs s d vs J H. destruct (F2_in_l _ H (in_map cexpr _ _ J)) as (r & Ir & Hr). eauto. Qed.
  Lemma bound_fin : forall l, D l -> fin_at l.
  Proof.
    intros l H. induction H as [l I|l I|l I|b f l I Hb IH If|a b e I Ha IHa Hb IHb|a b I Ha IHa|a b I Ha IHa|a b e I Ha IHa Hb IHb|a b e I Ha IHa Hb IHb|a b e I Ha IHa Hb IHb|a e I Ha IHa|d a b e I Hd IHd Ha IHa Hb IHb|l e I Hl IHl|v l l' I I' Hl IHl];
      try (apply (fun d => proj1 (origin_iff F d)) in I).
    - destruct I.
    - inversion I as [p cs d It Ef Jd E| | | | | | | | | |]; subst. intros x Ix Ex W. pose proof (at_is _ Ix (top_node F (PAtom p cs) d It Jd) Ex) as Exd. apply fin_intro.
      + destruct (Hrel p) as [L HL]; [rewrite Hg; auto|]. exists (concat L). intros r (s & Hs & Hr). destruct (sat_atom _ _ It Hs) as (vs & Hv & Ht).
        destruct (sat_value p _ _ Jd Hv) as (r' & Ir & Hr'). rewrite <- Exd in Hr'. rewrite (value_unique _ _ _ W _ _ Hr Hr'). apply in_concat. exists vs. split; auto.
        apply HL. unfold tuples in Ht. rewrite Hg, Ef in Ht. auto.
      + left. intros s Hs. destruct (sat_atom _ _ It Hs) as (vs & Hv & Ht). destruct (sat_value p _ _ Jd Hv) as (r' & Ir & Hr'). rewrite Exd. eauto.
    - inversion I as [| |x v Ix E El| | | | | | | |]; subst. intros y Iy Ey W. assert (y = x) as -> by (eapply same_node; eauto). apply fin_leaf; auto; rewrite E; auto.
      exists [v]. intros r (s & _ & ->). left. auto.
    - inversion I as [|p cs It Ef Ea E1| | | | | | | | |]; subst. apply in_map_iff in If. destruct If as (d & <- & Jd).
      assert (Jd' : In d cs) by (rewrite <- (firstn_skipn (pe_bounded N p) cs); apply in_or_app; auto).
      intros x Ix Ex W. pose proof (at_is _ Ix (top_node F (PAtom p cs) d It Jd') Ex) as Exd. apply fin_intro.
      + apply fin_sub with (Q := fun r => exists ws, (exists us, vals (b_env B) sats (map cexpr (firstn (pe_bounded N p) cs)) us /\ (firstn (pe_bounded N p) ws = us /\ b_fp B p ws)) /\ In r ws).
        * apply fin_bind; [|intros ws; apply fin_in]. apply fin_bind; [|intros us; apply Hfor; rewrite Hg; auto]. apply fin_vals. intros e Ie. apply in_map_iff in Ie. destruct Ie as (d' & <- & Jd2).
          assert (Jd2' : In d' cs) by (rewrite <- (firstn_skipn (pe_bounded N p) cs); apply in_or_app; auto).
          apply kid_fin; [eapply (top_node F (PAtom p cs)); eauto| |apply IH; apply in_map; auto].
          pose proof (Hargs _ (top_fs _ It)) as Ha. cbn in Ha. rewrite Ef, forallb_forall in Ha. apply Ha. rewrite firstn_map. apply in_map. auto.
        * intros r (s & Hs & Hr). destruct (sat_atom _ _ It Hs) as (vs & Hv & Ht). destruct (sat_value p _ _ Jd' Hv) as (r' & Ir & Hr'). rewrite <- Exd in Hr'.
          exists vs. rewrite (value_unique _ _ _ W _ _ Hr Hr'). split; auto. exists (firstn (pe_bounded N p) vs). unfold tuples in Ht. rewrite Hg, Ef in Ht. split; auto.
          exists s. split; auto. rewrite <- firstn_map. apply have_firstn. auto.
      + left. intros s Hs. destruct (sat_atom _ _ It Hs) as (vs & Hv & Ht). destruct (sat_value p _ _ Jd' Hv) as (r' & Ir & Hr'). rewrite Exd. eauto.
    - inversion I as [| | |x op e1 e2 a' b' Ix E K As|op o a' b' l It| | | | | |]; subst.
      + intros y Iy Ey W. assert (y = x) as -> by (eapply same_node; eauto). apply fin_up; auto.
        * rewrite E. pose proof (kid_expr _ 0 Ix (f_equal (fun l => nth_error l 0) K)) as Ka. pose proof (kid_expr _ 1 Ix (f_equal (fun l => nth_error l 1) K)) as Kb. rewrite E in Ka, Kb. injection Ka as ->. injection Kb as ->.
          apply fin_bin; (apply kid_fin; [eapply (kid_node F); eauto; rewrite K; cbn; auto|eapply kids_plain; eauto; rewrite K; cbn; auto|auto]).
        * rewrite K. intros d [<-|[<-|[]]]; auto.
      + intros y Iy Ey W. exfalso. eapply (own_node F); [exact It|left; reflexivity|exact Iy|auto].
    - inversion I as [| | | | |o a' b' l It| | | | |]; subst. pose proof (fm_ok F _ It) as Eo. cbn in Eo. injection Eo as <-. intros x Ix Ex W.
      pose proof (at_is _ Ix (top_node F _ b' It (or_intror (or_introl eq_refl))) Ex) as Exd.
      assert (SV : forall s, sats s -> exists r, has_value (b_env B) s (cexpr a') r /\ has_value (b_env B) s (cexpr b') r).
      { intros s Hs. pose proof (proj2 Hs _ (top_fs _ It)) as Hc. cbn in Hc. destruct Hc as (r & r' & H1 & H2 & <-). eauto. }
      pose proof (Hwild _ (top_fs _ It)) as Wc. cbn in Wc. apply andb_true_iff in Wc. destruct Wc as [Wa Wb]. apply fin_intro.
      + apply fin_sub with (Q := V (cexpr a')); [apply kid_fin; auto; eapply (top_node F); [exact It|cbn; auto]|]. intros r (s & Hs & Hr). exists s. split; auto. destruct (SV s Hs) as (r' & H1 & H2). rewrite <- Exd in H2. rewrite (value_unique _ _ _ W _ _ Hr H2). auto.
      + left. intros s Hs. destruct (SV s Hs) as (r' & H1 & H2). rewrite Exd. eauto.
    - inversion I as [| | | | |o a' b' l It| | | | |]; subst. pose proof (fm_ok F _ It) as Eo. cbn in Eo. injection Eo as <-. intros x Ix Ex W.
      pose proof (at_is _ Ix (top_node F _ a' It (or_introl eq_refl)) Ex) as Exd.
      assert (SV : forall s, sats s -> exists r, has_value (b_env B) s (cexpr a') r /\ has_value (b_env B) s (cexpr b') r).
      { intros s Hs. pose proof (proj2 Hs _ (top_fs _ It)) as Hc. cbn in Hc. destruct Hc as (r & r' & H1 & H2 & <-). eauto. }
      pose proof (Hwild _ (top_fs _ It)) as Wc. cbn in Wc. apply andb_true_iff in Wc. destruct Wc as [Wa Wb]. apply fin_intro.
      + apply fin_sub with (Q := V (cexpr b')); [apply kid_fin; auto; eapply (top_node F); [exact It|cbn; auto]|]. intros r (s & Hs & Hr). exists s. split; auto. destruct (SV s Hs) as (r' & H1 & H2). rewrite <- Exd in H1. rewrite (value_unique _ _ _ W _ _ Hr H1). auto.
      + left. intros s Hs. destruct (SV s Hs) as (r' & H1 & H2). rewrite Exd. eauto.
    - inversion I as [| | | | | |x op e1 e2 a' b' Ix E K As| | | |]; subst.
      intros y Iy Ey W. assert (y = x) as -> by (eapply same_node; eauto). apply fin_up; auto.
      + rewrite E. pose proof (kid_expr _ 0 Ix (f_equal (fun l => nth_error l 0) K)) as Ka. pose proof (kid_expr _ 1 Ix (f_equal (fun l => nth_error l 1) K)) as Kb. rewrite E in Ka, Kb. injection Ka as ->. injection Kb as ->.
        apply fin_bin; (apply kid_fin; [eapply (kid_node F); eauto; rewrite K; cbn; auto|eapply kids_plain; eauto; rewrite K; cbn; auto|auto]).
      + rewrite K. intros d [<-|[<-|[]]]; auto.
    - inversion I as [| | | | | |x op e1 e2 a' b' Ix E K As| | | |]; subst.
      assert (Ja : In a' (nd_kids x)) by (rewrite K; left; auto). assert (Jb : In b' (nd_kids x)) by (rewrite K; right; left; auto).
      intros y Iy Ey W. pose proof (at_is _ Iy (kid_node F _ _ Ix Jb) Ey) as Eyd. destruct (kids_plain _ _ Ix Ja) as [Wx Wa].
      pose proof (IHb x Ix eq_refl Wx) as Fx. inversion Fx as [x' Fv St]; subst x'. destruct St as [St|St]; [|apply (St b' y Jb Iy Ey)].
      pose proof (kid_expr _ 0 Ix (f_equal (fun l => nth_error l 0) K)) as Ka. pose proof (kid_expr _ 1 Ix (f_equal (fun l => nth_error l 1) K)) as Kb. rewrite E in Ka, Kb. injection Ka as Ka. injection Kb as Kb.
      rewrite E, Ka, Kb in St. apply fin_intro.
      + apply fin_sub with (Q := fun r => exists u, V (cexpr a') u /\ exists w, V (nd_expr x) w /\ (ok r /\ bin_value (b_env B) op u r = EOk w)).
        * apply (@fin_bind _ _ (V (cexpr a')) (fun u r => exists w, V (nd_expr x) w /\ (ok r /\ bin_value (b_env B) op u r = EOk w))); [apply kid_fin; auto; exact (kid_node F _ _ Ix Ja)|]. intros u. apply (@fin_bind _ _ (V (nd_expr x)) (fun w r => ok r /\ bin_value (b_env B) op u r = EOk w)); [exact Fv|]. intros w. apply (@Hun op u w As).
        * intros r (s & Hs & Hr). destruct (St s Hs) as (w & u & r' & Hu & Hr' & Hw). rewrite <- Eyd in Hr'. rewrite (value_unique _ _ _ W _ _ Hr' Hr) in *.
          exists u. split; [exists s; auto|]. exists w. split; [exists s; split; auto; rewrite E, Ka, Kb; exists u, r; rewrite <- Eyd; auto|]. split; auto.
          eapply value_ok with (S := sats); [intros s' Hs'; apply Hs'|exact Hcl|exact Hs|exact W|intros z Jz; eapply nodes_const; eauto|exact Hr].
      + left. intros s Hs. destruct (St s Hs) as (w & u & r' & Hu & Hr' & Hw). rewrite Eyd. eauto.
    - inversion I as [| | | | | |x op e1 e2 a' b' Ix E K As| | | |]; subst.
      assert (Ja : In a' (nd_kids x)) by (rewrite K; left; auto). assert (Jb : In b' (nd_kids x)) by (rewrite K; right; left; auto).
      intros y Iy Ey W. pose proof (at_is _ Iy (kid_node F _ _ Ix Ja) Ey) as Eyd. destruct (kids_plain _ _ Ix Jb) as [Wx Wb].
      pose proof (IHb x Ix eq_refl Wx) as Fx. inversion Fx as [x' Fv St]; subst x'. destruct St as [St|St]; [|apply (St a' y Ja Iy Ey)].
      pose proof (kid_expr _ 0 Ix (f_equal (fun l => nth_error l 0) K)) as Ka. pose proof (kid_expr _ 1 Ix (f_equal (fun l => nth_error l 1) K)) as Kb. rewrite E in Ka, Kb. injection Ka as Ka. injection Kb as Kb.
      rewrite E, Ka, Kb in St. apply fin_intro.
      + apply fin_sub with (Q := fun r => exists u, V (cexpr b') u /\ exists w, V (nd_expr x) w /\ (ok r /\ bin_value (b_env B) op r u = EOk w)).
        * apply (@fin_bind _ _ (V (cexpr b')) (fun u r => exists w, V (nd_expr x) w /\ (ok r /\ bin_value (b_env B) op r u = EOk w))); [apply kid_fin; auto; exact (kid_node F _ _ Ix Jb)|]. intros u. apply (@fin_bind _ _ (V (nd_expr x)) (fun w r => ok r /\ bin_value (b_env B) op r u = EOk w)); [exact Fv|]. intros w. apply (@Hun op u w As).
        * intros r (s & Hs & Hr). destruct (St s Hs) as (w & r' & u & Hr' & Hu & Hw). rewrite <- Eyd in Hr'. rewrite (value_unique _ _ _ W _ _ Hr' Hr) in *.
          exists u. split; [exists s; auto|]. exists w. split; [exists s; split; auto; rewrite E, Ka, Kb; exists r, u; rewrite <- Eyd; auto|]. split; auto.
          eapply value_ok with (S := sats); [intros s' Hs'; apply Hs'|exact Hcl|exact Hs|exact W|intros z Jz; eapply nodes_const; eauto|exact Hr].
      + left. intros s Hs. destruct (St s Hs) as (w & r' & u & Hr' & Hu & Hw). rewrite Eyd. eauto.
    - inversion I as [| | | | | | |x op e1 a' Ix E K|a' l It| |]; subst.
      + intros y Iy Ey W. assert (y = x) as -> by (eapply same_node; eauto). apply fin_up; auto.
        * rewrite E. pose proof (kid_expr _ 0 Ix (f_equal (fun l => nth_error l 0) K)) as Ka. rewrite E in Ka. injection Ka as ->.
          apply fin_un. apply kid_fin; [eapply (kid_node F); eauto; rewrite K; cbn; auto|eapply kids_plain; eauto; rewrite K; cbn; auto|auto].
        * rewrite K. intros d [<-|[]]; auto.
      + intros y Iy Ey W. exfalso. eapply (own_node F); [exact It|left; reflexivity|exact Iy|auto].
    - inversion I as [| | | | | | | | |x e1 e2 e3 a' b' d' Ix E K|]; subst.
      intros y Iy Ey W. assert (y = x) as -> by (eapply same_node; eauto). apply fin_up; auto.
      + rewrite E. pose proof (kid_expr _ 1 Ix (f_equal (fun l => nth_error l 1) K)) as Ka. pose proof (kid_expr _ 2 Ix (f_equal (fun l => nth_error l 2) K)) as Kb. rewrite E in Ka, Kb. injection Ka as ->. injection Kb as ->.
        apply fin_ite; (apply kid_fin; [eapply (kid_node F); eauto; rewrite K; cbn; auto|eapply kids_plain; eauto; rewrite K; cbn; auto|auto]).
      + rewrite K. intros z [<-|[<-|[<-|[]]]]; auto.
    - inversion I as [| | | | | | | | | |x f l' cs Ix E K]; subst.
      intros y Iy Ey W. assert (y = x) as -> by (eapply same_node; eauto). apply fin_up; auto.
      + rewrite E. apply fin_call. intros e0 Ie. pose proof (sg_shape (fm_seg F) x Ix) as Sh. rewrite E in Sh. cbn in Sh. rewrite <- Sh in Ie. apply in_map_iff in Ie. destruct Ie as (d & <- & Jd).
        apply kid_fin; [eapply (kid_node F); eauto|eapply kids_plain; eauto|apply IHl; apply in_map; auto].
      + intros d Jd. apply IHl. apply in_map. auto.
    - apply (fm_vars F) in I. apply (fm_vars F) in I'. destruct I as (x & Ix & Ex & El). destruct I' as (x' & Ix' & Ex' & El'). intros y Iy Ey W.
      assert (y = x') as -> by (eapply same_node; eauto; congruence). apply fin_leaf; auto; rewrite Ex'; auto. rewrite <- Ex. apply fin_vals_of. apply IHl; auto. rewrite Ex. auto.
  Qed.
End Finite.

(** ** The values of a machine *)
Lemma zs_between : forall lo hi, exists l, forall z, (lo <= z <= hi)%Z -> In z l.
Proof.
  intros lo hi. exists (map (fun i => (lo + Z.of_nat i)%Z) (seq 0 (S (Z.to_nat (hi - lo))))). intros z H. apply in_map_iff. exists (Z.to_nat (z - lo)).
  split; [lia|]. apply in_seq. lia.
Qed.
Fixpoint suffixes (s : String.string) : list String.string := s :: match s with String.EmptyString => [] | String.String _ s => suffixes s end.
Fixpoint prefixes (s : String.string) : list String.string := String.EmptyString :: match s with String.EmptyString => [] | String.String c s => map (String.String c) (prefixes s) end.
Lemma suffixes_ok : forall a b, In b (suffixes (String.append a b)).
Proof. induction a as [|c a IH]; intros b; cbn; [destruct b; left; auto|right; auto]. Qed.
Lemma prefixes_ok : forall a b, In a (prefixes (String.append a b)).
Proof. induction a as [|c a IH]; intros b; cbn; [destruct b; left; auto|right; apply in_map; auto]. Qed.
Definition with_payload (z : Z) : list value :=
  [I8 z; I16 z; I32 z; I64 z; I128 z; ISize z; U8 z; U16 z; U32 z; U64 z; U128 z; USize z; F32 z; F64 z; VChar z; VSymbol z; VDateTime z; VDuration z; VEntity z].
Lemma with_payload_ok : forall v z, payload v = Some z -> In v (with_payload z).
Proof. intros v z H. destruct v; try discriminate H; injection H as ->; unfold with_payload; cbn [In]; auto 25. Qed.
Lemma machine_undoable : forall E, undoable E machine.
Proof.
  intros E op x r A. destruct (zs_between (- 2 ^ 128) (2 ^ 128)) as [zs Hz].
  set (fs := match r with VString s => suffixes s | _ => [] end). set (ps := match r with VString s => prefixes s | _ => [] end).
  split; [exists (flat_map with_payload zs ++ map VString fs)|exists (flat_map with_payload zs ++ map VString ps)]; intros y [Ok H]; apply in_or_app; unfold machine in Ok.
  - destruct (payload y) as [z|] eqn:P; [left; apply in_flat_map; exists z; split; [apply Hz; exact Ok|apply with_payload_ok; exact P]|right].
    destruct y; try discriminate P; destruct x; destruct op; try discriminate A; try discriminate H. injection H as <-. apply in_map. apply suffixes_ok.
  - destruct (payload y) as [z|] eqn:P; [left; apply in_flat_map; exists z; split; [apply Hz; exact Ok|apply with_payload_ok; exact P]|right].
    destruct y; try discriminate P; destruct x; destruct op; try discriminate A; try discriminate H. injection H as <-. apply in_map. apply prefixes_ok.
Qed.
