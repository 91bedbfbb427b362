(** Lemmas about the flattening of expressions (Front.v): what the literals of a
    flattened expression mean, and how the values of the numbered variables are
    chosen.  Used by C59. *)
From Coq Require Import List ZArith Bool Arith Lia.
From Verif Require Import Value ListAux Back Eval BackSem Plan PlanSem PlanFacts Front FrontSem FrontFacts.
Import ListNotations.
Set Implicit Arguments.
Local Arguments bin_value : simpl never.
Local Arguments un_value : simpl never.

Lemma flat_call : forall fr f l n, flat fr (ECall f l) n =
  let '(ts, ls, n1) := flat_args fr l (S n) in (TVar (fr n), LAssign (fr n) (ACall f ts) :: ls, n1).
Proof. reflexivity. Qed.
Lemma flat_new : forall fr f l n, flat fr (ENew f l) n =
  let '(ts, ls, n1) := flat_args fr l (S n) in (TVar (fr n), LAssign (fr n) (ANew f ts) :: ls, n1).
Proof. reflexivity. Qed.

(** ** Regular expressions *)
Lemma go_regular : forall E s l, (fix all l := match l with [] => True | e :: l => regular E s e /\ all l end) l <-> forall e, In e l -> regular E s e.
Proof.
  intros E s. induction l as [|e l IH]; [split; auto; intros _ e []|]. split.
  - intros [H K] x [<-|I]; auto. apply IH; auto.
  - intros H. split; [apply H; left; auto|]. apply IH. intros x I. apply H. right; auto.
Qed.
Lemma regular_call : forall E s f l, regular E s (ECall f l) <-> (exists r, has_value E s (ECall f l) r) /\ forall e, In e l -> regular E s e.
Proof. intros. split; intros [H K]; split; auto; apply (go_regular E s l); auto. Qed.
Lemma regular_new : forall E s f l, regular E s (ENew f l) <-> (exists r, has_value E s (ENew f l) r) /\ forall e, In e l -> regular E s e.
Proof. intros. split; intros [H K]; split; auto; apply (go_regular E s l); auto. Qed.
Lemma regular_value : forall E s e, regular E s e -> exists r, has_value E s e r.
Proof. intros E s e H. destruct e; destruct H as [H _]; exact H. Qed.
Lemma regular_local : forall E s s' e, (forall v, In v (expr_vars e) -> s v = s' v) -> regular E s e -> regular E s' e.
Proof.
  intros E s s' e A H.
  assert (V : forall x, (forall v, In v (expr_vars x) -> s v = s' v) -> forall r, has_value E s x r <-> has_value E s' x r).
  { intros x Y r. split; apply value_local; auto. intros; symmetry; auto. }
  assert (V' : (exists r, has_value E s e r) -> exists r, has_value E s' e r) by (intros (r & Hr); exists r; apply V in Hr; auto).
  revert H A V'. induction e using expr_ind2; intros H0 A V'.
  - split; [exists (s' v); reflexivity|exact Logic.I].
  - split; auto. exists (VBool true). exact Logic.I.
  - split; auto. exists c. reflexivity.
  - destruct H0 as (R & Ha & Hb & Hx). cbn [expr_vars] in A.
    assert (A1 : forall v, In v (expr_vars e1) -> s v = s' v) by (intros; apply A, in_or_app; auto).
    assert (A2 : forall v, In v (expr_vars e2) -> s v = s' v) by (intros; apply A, in_or_app; auto).
    split; [auto|]. split; [|split].
    + apply IHe1; auto. intros (r & Hr). exists r. apply V in Hr; auto.
    + apply IHe2; auto. intros (r & Hr). exists r. apply V in Hr; auto.
    + assert (Z : exact_at E s op e1 e2 -> exact_at E s' op e1 e2) by (intros Z x y P Q; apply Z; apply V; auto).
      destruct op; auto; [exact (Z Hx)|]. destruct Hx as [Hc Hx]. split; auto.
  - destruct H0 as (R & Ha). split; [auto|]. apply IHe; auto. intros (r & Hr). exists r. apply V in Hr; auto.
  - destruct H0 as (R & Hc & Ha & Hb). cbn [expr_vars] in A.
    assert (A1 : forall v, In v (expr_vars e1) -> s v = s' v) by (intros; apply A; rewrite !in_app_iff; auto).
    assert (A2 : forall v, In v (expr_vars e2) -> s v = s' v) by (intros; apply A; rewrite !in_app_iff; auto).
    assert (A3 : forall v, In v (expr_vars e3) -> s v = s' v) by (intros; apply A; rewrite !in_app_iff; auto).
    split; [auto|]. split; [|split].
    + apply IHe1; auto. intros (r & Hr). exists r. apply V in Hr; auto.
    + apply IHe2; auto. intros (r & Hr). exists r. apply V in Hr; auto.
    + apply IHe3; auto. intros (r & Hr). exists r. apply V in Hr; auto.
  - apply regular_call in H0. destruct H0 as [R Ha]. apply regular_call. split; auto. intros x I.
    assert (A1 : forall v, In v (expr_vars x) -> s v = s' v) by (intros v J; apply A; cbn [expr_vars]; apply in_flat_map; eauto).
    rewrite Forall_forall in H. apply H; auto. intros (r & Hr). exists r. apply V in Hr; auto.
  - apply regular_new in H0. destruct H0 as [R Ha]. apply regular_new. split; auto. intros x I.
    assert (A1 : forall v, In v (expr_vars x) -> s v = s' v) by (intros v J; apply A; cbn [expr_vars]; apply in_flat_map; eauto).
    rewrite Forall_forall in H. apply H; auto. intros (r & Hr). exists r. apply V in Hr; auto.
Qed.

(** ** Inverses *)
Lemma saturating_in : forall k z, in_range k z -> saturating k z = EOk (of_int k z).
Proof. intros k z [H K]. unfold saturating. rewrite Z.min_r, Z.max_r by lia. reflexivity. Qed.
Lemma as_of_int : forall k z, as_int (of_int k z) = Some (k, z).
Proof. destruct k; reflexivity. Qed.
Lemma ikind_refl : forall k, ikind_eqb k k = true.
Proof. destruct k; reflexivity. Qed.
Lemma bin_int : forall E op k i j, op = OAdd \/ op = OSub -> bin_value E op (of_int k i) (of_int k j) = int_arith op k i j.
Proof. intros E op k i j [-> | ->]; unfold bin_value, arith; rewrite !as_of_int, ikind_refl; reflexivity. Qed.
Lemma of_int_inj : forall k i j, of_int k i = of_int k j -> i = j.
Proof. destruct k; cbn; congruence. Qed.

Definition fexprs (f : formula) : list expr :=
  match f with FAtom _ l | FNeg _ l => l | FCons e => cons_args e | _ => [] end.

Lemma cons_args_vars : forall e v a, In a (cons_args e) -> In v (expr_vars a) -> In v (expr_vars e).
Proof.
  intros e v a I J. destruct e as [| | |op a1 a2|op a1| | |]; cbn in I; try contradiction; cbn [expr_vars].
  - destruct I as [<-|[<-|[]]]; apply in_or_app; auto.
  - destruct I as [<-|[]]; auto.
Qed.
Lemma constraint_local : forall E s s' e, agree (expr_vars e) s s' -> constraint_holds E s e -> constraint_holds E s' e.
Proof.
  intros E s s' e A H. assert (K : forall r, has_value E s e r -> has_value E s' e r) by (apply value_local; auto).
  destruct e as [| | |op a b|op a| | |]; cbn [constraint_holds] in *; auto.
  - destruct (cop_of op) as [c|]; [|auto]. destruct H as (x & y & H1 & H2 & H3). exists x, y.
    cbn [expr_vars] in A.
    split; [|split; auto]; [apply value_local with (s := s)|apply value_local with (s := s)]; auto; intros v I; apply A; apply in_or_app; auto.
  - destruct op; auto. eapply value_local; eauto.
Qed.
Lemma fits_some : forall vs us, fits (map Some vs) us -> us = vs.
Proof.
  induction vs as [|v vs IH]; intros us H; inversion H; subst; auto. f_equal; auto.
Qed.
Lemma fits_refl : forall vs, fits (map Some vs) vs.
Proof. induction vs; constructor; auto. Qed.
Lemma patterns_values : forall E s l ws, forallb no_wild l = true -> Forall2 (arg_pattern E s) l ws -> exists vs, ws = map Some vs /\ have_values E s l vs.
Proof.
  intros E s l ws H F. induction F as [|e w l ws He F IH]; [exists []; split; auto; constructor|]. cbn in H. apply andb_true_iff in H. destruct H as [H1 H2].
  destruct (IH H2) as (vs & -> & K). destruct w as [v|]; [|cbn in He; subst e; discriminate H1]. destruct He as [_ He]. exists (v :: vs). split; auto. constructor; auto.
Qed.
Lemma values_patterns : forall E s l vs, forallb no_wild l = true -> have_values E s l vs -> Forall2 (arg_pattern E s) l (map Some vs).
Proof.
  intros E s l vs H F. induction F as [|e v l vs He F IH]; [constructor|]. cbn in H. apply andb_true_iff in H. destruct H as [H1 H2].
  constructor; auto. split; auto. intros ->. discriminate H1.
Qed.

Section Flat.
  Variable fr : nat -> var.
  Hypothesis fr_inj : forall i j, fr i = fr j -> i = j.
  Variables (B : benv) (g : registry) (X M : interp).
  (** The variables of the source. *)
  Variable V : var -> Prop.
  Hypothesis fresh : forall v i, V v -> v <> fr i.

  Definition within (n n' : nat) (vs : list var) : Prop := forall v, In v vs -> V v \/ exists i, n <= i < n' /\ v = fr i.
  Definition ext (n n' : nat) (s s' : subst) : Prop := forall v, (forall i, n <= i < n' -> v <> fr i) -> s' v = s v.
  Definition sat (s : subst) (ls : list lit) : Prop := forall l, In l ls -> lit_sat B g X M s l.

  Lemma within_mono : forall n n' m m' vs, within n n' vs -> m <= n -> n' <= m' -> within m m' vs.
  Proof. intros n n' m m' vs H L1 L2 v I. destruct (H v I) as [?|(i & L & ->)]; auto. right. exists i. split; auto. lia. Qed.
  Lemma within_app : forall n n' a b, within n n' a -> within n n' b -> within n n' (a ++ b).
  Proof. intros n n' a b H K v I. apply in_app_or in I. destruct I; auto. Qed.
  Lemma ext_refl : forall n n' s, ext n n' s s.
  Proof. intros n n' s v H. auto. Qed.
  Lemma ext_trans : forall n n1 n2 s s1 s2, ext n n1 s s1 -> ext n1 n2 s1 s2 -> n <= n1 -> n1 <= n2 -> ext n n2 s s2.
  Proof. intros n n1 n2 s s1 s2 H K L1 L2 v F. rewrite K, H; auto; intros i L; apply F; lia. Qed.
  Lemma ext_mono : forall n n' m m' s s', ext n n' s s' -> m <= n -> n' <= m' -> ext m m' s s'.
  Proof. intros n n' m m' s s' H L1 L2 v F. apply H. intros i L. apply F. lia. Qed.
  Lemma ext_source : forall n n' s s' v, ext n n' s s' -> V v -> s' v = s v.
  Proof. intros n n' s s' v H I. apply H. intros i _. apply fresh; auto. Qed.
  Lemma ext_agree : forall n n1 m m' vs s s', within n n1 vs -> ext m m' s s' -> n1 <= m \/ m' <= n -> agree vs s s'.
  Proof.
    intros n n1 m m' vs s s' W H L v I. symmetry. apply H. intros i Li E. destruct (W v I) as [?|(j & Lj & E')]; [eapply fresh; eauto|].
    assert (i = j) by (apply fr_inj; congruence). lia.
  Qed.
  Lemma ext_sat : forall n n1 m m' ls s s', within n n1 (flat_map lit_vars ls) -> ext m m' s s' -> n1 <= m \/ m' <= n -> sat s ls -> sat s' ls.
  Proof.
    intros n n1 m m' ls s s' W H L K l I. eapply lit_sat_agree; [|apply K; eauto]. eapply ext_agree; eauto.
    intros v J. apply W. apply in_flat_map. eauto.
  Qed.
  Lemma sat_app : forall s a b, sat s a -> sat s b -> sat s (a ++ b).
  Proof. intros s a b H K l I. apply in_app_or in I. destruct I; auto. Qed.
  Lemma sat_app_inv : forall s a b, sat s (a ++ b) -> sat s a /\ sat s b.
  Proof. intros s a b H. split; intros l I; apply H, in_or_app; auto. Qed.

  (** ** Variables *)
  Definition flat_vars_at (e : expr) : Prop := forall n t ls n', (forall v, In v (expr_vars e) -> V v) -> flat fr e n = (t, ls, n') ->
    n <= n' /\ within n n' (tvar t) /\ within n n' (flat_map lit_vars ls).
  Lemma flat_args_vars0 : forall l, Forall flat_vars_at l -> forall n ts ls n', (forall v, In v (flat_map expr_vars l) -> V v) -> flat_args fr l n = (ts, ls, n') ->
    n <= n' /\ within n n' (flat_map tvar ts) /\ within n n' (flat_map lit_vars ls).
  Proof.
    intros l F. induction F as [|e l He F IH]; intros n ts ls n' Hv H; cbn [flat_args] in H.
    - injection H as <- <- <-. split; auto. split; intros v [].
    - destruct (flat fr e n) as [[t l1] n1] eqn:Q. destruct (flat_args fr l n1) as [[ts' l2] n2] eqn:Q2. injection H as <- <- <-.
      destruct (He n t l1 n1) as (L1 & W1 & W1'); [intros v I; apply Hv; cbn; apply in_or_app; auto|auto|].
      destruct (IH n1 ts' l2 n2) as (L2 & W2 & W2'); [intros v I; apply Hv; cbn; apply in_or_app; auto|auto|].
      split; [lia|]. cbn [flat_map]. rewrite flat_map_app. split; apply within_app; eapply within_mono; eauto; lia.
  Qed.
  Lemma inverses_vars : forall n n' left op t1 t2, within n n' [left] -> within n n' (tvar t1) -> within n n' (tvar t2) ->
    within n n' (flat_map lit_vars (inverses left op t1 t2)).
  Proof.
    intros n n' left op t1 t2 W W1 W2. unfold inverses. destruct (add_sub_inv op) as [inv|]; [|intros v []]. rewrite flat_map_app. apply within_app.
    - destruct t1 as [v|c]; [|intros v []]. cbn. rewrite app_nil_r. intros w [<-|[<-|I]]; [apply W1; left; auto|apply W; left; auto|auto].
    - destruct t2 as [v|c]; [|intros v []]. cbn. rewrite app_nil_r. intros w [<-|[<-|I]]; [apply W2; left; auto|apply W; left; auto|auto].
  Qed.
  Lemma within_fr : forall n n', n < n' -> within n n' [fr n].
  Proof. intros n n' L v [<-|[]]. right. exists n. split; [lia|auto]. Qed.
  Lemma within_cons : forall n n' v vs, within n n' [v] -> within n n' vs -> within n n' (v :: vs).
  Proof. intros n n' v vs H K w [<-|I]; [apply H; left; auto|auto]. Qed.
  Lemma flat_vars : forall e, flat_vars_at e.
  Proof.
    induction e using expr_ind2; intros n t ls n' Hv H0; cbn [expr_vars] in Hv.
    - injection H0 as <- <- <-. split; auto. split; [|intros w []]. intros w [<-|[]]. left. apply Hv. left; auto.
    - injection H0 as <- <- <-. split; auto. split; [apply within_fr; auto|intros w []].
    - injection H0 as <- <- <-. split; auto. split; intros w [].
    - cbn [flat] in H0. destruct (flat fr e1 (S n)) as [[ta la] n1] eqn:Qa. destruct (flat fr e2 n1) as [[tb lb] n2] eqn:Qb. injection H0 as <- <- <-.
      destruct (IHe1 (S n) ta la n1) as (L1 & W1 & W1'); [intros v I; apply Hv, in_or_app; auto|auto|].
      destruct (IHe2 n1 tb lb n2) as (L2 & W2 & W2'); [intros v I; apply Hv, in_or_app; auto|auto|].
      assert (Wn : within n n2 [fr n]) by (apply within_fr; lia).
      assert (U1 : within n n2 (tvar ta)) by (eapply within_mono; eauto; lia). assert (U2 : within n n2 (tvar tb)) by (eapply within_mono; eauto; lia).
      split; [lia|]. split; [exact Wn|]. cbn [flat_map lit_vars aexpr_vars]. rewrite !flat_map_app. apply within_app.
      { apply within_cons; [exact Wn|apply within_app; auto]. }
      apply within_app; [apply inverses_vars; auto|]. apply within_app; eapply within_mono; eauto; lia.
    - cbn [flat] in H0. destruct (flat fr e (S n)) as [[ta la] n1] eqn:Qa. injection H0 as <- <- <-. destruct (IHe (S n) ta la n1) as (L1 & W1 & W1'); auto.
      assert (Wn : within n n1 [fr n]) by (apply within_fr; lia). split; [lia|]. split; [exact Wn|]. cbn [flat_map lit_vars aexpr_vars]. apply within_app.
      + apply within_cons; [exact Wn|]. eapply within_mono; eauto; lia.
      + eapply within_mono; eauto; lia.
    - cbn [flat] in H0. destruct (flat fr e1 (S n)) as [[tc lc] n1] eqn:Qc. destruct (flat fr e2 n1) as [[ta la] n2] eqn:Qa. destruct (flat fr e3 n2) as [[tb lb] n3] eqn:Qb.
      injection H0 as <- <- <-.
      destruct (IHe1 (S n) tc lc n1) as (L1 & W1 & W1'); [intros v I; apply Hv; rewrite !in_app_iff; auto|auto|].
      destruct (IHe2 n1 ta la n2) as (L2 & W2 & W2'); [intros v I; apply Hv; rewrite !in_app_iff; auto|auto|].
      destruct (IHe3 n2 tb lb n3) as (L3 & W3 & W3'); [intros v I; apply Hv; rewrite !in_app_iff; auto|auto|].
      assert (Wn : within n n3 [fr n]) by (apply within_fr; lia). split; [lia|]. split; [exact Wn|]. cbn [flat_map lit_vars aexpr_vars]. rewrite !flat_map_app. apply within_app.
      + apply within_cons; [exact Wn|]. repeat apply within_app; eapply within_mono; eauto; lia.
      + repeat apply within_app; eapply within_mono; eauto; lia.
    - rewrite flat_call in H0. destruct (flat_args fr l (S n)) as [[ts la] n1] eqn:Q. injection H0 as <- <- <-.
      destruct (flat_args_vars0 H (S n) Hv Q) as (L & W & W'). assert (Wn : within n n1 [fr n]) by (apply within_fr; lia).
      split; [lia|]. split; [exact Wn|]. cbn [flat_map lit_vars aexpr_vars]. apply within_app; [apply within_cons; auto|]; eapply within_mono; eauto; lia.
    - rewrite flat_new in H0. destruct (flat_args fr l (S n)) as [[ts la] n1] eqn:Q. injection H0 as <- <- <-.
      destruct (flat_args_vars0 H (S n) Hv Q) as (L & W & W'). assert (Wn : within n n1 [fr n]) by (apply within_fr; lia).
      split; [lia|]. split; [exact Wn|]. cbn [flat_map lit_vars aexpr_vars]. apply within_app; [apply within_cons; auto|]; eapply within_mono; eauto; lia.
  Qed.
  Lemma flat_args_vars : forall l n ts ls n', (forall v, In v (flat_map expr_vars l) -> V v) -> flat_args fr l n = (ts, ls, n') ->
    n <= n' /\ within n n' (flat_map tvar ts) /\ within n n' (flat_map lit_vars ls).
  Proof. intros l n ts ls n'. apply flat_args_vars0. apply Forall_forall. intros e _. apply flat_vars. Qed.

  (** ** The numbered variables have the values of the expressions *)
  Definition flat_sound_at (e : expr) : Prop := forall s n t ls n', flat fr e n = (t, ls, n') -> sat s ls -> has_value (b_env B) s e (tval s t).
  Lemma flat_args_sound0 : forall l, Forall flat_sound_at l -> forall s n ts ls n', flat_args fr l n = (ts, ls, n') -> sat s ls -> have_values (b_env B) s l (tvals s ts).
  Proof.
    intros l F. induction F as [|e l He F IH]; intros s n ts ls n' H S0; cbn [flat_args] in H.
    - injection H as <- <- <-. constructor.
    - destruct (flat fr e n) as [[t l1] n1] eqn:Q. destruct (flat_args fr l n1) as [[ts' l2] n2] eqn:Q2. injection H as <- <- <-.
      apply sat_app_inv in S0. destruct S0 as [S1 S2]. constructor; [eapply He; eauto|]. eapply IH; eauto.
  Qed.
  Lemma flat_sound : forall e, flat_sound_at e.
  Proof.
    induction e using expr_ind2; intros s n t ls n' H0 S0.
    - injection H0 as <- <- <-. reflexivity.
    - exact Logic.I.
    - injection H0 as <- <- <-. reflexivity.
    - cbn [flat] in H0. destruct (flat fr e1 (S n)) as [[ta la] n1] eqn:Qa. destruct (flat fr e2 n1) as [[tb lb] n2] eqn:Qb. injection H0 as <- <- <-.
      change (sat s ([LAssign (fr n) (ABin op ta tb)] ++ inverses (fr n) op ta tb ++ la ++ lb)) in S0.
      apply sat_app_inv in S0. destruct S0 as [S1 S0]. apply sat_app_inv in S0. destruct S0 as [_ S0]. apply sat_app_inv in S0. destruct S0 as [S2 S3].
      exists (tval s ta), (tval s tb). split; [eapply IHe1; eauto|]. split; [eapply IHe2; eauto|]. exact (S1 _ (or_introl eq_refl)).
    - cbn [flat] in H0. destruct (flat fr e (S n)) as [[ta la] n1] eqn:Qa. injection H0 as <- <- <-.
      change (sat s ([LAssign (fr n) (AUn op ta)] ++ la)) in S0. apply sat_app_inv in S0. destruct S0 as [S1 S2].
      exists (tval s ta). split; [eapply IHe; eauto|]. exact (S1 _ (or_introl eq_refl)).
    - cbn [flat] in H0. destruct (flat fr e1 (S n)) as [[tc lc] n1] eqn:Qc. destruct (flat fr e2 n1) as [[ta la] n2] eqn:Qa. destruct (flat fr e3 n2) as [[tb lb] n3] eqn:Qb.
      injection H0 as <- <- <-.
      change (sat s ([LAssign (fr n) (AIte tc ta tb)] ++ lc ++ la ++ lb)) in S0.
      apply sat_app_inv in S0. destruct S0 as [S1 S0]. apply sat_app_inv in S0. destruct S0 as [S2 S0]. apply sat_app_inv in S0. destruct S0 as [S3 S4].
      pose proof (S1 _ (or_introl eq_refl)) as K. cbn in K. pose proof (IHe1 _ _ _ _ _ Qc S2) as Hc. pose proof (IHe2 _ _ _ _ _ Qa S3) as Ha. pose proof (IHe3 _ _ _ _ _ Qb S4) as Hb.
      cbn [has_value tval]. destruct (tval s tc) eqn:T; try discriminate K. destruct b; injection K as K; rewrite <- K; [left|right]; auto.
    - rewrite flat_call in H0. destruct (flat_args fr l (S n)) as [[ts la] n1] eqn:Q. injection H0 as <- <- <-.
      change (sat s ([LAssign (fr n) (ACall f ts)] ++ la)) in S0. apply sat_app_inv in S0. destruct S0 as [S1 S2]. apply has_value_call.
      exists (tvals s ts). split; [eapply flat_args_sound0; eauto|]. exact (S1 _ (or_introl eq_refl)).
    - rewrite flat_new in H0. destruct (flat_args fr l (S n)) as [[ts la] n1] eqn:Q. injection H0 as <- <- <-.
      change (sat s ([LAssign (fr n) (ANew f ts)] ++ la)) in S0. apply sat_app_inv in S0. destruct S0 as [S1 S2]. apply has_value_new.
      exists (tvals s ts). split; [eapply flat_args_sound0; eauto|]. pose proof (S1 _ (or_introl eq_refl)) as K. cbn in K. injection K as K. symmetry. exact K.
  Qed.
  Lemma flat_args_sound : forall l s n ts ls n', flat_args fr l n = (ts, ls, n') -> sat s ls -> have_values (b_env B) s l (tvals s ts).
  Proof. intros l. apply flat_args_sound0. apply Forall_forall. intros e _. apply flat_sound. Qed.

  (** ** Values for the numbered variables *)
  Definition upd (s : subst) (v : var) (r : value) : subst := fun w => if Nat.eqb w v then r else s w.
  Lemma upd_same : forall s v r, upd s v r v = r.
  Proof. intros. unfold upd. rewrite Nat.eqb_refl. auto. Qed.
  Lemma upd_ext : forall n n' s r, n < n' -> ext n n' s (upd s (fr n) r).
  Proof. intros n n' s r L v H. unfold upd. destruct (Nat.eqb_spec v (fr n)); auto. exfalso. apply (H n); auto. Qed.
  Lemma upd_ext1 : forall n s r, ext n (S n) s (upd s (fr n) r).
  Proof. intros. apply upd_ext. auto. Qed.
  Lemma inverses_sat : forall s left op t1 t2 a b, exact (b_env B) s op a b ->
    has_value (b_env B) s a (tval s t1) -> has_value (b_env B) s b (tval s t2) ->
    (forall c, b = EConst c -> exists c, t2 = TConst c) ->
    bin_value (b_env B) op (tval s t1) (tval s t2) = EOk (s left) -> sat s (inverses left op t1 t2).
  Proof.
    intros s left op t1 t2 a b Hx Ha Hb HC Hv l I. unfold inverses in I. destruct (add_sub_inv op) as [inv|] eqn:Q; [|destruct I].
    assert (K : op = OAdd \/ op = OSub) by (destruct op; try discriminate Q; auto).
    assert (Y : exact_at (b_env B) s op a b) by (destruct K as [-> | ->]; [exact Hx|exact (proj2 Hx)]).
    destruct (Y _ _ Ha Hb) as (k & i & j & E1 & E2 & R1 & R2 & R3). rewrite E1, E2, bin_int in Hv by auto.
    destruct K as [-> | ->]; injection Q as <-; cbn [int_arith] in Hv; rewrite (saturating_in R3) in Hv; injection Hv as Hv.
    - apply in_app_or in I. destruct I as [I|I].
      + destruct t1 as [v|c]; [|destruct I]. destruct I as [<-|[]]. cbn [lit_sat other_sat aeval]. change (tval s (TVar left)) with (s left). cbn [tval] in E1. rewrite <- Hv, E2, E1, bin_int by auto.
        cbn [int_arith]. replace (i + j - j)%Z with i by lia. apply saturating_in; auto.
      + destruct t2 as [v|c]; [|destruct I]. destruct I as [<-|[]]. cbn [lit_sat other_sat aeval]. change (tval s (TVar left)) with (s left). cbn [tval] in E2. rewrite <- Hv, E1, E2, bin_int by auto.
        cbn [int_arith]. replace (i + j - i)%Z with j by lia. apply saturating_in; auto.
    - destruct Hx as [(c0 & EC) _]. destruct (HC c0 EC) as (c & ->). rewrite app_nil_r in I. destruct t1 as [v|c']; [|destruct I]. destruct I as [<-|[]].
      cbn [lit_sat other_sat aeval]. change (tval s (TVar left)) with (s left). cbn [tval] in E1, E2. rewrite <- Hv, E1. cbn [tval]. rewrite E2, bin_int by auto.
      cbn [int_arith]. replace (i - j + j)%Z with i by lia. apply saturating_in; auto.
  Qed.

  Definition flat_complete_at (e : expr) : Prop := forall s n t ls n' r, (forall v, In v (expr_vars e) -> V v) -> flat fr e n = (t, ls, n') ->
    regular (b_env B) s e -> has_value (b_env B) s e r -> exists s', ext n n' s s' /\ sat s' ls /\ tval s' t = r.
  Lemma source_agree : forall n n' s s' vs, (forall v, In v vs -> V v) -> ext n n' s s' -> agree vs s s'.
  Proof. intros n n' s s' vs H K v I. symmetry. eapply ext_source; eauto. Qed.
  Lemma flat_args_complete0 : forall l, Forall flat_complete_at l -> forall s n ts ls n' rs, (forall v, In v (flat_map expr_vars l) -> V v) -> flat_args fr l n = (ts, ls, n') ->
    (forall e, In e l -> regular (b_env B) s e) -> have_values (b_env B) s l rs -> exists s', ext n n' s s' /\ sat s' ls /\ tvals s' ts = rs.
  Proof.
    intros l F. induction F as [|e l He F IH]; intros s n ts ls n' rs Hv H R K; cbn [flat_args] in H.
    - injection H as <- <- <-. inversion K; subst. exists s. split; [apply ext_refl|]. split; [intros x []|reflexivity].
    - destruct (flat fr e n) as [[t l1] n1] eqn:Q. destruct (flat_args fr l n1) as [[ts' l2] n2] eqn:Q2. injection H as <- <- <-.
      inversion K as [|? r ? rs' K1 K2]; subst.
      assert (V1 : forall v, In v (expr_vars e) -> V v) by (intros v I; apply Hv; cbn; apply in_or_app; auto).
      assert (V2 : forall v, In v (flat_map expr_vars l) -> V v) by (intros v I; apply Hv; cbn; apply in_or_app; auto).
      destruct (He s n t l1 n1 r V1 Q (R e (or_introl eq_refl)) K1) as (s1 & X1 & S1 & T1).
      destruct (flat_vars e n V1 Q) as (L1 & W1 & W1'). destruct (flat_args_vars l n1 V2 Q2) as (L2 & W2 & W2').
      destruct (IH s1 n1 ts' l2 n2 rs' V2 Q2) as (s2 & X2 & S2 & T2).
      { intros x I. apply regular_local with (s := s); [|apply R; right; auto]. apply source_agree with (n := n) (n' := n1); auto.
        intros v J. apply V2. apply in_flat_map. eauto. }
      { eapply values_local; [|exact K2]. apply source_agree with (n := n) (n' := n1); auto. }
      exists s2. split; [eapply ext_trans; eauto|]. split.
      + apply sat_app; auto. eapply ext_sat with (n := n) (n1 := n1); eauto.
      + cbn [tvals map]. f_equal; auto. rewrite <- T1. symmetry. apply tval_agree. eapply ext_agree with (n := n) (n1 := n1); eauto.
  Qed.
  Lemma const_term : forall e n t ls n', flat fr e n = (t, ls, n') -> forall c, e = EConst c -> exists c, t = TConst c.
  Proof. intros e n t ls n' H c ->. injection H as <- _ _. eauto. Qed.
  Lemma flat_complete : forall e, flat_complete_at e.
  Proof.
    induction e using expr_ind2; intros s n t ls n' r Hv H0 R K; pose proof (flat_vars _ n Hv H0) as (_ & W0 & W0'); cbn [expr_vars] in Hv.
    - injection H0 as <- <- <-. exists s. split; [apply ext_refl|]. split; [intros x []|]. symmetry. exact K.
    - injection H0 as <- <- <-. exists (upd s (fr n) r). split; [apply upd_ext; auto|]. split; [intros x []|]. apply upd_same.
    - injection H0 as <- <- <-. exists s. split; [apply ext_refl|]. split; [intros x []|]. symmetry. exact K.
    - cbn [flat] in H0. destruct (flat fr e1 (S n)) as [[ta la] n1] eqn:Qa. destruct (flat fr e2 n1) as [[tb lb] n2] eqn:Qb. injection H0 as <- <- <-.
      assert (V1 : forall v, In v (expr_vars e1) -> V v) by (intros v I; apply Hv, in_or_app; auto).
      assert (V2 : forall v, In v (expr_vars e2) -> V v) by (intros v I; apply Hv, in_or_app; auto).
      destruct R as (_ & R1 & R2 & Hx). destruct K as (x & y & K1 & K2 & Kv).
      destruct (flat_vars e1 (S n) V1 Qa) as (L1 & W1 & W1'). destruct (flat_vars e2 n1 V2 Qb) as (L2 & W2 & W2').
      destruct (IHe1 s (S n) ta la n1 x V1 Qa R1 K1) as (s1 & X1 & S1 & T1).
      destruct (IHe2 s1 n1 tb lb n2 y V2 Qb) as (s2 & X2 & S2 & T2).
      { apply regular_local with (s := s); auto. eapply source_agree; eauto. }
      { eapply value_local; [|exact K2]. eapply source_agree; eauto. }
      set (s3 := upd s2 (fr n) r). pose proof (@upd_ext1 n s2 r) as X3. fold s3 in X3. assert (Y : s3 (fr n) = r) by apply upd_same.
      assert (X12 : ext (S n) n2 s s2) by (eapply ext_trans; eauto).
      assert (A1 : tval s3 ta = x). { rewrite <- T1. transitivity (tval s2 ta); symmetry; apply tval_agree.
        - eapply ext_agree with (n := S n) (n1 := n1) (m := n) (m' := S n); eauto.
        - eapply ext_agree with (n := S n) (n1 := n1); eauto. }
      assert (A2 : tval s3 tb = y). { rewrite <- T2. symmetry; apply tval_agree. eapply ext_agree with (n := n1) (n1 := n2) (m := n) (m' := S n); eauto. }
      assert (S3 : sat s3 (la ++ lb)).
      { apply sat_app; [exact (ext_sat W1' X3 (or_intror (le_n _)) (ext_sat W1' X2 (or_introl (le_n _)) S1))|exact (ext_sat W2' X3 (or_intror L1) S2)]. }
      assert (X13 : ext n n2 s s3). { intros v F. rewrite X3, X12; auto; intros i L; apply F; lia. }
      exists s3. split; auto. split; [|exact Y]. intros l [<-|I]; [cbn; rewrite A1, A2, Y; exact Kv|]. apply in_app_or in I. destruct I as [I|I]; [|apply S3; auto].
      assert (G1 : agree (expr_vars e1) s s3) by (eapply source_agree; eauto). assert (G2 : agree (expr_vars e2) s s3) by (eapply source_agree; eauto).
      revert l I. apply inverses_sat with (a := e1) (b := e2).
      + assert (Z : exact_at (b_env B) s op e1 e2 -> exact_at (b_env B) s3 op e1 e2).
        { intros Z x0 y0 P Q. apply agree_sym in G1. apply agree_sym in G2. apply Z; apply value_local with (s := s3); auto. }
        destruct op; auto; [exact (Z Hx)|]. destruct Hx as [Hc Hx]. split; auto.
      + rewrite A1. eapply value_local; eauto.
      + rewrite A2. eapply value_local; eauto.
      + intros c. eapply const_term; eauto.
      + rewrite A1, A2, Y. exact Kv.
    - cbn [flat] in H0. destruct (flat fr e (S n)) as [[ta la] n1] eqn:Qa. injection H0 as <- <- <-.
      destruct R as (_ & R1). destruct K as (x & K1 & Kv). destruct (flat_vars e (S n) Hv Qa) as (L1 & W1 & W1').
      destruct (IHe s (S n) ta la n1 x Hv Qa R1 K1) as (s1 & X1 & S1 & T1).
      set (s3 := upd s1 (fr n) r). pose proof (@upd_ext1 n s1 r) as X3. fold s3 in X3. assert (Y : s3 (fr n) = r) by apply upd_same.
      exists s3. split; [intros v F; rewrite X3, X1; auto; intros i L; apply F; lia|]. split; [|exact Y]. intros l [<-|I].
      + cbn. rewrite Y, <- Kv, <- T1. f_equal. symmetry. apply tval_agree. eapply ext_agree with (n := S n) (n1 := n1) (m := n) (m' := S n); eauto.
      + revert l I. eapply ext_sat with (n := S n) (n1 := n1) (m := n) (m' := S n); eauto.
    - cbn [flat] in H0. destruct (flat fr e1 (S n)) as [[tc lc] n1] eqn:Qc. destruct (flat fr e2 n1) as [[ta la] n2] eqn:Qa. destruct (flat fr e3 n2) as [[tb lb] n3] eqn:Qb.
      injection H0 as <- <- <-.
      assert (V1 : forall v, In v (expr_vars e1) -> V v) by (intros v I; apply Hv; rewrite !in_app_iff; auto).
      assert (V2 : forall v, In v (expr_vars e2) -> V v) by (intros v I; apply Hv; rewrite !in_app_iff; auto).
      assert (V3 : forall v, In v (expr_vars e3) -> V v) by (intros v I; apply Hv; rewrite !in_app_iff; auto).
      destruct R as (_ & R1 & R2 & R3).
      destruct (flat_vars e1 (S n) V1 Qc) as (L1 & W1 & W1'). destruct (flat_vars e2 n1 V2 Qa) as (L2 & W2 & W2'). destruct (flat_vars e3 n2 V3 Qb) as (L3 & W3 & W3').
      assert (E0 : exists c x y, has_value (b_env B) s e1 (VBool c) /\ has_value (b_env B) s e2 x /\ has_value (b_env B) s e3 y /\ r = (if c then x else y)).
      { destruct (regular_value _ _ _ R2) as (x & Hx). destruct (regular_value _ _ _ R3) as (y & Hy). destruct K as [[K1 K2]|[K1 K2]].
        - exists true, r, y. auto.
        - exists false, x, r. auto. }
      destruct E0 as (c & x & y & K1 & K2 & K3 & Er).
      destruct (IHe1 s (S n) tc lc n1 (VBool c) V1 Qc R1 K1) as (s1 & X1 & S1 & T1).
      destruct (IHe2 s1 n1 ta la n2 x V2 Qa) as (s2 & X2 & S2 & T2).
      { apply regular_local with (s := s); auto. eapply source_agree; eauto. }
      { eapply value_local; [|exact K2]. eapply source_agree; eauto. }
      assert (X12 : ext (S n) n2 s s2) by (eapply ext_trans; eauto).
      destruct (IHe3 s2 n2 tb lb n3 y V3 Qb) as (s3 & X3 & S3 & T3).
      { apply regular_local with (s := s); auto. eapply source_agree; eauto. }
      { eapply value_local; [|exact K3]. eapply source_agree; eauto. }
      set (s4 := upd s3 (fr n) r). pose proof (@upd_ext1 n s3 r) as X4. fold s4 in X4. assert (Y : s4 (fr n) = r) by apply upd_same.
      assert (X23 : ext n1 n3 s1 s3) by (eapply ext_trans; eauto).
      assert (Z1 : sat s3 lc) by exact (ext_sat W1' X23 (or_introl (le_n _)) S1). assert (Z2 : sat s3 la) by exact (ext_sat W2' X3 (or_introl (le_n _)) S2).
      assert (N2 : n3 <= n \/ S n <= n2) by (right; lia).
      assert (A1 : tval s4 tc = VBool c).
      { rewrite <- T1. transitivity (tval s3 tc); symmetry; apply tval_agree; [exact (ext_agree W1 X4 (or_intror (le_n _)))|exact (ext_agree W1 X23 (or_introl (le_n _)))]. }
      assert (A2 : tval s4 ta = x).
      { rewrite <- T2. transitivity (tval s3 ta); symmetry; apply tval_agree; [exact (ext_agree W2 X4 (or_intror L1))|exact (ext_agree W2 X3 (or_introl (le_n _)))]. }
      assert (A3 : tval s4 tb = y) by (rewrite <- T3; symmetry; apply tval_agree; exact (ext_agree W3 X4 N2)).
      exists s4. split; [intros v F; rewrite X4, X3, X12; auto; intros i L; apply F; lia|]. split; [|exact Y]. intros l [<-|I].
      + cbn. rewrite A1, A2, A3, Y, Er. destruct c; reflexivity.
      + revert l I. repeat apply sat_app.
        * exact (ext_sat W1' X4 (or_intror (le_n _)) Z1).
        * exact (ext_sat W2' X4 (or_intror L1) Z2).
        * exact (ext_sat W3' X4 N2 S3).
    - apply regular_call in R. destruct R as [_ R]. apply has_value_call in K. destruct K as (vs & K & Kv).
      rewrite flat_call in H0. destruct (flat_args fr l (S n)) as [[ts la] n1] eqn:Q. injection H0 as <- <- <-.
      destruct (flat_args_complete0 H (S n) Hv Q R K) as (s1 & X1 & S1 & T1). destruct (flat_args_vars l (S n) Hv Q) as (L & W & W').
      set (s3 := upd s1 (fr n) r). pose proof (@upd_ext1 n s1 r) as X3. fold s3 in X3. assert (Y : s3 (fr n) = r) by apply upd_same.
      exists s3. split; [intros v F; rewrite X3, X1; auto; intros i Li; apply F; lia|]. split; [|exact Y]. intros x [<-|I].
      + cbn. rewrite Y, <- Kv, <- T1. f_equal. symmetry. apply tvals_agree. eapply ext_agree with (n := S n) (n1 := n1) (m := n) (m' := S n); eauto.
      + revert x I. eapply ext_sat with (n := S n) (n1 := n1) (m := n) (m' := S n); eauto.
    - apply regular_new in R. destruct R as [_ R]. apply has_value_new in K. destruct K as (vs & K & Kv).
      rewrite flat_new in H0. destruct (flat_args fr l (S n)) as [[ts la] n1] eqn:Q. injection H0 as <- <- <-.
      destruct (flat_args_complete0 H (S n) Hv Q R K) as (s1 & X1 & S1 & T1). destruct (flat_args_vars l (S n) Hv Q) as (L & W & W').
      set (s3 := upd s1 (fr n) r). pose proof (@upd_ext1 n s1 r) as X3. fold s3 in X3. assert (Y : s3 (fr n) = r) by apply upd_same.
      exists s3. split; [intros v F; rewrite X3, X1; auto; intros i Li; apply F; lia|]. split; [|exact Y]. intros x [<-|I].
      + cbn. rewrite Y, Kv, <- T1. do 3 f_equal. symmetry. apply tvals_agree. eapply ext_agree with (n := S n) (n1 := n1) (m := n) (m' := S n); eauto.
      + revert x I. eapply ext_sat with (n := S n) (n1 := n1) (m := n) (m' := S n); eauto.
  Qed.
  Lemma flat_args_complete : forall l s n ts ls n' rs, (forall v, In v (flat_map expr_vars l) -> V v) -> flat_args fr l n = (ts, ls, n') ->
    (forall e, In e l -> regular (b_env B) s e) -> have_values (b_env B) s l rs -> exists s', ext n n' s s' /\ sat s' ls /\ tvals s' ts = rs.
  Proof. intros l. apply flat_args_complete0. apply Forall_forall. intros e _. apply flat_complete. Qed.

  (** ** Literals *)
  Lemma lit_local : forall s s' f ls n n', flat_lit fr f n = Some (ls, n') -> agree (form_vars f) s s' -> fholds B g X M s f -> fholds B g X M s' f.
  Proof.
    intros s s' f ls n n' H A K. destruct f; try discriminate H.
    - destruct K as (vs & K1 & K2). exists vs. split; auto. eapply values_local; eauto.
    - destruct K as (ws & K1 & K2). exists ws. split; auto. clear H K2. cbn [form_vars] in A. induction K1 as [|e w l ws He F IH]; [constructor|].
      constructor; [|apply IH; intros v I; apply A; cbn; apply in_or_app; auto]. destruct w as [v|]; cbn in *; auto. destruct He as [H1 H2]. split; auto.
      apply value_local with (s := s); auto. intros x I. apply A. cbn. apply in_or_app; auto.
    - cbn in *. eapply constraint_local; eauto.
  Qed.
  Lemma lit_flat_vars : forall f n ls n', (forall v, In v (form_vars f) -> V v) -> flat_lit fr f n = Some (ls, n') -> n <= n' /\ within n n' (flat_map lit_vars ls).
  Proof.
    intros f n ls n' Hv H. destruct f as [p l|p l|e| | |]; try discriminate H; cbn [flat_lit form_vars] in *.
    - destruct (flat_args fr l n) as [[ts la] n1] eqn:Q. injection H as <- <-. destruct (flat_args_vars l n Hv Q) as (L & W1 & W2). split; auto.
      apply within_app; auto.
    - destruct (flat_args fr l n) as [[ts la] n1] eqn:Q. injection H as <- <-. destruct (flat_args_vars l n Hv Q) as (L & W1 & W2). split; auto.
      apply within_app; auto.
    - destruct e as [| | |op a b|op a| | |]; try discriminate H; [|destruct op; try discriminate H].
      + destruct (cop_of op) as [c|]; [|discriminate H]. cbn [obnd] in H. destruct (flat fr a n) as [[ta la] n1] eqn:Qa. destruct (flat fr b n1) as [[tb lb] n2] eqn:Qb. injection H as <- <-.
        cbn [expr_vars] in Hv. destruct (flat_vars a n (fun v I => Hv v (in_or_app _ _ _ (or_introl I))) Qa) as (L1 & W1 & W1').
        destruct (flat_vars b n1 (fun v I => Hv v (in_or_app _ _ _ (or_intror I))) Qb) as (L2 & W2 & W2').
        split; [lia|]. cbn [flat_map lit_vars]. rewrite flat_map_app. repeat apply within_app; eapply within_mono; eauto; lia.
      + destruct (flat fr a n) as [[ta la] n1] eqn:Qa. injection H as <- <-. destruct (flat_vars a n Hv Qa) as (L1 & W1 & W1'). split; auto.
        apply within_app; auto.
  Qed.
  Lemma fholds_lit_local : forall s s' l n x, flat_lits fr l n = Some x -> forall f, In f l -> agree (form_vars f) s s' -> fholds B g X M s f -> fholds B g X M s' f.
  Proof.
    induction l as [|h l IH]; intros n x H f I A K; [destruct I|]. cbn [flat_lits] in H. destruct (flat_lit fr h n) as [[l1 n1]|] eqn:Q1; [|discriminate H]. cbn [obnd fst snd] in H.
    destruct (flat_lits fr l n1) as [y|] eqn:Q2; [|discriminate H]. destruct I as [<-|I]; [eapply lit_local; eauto|eapply IH; eauto].
  Qed.

  Lemma lit_flat_sound : forall s f n ls n', flat_lit fr f n = Some (ls, n') -> neg_wild_free f = true -> sat s ls -> fholds B g X M s f.
  Proof.
    intros s f n ls n' H W S0. destruct f as [p l|p l|e| | |]; try discriminate H; cbn [flat_lit] in H.
    - destruct (flat_args fr l n) as [[ts la] n1] eqn:Q. injection H as <- <-. exists (tvals s ts). split.
      + eapply flat_args_sound; eauto. intros x I. apply S0. right; auto.
      + exact (S0 _ (or_introl eq_refl)).
    - destruct (flat_args fr l n) as [[ts la] n1] eqn:Q. injection H as <- <-. exists (map Some (tvals s ts)). split.
      + apply values_patterns; auto. eapply flat_args_sound; eauto. intros x I. apply S0. right; auto.
      + intros us F. apply fits_some in F. subst us. pose proof (S0 _ (or_introl eq_refl)) as K. cbn in K. unfold tuples. destruct (g_foreign g p); exact K.
    - destruct e as [| | |op a b|op a| | |]; try discriminate H; [|destruct op; try discriminate H].
      + destruct (cop_of op) as [c|] eqn:C; [|discriminate H]. cbn [obnd] in H. destruct (flat fr a n) as [[ta la] n1] eqn:Qa. destruct (flat fr b n1) as [[tb lb] n2] eqn:Qb. injection H as <- <-.
        cbn. rewrite C. exists (tval s ta), (tval s tb). split; [|split; [|exact (S0 _ (or_introl eq_refl))]].
        * eapply flat_sound; eauto. intros x I. apply S0. right. apply in_or_app; auto.
        * eapply flat_sound; eauto. intros x I. apply S0. right. apply in_or_app; auto.
      + destruct (flat fr a n) as [[ta la] n1] eqn:Qa. injection H as <- <-. pose proof (S0 _ (or_introl eq_refl)) as K. cbn in K. cbn. rewrite <- K.
        eapply flat_sound; eauto. intros x I. apply S0. right; auto.
  Qed.
  Lemma lit_flat_complete : forall s f n ls n', (forall v, In v (form_vars f) -> V v) -> flat_lit fr f n = Some (ls, n') -> neg_wild_free f = true ->
    (forall e, In e (fexprs f) -> regular (b_env B) s e) -> fholds B g X M s f -> exists s', ext n n' s s' /\ sat s' ls.
  Proof.
    intros s f n ls n' Hv H W R K. destruct f as [p l|p l|e| | |]; try discriminate H; cbn [flat_lit form_vars fexprs] in *.
    - destruct (flat_args fr l n) as [[ts la] n1] eqn:Q. injection H as <- <-. destruct K as (vs & K1 & K2).
      destruct (@flat_args_complete l _ n _ _ _ _ Hv Q R K1) as (s' & X1 & S1 & T1). exists s'. split; auto. intros x [<-|I]; auto. cbn [lit_sat other_sat a_pred a_args]. rewrite T1. exact K2.
    - destruct (flat_args fr l n) as [[ts la] n1] eqn:Q. injection H as <- <-. destruct K as (ws & K1 & K2). destruct (patterns_values W K1) as (vs & -> & K3).
      destruct (@flat_args_complete l _ n _ _ _ _ Hv Q R K3) as (s' & X1 & S1 & T1). exists s'. split; auto. intros x [<-|I]; auto. pose proof (K2 vs (fits_refl vs)) as K4. cbn [lit_sat other_sat a_pred a_args]. rewrite T1.
      unfold tuples in K4. destruct (g_foreign g p); exact K4.
    - destruct e as [| | |op a b|op a| | |]; try discriminate H; [|destruct op; try discriminate H].
      + cbn in K. destruct (cop_of op) as [c|] eqn:C; [|discriminate H]. cbn [obnd] in H. destruct (flat fr a n) as [[ta la] n1] eqn:Qa. destruct (flat fr b n1) as [[tb lb] n2] eqn:Qb. injection H as <- <-.
        destruct K as (x & y & K1 & K2 & K3). cbn [expr_vars cons_args] in *.
        assert (V1 : forall v, In v (expr_vars a) -> V v) by (intros v I; apply Hv, in_or_app; auto). assert (V2 : forall v, In v (expr_vars b) -> V v) by (intros v I; apply Hv, in_or_app; auto).
        destruct (flat_vars a n V1 Qa) as (L1 & W1 & W1'). destruct (flat_vars b n1 V2 Qb) as (L2 & W2 & W2').
        destruct (@flat_complete a _ n _ _ _ _ V1 Qa (R a (or_introl eq_refl)) K1) as (s1 & X1 & S1 & T1).
        destruct (@flat_complete b s1 n1 _ _ _ y V2 Qb) as (s2 & X2 & S2 & T2).
        { apply regular_local with (s := s); [eapply source_agree; eauto|]. apply R. right; left; auto. }
        { eapply value_local; [|exact K2]. eapply source_agree; eauto. }
        assert (T1' : tval s2 ta = x) by (rewrite <- T1; symmetry; apply tval_agree; exact (ext_agree W1 X2 (or_introl (le_n _)))).
        exists s2. split; [eapply ext_trans; eauto|]. intros l [<-|I]; [cbn; rewrite T1', T2; exact K3|].
        revert l I. apply sat_app; auto. exact (ext_sat W1' X2 (or_introl (le_n _)) S1).
      + cbn in K. destruct (flat fr a n) as [[ta la] n1] eqn:Qa. injection H as <- <-. destruct (@flat_complete a _ n _ _ _ _ Hv Qa (R a (or_introl eq_refl)) K) as (s1 & X1 & S1 & T1).
        exists s1. split; auto. intros l [<-|I]; auto.
  Qed.

  Lemma fexprs_vars : forall f e v, In e (fexprs f) -> In v (expr_vars e) -> In v (form_vars f).
  Proof.
    intros f e v I J. destruct f; cbn [fexprs form_vars] in *; try contradiction; try (apply in_flat_map; eauto). eapply cons_args_vars; eauto.
  Qed.
  Lemma lits_flat_vars : forall l n ls n', (forall f v, In f l -> In v (form_vars f) -> V v) -> flat_lits fr l n = Some (ls, n') -> n <= n' /\ within n n' (flat_map lit_vars ls).
  Proof.
    induction l as [|f l IH]; intros n ls n' Hv H; cbn [flat_lits] in H.
    - injection H as <- <-. split; auto. intros v [].
    - destruct (flat_lit fr f n) as [[l1 n1]|] eqn:Q1; [|discriminate H]. cbn [obnd fst snd] in H. destruct (flat_lits fr l n1) as [[l2 n2]|] eqn:Q2; [|discriminate H]. injection H as <- <-.
      destruct (lit_flat_vars f n) with (2 := Q1) as (L1 & W1); [intros v; apply Hv; left; auto|]. destruct (IH n1 l2 n2) as (L2 & W2); auto; [intros h v I; apply Hv; right; auto|].
      cbn [fst snd]. split; [lia|]. rewrite flat_map_app. apply within_app; eapply within_mono; eauto; lia.
  Qed.
  Lemma lits_flat_sound : forall s l n ls n', flat_lits fr l n = Some (ls, n') -> forallb neg_wild_free l = true -> sat s ls -> forall f, In f l -> fholds B g X M s f.
  Proof.
    induction l as [|f l IH]; intros n ls n' H W S0 h I; [destruct I|]. cbn [flat_lits] in H. cbn in W. apply andb_true_iff in W. destruct W as [Wf Wl].
    destruct (flat_lit fr f n) as [[l1 n1]|] eqn:Q1; [|discriminate H]. cbn [obnd fst snd] in H. destruct (flat_lits fr l n1) as [[l2 n2]|] eqn:Q2; [|discriminate H]. injection H as <- <-.
    apply sat_app_inv in S0. destruct S0 as [S1 S2]. destruct I as [<-|I]; [eapply lit_flat_sound; eauto|]. eapply IH; eauto.
  Qed.
  Lemma lits_flat_complete : forall l s n ls n', (forall f v, In f l -> In v (form_vars f) -> V v) -> flat_lits fr l n = Some (ls, n') -> forallb neg_wild_free l = true ->
    (forall f e, In f l -> In e (fexprs f) -> regular (b_env B) s e) -> (forall f, In f l -> fholds B g X M s f) -> exists s', ext n n' s s' /\ sat s' ls.
  Proof.
    induction l as [|f l IH]; intros s n ls n' Hv H W R K; cbn [flat_lits] in H.
    - injection H as <- <-. exists s. split; [apply ext_refl|intros x []].
    - cbn in W. apply andb_true_iff in W. destruct W as [Wf Wl].
      destruct (flat_lit fr f n) as [[l1 n1]|] eqn:Q1; [|discriminate H]. cbn [obnd fst snd] in H. destruct (flat_lits fr l n1) as [[l2 n2]|] eqn:Q2; [|discriminate H]. injection H as <- <-. cbn [fst snd].
      assert (V1 : forall v, In v (form_vars f) -> V v) by (intros v; apply Hv; left; auto). assert (V2 : forall h v, In h l -> In v (form_vars h) -> V v) by (intros h v I; apply Hv; right; auto).
      destruct (lit_flat_vars f n V1 Q1) as (L1 & W1). destruct (lits_flat_vars l n1 V2 Q2) as (L2 & W2).
      destruct (@lit_flat_complete _ f n _ _ V1 Q1 Wf (fun e => R f e (or_introl eq_refl)) (K f (or_introl eq_refl))) as (s1 & X1 & S1).
      destruct (IH s1 n1 l2 n2) as (s2 & X2 & S2); auto.
      { intros h e I J. apply regular_local with (s := s); [|apply (R h); auto; right; auto]. eapply source_agree; eauto. intros v Y. apply (V2 h); auto. eapply fexprs_vars; eauto. }
      { intros h I. apply fholds_lit_local with (s := s) (s' := s1) (l := l) (n := n1) (x := (l2, n2)); auto; [|apply K; right; auto]. eapply source_agree; eauto. }
      exists s2. split; [eapply ext_trans; eauto|]. apply sat_app; auto. exact (ext_sat W1 X2 (or_introl (le_n _)) S1).
  Qed.
End Flat.
