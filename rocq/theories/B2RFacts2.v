(** Facts about the lowering of plans (B2R.v), used by C53: the other nodes. *)
From Coq Require Import List ZArith Bool Arith Lia Permutation.
From Verif Require Import Order Value Back Eval Ram Dataflow BackSem Scc SccFacts Plan PlanSem PlanFacts
  VarTuple VarTupleFacts B2R RamSem PermFacts B2RFacts.
Import ListNotations.
Set Implicit Arguments.

Definition nodupb (l : list nat) : bool := length (dedup l) =? length l.
Lemma nodupb_NoDup : forall l, nodupb l = true -> NoDup l.
Proof.
  intros l H. apply Nat.eqb_eq in H. apply (@NoDup_incl_NoDup nat (dedup l)); [apply dedup_NoDup|unfold var in *; lia|].
  intros x I. exact (proj1 (dedup_In l x) I).
Qed.

(** A constraint compares values that the runtime can compare. *)
Definition con_typed (s : subst) (c : con) : Prop :=
  match c with
  | KBin CEq a b => tval s a = tval s b -> eq_able (tval s a) = true
  | KBin CNeq a b => same_variant (tval s a) (tval s b) = true /\ eq_able (tval s a) = true
  | _ => True
  end.
(** Assignments in an order where operands come first. *)
Fixpoint ordered (bv : list var) (l : list (var * aexpr)) : Prop :=
  match l with [] => True | x :: l => incl (aexpr_vars (snd x)) bv /\ ordered (fst x :: bv) l end.
(** The variables of the atom of a plan are its bounded ones. *)
Definition atom_bound (p : plan) : Prop :=
  NoDup (bvars p) /\ forall a, direct_atom p = Some a -> forall v, In v (avars a) <-> In v (bvars p).

Section Lower.
  Variables (C : cenv) (B : benv) (ag : nat -> nat -> rgrp -> tuple -> Prop).
  Variables (JI JM : rels) (I M : interp).
  Notation E := (b_env B).
  Notation D := (D B ag JM JI).
  Notation P := (psem B M I).

  (** An assignment has a value whenever its operands have one. *)
  Definition total_on (q : plan) (x : var * aexpr) : Prop :=
    is_new (snd x) = true \/
    (incl (aexpr_vars (snd x)) (bvars q) /\ forall s, P q s -> exists v, aeval E s (snd x) = EOk v).

  (** What lowering a plan asks for.  [gv] are variables the goal is known to
      have; [dup] tells that the goal may repeat variables. *)
  Definition both (gv bp bq : list var) : list var := filter (fun v => memb v gv || memb v bq) bp.
  Fixpoint okp (dup : bool) (gv : list var) (p : plan) {struct p} : Prop :=
    match p with
    | PUnit _ => True
    | PGround bv a => (forall v, In v (avars a) <-> In v bv) /\ atom_ok C JI JM I M false a /\ (dup = false \/ NoDup (avars a))
    | PFilter bv q cs =>
        incl bv (bvars q) /\ (forall c, In c cs -> incl (con_vars c) (bvars q)) /\
        (forall s c, P q s -> In c cs -> con_typed s c) /\
        okp (dup || negb (nodupb (flat_map (fun c => dedup (con_vars c)) cs))) (gv ++ flat_map con_vars cs) q
    | PProject bv q l =>
        incl bv (bvars q ++ map fst l) /\ NoDup (map fst l) /\ (forall x, In x l -> ~ In (fst x) (bvars q)) /\
        (exists l', Permutation l l' /\ ordered (bvars q) l') /\
        (forall x, In x l -> In (fst x) gv \/ total_on q x) /\
        okp dup (filter (fun v => memb v (bvars q))
                   (gv ++ flat_map (fun x => aexpr_vars (snd x)) (filter (fun x => memb (fst x) gv) l))) q
    | PJoin bv q r =>
        incl bv (bvars q ++ bvars r) /\ atom_bound q /\ atom_bound r /\
        (set_eqb (bvars q) (bvars r) = true -> direct_atom q = None -> direct_atom r = None -> join_vars q r <> [] ->
           dup = false /\ incl (bvars q) gv) /\
        okp false (both gv (bvars q) (bvars r)) q /\ okp false (both gv (bvars r) (bvars q)) r
    | PAnti bv q r =>
        incl bv (bvars q) /\ atom_bound q /\
        match r with
        | PGround br a => NoDup br /\ (forall v, In v (avars a) <-> In v br) /\ atom_ok C JI JM I M true a
        | _ => False
        end /\
        okp false (both gv (bvars q) (bvars r)) q
    | PReduce bv r => forall t, ag (rd_agg r) (a_pred (rd_body r)) (reduce_grp r) t <->
        exists s, b_agg B r (M (a_pred (rd_body r)))
                    (match rd_groupby r with Some a => M (a_pred a) | None => none_rel end) s /\ t = gtup (reduce_goal r) s
    | PFpGround bv a => exists cs vs, a_args a = map TConst cs ++ map TVar vs /\ length cs = ce_bounded C (a_pred a) /\ NoDup vs /\
        incl bv vs /\ forall ws, b_fp B (a_pred a) ws -> length ws = length (a_args a)
    | PFpConstr bv q a => incl bv (bvars q) /\ incl (avars a) (bvars q) /\ okp false (bvars q) q
    | PFpJoin bv q a => exists bs vs, a_args a = bs ++ map TVar vs /\ length bs = ce_bounded C (a_pred a) /\ NoDup vs /\
        incl (flat_map tvar bs) (bvars q) /\ (forall v, In v vs -> ~ In v (bvars q)) /\ incl bv (bvars q ++ vs) /\
        (forall ws, b_fp B (a_pred a) ws -> length ws = length (a_args a)) /\ okp false (bvars q) q
    end.

  Variable Z : bstate.
  Hypothesis TEMPS : forall n d, In (n, d) (z_temps Z) -> forall t, JI n t <-> B2RFacts.D B ag JM JI d t.
  Hypothesis NEGS : forall n d, In (n, d) (z_negs Z) -> forall t, JM n t <-> B2RFacts.D B ag JM JM d t.
  Hypothesis PERMS : forall b p g, In (p, g) (z_perms Z) -> forall t,
    jr JI JM b (ce_perm C p g) t <-> exists u, jr JI JM b p u /\ eval E (perm_expr g) u = EOk t.
  Hypothesis CINJ : forall i j c c', ce_const C i c = ce_const C j c' -> i = j.
  Hypothesis SORT : forall l, Permutation (ce_sort C l) l.
  Hypothesis HASH : forall l, Permutation (ce_hash C l) l.

  Lemma proc : forall d pr z d' z', process C d pr z = Some (d', z') -> d_neg pr = false -> ext z' Z ->
    ext z Z /\ forall t, D d' t <-> D d t.
  Proof.
    intros d pr z d' z' H N X. split; [eapply ext_trans; [eapply grows_process; eauto|auto]|].
    intros t. pose proof (@process_ok C B ag JI JM Z TEMPS NEGS d pr z d' z' H X t) as K. rewrite N in K. exact K.
  Qed.

  Definition sub_ok (q : plan) (dup : bool) (gv : list var) (sp : sub) : Prop := forall goal pr z d z',
    sp goal pr z = Some (d, z') -> ext z' Z -> d_neg pr = false ->
    incl (leaves goal) (bvars q) -> incl gv (leaves goal) -> (dup = false -> NoDup (leaves goal)) ->
    spec goal (D d) (P q).

  Lemma strong_iff : forall goal (D1 D2 : tuple -> Prop) Q, (forall t, D1 t <-> D2 t) -> strong goal D2 Q -> strong goal D1 Q.
  Proof. intros goal D1 D2 Q H K t. rewrite H. apply K. Qed.

  Lemma holds_agree : forall g s s' t, agree (leaves g) s s' -> holds g s t -> holds g s' t.
  Proof. intros g s s' t A H v a Ha. rewrite <- (A v (accessor_In _ _ Ha)). apply H; auto. Qed.
  Lemma holds_pair : forall g1 g2 s t1 t2, holds g1 s t1 -> holds g2 s t2 -> holds (GT [g1; g2]) s (TTup [t1; t2]).
  Proof.
    intros g1 g2 s t1 t2 H1 H2. apply holds_tuple; auto. intros [|[|j]] e u Ne Nu v b Hb _; cbn in Ne, Nu.
    - injection Ne as <-. injection Nu as <-. auto.
    - injection Ne as <-. injection Nu as <-. auto.
    - destruct j; discriminate.
  Qed.

  (** ** Unit and filters *)
  Lemma unit_gtup : forall g u s, unit_tuple g = Some u -> gtup g s = u.
  Proof.
    induction g as [v|l IH] using gt_ind'; intros u s H; cbn in H; [discriminate|].
    destruct (omap unit_tuple l) as [us|] eqn:Eo; [|discriminate]. cbn in H. injection H as <-. cbn. f_equal.
    apply omap_Forall2 in Eo. induction Eo as [|x y l us Ex Eo IHo]; auto. inversion IH; subst. cbn. f_equal; auto.
  Qed.
  Lemma con_expr_ok : forall g s t c e, con_expr g c = Some e -> holds g s t -> con_typed s c -> (tt_ E e t <-> con_sat s c).
  Proof.
    intros g s t c e H Hh T. destruct c as [c a b|a]; cbn in H.
    - destruct (term_expr g a) as [x|] eqn:Ex; [|discriminate]. cbn in H. destruct (term_expr g b) as [y|] eqn:Ey; [|discriminate].
      cbn in H. injection H as <-. pose proof (term_expr_eval E a Ex Hh) as Va. pose proof (term_expr_eval E b Ey Hh) as Vb.
      cbn [con_sat]. set (v := tval s a) in *. set (w := tval s b) in *.
      assert (V : eval E (XBin (binop_of_cop c) x y) t = tev (bin_value E (binop_of_cop c) v w)) by (cbn [eval]; rewrite Va, Vb; reflexivity).
      unfold tt_. destruct c; cbn [binop_of_cop cop_sat] in *.
      + fold (tt_ E (XBin OEq x y) t). apply eq_true; auto.
      + rewrite V. cbn [bin_value cmp_op]. destruct T as [T1 T2]. fold v w in T1, T2. rewrite T1, T2. cbn. split.
        * intros K. injection K as K. apply negb_true_iff in K. intros ->. rewrite (proj2 (veqb_eq w w)) in K; auto. discriminate.
        * intros K. repeat f_equal. apply negb_true_iff. destruct (veqb v w) eqn:Ev; auto. apply veqb_eq in Ev. tauto.
      + rewrite V. cbn [bin_value cmp_op]. destruct (same_variant v w), (lt_able v); cbn; try (split; [discriminate|intros (? & ? & ?); discriminate]).
        destruct (vcmp v w); split; try discriminate; try tauto; intros (_ & _ & K); try discriminate; tauto.
      + rewrite V. cbn [bin_value cmp_op]. destruct (same_variant v w), (lt_able v); cbn; try (split; [discriminate|intros (? & ? & ?); discriminate]).
        destruct (vcmp v w); split; try discriminate; try (intros _; repeat split; auto; discriminate); intros (_ & _ & K); try reflexivity; exfalso; apply K; auto.
      + rewrite V. cbn [bin_value cmp_op]. destruct (same_variant v w), (lt_able v); cbn; try (split; [discriminate|intros (? & ? & ?); discriminate]).
        destruct (vcmp v w); split; try discriminate; try tauto; intros (_ & _ & K); try discriminate; tauto.
      + rewrite V. cbn [bin_value cmp_op]. destruct (same_variant v w), (lt_able v); cbn; try (split; [discriminate|intros (? & ? & ?); discriminate]).
        destruct (vcmp v w); split; try discriminate; try (intros _; repeat split; auto; discriminate); intros (_ & _ & K); try reflexivity; exfalso; apply K; auto.
    - destruct (term_expr g a) as [x|] eqn:Ex; [|discriminate]. cbn in H. injection H as <-.
      pose proof (term_expr_eval E a Ex Hh) as Va. unfold tt_. cbn [eval con_sat]. rewrite Va. cbn. destruct (tval s a); cbn; try (split; discriminate).
      destruct b; cbn; split; congruence.
  Qed.
  Lemma cons_expr_ok : forall g s t cs e, cons_expr g cs = Some e -> holds g s t -> (forall c, In c cs -> con_typed s c) ->
    (tt_ E e t <-> forall c, In c cs -> con_sat s c).
  Proof.
    intros g s t cs e H Hh T. unfold cons_expr in H. destruct (omap (con_expr g) cs) as [es|] eqn:Eo; [|discriminate]. cbn in H.
    apply omap_Forall2 in Eo.
    assert (K : Forall (fun x => tt_ E x t) es <-> forall c, In c cs -> con_sat s c).
    { clear H. induction Eo as [|c x cs es Ex Eo IH]; [split; [intros _ ? []|constructor]|]. rewrite Forall_cons_iff, IH by (intros; apply T; right; auto).
      rewrite (@con_expr_ok g s t c x Ex Hh (T c (or_introl eq_refl))). split.
      - intros [A1 A2] c' [<-|I']; auto.
      - intros A. split; [apply A; left; auto|intros; apply A; right; auto]. }
    destruct es as [|x es]; [discriminate|]. injection H as <-. rewrite and_all_true, <- K, Forall_cons_iff. tauto.
  Qed.

  Lemma NoDup_flat_perm : forall A Bt (f g : A -> list Bt) l, (forall x, Permutation (f x) (g x)) -> NoDup (flat_map g l) -> NoDup (flat_map f l).
  Proof.
    intros A Bt f g l H ND. eapply Permutation_NoDup; [|exact ND]. clear ND. induction l as [|x l IH]; cbn; auto.
    apply Permutation_app; [apply Permutation_sym; auto|auto].
  Qed.
  Lemma filter_ok : forall bv q cs dup gv goal pr z d z', filter_df C (plan_df C q) cs goal pr z = Some (d, z') ->
    ext z' Z -> d_neg pr = false -> okp dup gv (PFilter bv q cs) ->
    sub_ok q (dup || negb (nodupb (flat_map (fun c => dedup (con_vars c)) cs))) (gv ++ flat_map con_vars cs) (plan_df C q) ->
    incl (leaves goal) bv -> incl gv (leaves goal) -> (dup = false -> NoDup (leaves goal)) ->
    strong goal (D d) (P (PFilter bv q cs)).
  Proof.
    intros bv q cs dup gv goal pr z d z' H X Ng (O1 & O2 & O3 & _) IH G Gv ND.
    unfold filter_df, sbind, sopt in H. destruct (expand goal (flat_map (fun c => uniq C (con_vars c)) cs)) as [sg|] eqn:Es; [|discriminate].
    destruct (plan_df C q sg pr z) as [[d1 z1]|] eqn:Ed; [|discriminate].
    destruct (cons_expr sg cs) as [f|] eqn:Ef; [|discriminate]. destruct (projection sg goal) as [pe|] eqn:Ep; [|discriminate].
    destruct (@proc _ _ _ _ _ H Ng X) as [X1 K]. apply strong_iff with (1 := K). clear K.
    destruct (@expand_leaves _ _ _ Es) as (l & El & I1 & I2 & I3 & I4).
    assert (U : forall v, In v (flat_map (fun c => uniq C (con_vars c)) cs) <-> In v (flat_map con_vars cs)).
    { intros v. rewrite !in_flat_map. split; intros (c & Ic & Iv); exists c; split; auto.
      - unfold uniq in Iv. apply (Permutation_in _ (SORT _)) in Iv. exact (proj1 (dedup_In _ _) Iv).
      - unfold uniq. apply (Permutation_in _ (Permutation_sym (SORT _))). apply dedup_In; auto. }
    assert (W : spec sg (D d1) (P q)).
    { eapply IH; eauto.
      - rewrite El. intros v Iv. apply in_app_iff in Iv. destruct Iv as [Iv|Iv]; [apply O1, G; auto|].
        apply I1, U in Iv. apply in_flat_map in Iv. destruct Iv as (c & Ic & Iv). apply (O2 c Ic); auto.
      - rewrite El. intros v Iv. apply in_app_iff in Iv. apply in_app_iff. destruct Iv as [Iv|Iv]; [left; auto|].
        apply I2, U; auto.
      - intros K. apply orb_false_iff in K. destruct K as [-> K]. apply negb_false_iff, nodupb_NoDup in K.
        rewrite El. apply NoDup_app_iff. split; [auto|]. split; [|intros v J1 J2; apply (I3 v); auto].
        apply I4. eapply NoDup_flat_perm; [|exact K]. intros c. unfold uniq. apply SORT. }
    destruct W as [[W1 W2] _]. intros t. unfold B2RFacts.D in *. cbn [rden]. split.
    - intros (u & (Hu & Hf) & Ev). destruct (W1 _ Hu) as (s & Ps & Hs). rewrite (projection_eval E goal Ep Hs) in Ev. injection Ev as <-.
      exists s. split; auto. exists s. split; [apply agree_refl|]. split; auto.
      apply (@cons_expr_ok sg s u cs f Ef Hs); auto.
    - intros (s & (s' & A & Ps & Cs) & ->). destruct (W2 _ Ps) as (u & Hu & Hs). exists u. split; [split; auto|].
      + apply (@cons_expr_ok sg s' u cs f Ef Hs); auto.
      + rewrite (projection_eval E goal Ep Hs). f_equal. symmetry. apply gtup_agree. cbn [bvars] in A. eapply agree_incl; eauto.
  Qed.

  (** ** Projections *)
  Definition upd (s : subst) (v : var) (x : value) : subst := fun w => if Nat.eqb w v then x else s w.
  Lemma upd_same : forall s v x, upd s v x v = x.
  Proof. intros. unfold upd. rewrite Nat.eqb_refl. reflexivity. Qed.
  Lemma upd_other : forall s v x w, w <> v -> upd s v x w = s w.
  Proof. intros s v x w N. unfold upd. destruct (Nat.eqb_spec w v); tauto. Qed.

  (** Assignments that were left out can be made up for. *)
  Lemma complete : forall q N, (forall x, In x N -> incl (aexpr_vars (snd x)) (bvars q ++ map fst N)) ->
    forall l bv0 s, ordered bv0 l -> NoDup (map fst l) -> incl (bvars q) bv0 -> (forall x, In x l -> ~ In (fst x) bv0) ->
    P q s -> (forall x, In x N -> assign_sat E s x) ->
    (forall x, In x l -> In x N \/ (~ In (fst x) (map fst N) /\ total_on q x)) ->
    exists s', (forall v, ~ (In v (map fst l) /\ ~ In v (map fst N)) -> s v = s' v) /\
      P q s' /\ (forall x, In x N \/ In x l -> assign_sat E s' x).
  Proof.
    intros q N CL. induction l as [|x l IH]; intros bv0 s O ND Ib Lb Ps Ns T.
    - exists s. repeat split; auto. intros x [J|[]]; auto.
    - cbn in O, ND. destruct O as [O1 O2]. inversion ND as [|? ? N1 N2]; subst.
      assert (Tl : forall y, In y l -> In y N \/ (~ In (fst y) (map fst N) /\ total_on q y)) by (intros; apply T; right; auto).
      assert (Ll : forall y, In y l -> ~ In (fst y) (fst x :: bv0)).
      { intros y Iy [K|K]; [|apply (Lb y); auto; right; auto]. apply N1. rewrite K. apply in_map; auto. }
      assert (Ib' : incl (bvars q) (fst x :: bv0)) by (intros v Iv; right; auto).
      assert (Hx : ~ In (fst x) bv0) by (apply Lb; left; auto).
      destruct (T x (or_introl eq_refl)) as [Nx|[Nx Tx]].
      + destruct (IH _ s O2 N2 Ib' Ll Ps Ns Tl) as (s' & A & Ps' & Q). exists s'. split; [|split; auto].
        * intros v Hv. apply A. intros [K1 K2]. apply Hv. split; auto. right; auto.
        * intros y [J|[<-|J]]; auto.
      + assert (exists v, aeval E s (snd x) = EOk v) as [v Ev].
        { destruct Tx as [Tx|[_ Tx]]; [|auto]. destruct (snd x); cbn in Tx; try discriminate. cbn. eauto. }
        set (s1 := upd s (fst x) v).
        assert (A1 : forall w, w <> fst x -> s w = s1 w) by (intros; unfold s1; rewrite upd_other; auto).
        assert (Ps1 : P q s1) by (apply psem_agree with s; auto; intros w Iw; apply A1; intros ->; apply Hx, Ib; auto).
        assert (Ns1 : forall y, In y N -> assign_sat E s1 y).
        { intros y Iy. apply assign_sat_agree with s; auto. intros w Iw. apply A1. intros ->. destruct Iw as [Iw|Iw].
          - apply Nx. rewrite <- Iw. apply in_map; auto.
          - apply (CL y Iy) in Iw. apply in_app_iff in Iw. destruct Iw as [Iw|Iw]; [apply Hx, Ib; auto|auto]. }
        destruct (IH _ s1 O2 N2 Ib' Ll Ps1 Ns1 Tl) as (s' & A & Ps' & Q). exists s'.
        assert (A2 : forall w, In w (fst x :: bv0) -> s1 w = s' w).
        { intros w Iw. apply A. intros [K _]. apply in_map_iff in K. destruct K as (y & <- & Iy). apply (Ll y Iy). exact Iw. }
        split; [|split; auto].
        * intros w Hw. destruct (Nat.eq_dec w (fst x)) as [->|D0]; [exfalso; apply Hw; split; [left; auto|auto]|].
          rewrite (A1 w D0). apply A. intros [K1 K2]. apply Hw. split; auto. right; auto.
        * intros y [J|[<-|J]]; auto. unfold assign_sat. rewrite <- (A2 (fst x)) by (left; auto). unfold s1 at 1. rewrite upd_same.
          rewrite <- Ev. symmetry. apply aeval_agree. intros w Iw. apply O1 in Iw. rewrite <- (A2 w) by (right; auto).
          apply A1. intros ->. tauto.
  Qed.

  Definition claim (q : plan) (l : list (var * aexpr)) (goal : gt var) (d : rdf) : Prop :=
    exists N, incl N l /\ (forall x, In x l -> In (fst x) (leaves goal) -> In x N) /\
      incl (leaves goal) (bvars q ++ map fst N) /\
      (forall x, In x N -> incl (aexpr_vars (snd x)) (bvars q ++ map fst N)) /\
      spec goal (D d) (fun s => P q s /\ forall x, In x N -> assign_sat E s x).

  Lemma fst_inj : forall (l : list (var * aexpr)) x y, NoDup (map fst l) -> In x l -> In y l -> fst x = fst y -> x = y.
  Proof.
    induction l as [|a l IH]; intros x y ND Ix Iy Exy; [destruct Ix|]. cbn in ND. inversion ND as [|? ? N1 N2]; subst.
    destruct Ix as [->|Ix], Iy as [->|Iy]; auto.
    - exfalso. apply N1. rewrite Exy. apply in_map; auto.
    - exfalso. apply N1. rewrite <- Exy. apply in_map; auto.
  Qed.
  Lemma NoDup_map_filter : forall (f : var * aexpr -> bool) l, NoDup (map fst l) -> NoDup (map fst (filter f l)).
  Proof.
    induction l as [|x l IH]; intros ND; cbn in *; auto. inversion ND as [|? ? N1 N2]; subst. destruct (f x); cbn; auto.
    constructor; auto. intros J. apply N1. apply in_map_iff in J. destruct J as (y & <- & Iy). apply filter_In in Iy. apply in_map. tauto.
  Qed.

  Lemma project_claim : forall q dup gvq, sub_ok q dup gvq (plan_df C q) -> incl gvq (bvars q) ->
    forall fuel l goal pr z d z', project_df C fuel (plan_df C q) (bvars q) l goal pr z = Some (d, z') ->
    ext z' Z -> d_neg pr = false -> NoDup (map fst l) -> (forall x, In x l -> ~ In (fst x) (bvars q)) ->
    (dup = false -> NoDup (leaves goal)) ->
    (forall v, In v gvq -> In v (leaves goal) \/ exists x, In x l /\ In (fst x) (leaves goal) /\ In v (aexpr_vars (snd x))) ->
    claim q l goal d.
  Proof.
    intros q dup gvq IHq Igv. induction fuel as [|fuel IH]; intros l goal pr z d z' H X Ng NDl Ll ND Gv;
      cbn [project_df] in H; remember (filter (fun v => negb (memb v (bvars q))) (variables goal)) as tb eqn:Etb;
      assert (TB : forall v, In v tb <-> In v (leaves goal) /\ ~ In v (bvars q))
        by (intros v; rewrite Etb, filter_In, variables_In, negb_true_iff, memb_nIn; tauto);
      destruct tb as [|v0 tb'].
    1,3: assert (G : incl (leaves goal) (bvars q))
        by (intros v Iv; destruct (in_dec Nat.eq_dec v (bvars q)) as [|Nv]; auto; exfalso; apply (TB v); auto);
      exists []; split; [intros ? []|]; split; [intros x Ix J; exfalso; apply (Ll x Ix), G; auto|]; split; [rewrite app_nil_r; auto|];
      split; [intros ? []|];
      apply spec_iff with (Dd := D d) (P := P q); [tauto|intros s; split; [intros; split; [auto|intros ? []]|tauto]|];
      eapply IHq; eauto; intros v Iv; destruct (Gv v Iv) as [J|(x & Ix & J & _)]; auto; exfalso; apply (Ll x Ix), G; auto.
    - destruct l; discriminate.
    - destruct l as [|x0 l0]; [discriminate|]. remember (x0 :: l0) as l eqn:El. clear El x0 l0.
      remember (v0 :: tb') as tb eqn:E0. clear v0 tb' E0 Etb.
      set (cur := filter (fun x => memb (fst x) tb) l) in *. set (rest := filter (fun x => negb (memb (fst x) tb)) l) in *.
      set (sg := from_vars (ce_hash C (filter (fun v => memb v (bvars q)) (variables goal)) ++ flat_map (fun x => aexpr_vars (snd x)) cur) false) in *.
      unfold sbind in H. destruct (project_df C fuel (plan_df C q) (bvars q) rest sg (with_sorted false pr) z) as [[d1 z1]|] eqn:Ed; [|discriminate].
      unfold sopt in H. destruct (projection_assigns sg goal cur) as [pe|] eqn:Ep; [|discriminate].
      destruct (@proc _ _ _ _ _ H Ng X) as [X1 K].
      assert (Lsg : forall v, In v (leaves sg) <-> (In v (leaves goal) /\ In v (bvars q)) \/ exists x, In x cur /\ In v (aexpr_vars (snd x))).
      { intros v. unfold sg. rewrite from_vars_leaves, dedup_In, in_app_iff, in_flat_map.
        assert (Q : In v (ce_hash C (filter (fun v => memb v (bvars q)) (variables goal))) <-> In v (leaves goal) /\ In v (bvars q)).
        { rewrite <- variables_In, <- (memb_In v (bvars q)), <- (filter_In (fun v => memb v (bvars q)) v). split; apply Permutation_in; [|apply Permutation_sym]; apply HASH. }
        rewrite Q. reflexivity. }
      assert (Cin : forall x, In x cur <-> In x l /\ In (fst x) (leaves goal)).
      { intros x. unfold cur. rewrite filter_In, memb_In, TB. split; [tauto|]. intros [A1 A2]. repeat split; auto. }
      assert (Rin : forall x, In x rest <-> In x l /\ ~ In (fst x) (leaves goal)).
      { intros x. unfold rest. rewrite filter_In, negb_true_iff, memb_nIn, TB. split; [|tauto].
        intros [A1 A2]. pose proof (Ll x A1) as A3. tauto. }
      destruct (IH rest sg (with_sorted false pr) z d1 z1 Ed) as (N & N1 & N2 & N3 & N4 & [[W1 W2] _]); auto.
      { unfold rest. apply NoDup_map_filter; auto. }
      { intros x Ix. apply Rin in Ix. apply Ll. tauto. }
      { intros _. unfold sg. rewrite from_vars_leaves. apply dedup_NoDup. }
      { intros v Iv. left. apply Lsg. destruct (Gv v Iv) as [J|(x & Ix & J & Jv)].
        - left. split; auto.
        - right. exists x. split; auto. apply Cin; auto. }
      (* variables of the goal that are not bounded are assigned here *)
      assert (NotSg : forall v, In v (leaves goal) -> ~ In v (bvars q) -> ~ In v (leaves sg)).
      { intros v Iv Nv J. apply N3 in J. apply in_app_iff in J. destruct J as [J|J]; [tauto|]. apply in_map_iff in J.
        destruct J as (x & <- & Ix). apply N1, Rin in Ix. tauto. }
      assert (InCur : forall v, In v (leaves goal) -> ~ In v (bvars q) -> exists e, In (v, e) cur /\ last_assign v cur = Some e).
      { intros v Iv Nv. destruct (projection_assigns_incl _ _ _ Ep v Iv) as [J|(e & Ee)]; [exfalso; apply (NotSg v); auto|].
        exists e. split; auto. apply last_assign_In; auto. }
      exists (cur ++ N). split; [|split; [|split; [|split]]].
      + intros x J. apply in_app_iff in J. destruct J as [J|J]; [apply Cin in J; tauto|apply N1, Rin in J; tauto].
      + intros x Ix J. apply in_app_iff. left. apply Cin; auto.
      + intros v Iv. apply in_app_iff. destruct (in_dec Nat.eq_dec v (bvars q)) as [J|J]; [left; auto|right].
        destruct (InCur v Iv J) as (e & Ie & _). rewrite map_app. apply in_app_iff. left. apply (in_map fst) in Ie. exact Ie.
      + intros x J v Iv. rewrite map_app, !in_app_iff. apply in_app_iff in J. destruct J as [J|J].
        * assert (Q : In v (leaves sg)) by (apply Lsg; right; eauto). apply N3 in Q. apply in_app_iff in Q. tauto.
        * apply (N4 x J) in Iv. apply in_app_iff in Iv. tauto.
      + apply spec_iff with (Dd := D (RProject d1 pe)) (P := fun s => P q s /\ forall x, In x (cur ++ N) -> assign_sat E s x); [intros t; symmetry; apply K|tauto|].
        apply strong_spec. intros t. unfold B2RFacts.D in *. cbn [rden].
        assert (CurLeft : forall x, In x cur -> ~ In (fst x) (bvars q)) by (intros x Ix; apply Cin in Ix; apply Ll; tauto).
        assert (CurArg : forall x w, In x cur -> In w (aexpr_vars (snd x)) -> ~ In w (map fst cur)).
        { intros x w Ix Iw Jw. assert (Q : In w (leaves sg)) by (apply Lsg; right; eauto). apply in_map_iff in Jw. destruct Jw as (y & <- & Iy).
          pose proof (proj1 (Cin y) Iy) as [_ Ly]. apply (NotSg (fst y) Ly (CurLeft y Iy)). exact Q. }
        assert (NDc : NoDup (map fst cur)) by (apply NoDup_map_filter; auto).
        assert (Last : forall x, In x cur -> last_assign (fst x) cur = Some (snd x)).
        { intros [v e] Ix. cbn. destruct (@last_assign_some v cur) as [e' Ee]; [apply (in_map fst) in Ix; exact Ix|].
          pose proof (last_assign_In _ _ Ee) as Ie. rewrite Ee. f_equal. pose proof (@fst_inj cur (v, e) (v, e') NDc Ix Ie eq_refl). congruence. }
        assert (Val : forall s v, In v (leaves goal) -> (In v (bvars q) -> upd_assigns E sg cur s v = s v) /\
                  (forall e x, In (v, e) cur -> aeval E s e = EOk x -> upd_assigns E sg cur s v = x)).
        { intros s v Iv. split.
          - intros Jv. unfold upd_assigns. destruct (accessor_of sg v) eqn:Ea; auto. apply accessor_none in Ea. exfalso. apply Ea. apply Lsg. left; auto.
          - intros e x Ie Ae. unfold upd_assigns. pose proof (CurLeft _ Ie) as Nv. cbn in Nv.
            rewrite (proj2 (accessor_none sg v) (NotSg v Iv Nv)). pose proof (Last _ Ie) as La. cbn in La. rewrite La, Ae. reflexivity. }
        split.
        * intros (u & Hu & Ev). destruct (W1 _ Hu) as (s & (Ps & Ns) & Hs).
          pose proof (@projection_assigns_inv E _ _ _ _ _ _ _ Ep Hs Ev) as As.
          rewrite (@projection_assigns_eval E _ _ _ _ _ _ Ep Hs As) in Ev. injection Ev as <-.
          assert (Cv : forall x, In x cur -> exists y, aeval E s (snd x) = EOk y).
          { intros x Ix. pose proof (proj1 (Cin x) Ix) as [_ Lx]. pose proof (CurLeft x Ix) as Nv.
            destruct (As (fst x) Lx) as (e & y & La & Ae); [apply accessor_none; auto|]. rewrite (Last x Ix) in La. injection La as <-. eauto. }
          set (s' := fun v => if memb v (map fst cur) then upd_assigns E sg cur s v else s v).
          assert (S1 : forall v, ~ In v (map fst cur) -> s v = s' v).
          { intros v Nv. unfold s'. apply memb_nIn in Nv. rewrite Nv. reflexivity. }
          assert (S2 : forall x, In x cur -> aeval E s (snd x) = EOk (s' (fst x))).
          { intros x Ix. destruct (Cv x Ix) as [y Ey]. pose proof (proj1 (Cin x) Ix) as [_ Lx]. unfold s'.
            rewrite (proj2 (memb_In _ _) (in_map fst _ _ Ix)). destruct (Val s (fst x) Lx) as [_ V]. rewrite (V (snd x) y); auto.
            destruct x; auto. }
          assert (Ps' : P q s').
          { apply psem_agree with s; auto. intros v Iv. apply S1. intros J. apply in_map_iff in J. destruct J as (x & <- & Ix). apply (CurLeft x Ix); auto. }
          exists s'. split; [split; auto|].
          -- intros x J. apply in_app_iff in J. destruct J as [J|J].
             ++ unfold assign_sat. transitivity (aeval E s (snd x)); [|exact (S2 x J)]. symmetry. apply aeval_agree. intros w Iw. apply S1. apply (CurArg x); auto.
             ++ apply assign_sat_agree with s; auto. intros w Iw. apply S1. intros Jw.
                assert (Q : In w (bvars q ++ map fst N)) by (destruct Iw as [<-|Iw]; [apply in_app_iff; right; apply in_map; auto|apply (N4 x J); auto]).
                apply in_map_iff in Jw. destruct Jw as (y & <- & Iy). apply in_app_iff in Q. destruct Q as [Q|Q]; [apply (CurLeft y); auto|].
                apply in_map_iff in Q. destruct Q as (x' & Ex & Ix'). apply N1, Rin in Ix'. apply Cin in Iy. destruct Ix' as [_ Ix']. apply Ix'. destruct Iy as [_ Iy].
                exact (eq_ind_r (fun v => In v (leaves goal)) Iy Ex).
          -- apply gtup_agree. intros v Iv. unfold s'. destruct (memb v (map fst cur)) eqn:Em; auto. apply memb_nIn in Em.
             destruct (in_dec Nat.eq_dec v (bvars q)) as [J|J]; [apply (proj1 (Val s v Iv)); auto|].
             exfalso. destruct (InCur v Iv J) as (e & Ie & _). apply Em. apply (in_map fst) in Ie. exact Ie.
        * intros (s & (Ps & Ns) & ->). destruct (W2 s) as (u & Hu & Hs); [split; auto; intros; apply Ns, in_app_iff; auto|].
          exists u. split; auto.
          assert (As : forall v, In v (leaves goal) -> assigned E sg cur s v).
          { intros v Iv An. apply accessor_none in An. destruct (in_dec Nat.eq_dec v (bvars q)) as [J|J]; [exfalso; apply An, Lsg; auto|].
            destruct (InCur v Iv J) as (e & Ie & La). exists e, (s v). split; auto. apply (Ns (v, e)). apply in_app_iff; auto. }
          rewrite (@projection_assigns_eval E _ _ _ _ _ _ Ep Hs As). f_equal. apply gtup_agree. intros v Iv.
          destruct (in_dec Nat.eq_dec v (bvars q)) as [J|J]; [apply (proj1 (Val s v Iv)); auto|].
          destruct (InCur v Iv J) as (e & Ie & La). apply (proj2 (Val s v Iv) e (s v) Ie). apply (Ns (v, e)). apply in_app_iff; auto.
  Qed.

  Lemma project_ok : forall bv q l dup gv goal pr z d z' fuel,
    project_df C fuel (plan_df C q) (bvars q) l goal pr z = Some (d, z') -> ext z' Z -> d_neg pr = false ->
    okp dup gv (PProject bv q l) ->
    sub_ok q dup (filter (fun v => memb v (bvars q))
                   (gv ++ flat_map (fun x => aexpr_vars (snd x)) (filter (fun x => memb (fst x) gv) l))) (plan_df C q) ->
    incl (leaves goal) bv -> incl gv (leaves goal) -> (dup = false -> NoDup (leaves goal)) ->
    spec goal (D d) (P (PProject bv q l)).
  Proof.
    intros bv q l dup gv goal pr z d z' fuel H X Ng (O1 & O2 & O3 & (l' & O4 & O4') & O5 & _) IH G Gv ND.
    destruct (@project_claim q dup _ IH) with (fuel := fuel) (l := l) (goal := goal) (pr := pr) (z := z) (d := d) (z' := z')
      as (N & N1 & N2 & N3 & N4 & W); auto.
    { intros v J. apply filter_In in J. destruct J as [_ J]. apply memb_In; auto. }
    { intros v J. apply filter_In in J. destruct J as [J _]. apply in_app_iff in J. destruct J as [J|J]; [left; auto|].
      apply in_flat_map in J. destruct J as (x & Ix & Iv). apply filter_In in Ix. destruct Ix as [Ix Jx]. apply memb_In in Jx.
      right. exists x. auto. }
    assert (T : forall x, In x l' -> In x N \/ (~ In (fst x) (map fst N) /\ total_on q x)).
    { intros x Ix. apply (Permutation_in _ (Permutation_sym O4)) in Ix.
      destruct (in_dec Nat.eq_dec (fst x) (map fst N)) as [J|J].
      - left. apply in_map_iff in J. destruct J as (y & Ey & Iy). rewrite <- (@fst_inj l y x O2 (N1 _ Iy) Ix Ey). auto.
      - destruct (O5 x Ix) as [K|K]; [|right; auto]. left. apply N2; auto. }
    assert (Cm : forall s, P q s -> (forall x, In x N -> assign_sat E s x) ->
      exists s', agree (leaves goal) s s' /\ P q s' /\ forall x, In x l -> assign_sat E s' x).
    { intros s Ps Ns. destruct (@complete q N N4 l' (bvars q) s) as (s' & A & Ps' & Q); auto.
      - eapply Permutation_NoDup; [apply Permutation_map; eauto|auto].
      - apply incl_refl.
      - intros x Ix. apply (Permutation_in _ (Permutation_sym O4)) in Ix. auto.
      - exists s'. split; [|split; auto].
        + intros v Iv. apply A. intros [K1 K2]. apply N3 in Iv. apply in_app_iff in Iv. destruct Iv as [Iv|Iv]; auto.
          apply in_map_iff in K1. destruct K1 as (x & <- & Ix). apply (Permutation_in _ (Permutation_sym O4)) in Ix. apply (O3 x); auto.
        + intros x Ix. apply Q. right. apply (Permutation_in _ O4); auto. }
    assert (Bk : forall s, P (PProject bv q l) s -> exists s', agree (leaves goal) s s' /\ P q s' /\ forall x, In x N -> assign_sat E s' x).
    { intros s (s' & A & Ps & Ls). exists s'. split; [eapply agree_incl; eauto|]. split; auto. }
    assert (Fw : forall s, P q s -> (forall x, In x N -> assign_sat E s x) -> exists s', agree (leaves goal) s s' /\ P (PProject bv q l) s').
    { intros s Ps Ns. destruct (Cm s Ps Ns) as (s' & A & Ps' & Ls). exists s'. split; auto. exists s'. split; [apply agree_refl|]. split; auto. }
    destruct W as [[W1 W2] S0]. split; [split|].
    - intros t Ht. destruct (W1 _ Ht) as (s & (Ps & Ns) & Hs). destruct (Fw s Ps Ns) as (s' & A & Ps'). exists s'. split; auto.
      eapply holds_agree; eauto.
    - intros s Ps. destruct (Bk s Ps) as (s' & A & Ps' & Ns). destruct (W2 s') as (t & Ht & Hs); auto. exists t. split; auto.
      eapply holds_agree; [|exact Hs]. apply agree_sym; auto.
    - intros Nd t. rewrite (S0 Nd t). split.
      + intros (s & (Ps & Ns) & ->). destruct (Fw s Ps Ns) as (s' & A & Ps'). exists s'. split; auto. apply gtup_agree; auto.
      + intros (s & Ps & ->). destruct (Bk s Ps) as (s' & A & Ps' & Ns). exists s'. split; auto. apply gtup_agree; auto.
  Qed.

  (** ** Joins *)
  Definition mrg (V : list var) (s1 s2 : subst) : subst := fun v => if memb v V then s1 v else s2 v.
  Lemma mrg_in : forall V s1 s2, agree V s1 (mrg V s1 s2).
  Proof. intros V s1 s2 v Iv. unfold mrg. rewrite (proj2 (memb_In _ _) Iv). reflexivity. Qed.
  Lemma mrg_out : forall V W s1 s2, (forall v, In v V -> In v W -> s1 v = s2 v) -> agree W s2 (mrg V s1 s2).
  Proof.
    intros V W s1 s2 H v Iv. unfold mrg. destruct (memb v V) eqn:Em; auto. apply memb_In in Em. symmetry. auto.
  Qed.
  Lemma sub_tuple_leaves : forall goal p v, atom_bound p -> (In v (leaves (sub_tuple C goal p)) <-> In v (bvars p) /\ In v (leaves goal)).
  Proof.
    intros goal p v [_ A]. unfold sub_tuple.
    assert (K : In v (leaves (subtuple goal (ce_sort C (bvars p)))) <-> In v (bvars p) /\ In v (leaves goal)).
    { rewrite subtuple_leaves. split; intros [K1 K2]; split; auto; [exact (Permutation_in v (SORT _) K1)|exact (Permutation_in v (Permutation_sym (SORT _)) K1)]. }
    destruct (direct_atom p) as [a|] eqn:Ed; auto. destruct (is_pure a); auto. rewrite subtuple_leaves, (A a eq_refl v). tauto.
  Qed.
  Lemma sub_tuple_NoDup : forall goal p, atom_bound p -> NoDup (leaves (sub_tuple C goal p)).
  Proof.
    intros goal p [N _]. unfold sub_tuple.
    assert (K : NoDup (leaves (subtuple goal (ce_sort C (bvars p))))).
    { apply subtuple_NoDup. eapply Permutation_NoDup; [apply Permutation_sym, SORT|auto]. }
    destruct (direct_atom p) as [a|]; auto. destruct (is_pure a) eqn:Ep; auto. apply subtuple_NoDup.
    unfold is_pure in Ep. apply andb_true_iff in Ep. destruct Ep as [_ Ep]. apply nodupb_NoDup; auto.
  Qed.
  Lemma join_vars_In : forall p q v, In v (join_vars p q) <-> In v (bvars p) /\ In v (bvars q).
  Proof. intros. unfold join_vars. rewrite filter_In, memb_In. tauto. Qed.
  Lemma both_In : forall gv bp bq v, In v (both gv bp bq) <-> In v bp /\ (In v gv \/ In v bq).
  Proof. intros. unfold both. rewrite filter_In, orb_true_iff, !memb_In. tauto. Qed.

  Lemma product_ok : forall bv p q gv goal pr z d z', product_df C p q (plan_df C p) (plan_df C q) goal pr z = Some (d, z') ->
    ext z' Z -> d_neg pr = false -> incl bv (bvars p ++ bvars q) -> atom_bound p -> atom_bound q -> join_vars p q = [] ->
    sub_ok p false (both gv (bvars p) (bvars q)) (plan_df C p) -> sub_ok q false (both gv (bvars q) (bvars p)) (plan_df C q) ->
    incl (leaves goal) bv -> incl gv (leaves goal) -> strong goal (D d) (P (PJoin bv p q)).
  Proof.
    intros bv p q gv goal pr z d z' H X Ng O1 Ap Aq J IHp IHq G Gv.
    unfold product_df, sbind, sopt in H.
    destruct (plan_df C p (sub_tuple C goal p) (with_neg false (with_sorted true pr)) z) as [[d1 z1]|] eqn:E1; [|discriminate].
    destruct (plan_df C q (sub_tuple C goal q) (with_neg false (with_sorted true pr)) z1) as [[d2 z2]|] eqn:E2; [|discriminate].
    destruct (projection (GT [sub_tuple C goal p; sub_tuple C goal q]) goal) as [pe|] eqn:Ep; [|discriminate].
    destruct (@proc _ _ _ _ _ H Ng X) as [X2 K]. apply strong_iff with (1 := K). clear K.
    assert (Dj : forall v, In v (bvars p) -> In v (bvars q) -> False).
    { intros v A1 A2. assert (Q : In v (join_vars p q)) by (apply join_vars_In; auto). rewrite J in Q. destruct Q. }
    assert (X1 : ext z1 Z) by (eapply ext_trans; [eapply grows_plan; eauto|auto]).
    assert (W1 : spec (sub_tuple C goal p) (D d1) (P p)).
    { eapply IHp; eauto.
      - intros v Iv. apply sub_tuple_leaves in Iv; tauto.
      - intros v Iv. apply both_In in Iv. apply sub_tuple_leaves; auto. destruct Iv as [A1 [A2|A2]]; [auto|exfalso; eauto].
      - intros _. apply sub_tuple_NoDup; auto. }
    assert (W2 : spec (sub_tuple C goal q) (D d2) (P q)).
    { eapply IHq; eauto.
      - intros v Iv. apply sub_tuple_leaves in Iv; tauto.
      - intros v Iv. apply both_In in Iv. apply sub_tuple_leaves; auto. destruct Iv as [A1 [A2|A2]]; [auto|exfalso; eauto].
      - intros _. apply sub_tuple_NoDup; auto. }
    destruct W1 as [[F1 B1] _], W2 as [[F2 B2] _]. intros t. unfold B2RFacts.D in *. cbn [rden]. split.
    - intros (u & (t1 & t2 & H1 & H2 & ->) & Ev). destruct (F1 _ H1) as (s1 & P1 & Hs1). destruct (F2 _ H2) as (s2 & P2 & Hs2).
      pose proof (mrg_in (bvars p) s1 s2) as A1. pose proof (@mrg_out (bvars p) (bvars q) s1 s2 (fun v a b => False_ind _ (Dj v a b))) as A2.
      set (s := mrg (bvars p) s1 s2) in *.
      assert (Hh : holds (GT [sub_tuple C goal p; sub_tuple C goal q]) s (TTup [t1; t2])).
      { apply holds_pair; eapply holds_agree; try eassumption; eapply agree_incl; eauto; intros v Iv; apply sub_tuple_leaves in Iv; tauto. }
      rewrite (projection_eval E goal Ep Hh) in Ev. injection Ev as <-. exists s. split; auto. exists s. split; [apply agree_refl|].
      split; eapply psem_agree; eauto.
    - intros (s & (s' & A & P1 & P2) & ->). destruct (B1 _ P1) as (t1 & H1 & Hs1). destruct (B2 _ P2) as (t2 & H2 & Hs2).
      exists (TTup [t1; t2]). split; [eauto 6|]. rewrite (projection_eval E goal Ep (holds_pair Hs1 Hs2)). f_equal. symmetry. apply gtup_agree.
      cbn [bvars] in A. eapply agree_incl; eauto.
  Qed.

  Lemma sub_strong : forall q gv sp goal pr z d z', sub_ok q false gv sp -> sp goal pr z = Some (d, z') -> ext z' Z -> d_neg pr = false ->
    incl (leaves goal) (bvars q) -> incl gv (leaves goal) -> NoDup (leaves goal) -> strong goal (D d) (P q).
  Proof. intros q gv sp goal pr z d z' H H1 X Ng A1 A2 A3. apply (H goal pr z d z'); auto. Qed.

  Lemma from_sort_leaves : forall l b v, In v (leaves (from_vars (ce_sort C l) b)) <-> In v l.
  Proof.
    intros l b v. rewrite from_vars_leaves, dedup_In. split; apply Permutation_in; [|apply Permutation_sym]; apply SORT.
  Qed.
  Lemma from_NoDup : forall l b, NoDup (leaves (from_vars l b)).
  Proof. intros. rewrite from_vars_leaves. apply dedup_NoDup. Qed.
  Lemma own_vars_leaves : forall goal bv jv v, In v (leaves (own_vars C goal bv jv)) <-> In v (leaves goal) /\ In v bv /\ ~ In v jv.
  Proof.
    intros. unfold own_vars. rewrite from_sort_leaves, filter_In, variables_In, andb_true_iff, negb_true_iff, memb_In, memb_nIn. tauto.
  Qed.
  Lemma key_NoDup : forall jv goal bv, NoDup (leaves (GT [from_vars (ce_sort C jv) true; own_vars C goal bv jv])).
  Proof.
    intros jv goal bv. cbn [leaves flat_map]. rewrite app_nil_r. apply NoDup_app_iff. split; [apply from_NoDup|]. split; [apply from_NoDup|].
    intros v A1 A2. apply from_sort_leaves in A1. apply own_vars_leaves in A2. tauto.
  Qed.
  Lemma key_leaves : forall jv goal bv v, In v (leaves (GT [from_vars (ce_sort C jv) true; own_vars C goal bv jv])) <->
    In v jv \/ (In v (leaves goal) /\ In v bv /\ ~ In v jv).
  Proof.
    intros jv goal bv v. cbn [leaves flat_map]. rewrite app_nil_r, in_app_iff, from_sort_leaves, own_vars_leaves. tauto.
  Qed.

  Lemma join_ok : forall bv p q gv goal pr z d z', join_df C p q (plan_df C p) (plan_df C q) goal pr z = Some (d, z') ->
    ext z' Z -> d_neg pr = false -> incl bv (bvars p ++ bvars q) ->
    sub_ok p false (both gv (bvars p) (bvars q)) (plan_df C p) -> sub_ok q false (both gv (bvars q) (bvars p)) (plan_df C q) ->
    incl (leaves goal) bv -> incl gv (leaves goal) -> strong goal (D d) (P (PJoin bv p q)).
  Proof.
    intros bv p q gv goal pr z d z' H X Ng O1 IHp IHq G Gv. unfold join_df, sbind, sopt in H.
    pose proof (join_vars_In p q) as JV. set (jv := join_vars p q) in *. set (k := from_vars (ce_sort C jv) true) in *.
    set (g1 := own_vars C goal (bvars p) jv) in *. set (g2 := own_vars C goal (bvars q) jv) in *.
    destruct (plan_df C p (GT [k; g1]) (with_neg false (with_sorted true pr)) z) as [[d1 z1]|] eqn:E1; [|discriminate].
    destruct (plan_df C q (GT [k; g2]) (with_neg false (with_sorted true pr)) z1) as [[d2 z2]|] eqn:E2; [|discriminate].
    destruct (projection (GT [k; g1; g2]) goal) as [pe|] eqn:Ep; [|discriminate].
    destruct (@proc _ _ _ _ _ H Ng X) as [X2 K]. apply strong_iff with (1 := K). clear K H.
    assert (X1 : ext z1 Z) by (eapply ext_trans; [eapply grows_plan; eauto|auto]).
    assert (W1 : strong (GT [k; g1]) (D d1) (P p)).
    { eapply sub_strong; [exact IHp|exact E1|exact X1|reflexivity| | |apply key_NoDup].
      - intros v Iv. apply key_leaves in Iv. destruct Iv as [Iv|Iv]; [apply JV in Iv|]; tauto.
      - intros v Iv. apply both_In in Iv. apply key_leaves. destruct (in_dec Nat.eq_dec v jv) as [Q|Q]; auto. right.
        destruct Iv as [A1 [A2|A2]]; [auto|]. exfalso. apply Q, JV; auto. }
    assert (W2 : strong (GT [k; g2]) (D d2) (P q)).
    { eapply sub_strong; [exact IHq|exact E2|exact X2|reflexivity| | |apply key_NoDup].
      - intros v Iv. apply key_leaves in Iv. destruct Iv as [Iv|Iv]; [apply JV in Iv|]; tauto.
      - intros v Iv. apply both_In in Iv. apply key_leaves. destruct (in_dec Nat.eq_dec v jv) as [Q|Q]; auto. right.
        destruct Iv as [A1 [A2|A2]]; [auto|]. exfalso. apply Q, JV; auto. }
    assert (Lk : forall v, In v (leaves k) <-> In v jv) by (intros; apply from_sort_leaves).
    assert (L1 : incl (leaves g1) (bvars p)) by (intros v Iv; apply own_vars_leaves in Iv; tauto).
    assert (L2 : incl (leaves g2) (bvars q)) by (intros v Iv; apply own_vars_leaves in Iv; tauto).
    set (dj := match d2 with RRel r => if ce_iv C r then RJoinIV d1 r else RJoin d1 d2 | _ => RJoin d1 d2 end).
    assert (W : forall u, D dj u <-> exists s1 s2, P p s1 /\ P q s2 /\ agree jv s1 s2 /\ u = TTup [gtup k s1; gtup g1 s1; gtup g2 s2]).
    { intros u. transitivity (D (RJoin d1 d2) u).
      - unfold dj. destruct d2 as [ | |r| | | | | | | | | | | | | | | | ]; try tauto. destruct (ce_iv C r); [|tauto].
        unfold B2RFacts.D. cbn [rden]. split.
        + intros (t1 & kk & x & y & A1 & A2 & A3 & A4 & ->). exists t1, (TTup [kk; y]), kk, x, y. repeat split; auto.
        + intros (t1 & t2 & kk & x & y & A1 & A2 & A3 & A4 & A5 & A6 & ->). exists t1, kk, x, y. repeat split; auto.
          pose proof (proj1 (W2 t2) A2) as (s2 & _ & Et). subst t2. cbn in A4, A6. injection A4 as <-. injection A6 as <-. exact A2.
      - unfold B2RFacts.D. cbn [rden]. split.
        + intros (t1 & t2 & kk & x & y & A1 & A2 & A3 & A4 & A5 & A6 & ->).
          apply (proj1 (W1 t1)) in A1. apply (proj1 (W2 t2)) in A2. destruct A1 as (s1 & P1 & ->). destruct A2 as (s2 & P2 & ->).
          exists s1, s2. cbn in A3, A4, A5, A6. injection A3 as <-. injection A4 as A4. injection A5 as <-. injection A6 as <-.
          repeat split; auto. intros v Iv. symmetry. apply (gtup_inj _ _ _ A4). apply Lk; auto.
        + intros (s1 & s2 & P1 & P2 & A & ->). exists (gtup (GT [k; g1]) s1), (gtup (GT [k; g2]) s2), (gtup k s1), (gtup g1 s1), (gtup g2 s2).
          split; [apply W1; eauto|]. split; [apply W2; eauto|]. repeat split; auto. cbn. f_equal. apply gtup_agree. apply agree_sym.
          eapply agree_incl; eauto. intros v Iv. apply Lk; auto. }
    intros t. unfold B2RFacts.D in *. cbn [rden]. split.
    - intros (u & Hu & Ev). apply W in Hu. destruct Hu as (s1 & s2 & P1 & P2 & A & ->).
      pose proof (mrg_in (bvars p) s1 s2) as A1.
      pose proof (@mrg_out (bvars p) (bvars q) s1 s2 (fun v a b => A v (proj2 (JV v) (conj a b)))) as A2.
      set (s := mrg (bvars p) s1 s2) in *. exists s. split.
      + exists s. split; [apply agree_refl|]. split; eapply psem_agree; eauto.
      + assert (Q : TTup [gtup k s1; gtup g1 s1; gtup g2 s2] = gtup (GT [k; g1; g2]) s).
        { cbn. rewrite (@gtup_agree k s1 s), (@gtup_agree g1 s1 s), (@gtup_agree g2 s2 s); auto.
          - eapply agree_incl; eauto.
          - eapply agree_incl; eauto.
          - eapply agree_incl; eauto. intros v Iv. apply Lk, JV in Iv. tauto. }
        rewrite Q in Ev. rewrite (projection_eval E goal Ep (holds_gtup _ s)) in Ev. congruence.
    - intros (s & (s' & A & P1 & P2) & ->). exists (gtup (GT [k; g1; g2]) s'). split.
      + apply W. exists s', s'. repeat split; auto.
      + rewrite (projection_eval E goal Ep (holds_gtup _ s')). f_equal. symmetry. apply gtup_agree. cbn [bvars] in A. eapply agree_incl; eauto.
  Qed.

  Lemma uniq_leaves : forall a b v, In v (leaves (from_vars (uniq C (avars a)) b)) <-> In v (avars a).
  Proof. intros. unfold uniq. rewrite from_sort_leaves, dedup_In. tauto. Qed.
  Lemma gt_goal : forall g goal (Dd : tuple -> Prop) (Q : subst -> Prop) (d : rdf) pr z d' z',
    (if gt_eqb g goal then sret d else pe <- sopt (projection g goal) ;; process C (RProject d pe) pr) z = Some (d', z') ->
    ext z' Z -> d_neg pr = false -> ext z Z /\ (strong g (D d) Q -> (forall s s', agree (leaves g) s s' -> Q s -> Q s') -> strong goal (D d') Q).
  Proof.
    intros g goal Dd Q d pr z d' z' H X Ng. destruct (gt_eqb g goal) eqn:Eg.
    - apply gt_eqb_eq in Eg. subst g. injection H as <- <-. split; auto.
    - unfold sbind, sopt in H. destruct (projection g goal) as [pe|] eqn:Ep; [|discriminate].
      destruct (@proc _ _ _ _ _ H Ng X) as [X2 K]. split; auto. intros W _. apply strong_iff with (1 := K). intros t.
      unfold B2RFacts.D in *. cbn [rden]. split.
      + intros (u & Hu & Ev). apply W in Hu. destruct Hu as (s & Qs & ->). rewrite (projection_eval E goal Ep (holds_gtup _ s)) in Ev.
        exists s. split; auto. congruence.
      + intros (s & Qs & ->). exists (gtup g s). split; [apply W; eauto|]. apply (projection_eval E goal Ep (holds_gtup _ s)).
  Qed.

  (** The goal below an intersection or a difference has all the variables. *)
  Lemma inter_goal_ok : forall p q goal, atom_bound p -> atom_bound q -> set_eqb (bvars p) (bvars q) = true ->
    incl (leaves goal) (bvars p) ->
    (direct_atom p = None -> direct_atom q = None -> NoDup (leaves goal) /\ incl (bvars p) (leaves goal)) ->
    NoDup (leaves (inter_goal C p q goal)) /\ forall v, In v (leaves (inter_goal C p q goal)) <-> In v (bvars p).
  Proof.
    intros p q goal [_ Ap] [_ Aq] S0 G O. pose proof (proj1 (set_eqb_spec _ _) S0) as Sv. unfold inter_goal.
    destruct (direct_atom p) as [a|].
    - split; [apply from_NoDup|]. intros v. rewrite uniq_leaves. apply (Ap a eq_refl).
    - destruct (direct_atom q) as [a|].
      + split; [apply from_NoDup|]. intros v. rewrite uniq_leaves, Sv. apply (Aq a eq_refl).
      + destruct O as [O1 O2]; auto. split; auto. intros v. split; [apply G|apply O2].
  Qed.

  Lemma intersect_ok : forall bv p q dup gv goal pr z d z', intersect_df C p q (plan_df C p) (plan_df C q) goal pr z = Some (d, z') ->
    ext z' Z -> d_neg pr = false -> incl bv (bvars p ++ bvars q) -> atom_bound p -> atom_bound q ->
    set_eqb (bvars p) (bvars q) = true ->
    (direct_atom p = None -> direct_atom q = None -> dup = false /\ incl (bvars p) gv) ->
    sub_ok p false (both gv (bvars p) (bvars q)) (plan_df C p) -> sub_ok q false (both gv (bvars q) (bvars p)) (plan_df C q) ->
    incl (leaves goal) bv -> incl gv (leaves goal) -> (dup = false -> NoDup (leaves goal)) -> strong goal (D d) (P (PJoin bv p q)).
  Proof.
    intros bv p q dup gv goal pr z d z' H X Ng O1 Ap Aq S0 O IHp IHq G Gv ND. unfold intersect_df in H.
    pose proof (proj1 (set_eqb_spec _ _) S0) as Sv.
    assert (G' : incl (leaves goal) (bvars p)).
    { intros v Iv. apply G, O1, in_app_iff in Iv. destruct Iv as [Iv|Iv]; auto. apply Sv; auto. }
    assert (O' : direct_atom p = None -> direct_atom q = None -> NoDup (leaves goal) /\ incl (bvars p) (leaves goal)).
    { intros A1 A2. destruct (O A1 A2) as [B1 B2]. split; auto. eapply incl_tran; eauto. }
    destruct (inter_goal_ok goal Ap Aq S0 G' O') as [Ng' Lg]. set (g := inter_goal C p q goal) in *.
    unfold sbind at 1 in H. destruct (plan_df C p g (with_neg false (with_sorted true pr)) z) as [[d1 z1]|] eqn:E1; [|discriminate].
    unfold sbind at 1 in H. destruct (plan_df C q g (with_neg false (with_sorted true pr)) z1) as [[d2 z2]|] eqn:E2; [|discriminate].
    destruct (@gt_goal g goal (fun _ => True) (P (PJoin bv p q)) (RInter d1 d2) pr z2 d z' H X Ng) as [X2 K].
    assert (X1 : ext z1 Z) by (eapply ext_trans; [eapply grows_plan; eauto|auto]).
    assert (W1 : strong g (D d1) (P p)).
    { eapply sub_strong; [exact IHp|exact E1|exact X1|reflexivity| | |exact Ng'].
      - intros v Iv. apply Lg; auto.
      - intros v Iv. apply both_In in Iv. apply Lg. tauto. }
    assert (W2 : strong g (D d2) (P q)).
    { eapply sub_strong; [exact IHq|exact E2|exact X2|reflexivity| | |exact Ng'].
      - intros v Iv. apply Sv, Lg; auto.
      - intros v Iv. apply both_In in Iv. apply Lg, Sv. tauto. }
    assert (Bv : forall s s', agree (bvars p) s s' -> agree bv s s').
    { intros s s' A v Iv. apply A. apply O1, in_app_iff in Iv. destruct Iv as [Iv|Iv]; auto. apply Sv; auto. }
    assert (W : strong g (D (RInter d1 d2)) (fun s => P p s /\ P q s)).
    { intros t. unfold B2RFacts.D in *. cbn [rden]. rewrite (W1 t), (W2 t). split.
      - intros [(s1 & P1 & ->) (s2 & P2 & E0)]. exists s1. split; [split|]; auto. apply psem_agree with s2; auto.
        apply gtup_inj in E0. intros v Iv. symmetry. apply E0. apply Lg, Sv; auto.
      - intros (s & (P1 & P2) & ->). split; eauto. }
    assert (Q : strong goal (D d) (fun s => P p s /\ P q s)).
    { destruct (@gt_goal g goal (fun _ => True) (fun s => P p s /\ P q s) (RInter d1 d2) pr z2 d z' H X Ng) as [_ K'].
      apply K'; auto. intros s s' A [P1 P2]. split; (eapply psem_agree; [|eassumption]); intros v Iv; apply A; [apply Lg|apply Lg, Sv]; auto. }
    intros t. rewrite (Q t). split.
    - intros (s & [P1 P2] & ->). exists s. split; auto. exists s. split; [apply agree_refl|auto].
    - intros (s & (s' & A & P1 & P2) & ->). exists s'. split; auto. apply gtup_agree. cbn [bvars] in A. eapply agree_incl; eauto.
  Qed.

  (** ** Negation *)
  Definition anti_sem (p q : plan) (s : subst) : Prop :=
    P p s /\ ~ exists s'', agree (join_vars p q) s s'' /\ psem B M M q s''.
  Lemma psem_anti_eq : forall bv p q s, P (PAnti bv p q) s <-> exists s', agree bv s s' /\ anti_sem p q s'.
  Proof. intros. unfold anti_sem, join_vars. reflexivity. Qed.
  Lemma psem_groundM : forall br a s, (forall v, In v (avars a) <-> In v br) -> (psem B M M (PGround br a) s <-> M (a_pred a) (tvals s (a_args a))).
  Proof. intros br a s H. apply psem_ground. intros v Iv. apply H; auto. Qed.
  Lemma neg_ok : forall br a goal pr z d z', plan_df C (PGround br a) goal pr z = Some (d, z') -> ext z' Z -> d_neg pr = true ->
    (forall v, In v (avars a) <-> In v br) -> atom_ok C JI JM I M true a -> incl (leaves goal) br -> NoDup (leaves goal) ->
    strong goal (B2RFacts.D B ag JM JM d) (psem B M M (PGround br a)).
  Proof.
    intros br a goal pr z d z' H X Ng Hb O G ND. cbn [plan_df] in H.
    pose proof (@ground_ok C B ag JI JM I M Z TEMPS NEGS PERMS CINJ goal a pr z d z' H X) as K. rewrite Ng in K.
    specialize (K O). destruct K as [_ K]; auto; [intros v Iv; apply Hb; auto|]. intros t. rewrite (K ND t).
    split; intros (s & Hs & ->); exists s; split; auto; apply psem_groundM in Hs || apply psem_groundM; auto.
  Qed.

  Lemma difference_ok : forall bv p br a gv goal pr z d z',
    difference_df C p (PGround br a) (plan_df C p) (plan_df C (PGround br a)) goal pr z = Some (d, z') ->
    ext z' Z -> d_neg pr = false -> incl bv (bvars p) -> atom_bound p -> NoDup br -> (forall v, In v (avars a) <-> In v br) ->
    atom_ok C JI JM I M true a -> set_eqb (bvars p) br = true ->
    sub_ok p false (both gv (bvars p) br) (plan_df C p) ->
    incl (leaves goal) bv -> incl gv (leaves goal) -> strong goal (D d) (P (PAnti bv p (PGround br a))).
  Proof.
    intros bv p br a gv goal pr z d z' H X Ng O1 Ap Nb Hb Oa S0 IHp G Gv. unfold difference_df in H.
    pose proof (proj1 (set_eqb_spec _ _) S0) as Sv.
    assert (Aq : atom_bound (PGround br a)) by (split; [auto|intros a' Ea; injection Ea as <-; exact Hb]).
    assert (G' : incl (leaves goal) (bvars p)) by (eapply incl_tran; eauto).
    destruct (@inter_goal_ok p (PGround br a) goal Ap Aq S0 G') as [Ng' Lg]; [discriminate|].
    set (g := inter_goal C p (PGround br a) goal) in *.
    unfold sbind at 1 in H. destruct (plan_df C p g (with_neg false (with_sorted true pr)) z) as [[d1 z1]|] eqn:E1; [|discriminate].
    unfold sbind at 1 in H. destruct (plan_df C (PGround br a) g (with_neg true (with_sorted true pr)) z1) as [[d2 z2]|] eqn:E2; [|discriminate].
    destruct (@gt_goal g goal (fun _ => True) (anti_sem p (PGround br a)) (RDiff d1 d2) pr z2 d z' H X Ng) as [X2 K].
    assert (X1 : ext z1 Z) by (eapply ext_trans; [eapply grows_plan; eauto|auto]).
    assert (W1 : strong g (D d1) (P p)).
    { eapply sub_strong; [exact IHp|exact E1|exact X1|reflexivity| | |exact Ng'].
      - intros v Iv. apply Lg; auto.
      - intros v Iv. apply both_In in Iv. apply Lg. tauto. }
    assert (W2 : strong g (B2RFacts.D B ag JM JM d2) (psem B M M (PGround br a))).
    { eapply neg_ok; eauto. intros v Iv. apply Sv, Lg; auto. }
    assert (Jg : forall v, In v (join_vars p (PGround br a)) <-> In v (leaves g)).
    { intros v. rewrite join_vars_In, Lg. cbn [bvars]. rewrite <- Sv. tauto. }
    assert (Q : strong goal (D d) (anti_sem p (PGround br a))).
    { apply K.
      - intros t. unfold B2RFacts.D in *. cbn [rden]. rewrite (W1 t). split.
        + intros [(s & Ps & ->) Nn]. exists s. split; [split|]; auto. intros (s'' & A & Q). apply Nn. apply W2. exists s''. split; auto.
          apply gtup_agree. intros v Iv. apply A, Jg; auto.
        + intros (s & [Ps Nn] & ->). split; [eauto|]. intros Q. apply Nn. apply W2 in Q. destruct Q as (s'' & Q & Eg). exists s''. split; auto.
          apply gtup_inj in Eg. intros v Iv. apply Eg, Jg; auto.
      - intros s s' A [Ps Nn]. split; [apply psem_agree with s; auto; intros v Iv; apply A, Lg; auto|].
        intros (s'' & A' & Q). apply Nn. exists s''. split; auto. intros v Iv. rewrite (A v); [apply A'; auto|apply Jg; auto]. }
    intros t. rewrite (Q t). split.
    - intros (s & Hs & ->). exists s. split; auto. apply psem_anti_eq. exists s. split; [apply agree_refl|auto].
    - intros (s & Hs & ->). apply psem_anti_eq in Hs. destruct Hs as (s' & A & Hs). exists s'. split; auto. apply gtup_agree.
      eapply agree_incl; eauto.
  Qed.

  Lemma antijoin_ok : forall bv p br a gv goal pr z d z',
    antijoin_df C p (PGround br a) (plan_df C p) (plan_df C (PGround br a)) goal pr z = Some (d, z') ->
    ext z' Z -> d_neg pr = false -> incl bv (bvars p) -> (forall v, In v (avars a) <-> In v br) ->
    atom_ok C JI JM I M true a ->
    sub_ok p false (both gv (bvars p) br) (plan_df C p) ->
    incl (leaves goal) bv -> incl gv (leaves goal) -> strong goal (D d) (P (PAnti bv p (PGround br a))).
  Proof.
    intros bv p br a gv goal pr z d z' H X Ng O1 Hb Oa IHp G Gv. unfold antijoin_df in H.
    pose proof (join_vars_In p (PGround br a)) as JV. cbn [bvars] in JV.
    set (jv := join_vars p (PGround br a)) in *. set (k := from_vars (ce_sort C jv) true) in *.
    set (g1 := own_vars C goal (bvars p) jv) in *.
    unfold sbind at 1 in H. destruct (plan_df C p (GT [k; g1]) (with_neg false (with_sorted true pr)) z) as [[d1 z1]|] eqn:E1; [|discriminate].
    unfold sbind at 1 in H. destruct (plan_df C (PGround br a) k (with_neg true (with_sorted true pr)) z1) as [[d2 z2]|] eqn:E2; [|discriminate].
    unfold sbind, sopt in H. destruct (projection (GT [k; g1]) goal) as [pe|] eqn:Ep; [|discriminate].
    destruct (@proc _ _ _ _ _ H Ng X) as [X2 K]. apply strong_iff with (1 := K). clear K H.
    assert (X1 : ext z1 Z) by (eapply ext_trans; [eapply grows_plan; eauto|auto]).
    assert (Lk : forall v, In v (leaves k) <-> In v jv) by (intros; apply from_sort_leaves).
    assert (W1 : strong (GT [k; g1]) (D d1) (P p)).
    { eapply sub_strong; [exact IHp|exact E1|exact X1|reflexivity| | |apply key_NoDup].
      - intros v Iv. apply key_leaves in Iv. destruct Iv as [Iv|Iv]; [apply JV in Iv|]; tauto.
      - intros v Iv. apply both_In in Iv. apply key_leaves. destruct (in_dec Nat.eq_dec v jv) as [Q|Q]; auto. right.
        destruct Iv as [A1 [A2|A2]]; [auto|]. exfalso. apply Q, JV; auto. }
    assert (W2 : strong k (B2RFacts.D B ag JM JM d2) (psem B M M (PGround br a))).
    { eapply neg_ok; eauto; [|apply from_NoDup]. intros v Iv. apply Lk, JV in Iv. tauto. }
    intros t. unfold B2RFacts.D in *. cbn [rden]. split.
    - intros (u & (Hu & Nn) & Ev). apply W1 in Hu. destruct Hu as (s & Ps & ->). rewrite (projection_eval E goal Ep (holds_gtup _ s)) in Ev.
      injection Ev as <-. exists s. split; auto. apply psem_anti_eq. exists s. split; [apply agree_refl|]. split; auto.
      intros (s'' & A & Q). apply (Nn (gtup k s)); [reflexivity|]. apply W2. exists s''. split; auto. apply gtup_agree.
      intros v Iv. apply A. apply Lk; auto.
    - intros (s & Hs & ->). apply psem_anti_eq in Hs. destruct Hs as (s' & A & Ps & Nn). exists (gtup (GT [k; g1]) s'). split; [split|].
      + apply W1; eauto.
      + intros kk Ek Q. cbn in Ek. injection Ek as <-. apply W2 in Q. destruct Q as (s'' & Q & Eg). apply Nn. exists s''. split; auto.
        apply gtup_inj in Eg. intros v Iv. apply Eg, Lk; auto.
      + rewrite (projection_eval E goal Ep (holds_gtup _ s')). f_equal. symmetry. apply gtup_agree. eapply agree_incl; eauto.
  Qed.

  (** ** Foreign predicates *)
  Lemma as_const_map : forall l cs, omap as_const l = Some cs -> l = map TConst cs.
  Proof.
    intros l cs H. apply omap_Forall2 in H. induction H as [|x c l cs Hx H IH]; auto. cbn. destruct x; [discriminate|].
    injection Hx as ->. f_equal; auto.
  Qed.
  Lemma as_var_map : forall l vs, omap as_var l = Some vs -> l = map TVar vs.
  Proof.
    intros l cs H. apply omap_Forall2 in H. induction H as [|x c l cs Hx H IH]; auto. cbn. destruct x; [|discriminate].
    injection Hx as ->. f_equal; auto.
  Qed.
  Lemma map_TConst_inj : forall a b, map TConst a = map TConst b -> a = b.
  Proof. induction a as [|x a IH]; intros [|y b] H; try discriminate; auto. injection H as -> H. f_equal; auto. Qed.
  Lemma tvals_app : forall s a b, tvals s (a ++ b) = tvals s a ++ tvals s b.
  Proof. intros. apply map_app. Qed.
  Lemma tvals_consts : forall s cs, tvals s (map TConst cs) = cs.
  Proof. intros. unfold tvals. rewrite map_map. cbn. apply map_id. Qed.
  Lemma tvals_vars : forall s vs, tvals s (map TVar vs) = map s vs.
  Proof. intros. unfold tvals. rewrite map_map. reflexivity. Qed.
  Lemma from_vars_tuple : forall vs s, NoDup vs -> gtup (from_vars vs false) s = vtup (map s vs).
  Proof.
    intros vs s ND. unfold from_vars. rewrite dedup_id by auto. destruct vs as [|x [|y l]]; try reflexivity.
    cbn [gtup]. rewrite gtup_map. reflexivity.
  Qed.
  Lemma set_vars : forall vs ws (s : subst), NoDup vs -> length ws = length vs ->
    exists s', map s' vs = ws /\ forall v, ~ In v vs -> s v = s' v.
  Proof.
    induction vs as [|v vs IH]; intros [|w ws] s ND L; try discriminate; [exists s; auto|]. inversion ND as [|? ? N1 N2]; subst.
    destruct (IH ws s N2) as (s' & E1 & E2); [cbn in L; lia|]. exists (upd s' v w). split.
    - cbn. rewrite upd_same. f_equal. rewrite <- E1. apply map_ext_in. intros x Ix. apply upd_other. intros ->. tauto.
    - intros x Nx. rewrite upd_other; [apply E2|]; intros K; apply Nx; [right|left]; auto.
  Qed.

  Lemma fp_ground_ok : forall bv a dup gv goal pr z d z', fp_ground_df C a goal pr z = Some (d, z') -> ext z' Z -> d_neg pr = false ->
    okp dup gv (PFpGround bv a) -> incl (leaves goal) bv -> strong goal (D d) (P (PFpGround bv a)).
  Proof.
    intros bv a dup gv goal pr z d z' H X Ng (cs & vs & O1 & O2 & O3 & O4 & O5) G. unfold fp_ground_df, sbind, sopt, fp_split in H.
    cbn [fst snd] in H. rewrite O1, <- O2 in H. rewrite <- (map_length TConst cs) in H at 1.
    rewrite firstn_app, Nat.sub_diag, firstn_all, firstn_O, app_nil_r in H.
    destruct (omap as_const (map TConst cs)) as [cs'|] eqn:Ec; [|discriminate]. apply as_const_map, map_TConst_inj in Ec. subst cs'.
    rewrite <- (map_length TConst cs) in H. rewrite skipn_app, Nat.sub_diag, skipn_all, skipn_O in H. cbn [app] in H.
    destruct (omap as_var (map TVar vs)) as [vs'|] eqn:Ev; [|discriminate]. apply as_var_map, map_TVar_inj in Ev. subst vs'.
    destruct (projection (from_vars vs false) goal) as [pe|] eqn:Ep; [|discriminate].
    destruct (@proc _ _ _ _ _ H Ng X) as [_ K]. apply strong_iff with (1 := K). clear K H.
    intros t. unfold B2RFacts.D. cbn [rden]. split.
    - intros (u & (ws & Hf & ->) & Ev). pose proof (O5 _ Hf) as L. rewrite O1, !app_length, !map_length in L.
      destruct (@set_vars vs ws (fun _ => VBool false) O3) as (s & Es & _); [lia|]. exists s. split.
      + exists s. split; [apply agree_refl|]. rewrite O1, tvals_app, tvals_consts, tvals_vars, Es. exact Hf.
      + rewrite <- Es, <- from_vars_tuple in Ev by auto. rewrite (projection_eval E goal Ep (holds_gtup _ s)) in Ev. congruence.
    - intros (s & (s' & A & Hf) & ->). exists (vtup (map s' vs)). split.
      + exists (map s' vs). split; auto. rewrite O1, tvals_app, tvals_consts, tvals_vars in Hf. exact Hf.
      + rewrite <- from_vars_tuple by auto. rewrite (projection_eval E goal Ep (holds_gtup _ s')). f_equal. symmetry. apply gtup_agree.
        cbn [bvars] in A. eapply agree_incl; eauto.
  Qed.

  Lemma evals_terms : forall g s u l es, omap (term_expr g) l = Some es -> holds g s u -> forall vs, evals E es u vs <-> vs = tvals s l.
  Proof.
    intros g s u l es H Hh. apply omap_Forall2 in H. induction H as [|x e l es Hx H IH]; intros vs.
    - split; [inversion 1; auto|intros ->; constructor].
    - pose proof (term_expr_eval E x Hx Hh) as Vx. split.
      + inversion 1 as [|? v ? vs' E1 E2]; subst. cbn. f_equal; [congruence|]. apply IH; auto.
      + intros ->. constructor; auto. apply IH. reflexivity.
  Qed.
  Lemma hash_leaves : forall l b v, In v (leaves (from_vars (ce_hash C l) b)) <-> In v l.
  Proof.
    intros l b v. rewrite from_vars_leaves, dedup_In. split; apply Permutation_in; [|apply Permutation_sym]; apply HASH.
  Qed.
  Lemma fp_constr_ok : forall bv q a goal pr z d z', fp_constr_df C q (plan_df C q) a goal pr z = Some (d, z') ->
    ext z' Z -> d_neg pr = false -> incl bv (bvars q) -> sub_ok q false (bvars q) (plan_df C q) ->
    incl (leaves goal) bv -> strong goal (D d) (P (PFpConstr bv q a)).
  Proof.
    intros bv q a goal pr z d z' H X Ng O1 IH G. unfold fp_constr_df, sbind, sopt in H.
    set (g := from_vars (ce_hash C (bvars q)) false) in *.
    destruct (plan_df C q g (with_sorted false pr) z) as [[d1 z1]|] eqn:E1; [|discriminate].
    destruct (omap (term_expr g) (a_args a)) as [es|] eqn:Ee; [|discriminate]. destruct (projection g goal) as [pe|] eqn:Ep; [|discriminate].
    destruct (@proc _ _ _ _ _ H Ng X) as [X1 K]. apply strong_iff with (1 := K). clear K H.
    assert (W : spec g (D d1) (P q)).
    { apply (IH _ _ _ _ _ E1 X1 Ng); [intros v Iv; apply hash_leaves in Iv; auto|intros v Iv; apply hash_leaves; auto|intros _; apply from_NoDup]. }
    destruct W as [[W1 W2] _]. intros t. unfold B2RFacts.D in *. cbn [rden]. split.
    - intros (u & (Hu & vs & Hv & Hf) & Ev). destruct (W1 _ Hu) as (s & Ps & Hs). apply (@evals_terms g s u _ es Ee Hs) in Hv. subst vs.
      rewrite (projection_eval E goal Ep Hs) in Ev. exists s. split; [|congruence]. exists s. split; [apply agree_refl|auto].
    - intros (s & (s' & A & Ps & Hf) & ->). destruct (W2 _ Ps) as (u & Hu & Hs). exists u. split; [split; auto|].
      + exists (tvals s' (a_args a)). split; auto. apply (@evals_terms g s' u _ es Ee Hs). reflexivity.
      + rewrite (projection_eval E goal Ep Hs). f_equal. symmetry. apply gtup_agree. cbn [bvars] in A. eapply agree_incl; eauto.
  Qed.
  Lemma fp_join_ok : forall bv q a dup gv goal pr z d z', fp_join_df C q (plan_df C q) a goal pr z = Some (d, z') ->
    ext z' Z -> d_neg pr = false -> okp dup gv (PFpJoin bv q a) -> sub_ok q false (bvars q) (plan_df C q) ->
    incl (leaves goal) bv -> strong goal (D d) (P (PFpJoin bv q a)).
  Proof.
    intros bv q a dup gv goal pr z d z' H X Ng (bs & vs & O1 & O2 & O3 & O4 & O5 & O6 & O7 & _) IH G.
    unfold fp_join_df, sbind, sopt, fp_split in H. cbn [fst snd] in H. rewrite O1, <- O2 in H.
    rewrite firstn_app, Nat.sub_diag, firstn_all, firstn_O, app_nil_r, skipn_app, Nat.sub_diag, skipn_all, skipn_O in H. cbn [app] in H.
    set (g := from_vars (ce_hash C (bvars q)) false) in *.
    destruct (plan_df C q g (with_sorted false pr) z) as [[d1 z1]|] eqn:E1; [|discriminate].
    destruct (omap (term_expr g) bs) as [es|] eqn:Ee; [|discriminate].
    destruct (omap as_var (map TVar vs)) as [vs'|] eqn:Ev; [|discriminate]. apply as_var_map, map_TVar_inj in Ev. subst vs'.
    destruct (projection (GT [g; from_vars vs false]) goal) as [pe|] eqn:Ep; [|discriminate].
    destruct (@proc _ _ _ _ _ H Ng X) as [X1 K]. apply strong_iff with (1 := K). clear K H.
    assert (Lg : forall v, In v (leaves g) <-> In v (bvars q)) by (intros; apply hash_leaves).
    assert (W : spec g (D d1) (P q)).
    { apply (IH _ _ _ _ _ E1 X1 Ng); [intros v Iv; apply hash_leaves in Iv; auto|intros v Iv; apply hash_leaves; auto|intros _; apply from_NoDup]. }
    destruct W as [[W1 W2] _]. intros t. unfold B2RFacts.D in *. cbn [rden]. split.
    - intros (u & (u1 & ws & rs & Hu & Hv & Hf & ->) & Ev). destruct (W1 _ Hu) as (s & Ps & Hs). apply (@evals_terms g s u1 _ es Ee Hs) in Hv. subst ws.
      pose proof (O7 _ Hf) as L. unfold tvals in L. rewrite O1, !app_length, !map_length in L.
      destruct (@set_vars vs rs s O3) as (s' & Es & As); [lia|].
      assert (A : agree (bvars q) s s') by (intros v Iv; apply As; intros J; apply (O5 v); auto).
      assert (Hh : holds (GT [g; from_vars vs false]) s' (TTup [u1; vtup rs])).
      { apply holds_pair; [eapply holds_agree; [|exact Hs]; eapply agree_incl; eauto; intros v Iv; apply Lg; auto|].
        rewrite <- Es, <- from_vars_tuple by auto. apply holds_gtup. }
      rewrite (projection_eval E goal Ep Hh) in Ev. exists s'. split; [|congruence]. exists s'. split; [apply agree_refl|].
      split; [eapply psem_agree; eauto|]. rewrite O1, tvals_app, tvals_vars, Es, <- (tvals_agree s s'); auto. eapply agree_incl; eauto.
    - intros (s & (s' & A & Ps & Hf) & ->). destruct (W2 _ Ps) as (u & Hu & Hs). exists (TTup [u; vtup (map s' vs)]). split.
      + exists u, (tvals s' bs), (map s' vs). rewrite O1, tvals_app, tvals_vars in Hf. repeat split; auto.
        apply (@evals_terms g s' u _ es Ee Hs). reflexivity.
      + rewrite <- from_vars_tuple by auto. rewrite (projection_eval E goal Ep (holds_pair Hs (holds_gtup _ s'))). f_equal. symmetry. apply gtup_agree.
        cbn [bvars] in A. eapply agree_incl; eauto.
  Qed.

  Lemma reduce_ok : forall bv r dup gv goal pr z d z', reduce_df C r goal pr z = Some (d, z') -> ext z' Z -> d_neg pr = false ->
    okp dup gv (PReduce bv r) -> incl (leaves goal) bv -> strong goal (D d) (P (PReduce bv r)).
  Proof.
    intros bv r dup gv goal pr z d z' H X Ng O G. cbn [okp] in O. unfold reduce_df, sbind, sopt in H.
    destruct (projection (reduce_goal r) goal) as [pe|] eqn:Ep; [|discriminate].
    destruct (@proc _ _ _ _ _ H Ng X) as [_ K]. apply strong_iff with (1 := K). clear K H.
    intros t. unfold B2RFacts.D. cbn [rden]. split.
    - intros (u & Hu & Ev). apply O in Hu. destruct Hu as (s & Hs & ->). rewrite (projection_eval E goal Ep (holds_gtup _ s)) in Ev.
      exists s. split; [|congruence]. exists s. split; [apply agree_refl|auto].
    - intros (s & (s' & A & Hs) & ->). exists (gtup (reduce_goal r) s'). split; [apply O; eauto|].
      rewrite (projection_eval E goal Ep (holds_gtup _ s')). f_equal. symmetry. apply gtup_agree. cbn [bvars] in A. eapply agree_incl; eauto.
  Qed.

  (** ** Plans *)
  Lemma plan_ok : forall p dup gv, okp dup gv p -> sub_ok p dup gv (plan_df C p).
  Proof.
    induction p as [bv|bv r|bv a|bv q IH l|bv q IH cs|bv p IHp q IHq|bv p IHp q IHq|bv a|bv q IH a|bv q IH a];
      intros dup gv O goal pr z d z' H X Ng G Gv ND; cbn [plan_df] in H; cbn [bvars] in G.
    - unfold sbind, sopt in H. destruct (unit_tuple goal) as [u|] eqn:Eu; [|discriminate]. injection H as <- <-.
      apply strong_spec. intros t. unfold B2RFacts.D. cbn [rden]. split.
      + intros ->. exists (fun _ => VBool false). split; [exists (fun _ => VBool false); split; [apply agree_refl|auto]|].
        symmetry. apply unit_gtup; auto.
      + intros (s & _ & ->). apply unit_gtup; auto.
    - apply strong_spec. eapply reduce_ok; eauto.
    - cbn [okp] in O. destruct O as (O1 & O2 & O3).
      pose proof (@ground_ok C B ag JI JM I M Z TEMPS NEGS PERMS CINJ goal a pr z d z' H X) as K. rewrite Ng in K.
      specialize (K O2). eapply spec_iff; [intros t; reflexivity| |apply K].
      + intros s. cbn [ir]. symmetry. apply psem_ground. intros v Iv. apply O1; auto.
      + intros v Iv. apply O1; auto.
      + destruct O3 as [O3|O3]; auto.
    - eapply project_ok; eauto. apply IH. apply O.
    - apply strong_spec. eapply filter_ok; eauto. apply IH. apply O.
    - apply strong_spec. cbn [okp] in O. destruct O as (O1 & O2 & O3 & O4 & O5 & O6). unfold join_plan_df in H. apply IHp in O5. apply IHq in O6.
      destruct (join_vars p q) as [|v0 jv] eqn:Ej; [eapply product_ok; eauto|].
      destruct (set_eqb (bvars p) (bvars q)) eqn:Es.
      + eapply intersect_ok; eauto. intros A1 A2. apply O4; auto. discriminate.
      + eapply join_ok; eauto.
    - apply strong_spec. cbn [okp] in O. destruct O as (O1 & O2 & O3 & O4). destruct q as [| |br a| | | | | | |]; try tauto.
      destruct O3 as (O5 & O6 & O7). cbn [bvars] in O4. unfold anti_plan_df in H. destruct (set_eqb (bvars p) (bvars (PGround br a))) eqn:Es.
      + eapply difference_ok; eauto.
      + eapply antijoin_ok; eauto.
    - apply strong_spec. eapply fp_ground_ok; eauto.
    - apply strong_spec. cbn [okp] in O. destruct O as (O1 & O2 & O3). eapply fp_constr_ok; eauto.
    - apply strong_spec. eapply fp_join_ok; eauto. apply IH. cbn [okp] in O. destruct O as (bs & vs & _ & _ & _ & _ & _ & _ & _ & O). exact O.
  Qed.
End Lower.
