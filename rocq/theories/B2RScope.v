(** What the dataflows built by lowering (B2R.v) refer to: predicates, permuted
    copies, and temporary relations made before.  Used by C53 and C54. *)
From Coq Require Import List ZArith Bool Arith Lia Sorted.
From Verif Require Import Value Back Eval Ram Dataflow BackSem Scc Plan VarTuple VarTupleFacts B2R RamSem B2RFacts.
Import ListNotations.
Set Implicit Arguments.

(** The relations a dataflow reads: those that may grow while it runs, and those
    on the right of differences and antijoins and in aggregations. *)
Fixpoint prefs (d : rdf) : list nat :=
  match d with
  | RUnit _ | RVec _ | RGround _ _ | RReduce _ _ _ => []
  | RRel r => [r]
  | ROverwrite d | RFilter d _ | RProject d _ | RFind d _ | RSorted d | RConstraint d _ _ | RFpJoin d _ _ => prefs d
  | RInter d1 d2 | RJoin d1 d2 | RProd d1 d2 | RUnion d1 d2 => prefs d1 ++ prefs d2
  | RDiff d1 _ | RAnti d1 _ => prefs d1
  | RJoinIV d r => r :: prefs d
  end.
Fixpoint nrefs (d : rdf) : list nat :=
  match d with
  | RUnit _ | RVec _ | RGround _ _ | RRel _ => []
  | RReduce _ p grp => p :: match grp with GJoin r => [r] | _ => [] end
  | ROverwrite d | RFilter d _ | RProject d _ | RFind d _ | RSorted d | RConstraint d _ _ | RFpJoin d _ _ | RJoinIV d _ => nrefs d
  | RInter d1 d2 | RJoin d1 d2 | RProd d1 d2 | RUnion d1 d2 => nrefs d1 ++ nrefs d2
  | RDiff d1 d2 | RAnti d1 d2 => nrefs d1 ++ prefs d2 ++ nrefs d2
  end.

Section RdenExt.
  Variables (E : renv) (fp : pred -> rel) (ag : nat -> nat -> rgrp -> tuple -> Prop).
  (** A dataflow only depends on the relations it refers to, and grows with those
      it refers to positively. *)
  Lemma rden_mono : forall d (M M' I I' : rels), (forall r, In r (nrefs d) -> forall t, M r t <-> M' r t) ->
    (forall r, In r (prefs d) -> forall t, I r t -> I' r t) -> forall t, rden E fp ag M I d t -> rden E fp ag M' I' d t.
  Proof.
    assert (W : forall A (l1 l2 : list A) (Q : A -> Prop), (forall r, In r (l1 ++ l2) -> Q r) -> (forall r, In r l1 -> Q r) /\ forall r, In r l2 -> Q r).
    { intros A l1 l2 Q H. split; intros r Ir; apply H, in_app_iff; auto. }
    induction d; intros M M' I I' HM HI t; cbn [rden prefs nrefs] in *;
      try (apply W in HM; destruct HM as [HM1 HM2]); try (apply W in HI; destruct HI as [HI1 HI2]).
    - auto.
    - auto.
    - apply HI. left; auto.
    - apply IHd; auto.
    - intros [H1 H2]. split; auto. apply (IHd M M' I I'); auto.
    - intros (u & H1 & H2). exists u. split; auto. apply (IHd M M' I I'); auto.
    - intros [H1 H2]. split; auto. apply (IHd M M' I I'); auto.
    - apply IHd; auto.
    - intros [H1 H2]. split; [apply (IHd1 M M' I I')|apply (IHd2 M M' I I')]; auto.
    - intros (t1 & t2 & k & x & y & H1 & H2 & H3). exists t1, t2, k, x, y.
      split; [apply (IHd1 M M' I I')|split; [apply (IHd2 M M' I I')|]]; auto.
    - intros (t1 & t2 & H1 & H2 & H3). exists t1, t2.
      split; [apply (IHd1 M M' I I')|split; [apply (IHd2 M M' I I')|]]; auto.
    - intros [H|H]; [left; apply (IHd1 M M' I I')|right; apply (IHd2 M M' I I')]; auto.
    - apply W in HM2. destruct HM2 as [HM2 HM3]. intros [H1 H2]. split; [apply (IHd1 M M' I I'); auto|]. intros H. apply H2.
      apply (IHd2 M' M M' M); auto; intros r Ir u; [symmetry; auto|]. apply HM2; auto.
    - apply W in HM2. destruct HM2 as [HM2 HM3]. intros [H1 H2]. split; [apply (IHd1 M M' I I'); auto|]. intros k Ek H. apply (H2 k Ek).
      apply (IHd2 M' M M' M); auto; intros r Ir u; [symmetry; auto|]. apply HM2; auto.
    - intros (t1 & k & x & y & H1 & H2 & H3 & H4 & H5). exists t1, k, x, y.
      split; [apply (IHd M M' I I'); auto; intros r0 Ir; apply HI; right; auto|].
      split; auto. split; auto. split; auto. apply HI; [left|]; auto.
    - auto.
    - intros [H1 H2]. split; auto. apply (IHd M M' I I'); auto.
    - intros (u & vs & ws & H1 & H2). exists u, vs, ws. split; auto. apply (IHd M M' I I'); auto.
    - auto.
  Qed.
  Lemma rden_ext : forall d (M M' I I' : rels), (forall r, In r (nrefs d) -> forall t, M r t <-> M' r t) ->
    (forall r, In r (prefs d) -> forall t, I r t <-> I' r t) -> forall t, rden E fp ag M I d t <-> rden E fp ag M' I' d t.
  Proof.
    intros d M M' I I' HM HI t. split; apply rden_mono; auto; intros r Ir u; try (symmetry; auto; fail); apply HI; auto.
  Qed.

  (** Definitions that only refer to earlier ones have a solution: over the given
      relations, with the right sides read off [M] or off the solution itself. *)
  Definition put (J : rels) (n : nat) (X : tuple -> Prop) : rels := fun r t => if Nat.eqb r n then X t else J r t.
  Fixpoint solve (M : option rels) (ds : list (nat * rdf)) (J : rels) : rels :=
    match ds with
    | [] => J
    | (n, d) :: ds => solve M ds (put J n (rden E fp ag (match M with Some M => M | None => J end) J d))
    end.
  Fixpoint in_order (ds : list (nat * rdf)) : Prop :=
    match ds with
    | [] => True
    | (n, d) :: ds' => (forall m, In m (map fst ds) -> ~ In m (prefs d)) /\ ~ In n (map fst ds') /\ in_order ds'
    end.
  Fixpoint in_order_neg (ds : list (nat * rdf)) : Prop :=
    match ds with
    | [] => True
    | (n, d) :: ds' => (forall m, In m (map fst ds) -> ~ In m (nrefs d)) /\ in_order_neg ds'
    end.
  Lemma solve_other : forall M ds J r, ~ In r (map fst ds) -> forall t, solve M ds J r t <-> J r t.
  Proof.
    intros M. induction ds as [|[n d] ds IH]; intros J r H t; cbn [solve]; [tauto|]. cbn in H. rewrite IH by tauto.
    unfold put. destruct (Nat.eqb_spec r n); [subst; tauto|tauto].
  Qed.
  Lemma solve_ok : forall M ds J, in_order ds -> (M = None -> in_order_neg ds) -> forall n d, In (n, d) ds ->
    forall t, solve M ds J n t <-> rden E fp ag (match M with Some M => M | None => solve M ds J end) (solve M ds J) d t.
  Proof.
    intros M. induction ds as [|[n d] ds IH]; intros J O ON m e Im t; [destruct Im|]. destruct O as (O1 & O2 & O3). cbn [solve].
    destruct Im as [Im|Im].
    - injection Im as <- <-. rewrite solve_other by exact O2. unfold put at 1. rewrite Nat.eqb_refl.
      assert (NE : forall X r, ~ In r (map fst ((n, d) :: ds)) -> forall u, J r u <-> solve M ds (put J n X) r u).
      { intros X r Hr u. cbn in Hr. rewrite solve_other by tauto. unfold put. destruct (Nat.eqb_spec r n); [subst; tauto|tauto]. }
      apply rden_ext.
      + intros r Ir u. destruct M as [M|]; [tauto|]. apply NE. intros K. exact (proj1 (ON eq_refl) _ K Ir).
      + intros r Ir u. apply NE. intros K. exact (O1 _ K Ir).
    - apply IH; auto. intros EM. apply (ON EM).
  Qed.
End RdenExt.

(** ** Scope *)
Section Scope.
  Variable C : cenv.
  (** The predicates that rules may read positively and negatively. *)
  Variables Pp Pn : pred -> Prop.

  (** The name [r] may be read on the right of a difference: with temporaries
      numbered below [k]. *)
  Inductive nname (z : bstate) : nat -> nat -> Prop :=
  | nn_pred k r : Pn r -> nname z k r
  | nn_perm k p g : Pn p -> In (p, g) (z_perms z) -> nname z k (ce_perm C p g)
  | nn_temp k i d : i < k -> In (ce_ntemp C i, d) (z_negs z) -> nrefs d = [] /\ prefs d <> [] -> (forall r, In r (prefs d) -> nname z i r) ->
      nname z k (ce_ntemp C i).
  (** The name [r] may be read positively. *)
  Inductive pname (z : bstate) : nat -> nat -> Prop :=
  | pn_pred k r : Pp r -> pname z k r
  | pn_perm k p g : Pp p -> In (p, g) (z_perms z) -> pname z k (ce_perm C p g)
  | pn_temp k i d : i < k -> In (ce_temp C i, d) (z_temps z) -> (forall r, In r (prefs d) -> pname z i r) ->
      (forall r, In r (nrefs d) -> nname z i r) -> pname z k (ce_temp C i).
  Lemma nname_mono : forall z z' k r, ext z z' -> nname z k r -> forall k', k <= k' -> nname z' k' r.
  Proof.
    intros z z' k r X H. induction H as [k r H|k p g H1 H2|k i d H1 H2 H3 H4 IH]; intros k' L.
    - apply nn_pred; auto.
    - apply nn_perm; auto. apply X; auto.
    - apply nn_temp with (d := d); auto; [lia|]. apply X; auto.
  Qed.
  Lemma pname_mono : forall z z' k r, ext z z' -> pname z k r -> forall k', k <= k' -> pname z' k' r.
  Proof.
    intros z z' k r X H. induction H as [k r H|k p g H1 H2|k i d H1 H2 H3 IH H4]; intros k' L.
    - apply pn_pred; auto.
    - apply pn_perm; auto. apply X; auto.
    - apply pn_temp with (d := d); auto; [lia|apply X; auto|]. intros r Ir. eapply nname_mono; eauto.
  Qed.

  (** What a dataflow built with the property [neg] reads. *)
  Definition scoped (neg : bool) (z : bstate) (k : nat) (d : rdf) : Prop :=
    if neg then (nrefs d = [] /\ prefs d <> []) /\ forall r, In r (prefs d) -> nname z k r
    else (forall r, In r (prefs d) -> pname z k r) /\ forall r, In r (nrefs d) -> nname z k r.
  Lemma scoped_mono : forall neg z z' k k' d, ext z z' -> k <= k' -> scoped neg z k d -> scoped neg z' k' d.
  Proof.
    intros [] z z' k k' d X L [H1 H2]; (split; [|]); auto; intros r Ir; first [eapply pname_mono|eapply nname_mono]; eauto.
  Qed.

  Definition numbered (mk : nat -> nat) (l : list (nat * rdf)) (k : nat) : Prop :=
    exists idx, map fst l = map mk idx /\ StronglySorted lt idx /\ forall i, In i idx -> i < k.
  Record inv (z : bstate) : Prop := {
    iv_temps : numbered (ce_temp C) (z_temps z) (z_next z);
    iv_negs : numbered (ce_ntemp C) (z_negs z) (z_next z);
    iv_tdef : forall n d, In (n, d) (z_temps z) -> exists i, i < z_next z /\ n = ce_temp C i /\ scoped false z i d;
    iv_ndef : forall n d, In (n, d) (z_negs z) -> exists i, i < z_next z /\ n = ce_ntemp C i /\ scoped true z i d;
    iv_perm : forall p g, In (p, g) (z_perms z) -> Pp p \/ Pn p }.

  Lemma numbered_more : forall mk l k k', numbered mk l k -> k <= k' -> numbered mk l k'.
  Proof. intros mk l k k' (idx & H1 & H2 & H3) L. exists idx. split; auto. split; auto. intros i Ii. specialize (H3 i Ii). lia. Qed.
  Lemma numbered_snoc : forall mk l k d, numbered mk l k -> numbered mk (l ++ [(mk k, d)]) (S k).
  Proof.
    intros mk l k d (idx & H1 & H2 & H3). exists (idx ++ [k]). split; [|split].
    - rewrite !map_app, H1. reflexivity.
    - clear H1. induction H2 as [|i idx H2 IH F]; cbn; [repeat constructor|]. constructor.
      + apply IH. intros; apply H3; right; auto.
      + apply Forall_app. split; auto. constructor; auto. apply H3. left; auto.
    - intros i Ii. apply in_app_iff in Ii. destruct Ii as [Ii|[<-|[]]]; [specialize (H3 i Ii)|]; lia.
  Qed.

  (** New temporaries have new numbers. *)
  Definition grown (z z' : bstate) : Prop := z_next z <= z_next z' /\
    forall n, In n (map fst (z_temps z')) -> In n (map fst (z_temps z)) \/ exists i, z_next z <= i /\ n = ce_temp C i.
  Lemma grown_refl : forall z, grown z z.
  Proof. intros z. split; auto. Qed.
  Lemma grown_trans : forall z1 z2 z3, grown z1 z2 -> grown z2 z3 -> grown z1 z3.
  Proof.
    intros z1 z2 z3 [L1 H1] [L2 H2]. split; [lia|]. intros n Hn. destruct (H2 n Hn) as [H|(i & Li & ->)]; auto. right. exists i. split; [lia|auto].
  Qed.
  Lemma grown_same : forall z z', z_next z <= z_next z' -> z_temps z' = z_temps z -> grown z z'.
  Proof. intros z z' L E. split; auto. rewrite E. auto. Qed.

  (** From a state with [P], [m] keeps the invariant and yields something satisfying
      [Q]. *)
  Definition keeps {A} (P : bstate -> Prop) (m : step A) (Q : A -> bstate -> Prop) : Prop := forall z a z', inv z -> P z ->
    m z = Some (a, z') -> inv z' /\ ext z z' /\ grown z z' /\ Q a z'.
  Definition is_scoped (neg : bool) (d : rdf) (z : bstate) : Prop := scoped neg z (z_next z) d.
  Definition any (z : bstate) : Prop := True.
  Lemma keeps_ret : forall A (a : A) (P : bstate -> Prop) (Q : A -> bstate -> Prop), (forall z, P z -> Q a z) -> keeps P (sret a) Q.
  Proof. intros A a P Q H z b z' V HP E. injection E as <- <-. split; auto. split; [apply ext_refl|]. split; [apply grown_refl|auto]. Qed.
  Lemma keeps_opt : forall A Bt (o : option A) (f : A -> step Bt) P Q, (forall a, o = Some a -> keeps P (f a) Q) -> keeps P (sbind (sopt o) f) Q.
  Proof. intros A Bt [a|] f P Q H z b z' V HP E; [|discriminate]. unfold sbind, sopt in E. eapply H; eauto. Qed.
  Lemma keeps_bind : forall A Bt (m : step A) (f : A -> step Bt) P R Q, keeps P m R -> (forall a, keeps (R a) (f a) Q) -> keeps P (sbind m f) Q.
  Proof.
    intros A Bt m f P R Q Hm Hf z b z' V HP E. unfold sbind in E. destruct (m z) as [[d z1]|] eqn:Em; [|discriminate].
    destruct (Hm _ _ _ V HP Em) as (V1 & X1 & L1 & S1). destruct (Hf _ _ _ _ V1 S1 E) as (V2 & X2 & L2 & S2).
    split; auto. split; [eapply ext_trans; eauto|]. split; [eapply grown_trans; eauto|auto].
  Qed.
  Lemma keeps_frame : forall A (m : step A) P Q neg d, keeps P m Q ->
    keeps (fun z => P z /\ is_scoped neg d z) m (fun a z => Q a z /\ is_scoped neg d z).
  Proof.
    intros A m P Q neg d H z a z' V [HP HS] E. destruct (H _ _ _ V HP E) as (V1 & X1 & L1 & S1).
    split; auto. split; auto. split; auto. split; auto. eapply scoped_mono; [exact X1|exact (proj1 L1)|exact HS].
  Qed.
  Lemma keeps_pre : forall A (m : step A) (P P' : bstate -> Prop) Q, (forall z, P' z -> P z) -> keeps P m Q -> keeps P' m Q.
  Proof. intros A m P P' Q H K z a z' V HP E. eapply K; eauto. Qed.

  Lemma inv_ext_scoped : forall z z', inv z -> ext z z' -> z_next z <= z_next z' ->
    (forall n d, In (n, d) (z_temps z) -> exists i, i < z_next z' /\ n = ce_temp C i /\ scoped false z' i d) /\
    (forall n d, In (n, d) (z_negs z) -> exists i, i < z_next z' /\ n = ce_ntemp C i /\ scoped true z' i d).
  Proof.
    intros z z' V X L. split; intros n d J; [destruct (iv_tdef V _ _ J) as (i & Li & -> & S)|destruct (iv_ndef V _ _ J) as (i & Li & -> & S)];
      exists i; (split; [lia|]); (split; [reflexivity|]); eapply scoped_mono; eauto.
  Qed.
  Lemma temp_keeps : forall d, keeps (is_scoped false d) (create_temp C d) (is_scoped false).
  Proof.
    intros d z a z' V S E.
    assert (X : ext z z') by (eapply grows_temp; eauto).
    injection E as <- <-. set (z' := mkB _ _ _ _) in *.
    assert (L : z_next z <= z_next z') by (cbn; lia).
    destruct (inv_ext_scoped V X L) as [K1 K2].
    assert (IT : In (ce_temp C (z_next z), d) (z_temps z')) by (cbn; apply in_app_iff; right; left; auto).
    assert (S' : scoped false z' (z_next z) d) by (eapply scoped_mono; eauto).
    split; [|split; [|split]]; auto.
    - constructor; auto.
      + apply numbered_snoc, (iv_temps V).
      + eapply numbered_more; [apply (iv_negs V)|exact L].
      + intros n e J. cbn in J. apply in_app_iff in J. destruct J as [J|[J|[]]]; auto. injection J as <- <-.
        exists (z_next z). split; [cbn; lia|]. split; auto.
      + apply (iv_perm V).
    - split; auto. intros n Hn. cbn in Hn. rewrite map_app, in_app_iff in Hn. destruct Hn as [Hn|[<-|[]]]; auto. right. exists (z_next z). auto.
    - split.
      + intros r [<-|[]]. destruct S' as [S1 S2]. apply pn_temp with (d := d); auto. 
      + intros r [].
  Qed.
  Lemma ntemp_keeps : forall d, keeps (is_scoped true d) (create_ntemp C d) (is_scoped true).
  Proof.
    intros d z a z' V S E.
    assert (X : ext z z') by (eapply grows_ntemp; eauto).
    injection E as <- <-. set (z' := mkB _ _ _ _) in *.
    assert (L : z_next z <= z_next z') by (cbn; lia).
    destruct (inv_ext_scoped V X L) as [K1 K2].
    assert (IT : In (ce_ntemp C (z_next z), d) (z_negs z')) by (cbn; apply in_app_iff; right; left; auto).
    assert (S' : scoped true z' (z_next z) d) by (eapply scoped_mono; eauto).
    split; [|split; [|split]]; auto.
    - constructor; auto.
      + eapply numbered_more; [apply (iv_temps V)|exact L].
      + apply numbered_snoc, (iv_negs V).
      + intros n e J. cbn in J. apply in_app_iff in J. destruct J as [J|[J|[]]]; auto. injection J as <- <-.
        exists (z_next z). split; [cbn; lia|]. split; auto.
      + apply (iv_perm V).
    - apply grown_same; auto.
    - split; [split; [reflexivity|discriminate]|]. intros r [<-|[]]. destruct S' as [S1 S2]. apply nn_temp with (d := d); auto.
  Qed.
  Lemma process_keeps : forall d pr, keeps (is_scoped (d_neg pr) d) (process C d pr) (is_scoped (d_neg pr)).
  Proof.
    intros d pr. unfold process. destruct (d_sorted pr); [|apply keeps_ret; auto].
    destruct (d_neg pr) eqn:EN; [apply ntemp_keeps|]. destruct (d_inplace pr); [|apply temp_keeps].
    apply keeps_ret. auto.
  Qed.
  Lemma perm_keeps : forall p g, Pp p \/ Pn p -> keeps any (add_perm p g) (fun _ z => In (p, g) (z_perms z)).
  Proof.
    intros p g HP z u z' V _ E.
    assert (X : ext z z') by (eapply grows_perm; eauto).
    injection E as _ <-. set (z' := mkB _ _ _ _) in *.
    assert (L : z_next z <= z_next z') by (cbn; lia).
    destruct (inv_ext_scoped V X L) as [K1 K2].
    split; [|split; [|split]]; auto.
    - constructor; auto.
      + apply (iv_temps V).
      + apply (iv_negs V).
      + intros q h J. cbn in J. apply in_app_iff in J. destruct J as [J|[J|[]]]; [eapply (iv_perm V); eauto|]. injection J as <- <-. auto.
    - apply grown_same; auto.
    - cbn. apply in_app_iff. right; left; auto.
  Qed.

  (** Building blocks. *)
  Definition atom_in (neg : bool) (p : pred) : Prop := if neg then Pn p else Pp p.
  Lemma scoped_rel : forall neg z k p, atom_in neg p -> scoped neg z k (RRel p).
  Proof.
    intros [] z k p H; (split; [|]); try (split; [reflexivity|discriminate]); intros r Ir; cbn in Ir; try (destruct Ir; fail);
      destruct Ir as [<-|[]]; [apply nn_pred|apply pn_pred]; auto.
  Qed.
  Lemma scoped_perm : forall neg z k p g, atom_in neg p -> In (p, g) (z_perms z) -> scoped neg z k (RRel (ce_perm C p g)).
  Proof.
    intros [] z k p g H J; (split; [|]); try (split; [reflexivity|discriminate]); intros r Ir; cbn in Ir; try (destruct Ir; fail);
      destruct Ir as [<-|[]]; [apply nn_perm|apply pn_perm]; auto.
  Qed.
  Lemma scoped_same : forall neg z k d d', prefs d' = prefs d -> nrefs d' = nrefs d -> scoped neg z k d -> scoped neg z k d'.
  Proof. intros [] z k d d' H1 H2 [K1 K2]; cbn; rewrite H1, H2; auto. Qed.
  Lemma scoped_two : forall z k d d1 d2, prefs d = prefs d1 ++ prefs d2 -> nrefs d = nrefs d1 ++ nrefs d2 ->
    scoped false z k d1 -> scoped false z k d2 -> scoped false z k d.
  Proof.
    intros z k d d1 d2 H1 H2 [K1 K2] [K3 K4]. cbn. rewrite H1, H2. split; intros r Ir; apply in_app_iff in Ir; destruct Ir; auto.
  Qed.
  Lemma scoped_minus : forall z k d d1 d2, prefs d = prefs d1 -> nrefs d = nrefs d1 ++ prefs d2 ++ nrefs d2 ->
    scoped false z k d1 -> scoped true z k d2 -> scoped false z k d.
  Proof.
    intros z k d d1 d2 H1 H2 [K1 K2] [[K3 _] K4]. cbn. rewrite H1, H2, K3, app_nil_r. split; auto.
    intros r Ir. apply in_app_iff in Ir. destruct Ir; auto.
  Qed.
  Lemma scoped_none : forall z k d, prefs d = [] -> nrefs d = [] -> scoped false z k d.
  Proof. intros z k d H1 H2; cbn; rewrite H1, H2; split; auto; intros r []. Qed.

  (** ** Atoms *)
  Lemma no_const_keeps : forall goal a pr, atom_in (d_neg pr) (a_pred a) -> keeps any (no_const_ground C goal a pr) (is_scoped (d_neg pr)).
  Proof.
    intros goal a pr HP. assert (HP2 : Pp (a_pred a) \/ Pn (a_pred a)) by (destruct (d_neg pr); cbn in HP; auto).
    assert (SR : forall z, is_scoped (d_neg pr) (RRel (a_pred a)) z) by (intros z; apply scoped_rel; auto).
    unfold no_const_ground. destruct (matches goal (a_args a)).
    - apply keeps_ret. auto.
    - apply keeps_opt. intros perm _. destruct (atom_filter (a_args a)) as [f|].
      + assert (SD : forall z, is_scoped (d_neg pr) (RProject (RFilter (RRel (a_pred a)) f) (perm_expr perm)) z).
        { intros z. eapply scoped_same; [| |apply SR]; reflexivity. }
        destruct (d_sorted pr && negb (order_preserving perm)); [|apply keeps_ret; auto].
        eapply keeps_bind; [apply perm_keeps; auto|]. intros u.
        destruct (d_neg pr); [eapply keeps_pre; [|apply ntemp_keeps]|eapply keeps_pre; [|apply temp_keeps]]; auto.
      + destruct (d_sorted pr && negb (order_preserving perm)).
        * eapply keeps_bind; [apply perm_keeps; auto|]. intros u. apply keeps_ret. intros z I1. apply scoped_perm; auto.
        * apply keeps_ret. intros z _. eapply scoped_same; [| |apply SR]; reflexivity.
  Qed.
  Lemma ground_keeps : forall goal a pr, atom_in (d_neg pr) (a_pred a) -> keeps any (ground_df C goal a pr) (is_scoped (d_neg pr)).
  Proof.
    intros goal a pr HP. unfold ground_df. destruct (a_args a) as [|t args] eqn:Ea.
    - unfold empty_ground. destruct (matches goal (a_args a)).
      + apply keeps_ret. intros z _. apply scoped_rel; auto.
      + apply keeps_opt. intros e _. apply keeps_ret. intros z _. eapply scoped_same; [| |apply scoped_rel; exact HP]; reflexivity.
    - rewrite <- Ea. destruct (existsb is_const (a_args a)); [|apply no_const_keeps; auto].
      assert (HN : forall goal b, keeps any (no_const_ground C goal (sub_atom C a) (with_sorted b pr)) (is_scoped (d_neg pr))).
      { intros g0 b. apply (@no_const_keeps g0 (sub_atom C a) (with_sorted b pr)). exact HP. }
      destruct (ce_static C (a_pred a) && negb (upfront false (a_args a))).
      + unfold static_ground. eapply keeps_bind; [apply HN|]. intros d.
        match goal with |- context [map ?f ?l] => destruct (map f l) as [|e es] end; [intros ? ? ? ? ? H; discriminate|].
        apply keeps_opt. intros pe _. eapply keeps_pre; [|apply process_keeps]. intros z. apply scoped_same; reflexivity.
      + unfold dynamic_ground. eapply keeps_bind; [apply HN|]. intros d.
        apply keeps_opt. intros pe _. eapply keeps_pre; [|apply process_keeps]. intros z. apply scoped_same; reflexivity.
  Qed.

  (** ** Plans *)
  (** Plans that read the given predicates and negate atoms. *)
  Fixpoint reads_ok (p : plan) : Prop :=
    match p with
    | PUnit _ | PFpGround _ _ => True
    | PReduce _ r => Pn (a_pred (rd_body r)) /\ match rd_groupby r with Some a => Pn (a_pred a) | None => True end
    | PGround _ a => Pp (a_pred a)
    | PProject _ p _ | PFilter _ p _ | PFpConstr _ p _ | PFpJoin _ p _ => reads_ok p
    | PJoin _ p q => reads_ok p /\ reads_ok q
    | PAnti _ p q => reads_ok p /\ match q with PGround _ a => Pn (a_pred a) | _ => False end
    end.
  Definition keeps_sub (s : sub) : Prop := forall goal pr, d_neg pr = false -> keeps any (s goal pr) (is_scoped false).
  Lemma proc_keeps : forall d pr (P : bstate -> Prop), d_neg pr = false -> (forall z, P z -> is_scoped false d z) -> keeps P (process C d pr) (is_scoped false).
  Proof. intros d pr P EN H. eapply keeps_pre; [exact H|]. rewrite <- EN. apply process_keeps. Qed.
  Lemma project_keeps : forall fuel s bv l goal pr, keeps_sub s -> d_neg pr = false -> keeps any (project_df C fuel s bv l goal pr) (is_scoped false).
  Proof.
    induction fuel as [|fuel IH]; intros s bv l goal pr G EN; cbn [project_df].
    - destruct (filter (fun v => negb (memb v bv)) (variables goal)); [apply G; auto|]. destruct l; intros ? ? ? ? ? H; discriminate.
    - destruct (filter (fun v => negb (memb v bv)) (variables goal)); [apply G; auto|]. destruct l; [intros ? ? ? ? ? H; discriminate|].
      eapply keeps_bind; [apply IH; auto|]. intros d. apply keeps_opt. intros pe _. apply proc_keeps; auto.
  Qed.
  Lemma two_keeps : forall A neg m1 m2 (f : rdf -> rdf -> step A) Q, keeps any m1 (is_scoped false) -> keeps any m2 (is_scoped neg) ->
    (forall d1 d2, keeps (fun z => is_scoped neg d2 z /\ is_scoped false d1 z) (f d1 d2) Q) ->
    keeps any (sbind m1 (fun d1 => sbind m2 (f d1))) Q.
  Proof.
    intros A neg m1 m2 f Q H1 H2 H3. eapply keeps_bind; [exact H1|]. intros d1.
    eapply keeps_bind; [|intros d2; apply H3]. eapply keeps_pre; [|apply (keeps_frame false d1 H2)]. intros z Hz. split; [exact I|exact Hz].
  Qed.
  Lemma plan_keeps : forall p, reads_ok p -> keeps_sub (plan_df C p).
  Proof.
    induction p as [bv|bv r|bv a|bv p IH l|bv p IH cs|bv p IHp q IHq|bv p IHp q IHq|bv a|bv p IH a|bv p IH a];
      intros HR goal pr EN; cbn [plan_df]; cbn [reads_ok] in HR.
    - apply keeps_opt. intros u _. apply keeps_ret. intros z _. apply scoped_none; reflexivity.
    - unfold reduce_df. apply keeps_opt. intros e _. apply proc_keeps; auto. intros z _. destruct HR as [H1 H2]. split; [intros q []|].
      cbn [nrefs]. intros q [<-|Iq]; [apply nn_pred; auto|]. unfold reduce_grp in Iq. destruct (rd_group r); [destruct Iq|].
      destruct (rd_groupby r) as [a|]; [|destruct Iq]. destruct Iq as [<-|[]]. apply nn_pred; auto.
    - rewrite <- EN. apply ground_keeps. rewrite EN. exact HR.
    - apply project_keeps; auto.
    - unfold filter_df. apply keeps_opt. intros sg _. eapply keeps_bind; [apply IH; auto|]. intros d.
      apply keeps_opt. intros f _. apply keeps_opt. intros pe _. apply proc_keeps; auto.
    - destruct HR as [HR1 HR2].
      assert (G : forall A g1 g2 pr1 pr2 (f : rdf -> rdf -> step A) Q, d_neg pr1 = false -> d_neg pr2 = false ->
        (forall d1 d2, keeps (fun z => is_scoped false d2 z /\ is_scoped false d1 z) (f d1 d2) Q) ->
        keeps any (sbind (plan_df C p g1 pr1) (fun d1 => sbind (plan_df C q g2 pr2) (f d1))) Q).
      { intros A g1 g2 pr1 pr2 f Q E1 E2 H. apply two_keeps with (neg := false); auto; [apply IHp|apply IHq]; auto. }
      unfold join_plan_df. destruct (join_vars p q).
      + unfold product_df. apply G; auto. intros d1 d2. apply keeps_opt. intros pe _. apply proc_keeps; auto.
        intros z [H2 H1]. eapply scoped_two with (d1 := d1) (d2 := d2); auto.
      + destruct (set_eqb (bvars p) (bvars q)).
        * unfold intersect_df. apply G; auto. intros d1 d2. destruct (gt_eqb _ goal).
          -- apply keeps_ret. intros z [H2 H1]. eapply scoped_two with (d1 := d1) (d2 := d2); auto.
          -- apply keeps_opt. intros pe _. apply proc_keeps; auto.
             intros z [H2 H1]. eapply scoped_two with (d1 := d1) (d2 := d2); auto.
        * unfold join_df. apply G; auto. intros d1 d2. apply keeps_opt. intros pe _. apply proc_keeps; auto.
          intros z [H2 H1]. assert (J : is_scoped false (RProject (RJoin d1 d2) pe) z) by (eapply scoped_two with (d1 := d1) (d2 := d2); auto).
          destruct d2; auto. destruct (ce_iv C r); auto. destruct H1 as [H1 H3]. destruct H2 as [H2 _]. split; cbn; auto.
          intros r' [<-|Ir]; auto. apply H2. left; auto.
    - destruct HR as [HR1 HR2]. destruct q as [| |bq a| | | | | | | ]; try destruct HR2.
      assert (G : forall A g1 g2 pr1 pr2 (f : rdf -> rdf -> step A) Q, d_neg pr1 = false -> d_neg pr2 = true ->
        (forall d1 d2, keeps (fun z => is_scoped true d2 z /\ is_scoped false d1 z) (f d1 d2) Q) ->
        keeps any (sbind (plan_df C p g1 pr1) (fun d1 => sbind (plan_df C (PGround bq a) g2 pr2) (f d1))) Q).
      { intros A g1 g2 pr1 pr2 f Q E1 E2 H. apply two_keeps with (neg := true); auto; [apply IHp; auto|].
        cbn [plan_df]. rewrite <- E2. apply ground_keeps. rewrite E2. exact HR2. }
      unfold anti_plan_df. destruct (set_eqb (bvars p) (bvars (PGround bq a))).
      + unfold difference_df. apply G; auto. intros d1 d2. destruct (gt_eqb _ goal).
        * apply keeps_ret. intros z [H2 H1]. eapply scoped_minus with (d1 := d1) (d2 := d2); auto.
        * apply keeps_opt. intros pe _. apply proc_keeps; auto.
          intros z [H2 H1]. eapply scoped_minus with (d1 := d1) (d2 := d2); auto.
      + unfold antijoin_df. apply G; auto. intros d1 d2. apply keeps_opt. intros pe _. apply proc_keeps; auto.
        intros z [H2 H1]. eapply scoped_minus with (d1 := d1) (d2 := d2); auto.
    - unfold fp_ground_df. do 3 (apply keeps_opt; intros ? _). apply proc_keeps; auto. intros z _. apply scoped_none; reflexivity.
    - unfold fp_constr_df. eapply keeps_bind; [apply IH; auto|]. intros d. do 2 (apply keeps_opt; intros ? _). apply proc_keeps; auto.
    - unfold fp_join_df. eapply keeps_bind; [apply IH; auto|]. intros d. do 3 (apply keeps_opt; intros ? _). apply proc_keeps; auto.
  Qed.
  Lemma update_keeps : forall h p inplace, reads_ok p -> keeps any (update_df C h p inplace) (fun x z => is_scoped false (snd x) z).
  Proof.
    intros h p inplace HR. unfold update_df. apply keeps_opt. intros [gh c] _. cbn [fst snd].
    eapply keeps_bind; [apply plan_keeps; auto|]. intros d. eapply keeps_bind with (R := is_scoped false).
    - destruct c; [apply keeps_opt; intros e _; apply keeps_ret; auto|]. destruct (gt_eqb gh (gdedup gh)); [apply keeps_ret; auto|].
      apply keeps_opt. intros e _. apply keeps_ret. auto.
    - intros d'. apply keeps_ret. intros z Hz. cbn [snd]. destruct (ce_magic C (a_pred h)); exact Hz.
  Qed.
End Scope.

(** ** Relations that hold what their definitions say exist *)
Record names_apart (C : cenv) (Ps : pred -> Prop) : Prop := {
  na_temp : forall i j, ce_temp C i = ce_temp C j -> i = j;
  na_ntemp : forall i j, ce_ntemp C i = ce_ntemp C j -> i = j;
  na_perm : forall p g q h, ce_perm C p g = ce_perm C q h -> p = q /\ g = h;
  na_tn : forall i j, ce_temp C i <> ce_ntemp C j;
  na_tp : forall i p g, ce_temp C i <> ce_perm C p g;
  na_np : forall i p g, ce_ntemp C i <> ce_perm C p g;
  na_pt : forall i, ~ Ps (ce_temp C i);
  na_pn : forall i, ~ Ps (ce_ntemp C i);
  na_pp : forall p g, ~ Ps (ce_perm C p g) }.

Lemma in_order_intro : forall ds, NoDup (map fst ds) ->
  (forall l1 n d l2, ds = l1 ++ (n, d) :: l2 -> forall m, In m (n :: map fst l2) -> ~ In m (prefs d)) -> in_order ds.
Proof.
  induction ds as [|[n d] ds IH]; intros ND H; cbn [in_order]; auto. cbn in ND. inversion ND as [|? ? NI ND']; subst.
  split; [|split; auto].
  - intros m Im. apply (H [] n d ds eq_refl m). exact Im.
  - apply IH; auto. intros l1 m e l2 E. apply (H ((n, d) :: l1) m e l2). rewrite E. reflexivity.
Qed.
Lemma numbered_split : forall mk l k l1 n d l2, numbered mk l k -> (forall i j, mk i = mk j -> i = j) -> l = l1 ++ (n, d) :: l2 ->
  forall i m, n = mk i -> In m (map fst l2) -> exists j, m = mk j /\ i < j.
Proof.
  intros mk l k l1 n d l2 (idx & H1 & H2 & _) INJ -> i m -> Im. rewrite map_app in H1. cbn in H1.
  revert idx H1 H2. induction l1 as [|x l1 IH]; intros idx H1 H2; destruct idx as [|j idx]; try discriminate; cbn in H1.
  - injection H1 as E1 E2. apply INJ in E1. subst j. rewrite E2 in Im. apply in_map_iff in Im. destruct Im as (j & <- & Ij).
    exists j. split; auto. inversion H2 as [|? ? _ F]; subst. rewrite Forall_forall in F. auto.
  - injection H1 as _ E2. inversion H2 as [|? ? H2' _]; subst. eapply IH; eauto.
Qed.
Lemma numbered_NoDup : forall mk l k, numbered mk l k -> (forall i j, mk i = mk j -> i = j) -> NoDup (map fst l).
Proof.
  intros mk l k (idx & H1 & H2 & _) INJ. rewrite H1. clear H1. induction H2 as [|i idx H2 IH F]; cbn; constructor; auto.
  intros J. apply in_map_iff in J. destruct J as (j & E & Ij). apply INJ in E. subst j. rewrite Forall_forall in F. specialize (F i Ij). lia.
Qed.

Section Exists.
  Variables (C : cenv) (Pp Pn Ps : pred -> Prop).
  Hypothesis PPS : forall p, Pp p -> Ps p.
  Hypothesis PNS : forall p, Pn p -> Ps p.
  Hypothesis NA : names_apart C Ps.
  Variables (E : renv) (fp : pred -> rel) (ag : nat -> nat -> rgrp -> tuple -> Prop).

  Lemma pname_cases : forall z k r, pname C Pp Pn z k r -> Ps r \/ (exists p g, r = ce_perm C p g) \/ exists i, i < k /\ r = ce_temp C i.
  Proof. intros z k r H. destruct H as [k r H|k p g H1 H2|k i d H1 H2 H3 H4]; eauto 6. Qed.
  Lemma nname_cases : forall z k r, nname C Pn z k r -> Ps r \/ (exists p g, r = ce_perm C p g) \/ exists i, i < k /\ r = ce_ntemp C i.
  Proof. intros z k r H. destruct H as [k r H|k p g H1 H2|k i d H1 H2 H3 H4]; eauto 6. Qed.

  (** Definitions of the temporaries, in an order in which they can be solved. *)
  Lemma defs_in_order : forall z, inv C Pp Pn z -> in_order (z_temps z ++ z_negs z).
  Proof.
    intros z V.
    assert (TN : forall m, In m (map fst (z_temps z)) -> exists i, m = ce_temp C i).
    { intros m Im. destruct (iv_temps V) as (idx & H1 & _). rewrite H1 in Im. apply in_map_iff in Im. destruct Im as (i & <- & _). eauto. }
    assert (NN : forall m, In m (map fst (z_negs z)) -> exists i, m = ce_ntemp C i).
    { intros m Im. destruct (iv_negs V) as (idx & H1 & _). rewrite H1 in Im. apply in_map_iff in Im. destruct Im as (i & <- & _). eauto. }
    apply in_order_intro.
    - rewrite map_app. apply NoDup_app_iff. split; [|split].
      + eapply numbered_NoDup; [apply (iv_temps V)|apply (na_temp NA)].
      + eapply numbered_NoDup; [apply (iv_negs V)|apply (na_ntemp NA)].
      + intros m I1 I2. destruct (TN _ I1) as (i & ->). destruct (NN _ I2) as (j & Ej). exact (na_tn NA _ _ Ej).
    - intros l1 n d l2 Ed m Im Ip.
      assert (W : (exists l2', z_temps z = l1 ++ (n, d) :: l2' /\ l2 = l2' ++ z_negs z) \/ exists l1', z_negs z = l1' ++ (n, d) :: l2).
      { clear -Ed. revert l1 Ed. induction (z_temps z) as [|x l IH]; intros l1 Ed; cbn in Ed; [right; eauto|].
        destruct l1 as [|y l1]; cbn in Ed; injection Ed as -> Ed.
        - left. exists l. split; auto.
        - destruct (IH _ Ed) as [(l2' & -> & ->)|R]; auto. left. exists l2'. auto. }
      destruct W as [(l2' & Et & ->)|(l1' & En)].
      + assert (It : In (n, d) (z_temps z)) by (rewrite Et; apply in_app_iff; right; left; auto).
        destruct (iv_tdef V _ _ It) as (i & Li & -> & [S1 S2]). specialize (S1 _ Ip). apply pname_cases in S1.
        assert (HM : (exists j, m = ce_temp C j /\ i <= j) \/ exists j, m = ce_ntemp C j).
        { destruct Im as [<-|Im]; [eauto|]. rewrite map_app, in_app_iff in Im. destruct Im as [Im|Im]; [|right; auto].
          left. destruct (@numbered_split _ _ _ _ _ _ _ (iv_temps V) (na_temp NA) Et i m eq_refl Im) as (j & -> & L). exists j. split; auto. lia. }
        destruct HM as [(j & -> & Lj)|(j & ->)]; destruct S1 as [S1|[(p & g & S1)|(i' & L' & S1)]].
        * exact (na_pt NA _ S1).
        * exact (na_tp NA _ _ _ S1).
        * apply (na_temp NA) in S1. lia.
        * exact (na_pn NA _ S1).
        * exact (na_np NA _ _ _ S1).
        * symmetry in S1. exact (na_tn NA _ _ S1).
      + assert (It : In (n, d) (z_negs z)) by (rewrite En; apply in_app_iff; right; left; auto).
        destruct (iv_ndef V _ _ It) as (i & Li & -> & [S1 S2]). specialize (S2 _ Ip). apply nname_cases in S2.
        assert (HM : exists j, m = ce_ntemp C j /\ i <= j).
        { destruct Im as [<-|Im]; [eauto|].
          destruct (@numbered_split _ _ _ _ _ _ _ (iv_negs V) (na_ntemp NA) En i m eq_refl Im) as (j & -> & L). exists j. split; auto. lia. }
        destruct HM as (j & -> & Lj); destruct S2 as [S2|[(p & g & S2)|(i' & L' & S2)]].
        * exact (na_pn NA _ S2).
        * exact (na_np NA _ _ _ S2).
        * apply (na_ntemp NA) in S2. lia.
  Qed.

  Theorem solution_exists : forall z, inv C Pp Pn z -> forall (J0 JM : rels), exists JI : rels,
    (forall p, Ps p -> forall t, JI p t <-> J0 p t) /\
    (forall p g, In (p, g) (z_perms z) -> forall t, JI (ce_perm C p g) t <-> exists u, JI p u /\ eval E (perm_expr g) u = EOk t) /\
    (forall n d, In (n, d) (z_temps z) -> forall t, JI n t <-> rden E fp ag JM JI d t) /\
    (forall n d, In (n, d) (z_negs z) -> nrefs d = [] /\ forall t, JI n t <-> rden E fp ag JI JI d t).
  Proof.
    intros z V J0 JM.
    pose (J1 := fun r t => (Ps r /\ J0 r t) \/ exists p g, In (p, g) (z_perms z) /\ r = ce_perm C p g /\ exists u, J0 p u /\ eval E (perm_expr g) u = EOk t).
    pose (ds := z_temps z ++ z_negs z). exists (solve E fp ag (Some JM) ds J1).
    assert (NM : forall m, In m (map fst ds) -> (exists i, m = ce_temp C i) \/ exists i, m = ce_ntemp C i).
    { intros m Im. unfold ds in Im. rewrite map_app, in_app_iff in Im.
      destruct Im as [Im|Im]; [left; destruct (iv_temps V) as (idx & H1 & _)|right; destruct (iv_negs V) as (idx & H1 & _)];
        rewrite H1 in Im; apply in_map_iff in Im; destruct Im as (i & <- & _); eauto. }
    assert (HP : forall p, Ps p -> forall t, solve E fp ag (Some JM) ds J1 p t <-> J0 p t).
    { intros p Hp t. rewrite solve_other.
      - unfold J1. split; [|auto]. intros [[_ H]|(q & g & _ & -> & _)]; auto. exfalso. exact (na_pp NA _ _ Hp).
      - intros Im. destruct (NM _ Im) as [(i & ->)|(i & ->)]; [exact (na_pt NA _ Hp)|exact (na_pn NA _ Hp)]. }
    pose proof (@solve_ok E fp ag (Some JM) ds J1 (defs_in_order V)) as SO.
    split; [exact HP|]. split; [|split].
    - intros p g Ip t. assert (Hp : Ps p) by (destruct (iv_perm V _ _ Ip); auto). rewrite solve_other.
      + assert (W : (exists u, solve E fp ag (Some JM) ds J1 p u /\ eval E (perm_expr g) u = EOk t) <-> exists u, J0 p u /\ eval E (perm_expr g) u = EOk t).
        { split; intros (u & Hu & Ev); exists u; split; auto; apply HP; auto. }
        rewrite W. unfold J1. split; [|intros H; right; exists p, g; auto].
        intros [[H _]|(q & h & _ & Eq & H)]; [exfalso; exact (na_pp NA _ _ H)|]. apply (na_perm NA) in Eq. destruct Eq as [-> ->]. exact H.
      + intros Im. destruct (NM _ Im) as [(i & Em)|(i & Em)]; [exact (na_tp NA _ _ _ (eq_sym Em))|exact (na_np NA _ _ _ (eq_sym Em))].
    - intros n d Id t. apply SO; [discriminate|]. apply in_app_iff. auto.
    - intros n d Id. destruct (iv_ndef V _ _ Id) as (i & _ & _ & [[S1 _] _]). split; auto. intros t.
      rewrite (SO ltac:(discriminate) n d); [|apply in_app_iff; auto]. apply rden_ext; [|intros; tauto]. rewrite S1. intros r [].
  Qed.
End Exists.
