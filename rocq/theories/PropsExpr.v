(** C25 (composition of projection expressions) and C26 (fusing cascaded
    projections). *)
From Coq Require Import List ZArith Bool Arith Lia.
From Verif Require Import Order Value Prov ListAux SortedCol Schedulers Relation Dataflow Back Eval Ram ProvInst.
Import ListNotations.
Set Implicit Arguments.

(** Every accessor of an expression satisfies [p]. *)
Fixpoint all_acc (p : accessor -> bool) (e : expr) : bool :=
  match e with
  | XTuple l | XCall _ l | XNew _ l => forallb (all_acc p) l
  | XAccess a => p a
  | XConst _ => true
  | XBin _ x y => all_acc p x && all_acc p y
  | XUn _ x => all_acc p x
  | XIte x y z => all_acc p x && all_acc p y && all_acc p z
  end.
(** The Rust type has room for three indices. *)
Definition acc_ok (a : accessor) : bool := ac_len a <=? 3.
Definition acc_shallow (a : accessor) : bool := ac_len a <=? 1.
Definition is_tuple (e : expr) : bool := match e with XTuple _ => true | _ => false end.

Lemma acc_iter_length : forall a, acc_ok a = true -> length (acc_iter a) = ac_len a.
Proof.
  intros a H. unfold acc_ok in H. apply Nat.leb_le in H. unfold acc_iter.
  rewrite firstn_length. cbn [length]. lia.
Qed.
Lemma acc_join_iter : forall a b c, acc_ok a = true -> acc_ok b = true ->
  acc_join a b = Some c -> acc_iter c = acc_iter a ++ acc_iter b /\ acc_ok c = true.
Proof.
  intros a b c Ha Hb H. unfold acc_join in H.
  assert (L : length (acc_iter a ++ acc_iter b) = ac_len a + ac_len b)
    by (rewrite app_length, !acc_iter_length; auto).
  destruct (acc_iter a ++ acc_iter b) as [|x [|y [|z [|w l]]]]; try discriminate; cbn [length] in L;
    injection H as <-; rewrite <- L; split; reflexivity.
Qed.
Lemma index_path_app : forall p q t,
  index_path t (p ++ q) = ebind (index_path t p) (fun u => index_path u q).
Proof.
  induction p as [|i p IH]; intros q t; cbn; [reflexivity|].
  destruct t as [v|ts]; [reflexivity|]. destruct (nth_error ts i); [apply IH|reflexivity].
Qed.

Lemma omap_emap : forall (A B C : Type) (F : A -> option B) (G : B -> ev C) (H : A -> ev C) l l',
  omap F l = Some l' -> (forall x y, In x l -> F x = Some y -> G y = H x) -> emap G l' = emap H l.
Proof.
  induction l as [|x l IH]; intros l' E HH; cbn in E.
  - injection E as <-. reflexivity.
  - destruct (F x) as [y|] eqn:Ey; [|discriminate].
    destruct (omap F l) as [ys|] eqn:Eys; [|discriminate]. injection E as <-.
    cbn. rewrite (HH x y (or_introl eq_refl) Ey). destruct (H x); cbn; auto.
    change (emap G ys) with (emap G ys). rewrite (IH ys eq_refl); [reflexivity|].
    intros a0 b0 Ha0. apply HH. right; exact Ha0.
Qed.

Lemma compose_acc_eval : forall E a t u e h, acc_ok a = true -> all_acc acc_ok e = true ->
  compose_acc e a = Some h -> index t a = EOk u -> eval E h t = eval E e u.
Proof.
  intros E a t u e. induction e using expr_ind'; intros h Ha We C I; cbn [compose_acc] in C.
  - destruct (omap _ l) as [l'|] eqn:El; [|discriminate]. injection C as <-. cbn [eval].
    f_equal. eapply omap_emap; [exact El|]. intros x y Hx Hy. cbn beta in *.
    rewrite Forall_forall in H. cbn [all_acc] in We. rewrite forallb_forall in We.
    apply H; auto.
  - destruct (acc_join a a0) as [b|] eqn:Eb; [|discriminate]. injection C as <-. cbn [eval].
    destruct (acc_join_iter _ _ Ha We Eb) as [Eit _]. unfold index in *. rewrite Eit, index_path_app, I. reflexivity.
  - injection C as <-. reflexivity.
  - cbn [all_acc] in We. apply andb_prop in We. destruct We as [W1 W2].
    destruct (compose_acc e1 a) as [x|]; [|discriminate]. cbn in C.
    destruct (compose_acc e2 a) as [y|]; [|discriminate]. injection C as <-. cbn [eval].
    rewrite (IHe1 x), (IHe2 y); auto.
  - destruct (compose_acc e a) as [x|]; [|discriminate]. injection C as <-. cbn [eval]. rewrite (IHe x); auto.
  - cbn [all_acc] in We. apply andb_prop in We. destruct We as [W1 W3]. apply andb_prop in W1. destruct W1 as [W1 W2].
    destruct (compose_acc e1 a) as [x|]; [|discriminate]. cbn in C.
    destruct (compose_acc e2 a) as [y|]; [|discriminate]. cbn in C.
    destruct (compose_acc e3 a) as [z|]; [|discriminate]. injection C as <-. cbn [eval].
    rewrite (IHe1 x), (IHe2 y), (IHe3 z); auto.
  - destruct (omap _ l) as [l'|] eqn:El; [|discriminate]. injection C as <-. cbn [eval].
    f_equal. eapply omap_emap; [exact El|]. intros x y Hx Hy. cbn beta in *.
    rewrite Forall_forall in H. cbn [all_acc] in We. rewrite forallb_forall in We.
    rewrite (H x Hx y); auto.
  - destruct (omap _ l) as [l'|] eqn:El; [|discriminate]. injection C as <-. cbn [eval].
    f_equal. eapply omap_emap; [exact El|]. intros x y Hx Hy. cbn beta in *.
    rewrite Forall_forall in H. cbn [all_acc] in We. rewrite forallb_forall in We.
    rewrite (H x Hx y); auto.
Qed.

Lemma emap_nth : forall (A B : Type) (f : A -> ev B) l us i x, emap f l = EOk us ->
  nth_error l i = Some x -> exists u, f x = EOk u /\ nth_error us i = Some u.
Proof.
  induction l as [|a l IH]; intros us i x E N; [destruct i; discriminate|].
  cbn in E. destruct (f a) as [b| |] eqn:Eb; try discriminate. cbn in E.
  fold (emap f l) in E. destruct (emap f l) as [bs| |] eqn:Ebs; try discriminate. injection E as <-.
  destruct i as [|i]; cbn in *.
  - injection N as <-. eauto.
  - eapply IH; eauto.
Qed.

(** The composed expression has the meaning of running [g] and then [f], whenever
    [g] has a value and, if [g] builds a tuple, [f] looks at most one level into
    it. *)
Theorem C25_compose_partial : forall E f g h t u,
  all_acc acc_ok f = true -> all_acc acc_ok g = true ->
  (is_tuple g = true -> all_acc acc_shallow f = true) ->
  compose f g = Some h -> eval E g t = EOk u -> eval E h t = eval E f u.
Proof.
  intros E f g. induction f using expr_ind'; intros h t u Wf Wg Sh C G; cbn [compose] in C.
  - destruct (omap _ l) as [l'|] eqn:El; [|discriminate]. injection C as <-. cbn [eval].
    f_equal. eapply omap_emap; [exact El|]. intros x y Hx Hy. cbn beta in *.
    rewrite Forall_forall in H. cbn [all_acc] in *. rewrite forallb_forall in Wf.
    apply (H x Hx y); auto. intros Ht. specialize (Sh Ht). rewrite forallb_forall in Sh. auto.
  - destruct g as [l|a2| | | | | |].
    + specialize (Sh eq_refl). cbn [all_acc] in Sh. unfold acc_shallow in Sh. apply Nat.leb_le in Sh.
      cbn [eval]. cbn [eval] in G. destruct (emap _ l) as [us| |] eqn:Eus; try discriminate.
      cbn in G. injection G as <-. destruct (ac_len a) as [|n] eqn:En.
      * injection C as <-. cbn [eval]. rewrite Eus. unfold index, acc_iter. rewrite En. reflexivity.
      * assert (n = 0) by lia. subst n. destruct (nth_error l (ac_0 a)) as [sub|] eqn:Esub; [|discriminate].
        cbn in C. unfold acc_shift in C. rewrite En in C. cbn in C.
        destruct (emap_nth _ _ _ Eus Esub) as (u & Eu & Nu).
        rewrite (@compose_acc_eval E (mkAcc 0 (ac_1 a) (ac_2 a) 0) t t sub h); auto.
        -- rewrite Eu. unfold index, acc_iter. rewrite En. cbn. unfold tuple in *. rewrite Nu. reflexivity.
        -- cbn [all_acc] in Wg. rewrite forallb_forall in Wg. apply Wg. eapply nth_error_In; eauto.
    + destruct (acc_join a2 a) as [b|] eqn:Eb; [|discriminate]. injection C as <-. cbn [eval] in *.
      destruct (acc_join_iter _ _ Wg Wf Eb) as [Eit _]. unfold index in *.
      rewrite Eit, index_path_app, G. reflexivity.
    + destruct (ac_len a) eqn:En; [|discriminate]. injection C as <-. rewrite G. cbn [eval].
      unfold index, acc_iter. rewrite En. reflexivity.
    + destruct (ac_len a) eqn:En; [|discriminate]. injection C as <-. rewrite G. cbn [eval].
      unfold index, acc_iter. rewrite En. reflexivity.
    + destruct (ac_len a) eqn:En; [|discriminate]. injection C as <-. rewrite G. cbn [eval].
      unfold index, acc_iter. rewrite En. reflexivity.
    + destruct (ac_len a) eqn:En; [|discriminate]. injection C as <-. rewrite G. cbn [eval].
      unfold index, acc_iter. rewrite En. reflexivity.
    + destruct (ac_len a) eqn:En; [|discriminate]. injection C as <-. rewrite G. cbn [eval].
      unfold index, acc_iter. rewrite En. reflexivity.
    + destruct (ac_len a) eqn:En; [|discriminate]. injection C as <-. rewrite G. cbn [eval].
      unfold index, acc_iter. rewrite En. reflexivity.
  - injection C as <-. reflexivity.
  - cbn [all_acc] in Wf. apply andb_prop in Wf. destruct Wf as [W1 W2].
    assert (S1 : is_tuple g = true -> all_acc acc_shallow f1 = true)
      by (intros Ht; specialize (Sh Ht); cbn in Sh; apply andb_prop in Sh; tauto).
    assert (S2 : is_tuple g = true -> all_acc acc_shallow f2 = true)
      by (intros Ht; specialize (Sh Ht); cbn in Sh; apply andb_prop in Sh; tauto).
    destruct (compose f1 g) as [x|]; [|discriminate]. cbn in C.
    destruct (compose f2 g) as [y|]; [|discriminate]. injection C as <-. cbn [eval].
    rewrite (IHf1 x t u), (IHf2 y t u); auto.
  - destruct (compose f g) as [x|]; [|discriminate]. injection C as <-. cbn [eval].
    rewrite (IHf x t u); auto.
  - cbn [all_acc] in Wf. apply andb_prop in Wf. destruct Wf as [W1 W3]. apply andb_prop in W1. destruct W1 as [W1 W2].
    assert (S0 : is_tuple g = true -> all_acc acc_shallow f1 = true /\ all_acc acc_shallow f2 = true
              /\ all_acc acc_shallow f3 = true).
    { intros Ht. specialize (Sh Ht). cbn in Sh. apply andb_prop in Sh. destruct Sh as [Sa Sb].
      apply andb_prop in Sa. tauto. }
    destruct (compose f1 g) as [x|]; [|discriminate]. cbn in C.
    destruct (compose f2 g) as [y|]; [|discriminate]. cbn in C.
    destruct (compose f3 g) as [z|]; [|discriminate]. injection C as <-. cbn [eval].
    rewrite (IHf1 x t u), (IHf2 y t u), (IHf3 z t u); auto; tauto.
  - destruct (omap _ l) as [l'|] eqn:El; [|discriminate]. injection C as <-. cbn [eval].
    f_equal. eapply omap_emap; [exact El|]. intros x y Hx Hy. cbn beta in *.
    rewrite Forall_forall in H. cbn [all_acc] in *. rewrite forallb_forall in Wf.
    rewrite (H x Hx y t u); auto. intros Ht. specialize (Sh Ht). rewrite forallb_forall in Sh. auto.
  - destruct (omap _ l) as [l'|] eqn:El; [|discriminate]. injection C as <-. cbn [eval].
    f_equal. eapply omap_emap; [exact El|]. intros x y Hx Hy. cbn beta in *.
    rewrite Forall_forall in H. cbn [all_acc] in *. rewrite forallb_forall in Wf.
    rewrite (H x Hx y t u); auto. intros Ht. specialize (Sh Ht). rewrite forallb_forall in Sh. auto.
Qed.

(** An environment in which nothing external has a value. *)
Definition env0 : renv :=
  Verif.Eval.mkEnv (fun _ _ _ => None) (fun z => z) (fun _ _ _ => ENone) (fun _ _ => ENone) (fun _ _ => ENone)
        (fun _ _ => 0%Z).
Definition iv (z : Z) : tuple := TVal (I32 z).

(** [(t1 + t0, 5)] over [(t1, t0 * 2)]. *)
Example C25_ex :
  let f := XTuple [XBin OAdd (XAccess (acc_index 1)) (XAccess (acc_index 0)); XConst (I32 5)] in
  let g := XTuple [XAccess (acc_index 1); XBin OMul (XAccess (acc_index 0)) (XConst (I32 2))] in
  let t := TTup [iv 3; iv 4] in
  exists h, compose f g = Some h /\ eval env0 h t = EOk (TTup [iv 10; iv 5])
   /\ all_acc acc_ok f = true /\ all_acc acc_ok g = true /\ all_acc acc_shallow f = true
   /\ eval env0 g t = EOk (TTup [iv 4; iv 6]).
Proof. eexists. split; [vm_compute; reflexivity|]. vm_compute. repeat split. Qed.

(** Looking two levels into a tuple constructor: [t => (t[0],)] followed by
    [u => u[0][1]] is [t => t[0][1]], but the composition is [t => t[1][0]]. *)
Theorem C25_deep_refuted : exists E f g h t u, compose f g = Some h /\
  all_acc acc_ok f = true /\ all_acc acc_ok g = true /\
  eval E g t = EOk u /\ eval E f u = EOk (iv 2) /\ eval E h t = EOk (iv 3).
Proof.
  exists env0, (XAccess (mkAcc 2 0 1 0)), (XTuple [XAccess (acc_index 0)]), (XAccess (mkAcc 2 1 0 0)),
    (TTup [TTup [iv 1; iv 2]; TTup [iv 3; iv 4]]), (TTup [TTup [iv 1; iv 2]]).
  vm_compute. repeat split.
Qed.

(** An inner expression without value drops the tuple; the composition with an
    outer expression that does not use it keeps the tuple. *)
Theorem C25_partial_inner_refuted : exists E f g h t v, compose f g = Some h /\
  all_acc acc_ok f = true /\ all_acc acc_ok g = true /\ all_acc acc_shallow f = true /\
  eval E g t = ENone /\ eval E h t = EOk v.
Proof.
  exists env0, (XAccess (acc_index 0)), (XTuple [XAccess (acc_index 0); XCall 0 []]),
    (XAccess (acc_index 0)), (TTup [iv 1]), (iv 1).
  vm_compute. repeat split.
Qed.

(** ** C26 *)
Section Cascade.
  Variable P : Prov.
  Variable L : lenv P.
  Notation elem := (elem P).

  (** [t] is the tuple of an element that [d] produces in [v]. *)
  Definition produces (v : denv P) (d : rdf) (t : tuple) : Prop :=
    exists b e, In b (fst (iters v (lower L d)) ++ snd (iters v (lower L d))) /\ In e (snd b) /\ fst e = t.

  (** Conditions of C25 at every fusion of [cascade pend d]: accessors have at
      most three indices, the outer expression looks at most one level into an
      inner tuple constructor, and the inner projection has a value on every
      tuple it receives. *)
  Fixpoint fusable (v : denv P) (pend : option expr) (d : rdf) : Prop :=
    match d with
    | RProject d1 p =>
        match pend with
        | None => fusable v (Some p) d1
        | Some q =>
            all_acc acc_ok q = true /\ all_acc acc_ok p = true /\
            (is_tuple p = true -> all_acc acc_shallow q = true) /\
            (forall t, produces v d1 t -> exists u, eval (l_env L) p t = EOk u) /\
            (forall q', compose q p = Some q' -> fusable v (Some q') d1)
        end
    | RUnion a b | RJoin a b | RInter a b | RProd a b | RAnti a b | RDiff a b =>
        fusable v None a /\ fusable v None b
    | RJoinIV d1 _ | RFilter d1 _ | RFind d1 _ | RSorted d1 | ROverwrite d1
    | RConstraint d1 _ _ | RFpJoin d1 _ _ => fusable v None d1
    | RUnit _ | RVec _ | RRel _ | RGround _ _ | RReduce _ _ _ => True
    end.

  Lemma flat_map_compose : forall (A B C : Type) (f : A -> list B) (g : B -> list C) (h : A -> list C) l,
    (forall x, In x l -> h x = flat_map g (f x)) -> flat_map g (flat_map f l) = flat_map h l.
  Proof.
    induction l as [|x l IH]; intros H; [reflexivity|]. cbn. rewrite flat_map_app, IH, H; auto.
    - left; reflexivity.
    - intros y Hy. apply H. right; exact Hy.
  Qed.

  Lemma fuse_iters : forall v d p q q',
    all_acc acc_ok q = true -> all_acc acc_ok p = true ->
    (is_tuple p = true -> all_acc acc_shallow q = true) ->
    (forall t, produces v d t -> exists u, eval (l_env L) p t = EOk u) ->
    compose q p = Some q' ->
    iters v (lower L (RProject d q')) = iters v (lower L (RProject (RProject d p) q)).
  Proof.
    intros v d p q q' Wq Wp Sh Tot C. cbn [lower iters]. unfold produces in Tot.
    destruct (iters v (lower L d)) as [s r]. cbn [fst snd] in Tot. unfold unary. rewrite !map_map. cbn [snd].
    assert (K : forall b, In b (s ++ r) ->
      flat_map (@proj_elem P (proj_fn (l_env L) q')) (snd b) =
      flat_map (@proj_elem P (proj_fn (l_env L) q)) (flat_map (@proj_elem P (proj_fn (l_env L) p)) (snd b))).
    { intros b Hb. symmetry. apply flat_map_compose. intros e He. unfold proj_elem, proj_fn.
      destruct (Tot (fst e)) as (u & Eu); [exists b, e; auto|].
      rewrite (C25_compose_partial (l_env L) q p (fst e) Wq Wp Sh C Eu), Eu. cbn [flat_map fst snd].
      destruct (eval (l_env L) q u); reflexivity. }
    f_equal; apply map_ext_in; intros b Hb; f_equal; apply K; apply in_or_app; auto.
  Qed.

  Ltac uncase H1 := match type of H1 with obnd ?x _ = _ => destruct x eqn:?; [cbn [obnd] in H1|discriminate] end.
  Lemma cascade_correct : forall v d pend d', fusable v pend d -> cascade pend d = Some d' ->
    iters v (lower L d') = iters v (lower L (wrap pend d)).
  Proof.
    intros v d. induction d; intros pend d' F C; cbn [cascade fusable] in F, C.
    all: try (injection C as <-; reflexivity).
    all: try (uncase C; injection C as <-; destruct pend; cbn [wrap lower iters];
              rewrite (IHd _ _ F Heqo); reflexivity).
    all: try (destruct F as [F1 F2]; uncase C; uncase C; injection C as <-; destruct pend;
              cbn [wrap lower iters]; rewrite (IHd1 _ _ F1 Heqo), (IHd2 _ _ F2 Heqo0); reflexivity).
    destruct pend as [q|].
    - destruct F as (Wq & Wp & Sh & Tot & F). destruct (compose q e) as [q'|] eqn:Eq; [|discriminate].
      cbn [obnd] in C. rewrite (IHd _ _ (F q' eq_refl) C). cbn [wrap]. apply fuse_iters; auto.
    - rewrite (IHd _ _ F C). reflexivity.
  Qed.

  (** The rewritten dataflow yields exactly the same batches. *)
  Theorem C26_cascade_partial : forall v d d', fusable v None d -> cascade None d = Some d' ->
    iters v (lower L d') = iters v (lower L d).
  Proof. intros v d d' F C. exact (cascade_correct v d None F C). Qed.
End Cascade.

(** A three-stage chain of projections under a join. *)
Definition C26_dom : lenv bool_prov :=
  @mkLenv bool_prov env0 (fun _ _ => None) (fun _ _ => []) (fun _ _ => None) (fun _ _ => []) (fun _ _ _ => []).
Definition C26_src : rdf := RVec [TTup [iv 1; iv 2]; TTup [iv 3; iv 4]].
Definition C26_d : rdf :=
  RJoin (RProject (RProject (RProject C26_src (XTuple [XAccess (acc_index 1); XAccess (acc_index 0)]))
     (XTuple [XAccess (acc_index 1); XBin OAdd (XAccess (acc_index 0)) (XConst (I32 1))]))
     (XTuple [XTuple [XAccess (acc_index 1)]; XTuple [XAccess (acc_index 0)]])) (RRel 0).
Definition C26_v : denv bool_prov := Dataflow.mkEnv true (fun _ => None) (fun _ => @Relation.mkRel bool_prov [] [] [] []).
Example C26_ex : fusable C26_dom C26_v None C26_d /\ exists d', cascade None C26_d = Some d' /\ d' <> C26_d.
Proof.
  split.
  - unfold C26_d. cbn [fusable]. split; [|exact I].
    split; [reflexivity|]. split; [reflexivity|]. split; [reflexivity|]. split.
    + intros t (b & e & Hb & He & <-). vm_compute in Hb. destruct Hb as [<-|[]].
      cbn in He. destruct He as [<-|[<-|[]]]; vm_compute; eexists; reflexivity.
    + intros q' Hq. vm_compute in Hq. injection Hq as <-.
      split; [reflexivity|]. split; [reflexivity|]. split; [reflexivity|]. split; [|intros; exact I].
      intros t (b & e & Hb & He & <-). vm_compute in Hb. destruct Hb as [<-|[]].
      cbn in He. destruct He as [<-|[<-|[]]]; vm_compute; eexists; reflexivity.
  - eexists. split; [vm_compute; reflexivity|]. discriminate.
Qed.

(** Without totality of the inner projection the rewrite adds a tuple; looking
    two levels deep it changes one. *)
Theorem C26_inner_refuted : exists (L : lenv bool_prov) v d d', cascade None d = Some d' /\
  iters v (lower L d) = ([], [(false, [])]) /\ iters v (lower L d') = ([], [(false, [(iv 1, true)])]).
Proof.
  exists C26_dom, C26_v,
    (RProject (RProject (RVec [TTup [iv 1]]) (XTuple [XAccess (acc_index 0); XCall 0 []])) (XAccess (acc_index 0))).
  eexists. split; [vm_compute; reflexivity|]. vm_compute. repeat split.
Qed.
Theorem C26_deep_refuted : exists (L : lenv bool_prov) v d d', cascade None d = Some d' /\
  iters v (lower L d) = ([], [(false, [(iv 2, true)])]) /\ iters v (lower L d') = ([], [(false, [(iv 3, true)])]).
Proof.
  exists C26_dom, C26_v,
    (RProject (RProject (RVec [TTup [TTup [iv 1; iv 2]; TTup [iv 3; iv 4]]])
       (XTuple [XAccess (acc_index 0)])) (XAccess (mkAcc 2 0 1 0))).
  eexists. split; [vm_compute; reflexivity|]. vm_compute. repeat split.
Qed.

Print Assumptions C25_compose_partial.
Print Assumptions C26_cascade_partial.
