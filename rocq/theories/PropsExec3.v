(** Property C40: running the same program again. *)
From Coq Require Import List Arith Bool ZArith Lia Sorting.Sorted.
From Verif Require Import Order Value Prov ListAux SortedCol GallopFacts SortedColFacts ProvInst
  PropsCollections Schedulers Relation View SchedFacts Dataflow OpFacts Denote DataflowFacts DenFacts
  Iteration IterationFacts Views SchedLinear PropsEval PropsRun Back Eval Ram PropsExpr Scc Dedup Increm SccFacts
  Exec PropsExec PropsExec2.
Import ListNotations.
Set Implicit Arguments.
Local Open Scope nat_scope.

Lemma ssorted_same : forall (P : Prov) (l m : list (elem P)), ssorted l -> ssorted m ->
  (forall t, lookup t l = lookup t m) -> l = m.
Proof.
  intros P l m SL SM H.
  assert (I : forall e, In e l <-> In e m).
  { intros [t g]. rewrite (ssorted_lookup_In t g SL), (ssorted_lookup_In t g SM), H. tauto. }
  clear H. revert m SM I. induction SL as [|a l SL IH FA]; intros m SM I.
  - destruct m as [|b m]; auto. destruct (proj2 (I b)); left; auto.
  - destruct SM as [|b m SM FB]; [destruct (proj1 (I a)); left; auto|].
    rewrite Forall_forall in FA, FB.
    assert (IR : forall x, ~ elt (P:=P) x x).
    { intros x N. unfold elt in N. rewrite (to_refl tcmp_TOrder) in N. discriminate. }
    assert (AB : a = b).
    { destruct (proj1 (I a)) as [|A]; [left; auto|auto|]. destruct (proj2 (I b)) as [|B]; [left; auto|auto|].
      exfalso. apply (IR a). eapply elt_trans; [apply FA, B|apply FB, A]. }
    subst b. f_equal. apply IH; auto. intros e. split; intros J.
    + destruct (proj1 (I e)) as [->|K]; [right; auto| |auto]. destruct (IR e); auto.
    + destruct (proj2 (I e)) as [->|K]; [right; auto| |auto]. destruct (IR e); auto.
Qed.

Section Again.
  Variable P : Prov.
  Variables IT X : Type.
  Notation elem := (elem P).
  Notation ctx := (ctx P IT X).
  Variable E : rtenv P IT X.
  (** Tags are combined like the elements of a semilattice, and the tag of a fact
      does not depend on when it is tagged. *)
  Hypothesis ASSOC : forall a b c, padd P a (padd P b c) = padd P (padd P a b) c.
  Hypothesis COMM : forall a b, padd P a b = padd P b a.
  Hypothesis IDEM : forall a, padd P a a = a.
  Variable tagf : option IT -> ptag P.
  Hypothesis TAG : forall x o, c_tag E x o = (tagf o, x).

  Lemma fold_add : forall l a, fold_left (padd P) l a = match sum_tags P l with Some s => padd P a s | None => a end.
  Proof.
    intros l. destruct l as [|b l]; intros a; [reflexivity|]. cbn [fold_left sum_tags].
    revert a b. induction l as [|c l IH]; intros a b; cbn [fold_left]; auto.
    rewrite <- ASSOC. apply IH.
  Qed.
  Lemma sum_absorbs : forall l x g, sum_tags P l = Some g -> In x l -> padd P x g = g.
  Proof.
    induction l as [|a l IH]; intros x g H I; [destruct I|]. cbn [sum_tags] in H. rewrite fold_add in H.
    destruct (sum_tags P l) as [s|] eqn:S.
    - injection H as <-. destruct I as [->|I].
      + rewrite ASSOC, IDEM. auto.
      + rewrite ASSOC, (COMM x a), <- ASSOC, (IH x s); auto.
    - injection H as <-. destruct l; [|discriminate]. destruct I as [->|[]]. apply IDEM.
  Qed.
  Lemma sum_absorbed : forall l g, (forall x, In x l -> padd P x g = g) -> sum_tags P (l ++ [g]) = Some g.
  Proof.
    intros l g H. destruct l as [|a l]; [reflexivity|]. cbn [app sum_tags]. rewrite fold_add.
    assert (K : forall l, (forall x, In x l -> padd P x g = g) -> sum_tags P (l ++ [g]) = Some g).
    { clear -ASSOC. intros l. induction l as [|b l IH]; intros H; [reflexivity|]. cbn [app sum_tags]. rewrite fold_add.
      rewrite IH by (intros; apply H; right; auto). f_equal. apply H. left; auto. }
    rewrite K by (intros; apply H; right; auto). f_equal. apply H. left; auto.
  Qed.
  Lemma tags_of_app : forall t (l m : list elem), tags_of t (l ++ m) = tags_of t l ++ tags_of t m.
  Proof. intros. unfold tags_of. rewrite filter_app, map_app. auto. Qed.
  Lemma tags_of_in : forall t g (l : list elem), In g (tags_of t l) <-> In (t, g) l.
  Proof.
    intros t g l. unfold tags_of. rewrite in_map_iff. split.
    - intros ([u h] & A & B). apply filter_In in B as [B C]. apply teqb_true in C. cbn in *. subst; auto.
    - intros I. exists (t, g). split; auto. apply filter_In. split; auto. apply teqb_refl.
  Qed.
  Lemma tags_of_sorted : forall t (l : list elem), ssorted l -> tags_of t l = match lookup t l with Some g => [g] | None => [] end.
  Proof.
    intros t l S. destruct (lookup t l) as [g|] eqn:L.
    - induction S as [|[u h] l S IH F]; [discriminate|]. cbn [lookup fst snd] in L. unfold tags_of. cbn [filter fst].
      destruct (teqb u t) eqn:Q.
      + injection L as ->. cbn [map snd]. f_equal. apply teqb_true in Q. subst u.
        fold (tags_of t l). destruct (tags_of t l) as [|x r] eqn:T; auto. exfalso.
        assert (I : In x (tags_of t l)) by (rewrite T; left; auto). apply tags_of_in in I.
        rewrite Forall_forall in F. specialize (F _ I). unfold elt in F. cbn in F.
        rewrite (to_refl tcmp_TOrder) in F. discriminate.
      + apply IH, L.
    - destruct (tags_of t l) as [|x r] eqn:T; auto. exfalso.
      assert (I : In x (tags_of t l)) by (rewrite T; left; auto). apply tags_of_in in I.
      rewrite lookup_None in L. eapply L; eauto.
  Qed.

  (** Tagging without state. *)
  Definition tg (fs : list (option IT * tuple)) : list elem :=
    flat_map (fun f => match c_intern E (snd f) with Some u => [(u, tagf (fst f))] | None => [] end) fs.
  Lemma tag_all_tg : forall fs x, tag_all E x fs = (tg fs, x).
  Proof.
    induction fs as [|[o t] fs IH]; intros x; cbn [tag_all tg flat_map fst snd]; auto.
    destruct (c_intern E t) as [u|]; [|apply IH]. rewrite TAG, IH. reflexivity.
  Qed.
  Lemma tg_incl : forall fs gs, incl fs gs -> incl (tg fs) (tg gs).
  Proof.
    intros fs gs H e I. unfold tg in *. apply in_flat_map in I as (f & A & B). apply in_flat_map. exists f. auto.
  Qed.
  Lemma internalize_rel_tg : forall x e, internalize_rel E x e =
    (mkE (e_prog e) (match e_prog e with [] => e_progint e | _ => true end) [] []
       (from_vec (tg (e_prog e) ++ tg (e_dyn e) ++ tg (e_stat e) ++ e_int e)) true, x).
  Proof. intros x e. unfold internalize_rel. rewrite !tag_all_tg. reflexivity. Qed.

  (** A relation whose internalized facts include its program facts. *)
  Definition settled (e : erel P IT) : Prop :=
    e_dyn e = [] /\ e_stat e = [] /\ ssorted (e_int e) /\
    forall t x, In (t, x) (tg (e_prog e)) -> exists g, lookup t (e_int e) = Some g /\ padd P x g = g.
  Lemma settled_after : forall x e, settled (fst (internalize_rel E x e)).
  Proof.
    intros x e. rewrite internalize_rel_tg. unfold settled. cbn [fst e_dyn e_stat e_int e_prog].
    split; [auto|]. split; [auto|]. split; [apply from_vec_ssorted|]. intros t y I.
    rewrite from_vec_lookup. set (l := tg (e_prog e) ++ tg (e_dyn e) ++ tg (e_stat e) ++ e_int e).
    assert (J : In y (tags_of t l)) by (apply tags_of_in; unfold l; apply in_or_app; auto).
    destruct (sum_tags P (tags_of t l)) as [g|] eqn:S.
    - exists g. split; auto. eapply sum_absorbs; eauto.
    - destruct (tags_of t l); [destruct J|discriminate].
  Qed.
  Lemma settled_again : forall e fs x, settled e -> incl fs (e_prog e) ->
    e_int (fst (internalize_rel E x (mkE fs (e_progint e) [] [] (e_int e) (e_done e)))) = e_int e.
  Proof.
    intros e fs x (_ & _ & S & A) H. rewrite internalize_rel_tg. cbn [fst e_int e_prog e_dyn e_stat].
    change (tg []) with (@nil elem). cbn [app].
    apply ssorted_same; [apply from_vec_ssorted|exact S|]. intros t. rewrite from_vec_lookup, tags_of_app.
    rewrite (tags_of_sorted t S). destruct (lookup t (e_int e)) as [g|] eqn:L.
    - apply sum_absorbed. intros y I. apply tags_of_in in I. apply (tg_incl H) in I.
      destruct (A _ _ I) as (g' & K & R). congruence.
    - rewrite app_nil_r. destruct (tags_of t (tg fs)) as [|y r] eqn:T; [reflexivity|]. exfalso.
      assert (I : In y (tags_of t (tg fs))) by (rewrite T; left; auto). apply tags_of_in in I. apply (tg_incl H) in I.
      destruct (A _ _ I) as (g' & K & R). congruence.
  Qed.

  (** Databases with the same internalized facts, the second with more copies of
      the program facts. *)
  Definition settled_db (d : edb P IT) : Prop := forall r e, In (r, e) d -> settled e.
  Definition step_rel (a b : nat * erel P IT) : Prop :=
    fst a = fst b /\ e_int (snd b) = e_int (snd a) /\ e_dyn (snd b) = [] /\ e_stat (snd b) = [] /\
    incl (e_prog (snd b)) (e_prog (snd a)) /\ length (e_prog (snd a)) <= length (e_prog (snd b)).
  Definition rich (d : edb P IT) (xs : list (xrel IT)) : Prop := forall x, In x xs -> x_facts x <> [] ->
    exists e, aget (x_name x) d = Some e /\ incl (x_facts x) (e_prog e) /\ length (x_facts x) <= length (e_prog e).

  Lemma step_get : forall d d', Forall2 step_rel d d' -> forall r,
    match aget r d, aget r d' with
    | Some e, Some e' => step_rel (r, e) (r, e')
    | None, None => True
    | _, _ => False
    end.
  Proof.
    induction 1 as [|[k e] [k' e'] d d' S F IH]; intros r; cbn [aget]; auto.
    assert (Q : k = k') by apply S. subst k'. destruct (Nat.eqb r k); [|apply IH].
    destruct S as (_ & S). split; [reflexivity|exact S].
  Qed.
  Lemma step_aset : forall d d', Forall2 step_rel d d' -> forall r e e',
    aget r d = Some e -> step_rel (r, e) (r, e') -> Forall2 step_rel d (aset r e' d').
  Proof.
    induction 1 as [|[k a] [k' a'] d d' S F IH]; intros r e e' G R; cbn [aget aset] in *; [discriminate|].
    assert (Q : k = k') by apply S. subst k'. destruct (Nat.eqb_spec r k) as [->|N].
    - injection G as ->. constructor; auto.
    - constructor; eauto.
  Qed.
  Lemma populate_again : forall xs d d', Forall2 step_rel d d' -> rich d xs ->
    exists d1, populate d' xs = Some d1 /\ Forall2 step_rel d d1.
  Proof.
    induction xs as [|x xs IH]; intros d d' F R; cbn [populate]; [eauto|].
    assert (R' : rich d xs) by (intros y I; apply R; right; auto).
    unfold populate_rel. destruct (x_facts x) as [|f fs] eqn:XF; [apply IH; auto|].
    destruct (R x) as (e & G & I & L); [left; auto|rewrite XF; discriminate|]. rewrite XF in I, L.
    pose proof (step_get F (x_name x)) as SG. rewrite G in SG. unfold e_get.
    destruct (aget (x_name x) d') as [e'|] eqn:G'; [|destruct SG].
    destruct SG as (_ & A1 & A2 & A3 & A4 & A5). cbn [snd] in *.
    assert (LT : (length (e_prog e') <? length (f :: fs)) = false) by (apply Nat.ltb_ge; lia).
    rewrite LT, andb_false_r. apply IH; auto.
    eapply step_aset; eauto. unfold step_rel. cbn [fst snd e_int e_dyn e_stat e_prog].
    repeat split; auto; [apply incl_app; auto|rewrite app_length; lia].
  Qed.
  Lemma internalize_again : forall d d', Forall2 step_rel d d' -> settled_db d -> forall x,
    ecols (fst (internalize E x d')) = ecols d.
  Proof.
    induction 1 as [|[k e] [k' e'] d d' S F IH]; intros SD x; cbn [internalize]; auto.
    destruct S as (S0 & S1 & S2 & S3 & S4 & _). cbn [fst snd] in *. subst k'.
    destruct (internalize_rel E x e') as [e2 x1] eqn:Q.
    assert (SD' : settled_db d) by (intros r a I; apply (SD r a); right; auto).
    specialize (IH SD' x1). destruct (internalize E x1 d') as [d2 x2]. cbn [fst ecols map snd] in *.
    f_equal; [|exact IH]. f_equal.
    assert (SE : settled e) by (apply (SD k); left; auto).
    assert (K := @settled_again e (e_prog e') x SE S4).
    rewrite internalize_rel_tg in K, Q. cbn [fst e_int e_prog e_dyn e_stat] in K. injection Q as <- _. cbn [e_int].
    rewrite S1, S2, S3. exact K.
  Qed.
  Lemma internalize_settled : forall d x, settled_db (fst (internalize E x d)).
  Proof.
    induction d as [|[k e] d IH]; intros x; cbn [internalize]; [intros ? ? []|].
    pose proof (settled_after x e) as A. destruct (internalize_rel E x e) as [e' x1].
    specialize (IH x1). destruct (internalize E x1 d) as [d' x2]. cbn [fst] in *.
    intros r a [I|I]; [injection I as <- <-; auto|eapply IH; eauto].
  Qed.
  Lemma in_aset : forall A (d : list (nat * A)) k a r b, In (r, b) (aset k a d) -> (r = k /\ b = a) \/ In (r, b) d.
  Proof.
    induction d as [|[j c] d IH]; intros k a r b; cbn [aset].
    - intros [I|[]]. injection I as <- <-. auto.
    - destruct (Nat.eqb k j); intros [I|I]; try (injection I as <- <-; auto); auto.
      + right. right. auto.
      + right; left; auto.
      + destruct (IH _ _ _ _ I) as [K|K]; auto. right. right. auto.
  Qed.
  Lemma tap_settled : forall p (d : edb P IT), settled_db d -> settled_db (tap_imm p d).
  Proof.
    intros p d. unfold tap_imm. generalize (xrels p) as xs. intros xs. revert d.
    induction xs as [|x xs IH]; intros d S; cbn [fold_left]; auto. apply IH. destruct (x_imm x); auto.
    unfold tap. destruct (ahas (x_name x) d); auto. intros r e I. apply in_aset in I as [[_ ->]|I]; [|eauto].
    unfold settled, e_new. cbn. split; [auto|]. split; [auto|]. split; [constructor|]. intros t y [].
  Qed.
  Lemma tap_id : forall (p : xprog IT) (d : edb P IT), (forall r, ximm p r = true -> aget r d <> None) ->
    (forall x, In x (xrels p) -> x_imm x = true -> ahas (x_name x) d = true) -> tap_imm p d = d.
  Proof.
    intros p d _ H. unfold tap_imm. revert H. generalize (xrels p) as xs.
    induction xs as [|x xs IH]; intros H; cbn [fold_left]; auto.
    assert (Q : (if x_imm x then tap (x_name x) d else d) = d).
    { destruct (x_imm x) eqn:M; auto. unfold tap. rewrite H; auto. left; auto. }
    rewrite Q. apply IH. intros y I. apply H. right; auto.
  Qed.
  Lemma finish_cols : forall (xs : list (xrel IT)) (d d' : edb P IT) i, ecols d = ecols d' ->
    snd (finish true xs d i) = snd (finish true xs d' i).
  Proof.
    induction xs as [|x xs IH]; intros d d' i Q; cbn [finish]; auto.
    destruct (negb (x_hidden x) && negb (ahas (x_name x) i)); [|apply IH; auto].
    assert (K := ecols_get d (x_name x)). rewrite Q, ecols_get in K.
    destruct (aget (x_name x) d) as [e|], (aget (x_name x) d') as [e'|]; cbn in K; try discriminate; [|apply IH; auto].
    injection K as ->. apply IH; auto.
  Qed.
  Lemma step_refl : forall d, settled_db d -> Forall2 step_rel d d.
  Proof.
    induction d as [|[r e] d IH]; intros S; constructor.
    - destruct (S r e) as (A & B & _); [left; auto|]. unfold step_rel. cbn. repeat split; auto. apply incl_refl.
    - apply IH. intros q a I. apply (S q a). right; auto.
  Qed.
  Lemma ahas_cols : forall (d : edb P IT) r, ahas r d = ahas r (ecols d).
  Proof. intros. unfold ahas. rewrite ecols_get. destruct (aget r d); auto. Qed.

  Theorem run_again : forall fuel p (c c1 : ctx), NoDup (map (@x_name IT) (xrels p)) ->
    execute E true fuel (Some p) c = Some c1 ->
    exists c2, execute E true fuel (Some p) c1 = Some c2 /\ x_idb c2 = x_idb c1.
  Proof.
    intros fuel p c c1 ND H. apply execute_parts in H as (d1 & d2 & x2 & i1 & A & B & DK & KN & XS & F & C1).
    destruct (@finish_get P IT true (xrels p) _ _ _ _ ND F) as [_ D]. specialize (D eq_refl).
    set (d3 := tap_imm p d2) in *.
    assert (S2 : settled_db d2) by (pose proof (internalize_settled d1 (x_tag c)) as K; rewrite B in K; exact K).
    assert (S3 : settled_db d3) by (apply tap_settled; auto).
    assert (RI : rich d3 (xrels p)).
    { intros x I NE. assert (G1 := @populate_get P IT (xrels p) _ _ A (x_name x)). cbn zeta in G1.
      assert (PF : In x (xrels p) -> incl (x_facts x) (prog_facts (xrels p) (x_name x)) /\
                   length (x_facts x) <= length (prog_facts (xrels p) (x_name x))).
      { clear. intros I. unfold prog_facts. induction (xrels p) as [|y l IH]; [destruct I|]. cbn [flat_map].
        destruct I as [->|I].
        - rewrite Nat.eqb_refl. split; [apply incl_appl, incl_refl|rewrite app_length; lia].
        - destruct (IH I) as [K L]. split; [apply incl_appr; auto|rewrite app_length; lia]. }
      destruct (PF I) as [PF1 PF2].
      assert (G2 : exists e, aget (x_name x) d1 = Some e /\ e_prog e = e_prog (e_get (x_edb c) (x_name x)) ++ prog_facts (xrels p) (x_name x)).
      { unfold e_get at 1 in G1. destruct (aget (x_name x) d1) as [e|].
        - exists e. split; auto. rewrite G1. auto.
        - exfalso. apply (f_equal (@e_prog P IT)) in G1. cbn in G1. symmetry in G1. apply app_eq_nil in G1 as [_ G1].
          rewrite G1 in PF2. destruct (x_facts x); [congruence|cbn in PF2; lia]. }
      destruct G2 as (e & G2 & G3). pose proof (internalize_get E _ _ B (x_name x)) as G4. rewrite G2 in G4.
      destruct G4 as (y & G4). rewrite internalize_rel_tg in G4. cbn [fst] in G4.
      destruct (tap_get p d2 (x_name x)) as [T|[T _]]; [|congruence]. fold d3 in T. rewrite T, G4.
      eexists. split; [reflexivity|]. cbn [e_prog]. rewrite G3. split; [apply incl_appr; auto|rewrite app_length; lia]. }
    destruct (populate_again (step_refl S3) RI) as (d1' & A' & F2).
    pose proof (internalize_again F2 S3 (x_tag c1)) as EC.
    destruct (internalize E (x_tag c1) d1') as [d2' x2'] eqn:B'. cbn [fst] in EC.
    assert (T' : tap_imm p d2' = d2').
    { apply tap_id.
      - intros r Q. pose proof (@tap_has P IT p d2 r Q) as N. fold d3 in N. apply ahas_get in N. rewrite ahas_cols, <- EC, <- ahas_cols in N.
        apply ahas_get; auto.
      - intros x I M. assert (Q : ximm p (x_name x) = true) by (unfold ximm; rewrite (@xfind_in IT p x ND I); auto).
        pose proof (@tap_has P IT p d2 _ Q) as N. fold d3 in N. apply ahas_get in N. rewrite ahas_cols, <- EC, <- ahas_cols in N. auto. }
    destruct (finish true (xrels p) d2' i1) as [d4' i2'] eqn:F'.
    exists (mkCtx d4' true i2' p x2'). split.
    - apply execute_parts. rewrite C1. cbn [x_edb x_tag]. exists d1', d2', x2', i1. rewrite D. cbn [x_edb x_idb].
      repeat (split; [solve [auto|rewrite C1 in B'; exact B']|]).
      rewrite T', EC. split; [exact XS|]. split; [exact F'|reflexivity].
    - cbn [x_idb]. assert (K := @finish_cols (xrels p) d2' d3 i1 EC). rewrite F', F in K. exact K.
  Qed.
End Again.

(** * C40 *)
(** In incremental mode, with tags that form a semilattice and do not depend on
    when a fact is tagged, running the same program again succeeds and gives
    exactly the same tagged results. *)
Theorem C40_rerun_partial : forall (P : Prov) (IT X : Type) (E : rtenv P IT X) tagf,
  (forall a b c, padd P a (padd P b c) = padd P (padd P a b) c) ->
  (forall a b, padd P a b = padd P b a) -> (forall a, padd P a a = a) ->
  (forall x o, c_tag E x o = (tagf o, x)) ->
  forall fuel p (c c1 : ctx P IT X), NoDup (map (@x_name IT) (xrels p)) ->
  execute E true fuel (Some p) c = Some c1 ->
  exists c2, execute E true fuel (Some p) c1 = Some c2 /\ x_idb c2 = x_idb c1.
Proof. intros P IT X E tagf A B C T fuel p c c1 ND H. eapply run_again; eauto. Qed.
Print Assumptions C40_rerun_partial.

(** Transitive closure with negation on top, over sets of facts: the first run,
    after facts were added, has results. *)
Example C40_ex : exists c1, execute (xE unit_prov) true 20 (Some (xtc unit_prov))
    (mkCtx (add_dynamic 0 [(None, t2 1 2)] []) false [] [] 0) = Some c1 /\
  option_map pairs (aget 4 (x_idb c1)) = Some [t2 0 1; t2 0 2; t2 1 2] /\
  exists c2, execute (xE unit_prov) true 20 (Some (xtc unit_prov)) c1 = Some c2 /\ x_idb c2 = x_idb c1.
Proof.
  eexists. split; [vm_compute; reflexivity|]. split; [vm_compute; reflexivity|].
  eapply (@C40_rerun_partial unit_prov unit nat (xE unit_prov) (fun o => match o with Some g => g | None => tt end))
    with (c := mkCtx (add_dynamic 0 [(None, t2 1 2)] []) false [] [] 0);
    [cbn; auto|cbn; auto|intros []; auto|cbn; auto| |vm_compute; reflexivity].
  cbn. repeat constructor; cbn; intuition lia.
Qed.
