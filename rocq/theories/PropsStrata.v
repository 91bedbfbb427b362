(** C54: the RAM strata that a program is lowered to have the stable models of the
    program. *)
From Coq Require Import List ZArith Bool Arith Lia Permutation.
From Verif Require Import Value Back Eval Ram Dataflow BackSem Scc SccFacts Plan PlanSem PlanFacts PlanFacts2 PropsPlan VarTuple VarTupleFacts
  B2R RamSem B2RFacts B2RFacts2 B2RSpec B2RRule B2RScope PropsB2R B2RStrata StrataSem StrataFacts.
Import ListNotations.
Set Implicit Arguments.

(** ** Models of strata are fixpoints *)
Section Fixpoint_.
  Variables (E : renv) (fp : pred -> rel) (AG : rels -> nat -> nat -> rgrp -> tuple -> Prop) (F J : rels) (ss : list rstratum).
  Hypothesis MOD : rmodel E fp AG F ss J.
  Lemma closed_above : forall s X r t, In s ss -> closed E fp AG F s J X -> J r t -> X r t.
  Proof.
    intros s X r t Is CL H. destruct (in_dec Nat.eq_dec r (rs_rels s)) as [Ir|Ir].
    - exact (proj1 (MOD s r t Is Ir) H X CL).
    - apply (cl_out CL r Ir), H.
  Qed.
  Lemma model_fix : forall s r t, In s ss -> (forall n d, In (n, d) (rs_updates s) -> In n (rs_rels s)) -> In r (rs_rels s) ->
    (J r t <-> F r t \/ exists d, In (r, d) (rs_updates s) /\ rden E fp (AG J) J J d t).
  Proof.
    intros s r t Is TG Ir.
    assert (UP : forall r t, In r (rs_rels s) -> F r t \/ (exists d, In (r, d) (rs_updates s) /\ rden E fp (AG J) J J d t) -> J r t).
    { clear r t Ir. intros r t Ir H. apply (MOD s r t Is Ir). intros X CL. destruct H as [H|(d & Id & H)]; [apply (cl_fact CL); auto|].
      apply (cl_upd CL r d t Id). revert H. apply rden_mono; [tauto|]. intros q _ u. exact (@closed_above s X q u Is CL). }
    split; [|apply UP; auto]. intros H.
    pose (X := fun r t => (In r (rs_rels s) /\ (F r t \/ exists d, In (r, d) (rs_updates s) /\ rden E fp (AG J) J J d t)) \/ (~ In r (rs_rels s) /\ J r t)).
    assert (XJ : forall q u, X q u -> J q u) by (intros q u [[Iq K]|[_ K]]; auto).
    assert (CL : closed E fp AG F s J X).
    { constructor.
      - intros q Nq u. unfold X. tauto.
      - intros q u Iq Hq. left. auto.
      - intros q d u Id Hd. left. split; [eapply TG; eauto|]. right. exists d. split; auto. revert Hd. apply rden_mono; [tauto|]. intros; apply XJ; auto. }
    destruct (proj1 (MOD s r t Is Ir) H X CL) as [[_ K]|[K _]]; [exact K|contradiction].
  Qed.
End Fixpoint_.

Lemma layout_inj : forall sh vs ws, layout sh vs = layout sh ws -> vs = ws.
Proof.
  assert (O : forall vs ws, one_or_vtup vs = one_or_vtup ws -> vs = ws).
  { intros [|v [|v' vs]] [|w [|w' ws]] H; cbn in H; try discriminate; auto; [congruence|].
    injection H as -> -> H. do 2 f_equal. clear -H. revert ws H. induction vs as [|x vs IH]; intros [|y ws] H; try discriminate; auto.
    injection H as -> H. f_equal. auto. }
  assert (S : forall n (vs ws : list value), TTup [one_or_vtup (firstn n vs); one_or_vtup (skipn n vs)] = TTup [one_or_vtup (firstn n ws); one_or_vtup (skipn n ws)] -> vs = ws).
  { intros n vs ws H. injection H as H1 H2. apply O in H1. apply O in H2. rewrite <- (firstn_skipn n vs), <- (firstn_skipn n ws), H1, H2. reflexivity. }
  intros [|[|n]|n] vs ws H; cbn [layout] in H; eauto. apply vtup_inj, H.
Qed.
Lemma update_target : forall C h p inplace z n d z', update_df C h p inplace z = Some ((n, d), z') -> n = a_pred h.
Proof.
  intros C h p inplace z n d z' H. unfold update_df, sbind, sopt, sret in H.
  repeat match type of H with context [match ?x with _ => _ end] => destruct x eqn:?; try discriminate H end; injection H; auto.
Qed.

Lemma Forall2_left : forall A Bt (R : A -> Bt -> Prop) l l', Forall2 R l l' -> forall a, In a l -> exists b, In b l' /\ R a b.
Proof.
  intros A Bt R l l' F. induction F as [|a b l l' H F IH]; intros x []; [subst; exists b; cbn; auto|].
  destruct (IH x) as (y & Iy & Hy); auto. exists y. cbn. auto.
Qed.
Lemma Forall2_right : forall A Bt (R : A -> Bt -> Prop) l l', Forall2 R l l' -> forall b, In b l' -> exists a, In a l /\ R a b.
Proof.
  intros A Bt R l l' F. induction F as [|a b l l' H F IH]; intros x []; [subst; exists a; cbn; auto|].
  destruct (IH x) as (y & Iy & Hy); auto. exists y. cbn. auto.
Qed.

Section C54.
  Variables (C : cenv) (N : penv) (B : benv) (AG : rels -> nat -> nat -> rgrp -> tuple -> Prop).
  Variables (P : program) (ss : list stratum) (Ty : pred -> list value -> Prop).
  Variables (inplace : rule -> bool) (order : list pred -> rule -> list state -> list state) (xs : list rstratum) (J : rels).
  Hypothesis ORD : forall ps r l, Permutation (order ps r l) l.
  Hypothesis NM : names_ok C.
  Hypothesis NA : names_apart C (inp ss).
  Hypothesis OK : program_ok C N B AG P ss Ty order.
  Hypothesis LOW : lower_strata C N inplace order (p_rules P) ss = Some (xs, []).
  Hypothesis MOD : rmodel (b_env B) (b_fp B) AG (fact_rels P) xs J.
  Notation E := (b_env B).
  Notation fp := (b_fp B).
  Notation g := (p_reg P).
  Notation M := (decode C ss J).
  Notation D := (der B P (decode C ss J)).
  Notation den := (rden E fp (AG J)).

  Lemma in_rules : forall r s, In r (flat_map (rules_of (p_rules P)) (st_preds s)) <-> In r (p_rules P) /\ In (r_pred r) (st_preds s).
  Proof.
    intros r s. rewrite in_flat_map. split.
    - intros (p & Ip & Ir). apply filter_In in Ir. destruct Ir as [Ir Er]. apply Nat.eqb_eq in Er. subst p. auto.
    - intros [H1 H2]. exists (r_pred r). split; auto. apply filter_In. split; auto. apply Nat.eqb_refl.
  Qed.
  Lemma reads : forall q, In q (places [] ss) -> stratum_reads N g (p_rules P) q.
  Proof.
    intros [l1 s] Iq r Ir. cbn [fst snd] in *. apply places_In in Iq. destruct Iq as (l & l2 & Es & ->). cbn [app].
    apply in_rules in Ir. destruct Ir as [Ir Ip]. destruct (po_rules OK r Ir) as (h & body & -> & RU). exists h, body. split; auto.
    destruct RU as [R1 R2 R3 R4 _ _ _ _ _]. repeat (split; auto).
    - intros a Ia Fa. apply (so_pos (po_strata OK) _ _ _ _ Ir Es Ip). unfold pos_preds. apply in_flat_map. exists (LAtom a). split; auto. cbn.
      rewrite Fa. left; auto.
    - intros a Ia. apply (so_neg (po_strata OK) _ _ _ _ Ir Es Ip). apply in_app_iff. left. apply in_flat_map. exists (LNeg a). split; auto. left; auto.
    - apply (so_neg (po_strata OK) _ _ _ _ Ir Es Ip). apply in_app_iff. right. apply in_flat_map. exists (LReduce r). split; auto. left; auto.
    - destruct (rd_groupby r) as [a|] eqn:Eg; auto. apply (so_neg (po_strata OK) _ _ _ _ Ir Es Ip). apply in_app_iff. right. apply in_flat_map.
      exists (LReduce r). split; auto. cbn. rewrite Eg. right; left; auto.
  Qed.

  (** The final state and the place of each stratum. *)
  Variable zf : bstate.
  Hypothesis VF : inv C (inp ss) (inp ss) zf.
  Hypothesis TF : z_temps zf = [].
  Hypothesis LO : Forall2 (low2 C N inplace order (p_rules P) zf) (places [] ss) xs.
  Hypothesis NG : forall x, In x (z_negs zf) -> exists y, In y xs /\ In x (rs_updates y) /\ In (fst x) (rs_rels y).

  (** A stratum and what it was lowered to. *)
  Record at_ (l1 : list stratum) (s : stratum) (y : rstratum) (z : bstate) (us cur pu : list (nat * rdf)) : Prop := {
    at_split : exists l2, ss = l1 ++ s :: l2;
    at_in : In y xs;
    at_inv : inv C (inp (l1 ++ [s])) (inp l1) z;
    at_perm : incl (z_perms z) (z_perms zf);
    at_neg : incl (z_negs z) (z_negs zf);
    at_next : z_next z <= z_next zf;
    at_cur : incl cur (z_negs zf);
    at_pu : forall n d, In (n, d) pu <-> exists p gr, n = ce_perm C p gr /\ d = RProject (RRel p) (perm_expr gr) /\ In p (st_preds s) /\ In (p, gr) (z_perms zf);
    at_rels : rs_rels y = ((st_preds s ++ map fst (z_temps z)) ++ map fst pu) ++ map fst cur;
    at_upd : rs_updates y = ((z_temps z ++ us) ++ pu) ++ cur;
    at_us : forall n d, In (n, d) us -> scoped C (inp (l1 ++ [s])) (inp l1) false z (z_next z) d /\
      exists r z0 z1, In r (p_rules P) /\ In (r_pred r) (st_preds s) /\ lower_rule C N inplace order (st_preds s) r z0 = Some ((n, d), z1) /\ ext z1 z;
    at_rule : forall r, In r (p_rules P) -> In (r_pred r) (st_preds s) ->
      exists n d z0 z1, In (n, d) us /\ lower_rule C N inplace order (st_preds s) r z0 = Some ((n, d), z1) /\ ext z1 z }.

  Lemma perms_of_In : forall p gr, In gr (perms_of zf p) <-> In (p, gr) (z_perms zf).
  Proof.
    assert (GD : forall gr l, In gr (gdistinct l) <-> In gr l).
    { intros gr. induction l as [|x l IH]; cbn; [tauto|]. destruct (existsb (gt_eqb x) l) eqn:Ex.
      - rewrite IH. split; auto. intros [->|H]; auto. apply existsb_exists in Ex. destruct Ex as (y & Iy & Ey). apply gt_eqb_eq in Ey. subst y. auto.
      - cbn. rewrite IH. tauto. }
    intros p gr. unfold perms_of. rewrite GD, in_map_iff. split.
    - intros ((q & x) & Ex & Iq). cbn in Ex. subst x. apply filter_In in Iq. destruct Iq as [Iq Eq]. apply Nat.eqb_eq in Eq. cbn in Eq. subst q. exact Iq.
    - intros H. exists (p, gr). split; auto. apply filter_In. split; auto. apply Nat.eqb_refl.
  Qed.
  Unset Strict Implicit.
  Lemma temp_name : forall Pp Pn z n, inv C Pp Pn z -> In n (map fst (z_temps z)) -> exists i, n = ce_temp C i.
  Proof. intros Pp Pn z n V H. destruct (iv_temps V) as (idx & H1 & _). rewrite H1 in H. apply in_map_iff in H. destruct H as (i & <- & _). eauto. Qed.
  Lemma neg_name : forall n, In n (map fst (z_negs zf)) -> exists i, n = ce_ntemp C i.
  Proof. intros n H. destruct (iv_negs VF) as (idx & H1 & _). rewrite H1 in H. apply in_map_iff in H. destruct H as (i & <- & _). eauto. Qed.
  Lemma low2_at : forall l1 s y, In (l1, s) (places [] ss) -> In y xs -> low2 C N inplace order (p_rules P) zf (l1, s) y ->
    exists z us cur pu, at_ l1 s y z us cur pu.
  Proof.
    intros l1 s y Iq Iy [(x & cur & [(z1 & z2 & us & T1 & V1 & R & -> & I1 & I2 & L)] & Ic & ->)]. cbn [fst snd] in *.
    pose proof (@reads (l1, s) Iq) as SR. unfold stratum_reads in SR. cbn [fst snd] in SR.
    pose proof Iq as Iq'. apply places_In in Iq'. destruct Iq' as (l & l2 & Es & El). cbn [app] in El. subst l.
    assert (V1' : inv C (inp (l1 ++ [s])) (inp l1) z1).
    { eapply inv_more; [| |exact V1]; auto. intros p. apply inp_app. }
    destruct (@lower_rules_inv C N g inplace order ORD _ _ _ _ _ _ _ SR V1' R) as (V2 & X & L2 & U1 & U2).
    set (x := mkRS (st_rec s) (st_preds s ++ map fst (z_temps z2)) (z_temps z2 ++ us)) in *.
    exists z2, us, cur, (perm_updates C zf x). constructor; auto.
    - exists l2. exact Es.
    - intros n d. unfold perm_updates. rewrite in_flat_map. split.
      + intros (p & Ip & H). apply in_map_iff in H. destruct H as (gr & Eg & Ig). injection Eg as <- <-. apply perms_of_In in Ig.
        exists p, gr. split; auto. split; auto. split; auto. unfold x in Ip. cbn in Ip. apply in_app_iff in Ip. destruct Ip as [Ip|Ip]; auto.
        exfalso. destruct (temp_name V2 Ip) as (i & ->). destruct (iv_perm VF _ _ Ig) as [K|K]; exact (na_pt NA _ K).
      + intros (p & gr & -> & -> & Ip & Ig). exists p. split; [unfold x; cbn; apply in_app_iff; auto|]. apply in_map_iff. exists gr. split; auto.
        apply perms_of_In. auto.
    - intros n d Id. destruct (U1 n d Id) as (S & r & z3 & z4 & Ir & Rr & Xr). split; auto. exists r, z3, z4. apply in_rules in Ir. destruct Ir. auto.
    - intros r Ir Ip. destruct (U2 r) as (n & d & z3 & z4 & Id & Rr & Xr); [apply in_rules; auto|]. exists n, d, z3, z4. auto.
  Qed.
  Lemma at_some : forall l1 s l2, ss = l1 ++ s :: l2 -> exists y z us cur pu, at_ l1 s y z us cur pu.
  Proof.
    intros l1 s l2 Es. assert (Iq : In (l1, s) (places [] ss)) by (apply places_In; exists l1, l2; auto).
    destruct (Forall2_left LO _ Iq) as (y & Iy & L2). destruct (low2_at Iq Iy L2) as (z & us & cur & pu & A). eauto 10.
  Qed.
  Lemma at_all : forall y, In y xs -> exists l1 s z us cur pu, at_ l1 s y z us cur pu.
  Proof.
    intros y Iy. destruct (Forall2_right LO _ Iy) as ([l1 s] & Iq & L2). destruct (low2_at Iq Iy L2) as (z & us & cur & pu & A). eauto 10.
  Qed.

  Unset Strict Implicit.
  Section Place.
    Variables (l1 : list stratum) (s : stratum) (y : rstratum) (z : bstate) (us cur pu : list (nat * rdf)).
    Hypothesis A : at_ l1 s y z us cur pu.
    Lemma here_or_before : forall p, inp (l1 ++ [s]) p <-> inp l1 p \/ In p (st_preds s).
    Proof. intros p. unfold inp, preds. rewrite flat_map_app, in_app_iff. cbn. rewrite app_nil_r. tauto. Qed.
    Lemma before_ss : forall p, inp (l1 ++ [s]) p -> inp ss p.
    Proof. intros p H. destruct (at_split A) as (l2 & ->). apply here_or_before in H. unfold inp, preds in *. rewrite flat_map_app, in_app_iff. cbn. rewrite in_app_iff. tauto. Qed.
    Lemma not_both : forall p, inp l1 p -> In p (st_preds s) -> False.
    Proof.
      intros p H1 H2. destruct (at_split A) as (l2 & Es). pose proof (so_nodup (po_strata OK)) as ND. rewrite Es in ND.
      unfold preds in ND. rewrite flat_map_app in ND. cbn in ND. clear -H1 H2 ND. unfold inp, preds in H1.
      induction (flat_map st_preds l1) as [|x l IH]; [destruct H1|]. cbn in ND. inversion ND as [|? ? NI ND']; subst. destruct H1 as [->|H1]; auto.
      apply NI. rewrite !in_app_iff. auto.
    Qed.
    Lemma in_rels : forall r, In r (rs_rels y) <-> In r (st_preds s) \/ In r (map fst (z_temps z)) \/
      (exists p gr, r = ce_perm C p gr /\ In p (st_preds s) /\ In (p, gr) (z_perms zf)) \/ In r (map fst cur).
    Proof.
      intros r. rewrite (at_rels A), !in_app_iff.
      assert (W : In r (map fst pu) <-> exists p gr, r = ce_perm C p gr /\ In p (st_preds s) /\ In (p, gr) (z_perms zf)).
      { rewrite in_map_iff. split.
        - intros ((n & d) & <- & Id). apply (at_pu A) in Id. destruct Id as (p & gr & -> & _ & H1 & H2). exists p, gr. auto.
        - intros (p & gr & -> & H1 & H2). exists (ce_perm C p gr, RProject (RRel p) (perm_expr gr)). split; auto. apply (at_pu A). eauto 8. }
      rewrite W. tauto.
    Qed.
    Lemma us_target : forall n d, In (n, d) us -> In n (st_preds s).
    Proof.
      intros n d Id. destruct (at_us A n d Id) as (_ & r & z0 & z1 & Ir & Ip & R & _). unfold lower_rule, sbind, sopt in R.
      destruct (query_plan _ _ _); [|discriminate]. destruct (po_rules OK r Ir) as (h & body & -> & _). cbn [r_head] in R.
      apply update_target in R. subst n. exact Ip.
    Qed.
    Lemma targets : forall n d, In (n, d) (rs_updates y) -> In n (rs_rels y).
    Proof.
      intros n d Id. rewrite (at_upd A), !in_app_iff in Id. apply in_rels. destruct Id as [[[Id|Id]|Id]|Id].
      - right. left. apply (in_map fst) in Id. exact Id.
      - left. eapply us_target, Id.
      - right. right. left. apply (at_pu A) in Id. destruct Id as (p & gr & -> & _ & H). exists p, gr. auto.
      - right. right. right. apply (in_map fst) in Id. exact Id.
    Qed.
    Lemma no_fact : forall n t, ~ inp ss n -> ~ fact_rels P n t.
    Proof. intros n t H (f & If & -> & _). apply H. apply (so_fact (po_strata OK) f If). Qed.

    (** What the updates of a relation are. *)
    Lemma upd_pred : forall n d, inp ss n -> In (n, d) (rs_updates y) -> In (n, d) us.
    Proof.
      intros n d Hn Id. rewrite (at_upd A), !in_app_iff in Id. destruct Id as [[[Id|Id]|Id]|Id]; auto; exfalso.
      - apply (in_map fst) in Id. destruct (temp_name (at_inv A) Id) as (i & Ei). cbn in Ei. subst n. exact (na_pt NA _ Hn).
      - apply (at_pu A) in Id. destruct Id as (p & gr & -> & _). exact (na_pp NA _ _ Hn).
      - apply (at_cur A), (in_map fst) in Id. destruct (neg_name Id) as (i & Ei). cbn in Ei. subst n. exact (na_pn NA _ Hn).
    Qed.
    Lemma us_not : forall n d, ~ inp ss n -> In (n, d) us -> False.
    Proof. intros n d H Id. apply H, before_ss, here_or_before. right. eapply us_target, Id. Qed.
    Lemma upd_temp : forall i d, In (ce_temp C i, d) (rs_updates y) -> In (ce_temp C i, d) (z_temps z).
    Proof.
      intros i d Id. rewrite (at_upd A), !in_app_iff in Id. destruct Id as [[[Id|Id]|Id]|Id]; auto; exfalso.
      - eapply us_not; [|exact Id]. apply (na_pt NA).
      - apply (at_pu A) in Id. destruct Id as (p & gr & Ep & _). exact (na_tp NA _ _ _ Ep).
      - apply (at_cur A), (in_map fst) in Id. destruct (neg_name Id) as (j & Ej). exact (na_tn NA _ _ Ej).
    Qed.
    Lemma upd_perm : forall p gr d, In (ce_perm C p gr, d) (rs_updates y) -> d = RProject (RRel p) (perm_expr gr).
    Proof.
      intros p gr d Id. rewrite (at_upd A), !in_app_iff in Id. destruct Id as [[[Id|Id]|Id]|Id].
      - exfalso. apply (in_map fst) in Id. destruct (temp_name (at_inv A) Id) as (i & Ei). exact (na_tp NA _ _ _ (eq_sym Ei)).
      - exfalso. eapply us_not; [|exact Id]. apply (na_pp NA).
      - apply (at_pu A) in Id. destruct Id as (q & h & Ep & -> & _). apply (na_perm NA) in Ep. destruct Ep as [-> ->]. reflexivity.
      - exfalso. apply (at_cur A), (in_map fst) in Id. destruct (neg_name Id) as (j & Ej). exact (na_np NA _ _ _ (eq_sym Ej)).
    Qed.
    Lemma upd_neg : forall i d, In (ce_ntemp C i, d) (rs_updates y) -> In (ce_ntemp C i, d) (z_negs zf).
    Proof.
      intros i d Id. rewrite (at_upd A), !in_app_iff in Id. destruct Id as [[[Id|Id]|Id]|Id].
      - exfalso. apply (in_map fst) in Id. destruct (temp_name (at_inv A) Id) as (j & Ej). exact (na_tn NA _ _ (eq_sym Ej)).
      - exfalso. eapply us_not; [|exact Id]. apply (na_pn NA).
      - exfalso. apply (at_pu A) in Id. destruct Id as (p & gr & Ep & _). exact (na_np NA _ _ _ Ep).
      - apply (at_cur A), Id.
    Qed.
    Lemma same_def : forall (l : list (nat * rdf)) n d d', NoDup (map fst l) -> In (n, d) l -> In (n, d') l -> d = d'.
    Proof.
      induction l as [|[m e] l IH]; intros n d d' ND H H'; [destruct H|]. cbn in ND. inversion ND as [|? ? NI ND']; subst.
      destruct H as [H|H]; destruct H' as [H'|H'].
      - congruence.
      - injection H as -> ->. exfalso. apply NI. apply (in_map fst) in H'. exact H'.
      - injection H' as -> ->. exfalso. apply NI. apply (in_map fst) in H. exact H.
      - eapply IH; eauto.
    Qed.

    (** [J] holds what the definitions say. *)
    Lemma J_temp : forall n d, In (n, d) (z_temps z) -> forall t, J n t <-> den J J d t.
    Proof.
      intros n d Id t. destruct (iv_tdef (at_inv A) _ _ Id) as (i & _ & -> & _).
      rewrite (model_fix MOD y (ce_temp C i) t (at_in A) targets).
      - split.
        + intros [F|(d' & Id' & H)]; [exfalso; exact (no_fact (na_pt NA i) F)|]. apply upd_temp in Id'.
          rewrite (@same_def (z_temps z) (ce_temp C i) d d'); auto. eapply numbered_NoDup; [apply (iv_temps (at_inv A))|apply (na_temp NA)].
        + intros H. right. exists d. split; auto. rewrite (at_upd A), !in_app_iff. auto.
      - apply in_rels. right. left. apply (in_map fst) in Id. exact Id.
    Qed.
  End Place.

  Lemma pred_place : forall p, inp ss p -> exists l1 s l2, ss = l1 ++ s :: l2 /\ In p (st_preds s).
  Proof.
    intros p H. unfold inp, preds in H. apply in_flat_map in H. destruct H as (s & Is & Ip). apply in_split in Is. destruct Is as (l1 & l2 & Es). eauto.
  Qed.
  Lemma J_perm : forall p gr, In (p, gr) (z_perms zf) -> forall t, J (ce_perm C p gr) t <-> exists u, J p u /\ eval E (perm_expr gr) u = EOk t.
  Proof.
    intros p gr Ip t. assert (Hp : inp ss p) by (destruct (iv_perm VF _ _ Ip); auto).
    destruct (pred_place Hp) as (l1 & s & l2 & Es & Is). destruct (at_some Es) as (y & z & us & cur & pu & A).
    rewrite (model_fix MOD y (ce_perm C p gr) t (at_in A) (targets A)).
    - split.
      + intros [F|(d & Id & H)]; [exfalso; exact (no_fact (na_pp NA p gr) F)|]. apply (upd_perm A) in Id. subst d. exact H.
      + intros H. right. exists (RProject (RRel p) (perm_expr gr)). split; [|exact H]. rewrite (at_upd A), !in_app_iff. left. right. apply (at_pu A). eauto 8.
    - apply (in_rels A). right. right. left. eauto.
  Qed.
  Lemma J_neg : forall n d, In (n, d) (z_negs zf) -> forall t, J n t <-> den J J d t.
  Proof.
    intros n d Id t. destruct (NG _ Id) as (y & Iy & Iu & Ir). cbn in Ir. destruct (at_all Iy) as (l1 & s & z & us & cur & pu & A).
    destruct (iv_ndef VF _ _ Id) as (i & _ & -> & _). rewrite (model_fix MOD y (ce_ntemp C i) t (at_in A) (targets A)); auto. split.
    - intros [F|(d' & Id' & H)]; [exfalso; exact (no_fact (na_pn NA i) F)|]. apply (upd_neg A) in Id'.
      rewrite (@same_def (z_negs zf) (ce_ntemp C i) d d'); auto. eapply numbered_NoDup; [apply (iv_negs VF)|apply (na_ntemp NA)].
    - intros H. right. eauto.
  Qed.

  (** Facts of rules. *)
  Lemma der_cases : forall p vs, D p vs -> (exists f, In f (p_facts P) /\ p = f_pred f /\ vs = f_args f) \/
    exists h body, In (mkRule (HAtom h) body) (p_rules P) /\ p = a_pred h /\ head_consequence B g D M (mkRule (HAtom h) body) p vs.
  Proof.
    intros p vs H. destruct H as [f If|r s p t Ir HP HO Y]; [left; eauto|right].
    destruct (po_rules OK r Ir) as (h & body & -> & RU). exists h, body. split; auto.
    destruct Y as [a Ia|v f l Iv|v f l q t Iv _ Iq _|a q t _ _ _ Iq _]; cbn [r_head r_body head_atoms] in *.
    - destruct Ia as [<-|[]]. split; auto. exists s, h. split; [|cbn; auto]. intros l Il. cbn [r_body] in Il. specialize (HO l Il).
      unfold lit_sat. destruct l as [a| | | | | | |]; auto. destruct (g_foreign g (a_pred a)) eqn:Fa; [apply HO; auto|apply HP; auto].
    - exfalso. specialize (ru_new RU _ _ Iv). discriminate.
    - exfalso. rewrite (po_adts OK) in Iq. destruct Iq.
    - exfalso. rewrite (po_adts OK) in Iq. destruct Iq.
  Qed.
  Lemma der_head : forall h body vs, In (mkRule (HAtom h) body) (p_rules P) -> head_consequence B g D M (mkRule (HAtom h) body) (a_pred h) vs -> D (a_pred h) vs.
  Proof.
    intros h body vs Ir (s & a & HB & Ia & _ & ->). cbn in Ia. destruct Ia as [<-|[]]. cbn [r_body] in HB.
    apply der_rule with (r := mkRule (HAtom h) body) (s := s); auto.
    - intros a Ia Fa. specialize (HB _ Ia). cbn in HB. rewrite Fa in HB. exact HB.
    - intros l Il. specialize (HB l Il). destruct l as [a| | | | | | |]; auto. cbn in *. intros Fa. rewrite Fa in HB. exact HB.
    - apply y_head. left; auto.
  Qed.

  (** ** One stratum *)
  Definition K (l : list stratum) : Prop := forall p, inp l p ->
    (forall t, J p t -> exists vs, D p vs /\ t = layout (ce_shape C p) vs) /\ (forall vs, D p vs -> M p vs) /\ (forall vs, D p vs -> Ty p vs).
  Lemma K_holds : forall l p, K l -> inp l p -> holds_facts Ty J M (ce_shape C p) p.
  Proof.
    intros l p HK Hp. destruct (HK p Hp) as (K1 & K2 & K3). split.
    - intros t. split.
      + intros H. destruct (K1 t H) as (vs & H1 & ->). exists vs. auto.
      + intros (vs & [_ H] & ->). exact H.
    - intros vs [_ H]. destruct (K1 _ H) as (ws & H1 & EQ). apply layout_inj in EQ. subst ws. auto.
  Qed.
  Section Step.
    Variables (l1 : list stratum) (s : stratum) (y : rstratum) (z : bstate) (us cur pu : list (nat * rdf)).
    Hypothesis A : at_ l1 s y z us cur pu.
    Hypothesis HK : K l1.
    (** What a rule of the stratum reads. *)
    Lemma rule_pos : forall h body p, In (mkRule (HAtom h) body) (p_rules P) -> In (a_pred h) (st_preds s) -> In p (pos_preds N body) -> inp l1 p \/ In p (st_preds s).
    Proof.
      intros h body p Ir Ih Ip. destruct (at_split A) as (l2 & Es). apply here_or_before.
      exact (so_pos (po_strata OK) _ _ _ _ Ir Es Ih p Ip).
    Qed.
    Lemma rule_neg : forall h body p, In (mkRule (HAtom h) body) (p_rules P) -> In (a_pred h) (st_preds s) -> In p (neg_preds body ++ red_preds body) -> inp l1 p.
    Proof.
      intros h body p Ir Ih Ip. destruct (at_split A) as (l2 & Es). exact (so_neg (po_strata OK) _ _ _ _ Ir Es Ih p Ip).
    Qed.
    Lemma reads_intro : forall h body (JI : rels) (I : interp), In (mkRule (HAtom h) body) (p_rules P) -> In (a_pred h) (st_preds s) ->
      rule_ok C N B AG P Ty order h body ->
      (forall p, In p (pos_preds N body) -> inp l1 p \/ In p (st_preds s) -> holds_facts Ty JI I (ce_shape C p) p) -> reads_hold C N Ty JI J I M body.
    Proof.
      intros h body JI I Ir Ih RU HP. constructor.
      - intros p Ip. rewrite <- (ru_plain RU p); [|apply in_app_iff; auto]. apply HP; auto. eapply rule_pos; eauto.
      - intros p Ip. rewrite <- (ru_plain RU p); [|apply in_app_iff; auto]. apply K_holds with (l := l1); auto. eapply rule_neg; eauto. apply in_app_iff; auto.
      - intros p Ip. apply K_holds with (l := l1); auto. eapply rule_neg; eauto. apply in_app_iff; auto.
    Qed.
    Lemma pos_atom : forall h body a, rule_ok C N B AG P Ty order h body -> In (LAtom a) body -> g_foreign g (a_pred a) = false -> In (a_pred a) (pos_preds N body).
    Proof.
      intros h body a RU Ia Fa. rewrite (pl_foreign (ru_plan RU)) in Fa. apply in_flat_map. exists (LAtom a). split; auto. cbn. rewrite Fa. left; auto.
    Qed.

    (** The facts of the rules respect the types. *)
    Lemma step_typed : forall p vs, D p vs -> In p (st_preds s) -> Ty p vs.
    Proof.
      intros p vs H. induction H as [f If|r sb p t Ir HP IH HO Y]; intros Ip; [apply (so_fact (po_strata OK) f If)|].
      destruct (po_rules OK r Ir) as (h & body & -> & RU). cbn [r_body] in *.
      assert (EY : p = a_pred h /\ t = tvals sb (a_args h)).
      { destruct Y as [a Ia|v f l Iv|v f l q t Iv _ Iq _|a q t _ _ _ Iq _]; cbn [r_head r_body head_atoms] in *.
        - destruct Ia as [<-|[]]. auto.
        - exfalso. specialize (ru_new RU _ _ Iv). discriminate.
        - exfalso. rewrite (po_adts OK) in Iq. destruct Iq.
        - exfalso. rewrite (po_adts OK) in Iq. destruct Iq. }
      destruct EY as [-> ->].
      pose (I := fun p vs => D p vs /\ Ty p vs). pose (JI := fun p t => exists vs, I p vs /\ t = layout (ce_shape C p) vs).
      apply (ru_type RU) with (JI := JI) (JM := J) (I := I) (M := M).
      - apply reads_intro with (h := h); auto. intros p Hp _. split; [intros t; reflexivity|]. intros vs [_ H]. exact H.
      - exists sb, h. split; [|cbn; auto]. intros l Il. cbn [r_body] in Il. pose proof (HO l Il) as Hl. unfold lit_sat. destruct l as [a| | | | | | |]; auto.
        destruct (g_foreign g (a_pred a)) eqn:Fa; [apply Hl; auto|]. split; [apply HP; auto|].
        destruct (rule_pos Ir Ip (pos_atom RU Il Fa)) as [Hb|Hb]; [apply (HK Hb), HP; auto|apply IH; auto].
    Qed.
    Lemma D_typed : forall p vs, inp l1 p \/ In p (st_preds s) -> D p vs -> Ty p vs.
    Proof. intros p vs [Hp|Hp] H; [apply (HK Hp), H|apply step_typed; auto]. Qed.

    (** The relations that hold the facts of the rules. *)
    Lemma step_least : forall p t, In p (st_preds s) -> J p t -> exists vs, D p vs /\ t = layout (ce_shape C p) vs.
    Proof.
      intros p0 t0 Hp0 HJ.
      pose (Z := mkB (z_next zf) (z_temps z) (z_perms zf) (z_negs zf)).
      assert (VZ : inv C (inp ss) (inp ss) Z).
      { assert (X : ext z Z) by (split; [apply incl_refl|split; [apply (at_perm A)|apply (at_neg A)]]).
        assert (S1 : forall p, inp l1 p -> inp ss p) by (intros p H; apply (before_ss A), here_or_before; auto).
        constructor.
        - eapply numbered_more; [apply (iv_temps (at_inv A))|apply (at_next A)].
        - apply (iv_negs VF).
        - intros n d Id. destruct (iv_tdef (at_inv A) _ _ Id) as (i & L & En & S). exists i. split; [pose proof (at_next A); cbn; lia|]. split; auto.
          exact (@scoped_sub C _ _ _ _ z Z false i d (before_ss A) S1 X S).
        - intros n d Id. destruct (iv_ndef VF _ _ Id) as (i & L & En & S). exists i. split; auto. split; auto.
          refine (@scoped_sub C _ _ _ _ zf Z true i d (fun p H => H) (fun p H => H) _ S). rewrite <- TF in *. 
          split; [rewrite TF; intros ? []|split; apply incl_refl].
        - apply (iv_perm VF). }
      destruct (@solution_exists C (inp ss) (inp ss) (inp ss) (fun p H => H) (fun p H => H) NA E fp (AG J) Z VZ
        (fun p t => exists vs, D p vs /\ t = layout (ce_shape C p) vs) J) as (JI & J1 & J2 & J3 & _). cbn [Z z_perms z_temps] in J2, J3.
      assert (SAME : forall p, inp l1 p -> forall t, J p t <-> JI p t).
      { intros p Hp t. rewrite J1 by (apply (before_ss A), here_or_before; auto). destruct (HK Hp) as (K1 & K2 & _). split; auto.
        intros (vs & H & ->). apply (K2 vs H). }
      pose (X := fun r t => (In r (rs_rels y) /\ ((exists i, r = ce_ntemp C i) \/ JI r t)) \/ (~ In r (rs_rels y) /\ J r t)).
      assert (XS : forall r t, In r (rs_rels y) -> (forall i, r <> ce_ntemp C i) -> X r t <-> JI r t).
      { intros r t Ir Nr. unfold X. split; [intros [[_ [(i & H)|H]]|[H _]]; auto; [exfalso; eapply Nr; eauto|contradiction]|intros H; left; auto]. }
      assert (XO : forall r t, ~ In r (rs_rels y) -> X r t <-> J r t) by (intros r t Ir; unfold X; tauto).
      assert (S0 : forall p, In p (st_preds s) -> inp ss p) by (intros p H; apply (before_ss A), here_or_before; auto).
      assert (OUT : forall p, inp l1 p -> ~ In p (rs_rels y)).
      { intros p Hp Ir. assert (Hs : inp ss p) by (apply (before_ss A), here_or_before; auto).
        apply (in_rels A) in Ir. destruct Ir as [Ir|[Ir|[(q & gr & -> & _)|Ir]]].
        - exact (not_both A Hp Ir).
        - destruct (temp_name (at_inv A) Ir) as (i & ->). exact (na_pt NA _ Hs).
        - exact (na_pp NA _ _ Hs).
        - assert (In p (map fst (z_negs zf))) as Ic.
          { apply in_map_iff in Ir. destruct Ir as ((n & d) & <- & Id). apply (in_map fst), (at_cur A), Id. }
          destruct (neg_name Ic) as (i & ->). exact (na_pn NA _ Hs). }
      assert (XP : forall p, inp (l1 ++ [s]) p -> forall t, X p t <-> JI p t).
      { intros p Hp t. apply here_or_before in Hp. destruct Hp as [Hp|Hp].
        - rewrite XO by auto. auto.
        - apply XS; [apply (in_rels A); auto|]. intros i ->. exact (na_pn NA _ (S0 _ Hp)). }
      assert (XN : forall k r, pname C (inp (l1 ++ [s])) (inp l1) z k r -> forall t, X r t <-> JI r t).
      { intros k r H. destruct H as [k r H|k p gr H Hg|k i d L Id _ _]; intros t.
        - apply XP, H.
        - pose proof (at_perm A _ Hg) as Hz. pose proof H as Hh. apply here_or_before in H. destruct H as [H|H].
          + rewrite XO.
            * rewrite (J_perm Hz), (J2 _ _ Hz). split; intros (u & Hu & Ev); exists u; split; auto; apply SAME; auto.
            * intros Ir. apply (in_rels A) in Ir. destruct Ir as [Ir|[Ir|[(q & gr' & Eq & Iq & _)|Ir]]].
              -- exact (na_pp NA _ _ (S0 _ Ir)).
              -- destruct (temp_name (at_inv A) Ir) as (i & Ei). exact (na_tp NA _ _ _ (eq_sym Ei)).
              -- apply (na_perm NA) in Eq. destruct Eq as [-> _]. exact (not_both A H Iq).
              -- assert (In (ce_perm C p gr) (map fst (z_negs zf))) as Ic.
                 { apply in_map_iff in Ir. destruct Ir as ((n & d) & <- & Id). apply (in_map fst), (at_cur A), Id. }
                 destruct (neg_name Ic) as (i & Ei). exact (na_np NA _ _ _ (eq_sym Ei)).
          + apply XS; [apply (in_rels A); right; right; left; eauto|]. intros i Ei. exact (na_np NA _ _ _ (eq_sym Ei)).
        - apply XS; [|intros j Ej; exact (na_tn NA _ _ Ej)]. apply (in_rels A). right. left. apply (in_map fst) in Id. exact Id. }
      assert (CL : closed E fp AG (fact_rels P) y J X).
      { constructor.
        - intros r Nr t. apply XO, Nr.
        - intros r t Ir (f & If & -> & ->). destruct (so_fact (po_strata OK) f If) as (F1 & F2 & _). apply XS; auto.
          + intros i Ei. rewrite Ei in F1. exact (na_pn NA _ F1).
          + apply J1; auto. exists (f_args f). rewrite F2. split; auto. apply der_fact, If.
        - intros r d t Id Hd. pose proof (targets A Id) as Ir. rewrite (at_upd A), !in_app_iff in Id. destruct Id as [[[Id|Id]|Id]|Id].
          + destruct (iv_tdef (at_inv A) _ _ Id) as (i & L & -> & [S1 S2]). apply XS; auto; [intros j Ej; exact (na_tn NA _ _ Ej)|].
            apply (J3 _ _ Id). revert Hd. apply rden_mono; [tauto|]. intros q Iq u. eapply XN, S1, Iq.
          + destruct (at_us A _ _ Id) as ([S1 S2] & q & z0 & z1 & Iq & Ip & R & X1).
            assert (Hd' : den J JI d t) by (revert Hd; apply rden_mono; [tauto|]; intros n Iq' u; eapply XN, S1, Iq'). clear Hd.
            destruct (po_rules OK q Iq) as (h & body & -> & RU). cbn [r_pred r_head head_pred] in Ip.
            unfold lower_rule, sbind, sopt in R. cbn [r_head r_body] in R. destruct (query_plan N _ body) as [pl|] eqn:EP; [|discriminate].
            destruct (ru_low RU) as (T & LOWB).
            assert (RH : reads_hold C N Ty JI J D M body).
            { apply reads_intro with (h := h); auto. intros p Hp Hw. split.
              - intros u. apply J1. apply (before_ss A), here_or_before, Hw.
              - intros vs. apply D_typed, Hw. }
            assert (W : world C B (AG J) JI J z).
            { constructor.
              - exact J3.
              - intros n e Ie. apply J_neg, (at_neg A), Ie.
              - intros p gr Ig u. pose proof (at_perm A _ Ig) as Hz. split; [apply J2, Hz|apply J_perm, Hz]. }
            destruct (C53_rule_partial _ (ORD (st_preds s) _) _ _ NM (ru_plan RU) (ru_safe RU) (ru_neg RU) (ru_tests RU) (LOWB _ _ _ _ RH) EP (ru_clash RU _ EP) R X1 W) as [En HC].
            subst r. apply HC in Hd'. destruct Hd' as (vs & HH & ->). apply XP; [apply here_or_before; auto|].
            apply J1; [apply S0, Ip|]. exists vs. split; auto. apply der_head with (body := body); auto.
          + apply (at_pu A) in Id. destruct Id as (p & gr & -> & -> & Ip & Ig). apply XS; auto; [intros i Ei; exact (na_np NA _ _ _ (eq_sym Ei))|].
            apply (J2 _ _ Ig). cbn [rden] in Hd. destruct Hd as (u & Hu & Ev). exists u. split; auto. apply XP; auto. apply here_or_before; auto.
          + destruct (iv_ndef VF _ _ (at_cur A _ Id)) as (i & _ & -> & _). left. split; auto. left. eauto. }
      apply J1; [apply S0, Hp0|]. apply XP; [apply here_or_before; auto|]. exact (closed_above MOD _ _ (at_in A) CL HJ).
    Qed.

    (** What the rules derive is in the model. *)
    Lemma step_complete : forall p vs, D p vs -> In p (st_preds s) -> M p vs.
    Proof.
      assert (S0 : forall p, In p (st_preds s) -> inp ss p) by (intros p H; apply (before_ss A), here_or_before; auto).
      assert (HF : forall p, inp l1 p \/ In p (st_preds s) -> holds_facts Ty J M (ce_shape C p) p).
      { intros p [Hp|Hp]; [apply K_holds with (l := l1); auto|]. split.
        - intros t. split; [|intros (vs & [_ H] & ->); exact H]. intros H. destruct (step_least Hp H) as (vs & H1 & ->). exists vs. split; auto. split; auto. apply S0, Hp.
        - intros vs [_ H]. destruct (step_least Hp H) as (ws & H1 & EQ). apply layout_inj in EQ. subst ws. apply step_typed; auto. }
      intros p vs H. induction H as [f If|r sb p t Ir HP IH HO Y]; intros Ip.
      - destruct (so_fact (po_strata OK) f If) as (F1 & F2 & _). split; auto. rewrite F2.
        apply (@model_fix _ _ _ _ _ _ MOD y); [apply (at_in A)|apply (targets A)|apply (in_rels A); auto|]. left. exists f. auto.
      - destruct (po_rules OK r Ir) as (h & body & -> & RU). cbn [r_body] in *.
        assert (EY : p = a_pred h /\ t = tvals sb (a_args h)).
        { destruct Y as [a Ia|v f l Iv|v f l q t Iv _ Iq _|a q t _ _ _ Iq _]; cbn [r_head r_body head_atoms] in *.
          - destruct Ia as [<-|[]]. auto.
          - exfalso. specialize (ru_new RU _ _ Iv). discriminate.
          - exfalso. rewrite (po_adts OK) in Iq. destruct Iq.
          - exfalso. rewrite (po_adts OK) in Iq. destruct Iq. }
        destruct EY as [-> ->]. split; [apply S0, Ip|].
        destruct (at_rule A _ Ir Ip) as (n & d & z0 & z1 & Id & R & X1).
        unfold lower_rule, sbind, sopt in R. cbn [r_head r_body] in R. destruct (query_plan N _ body) as [pl|] eqn:EP; [|discriminate].
        destruct (ru_low RU) as (T & LOWB).
        assert (RH : reads_hold C N Ty J J M M body) by (apply reads_intro with (h := h); auto).
        assert (W : world C B (AG J) J J z).
        { constructor.
          - intros m e Ie. apply (J_temp A Ie).
          - intros m e Ie. apply J_neg, (at_neg A), Ie.
          - intros q gr Ig u. pose proof (at_perm A _ Ig) as Hz. split; apply J_perm, Hz. }
        destruct (C53_rule_partial _ (ORD (st_preds s) _) _ _ NM (ru_plan RU) (ru_safe RU) (ru_neg RU) (ru_tests RU) (LOWB _ _ _ _ RH) EP (ru_clash RU _ EP) R X1 W) as [En HC].
        subst n. apply (@model_fix _ _ _ _ _ _ MOD y); [apply (at_in A)|apply (targets A)|apply (in_rels A); auto|]. right. exists d. split.
        + rewrite (at_upd A), !in_app_iff. auto.
        + apply HC. exists (tvals sb (a_args h)). split; auto. exists sb, h. split; [|cbn; auto]. intros l Il. cbn [r_body] in Il.
          pose proof (HO l Il) as Hl. unfold lit_sat. destruct l as [a| | | | | | |]; auto.
          destruct (g_foreign g (a_pred a)) eqn:Fa; [apply Hl; auto|].
          destruct (rule_pos Ir Ip (pos_atom RU Il Fa)) as [Hb|Hb]; [apply (HK Hb), HP; auto|apply IH; auto].
    Qed.
  End Step.
  Lemma K_all : forall l1 l2, ss = l1 ++ l2 -> K l1.
  Proof.
    induction l1 as [|s l1 IH] using rev_ind; intros l2 Es; [intros p []|]. rewrite <- app_assoc in Es. cbn in Es.
    destruct (at_some Es) as (y & z & us & cur & pu & A). specialize (IH _ Es). intros p Hp. apply here_or_before in Hp. destruct Hp as [Hp|Hp]; [exact (IH p Hp)|].
    split; [|split].
    - intros t. apply (step_least A IH Hp).
    - intros vs H. apply (step_complete A IH H Hp).
    - intros vs H. apply (step_typed A IH H Hp).
  Qed.
  Lemma main : stable B P M.
  Proof.
    assert (HK : K ss) by (apply K_all with (l2 := []); rewrite app_nil_r; auto).
    intros p vs. split.
    - intros [Hp H]. destruct (HK _ Hp) as (K1 & _). destruct (K1 _ H) as (ws & H1 & EQ). apply layout_inj in EQ. subst ws. exact H1.
    - intros H. assert (Hp : inp ss p).
      { destruct (der_cases H) as [(f & If & -> & _)|(h & body & Ir & -> & _)]; [apply (so_fact (po_strata OK) f If)|].
        exact (so_head (po_strata OK) _ Ir). }
      apply (HK _ Hp), H.
  Qed.
  Lemma main_laid : forall p t, inp ss p -> J p t -> exists vs, t = layout (ce_shape C p) vs.
  Proof.
    assert (HK : K ss) by (apply K_all with (l2 := []); rewrite app_nil_r; auto).
    intros p t Hp H. destruct (HK _ Hp) as (K1 & _). destruct (K1 _ H) as (ws & _ & EQ). eauto.
  Qed.
End C54.

(** In a model of the strata that a program is lowered to, the relations hold
    exactly the facts of a stable model of the program.  Left out: disjunctive heads
    and rules that make entities. *)
Theorem C54_strata_partial : forall C N B AG P ss Ty inplace order xs J,
  (forall ps r l, Permutation (order ps r l) l) -> names_ok C -> names_apart C (fun p => In p (preds ss)) ->
  program_ok C N B AG P ss Ty order -> lower_strata C N inplace order (p_rules P) ss = Some (xs, []) ->
  rmodel (b_env B) (b_fp B) AG (fact_rels P) xs J -> stable B P (decode C ss J).
Proof.
  intros C N B AG P ss Ty inplace order xs J ORD NM NA OK LOW MOD.
  destruct (@strata_low C N (p_reg P) inplace order ORD (p_rules P) ss xs [] (reads OK) LOW) as (zf & V & T & F & NG).
  apply main with (C := C) (N := N) (AG := AG) (Ty := Ty) (inplace := inplace) (order := order) (xs := xs) (zf := zf); auto.
  intros x Ix. destruct (NG x Ix) as [[]|H]; exact H.
Qed.
Print Assumptions C54_strata_partial.
(** The relations of predicates hold laid-out facts only. *)
Theorem C54_laid_partial : forall C N B AG P ss Ty inplace order xs J,
  (forall ps r l, Permutation (order ps r l) l) -> names_ok C -> names_apart C (fun p => In p (preds ss)) ->
  program_ok C N B AG P ss Ty order -> lower_strata C N inplace order (p_rules P) ss = Some (xs, []) ->
  rmodel (b_env B) (b_fp B) AG (fact_rels P) xs J -> forall p t, In p (preds ss) -> J p t -> exists vs, t = layout (ce_shape C p) vs.
Proof.
  intros C N B AG P ss Ty inplace order xs J ORD NM NA OK LOW MOD.
  destruct (@strata_low C N (p_reg P) inplace order ORD (p_rules P) ss xs [] (reads OK) LOW) as (zf & V & T & F & NG).
  apply main_laid with (N := N) (B := B) (AG := AG) (Ty := Ty) (P := P) (inplace := inplace) (order := order) (xs := xs) (zf := zf); auto.
  intros x Ix. destruct (NG x Ix) as [[]|H]; exact H.
Qed.
Print Assumptions C54_laid_partial.

(** ** The lowered strata are stratified *)
(** Every relation is in one stratum; updates are for relations of their stratum and
    read relations of earlier strata or of their own, and on the right of
    differences, antijoins and in aggregations relations of earlier strata. *)
Definition stratified (xs : list rstratum) : Prop := forall a y b, xs = a ++ y :: b ->
  (forall r, In r (rs_rels y) -> ~ In r (flat_map rs_rels a)) /\
  forall r d, In (r, d) (rs_updates y) -> In r (rs_rels y) /\ incl (prefs d) (flat_map rs_rels (a ++ [y])) /\ incl (nrefs d) (flat_map rs_rels a).
Lemma sources_refs : forall d, incl (sources d) (prefs d ++ nrefs d) /\ incl (prefs d) (sources d).
Proof.
  intros d. split; induction d; intros q Iq; cbn [sources prefs nrefs] in *; auto; rewrite ?in_app_iff in *;
    try (specialize (IHd q)); try (specialize (IHd1 q); specialize (IHd2 q)); rewrite ?in_app_iff in *; cbn in *; rewrite ?in_app_iff in *; tauto.
Qed.

Theorem C54_stratified_partial : forall C N B AG P ss Ty inplace order xs,
  (forall ps r l, Permutation (order ps r l) l) -> names_apart C (fun p => In p (preds ss)) ->
  program_ok C N B AG P ss Ty order -> lower_strata C N inplace order (p_rules P) ss = Some (xs, []) -> stratified xs.
Proof.
  intros C N B AG P ss Ty inplace order xs ORD NA OK LOW. pose proof (@reads C N B AG P ss Ty order OK) as RD.
  destruct (@strata_split C N (p_reg P) inplace order ORD (p_rules P) ss xs [] RD NA (so_nodup (po_strata OK)) LOW) as (zf & V & T & NS & SP).
  intros a' y b' Ey. destruct (SP a' y b' Ey) as (l1 & s & l2 & a & x & cur & negs' & Es & FA & LX & PN & Ic & SC & -> & DJ). clear SP Ey.
  destruct (place_rest _ _ _ PN) as (Q1 & Q2 & Q3 & Q4).
  assert (RD1 : forall q, In q (places [] (l1 ++ [s])) -> stratum_reads N (p_reg P) (p_rules P) q).
  { intros [l s'] Iq. apply RD. apply places_In in Iq. destruct Iq as (k1 & k2 & E1 & ->). apply places_In. exists k1, (k2 ++ l2). split; auto.
    rewrite Es. change (s :: l2) with ([s] ++ l2). rewrite app_assoc, E1, <- app_assoc. reflexivity. }
  assert (NAME : forall q x, In q (places [] (l1 ++ [s])) -> low1 C N inplace order (p_rules P) zf q x ->
    (forall r, In r (rs_rels x) -> In r (st_preds (snd q)) \/ exists i, r = ce_temp C i) /\ incl (st_preds (snd q)) (rs_rels x)).
  { intros [l s'] x' Iq [(z1 & z2 & us & T1 & V1 & R & -> & _)]. cbn [fst snd rs_rels] in *.
    assert (V1' : inv C (inp (l ++ [s'])) (inp l) z1).
    { eapply inv_more; [| |exact V1]; auto. intros p. apply inp_app. }
    destruct (@lower_rules_inv C N (p_reg P) inplace order ORD _ _ _ _ _ _ _ (RD1 _ Iq) V1' R) as (V2 & _).
    split; [|intros r Hr; apply in_app_iff; auto]. intros r Hr. apply in_app_iff in Hr. destruct Hr as [Hr|Hr]; auto. right.
    eapply temp_name; eauto. }
  assert (SS : forall p, inp (l1 ++ [s]) p -> inp ss p).
  { intros p Hp. rewrite Es. unfold inp, preds in *. rewrite flat_map_app, in_app_iff in *. cbn in *. rewrite app_nil_r in Hp. rewrite in_app_iff. tauto. }
  assert (SUB : forall q, In q (places [] l1) -> In q (places [] (l1 ++ [s]))).
  { intros [l s'] Iq. apply places_In in Iq. destruct Iq as (k1 & k2 & E1 & ->). apply places_In. exists k1, (k2 ++ [s]). split; auto.
    rewrite E1, <- app_assoc. reflexivity. }
  assert (HERE : In (l1, s) (places [] (l1 ++ [s]))) by (apply places_In; exists l1, []; auto).
  (* names before placing *)
  assert (NA1 : forall r, In r (flat_map rs_rels a) -> inp l1 r \/ exists i, r = ce_temp C i).
  { intros r Hr. apply in_flat_map in Hr. destruct Hr as (x' & Ix & Hr). destruct (Forall2_right FA _ Ix) as ([l s'] & Iq & LX').
    destruct (NAME _ _ (SUB _ Iq) LX') as [K _]. destruct (K r Hr) as [K'|K']; auto. left. apply places_In in Iq. destruct Iq as (k1 & k2 & -> & _).
    unfold inp, preds. apply in_flat_map. exists s'. split; auto. apply in_app_iff. right; left; auto. }
  assert (PA : forall p, inp l1 p -> In p (flat_map rs_rels a)).
  { intros p Hp. unfold inp, preds in Hp. apply in_flat_map in Hp. destruct Hp as (s' & Is & Hp). apply in_split in Is. destruct Is as (k1 & k2 & E1).
    assert (Iq : In (k1, s') (places [] l1)) by (apply places_In; exists k1, k2; auto).
    destruct (Forall2_left FA _ Iq) as (x' & Ix & LX'). apply in_flat_map. exists x'. split; auto. apply (NAME _ _ (SUB _ Iq) LX'), Hp. }
  destruct (NAME _ _ HERE LX) as [NX PX]. cbn [snd] in NX, PX.
  assert (PERM : forall l p gr, In p (flat_map rs_rels l) -> In (p, gr) (z_perms zf) -> In (ce_perm C p gr) (flat_map rs_rels (map (add_perms C zf) l))).
  { intros l p gr Hp Hg. apply in_flat_map in Hp. destruct Hp as (x' & Ix & Hp). apply in_flat_map. exists (add_perms C zf x'). split; [apply in_map; auto|].
    cbn. apply in_app_iff. right. apply in_map_iff. exists (ce_perm C p gr, RProject (RRel p) (perm_expr gr)). split; auto.
    apply in_flat_map. exists p. split; auto. apply in_map_iff. exists gr. split; auto. apply perms_of_In, Hg. }
  assert (PLAIN : forall l p, In p (flat_map rs_rels l) -> In p (flat_map rs_rels (map (add_perms C zf) l))).
  { intros l p Hp. apply in_flat_map in Hp. destruct Hp as (x' & Ix & Hp). apply in_flat_map. exists (add_perms C zf x'). split; [apply in_map; auto|].
    cbn. apply in_app_iff. auto. }
  assert (PINV : forall l r, In r (flat_map rs_rels (map (add_perms C zf) l)) -> In r (flat_map rs_rels l) \/
    exists p gr, r = ce_perm C p gr /\ In p (flat_map rs_rels l)).
  { intros l r Hr. apply in_flat_map in Hr. destruct Hr as (x' & Ix & Hr). apply in_map_iff in Ix. destruct Ix as (x0 & <- & Ix). cbn in Hr.
    apply in_app_iff in Hr. destruct Hr as [Hr|Hr]; [left; apply in_flat_map; eauto|]. right.
    apply in_map_iff in Hr. destruct Hr as (u & <- & Hu). apply in_flat_map in Hu. destruct Hu as (p & Hp & Hu). apply in_map_iff in Hu.
    destruct Hu as (gr & <- & _). exists p, gr. split; auto. apply in_flat_map. eauto. }
  assert (NEGN : forall n, In n (map fst (z_negs zf)) -> exists i, n = ce_ntemp C i) by (intros n Hn; eapply neg_name; eauto).
  assert (ND : NoDup (map fst (z_negs zf))) by (eapply numbered_NoDup; [apply (iv_negs V)|apply (na_ntemp NA)]).
  (* what may be read negatively *)
  assert (NN : forall z k r, incl (z_perms z) (z_perms zf) -> incl (z_negs z) (z_negs zf) -> nname C (inp l1) z k r -> In r (flat_map rs_rels a')).
  { intros z k r IP IN Hn. destruct Hn as [k r H|k p gr H Hg|k i d L Hd [N1 N2] Hr].
    - apply Q3, PLAIN, PA, H.
    - apply Q3, PERM; auto.
    - pose proof (IN _ Hd) as Hz. destruct (NS _ Hz) as [[]|NR]. cbn [snd] in NR.
      assert (W : forall r, In r (prefs d) -> In r (flat_map rs_rels (map (add_perms C zf) a))).
      { intros r Ir. pose proof (proj2 (sources_refs d) _ Ir) as Sr. specialize (Hr r Ir).
        destruct Hr as [k' r H|k' p gr H Hg|k' j e L' He _ _]; [apply PLAIN, PA, H|apply PERM; auto|]. exfalso. exact (NR j Sr). }
      apply (Q2 (ce_ntemp C i, d) Hz).
      + intros E. destruct a; [|discriminate]. destruct (prefs d) as [|r0 rs]; [congruence|]. exact (W r0 (or_introl eq_refl)).
      + cbn [snd app]. intros r Ir. apply (proj1 (sources_refs d)) in Ir. rewrite N1, app_nil_r in Ir. auto. }
  split.
  - intros r Hr Ha. cbn [rs_rels] in Hr. apply in_app_iff in Hr.
    assert (CASE : In r (map fst cur) -> False).
    { intros Hc. assert (Hc' : In r (map fst negs')) by (apply in_map_iff in Hc; destruct Hc as (u & <- & Hu); apply in_map, Ic, Hu).
      pose proof (Q4 ND r Hc' Ha) as K. assert (Hz : In r (map fst (z_negs zf))) by (apply in_map_iff in Hc'; destruct Hc' as (u & <- & Hu); apply in_map, Q1, Hu).
      destruct (NEGN r Hz) as (i & ->). destruct (PINV _ _ K) as [K'|(p & gr & Ep & _)]; [|exact (na_np NA _ _ _ Ep)].
      destruct (NA1 _ K') as [K2|(j & Ej)]; [|exact (na_tn NA _ _ (eq_sym Ej))]. apply (na_pn NA i). apply SS, inp_app, K2. }
    destruct Hr as [Hr|Hr]; [|exact (CASE Hr)]. apply in_app_iff in Hr.
    assert (NG : ~ In r (map fst (z_negs zf))).
    { intros K. destruct (NEGN r K) as (i & ->). destruct Hr as [Hr|Hr].
      - destruct (NX _ Hr) as [K'|(j & Ej)]; [|exact (na_tn NA _ _ (eq_sym Ej))]. apply (na_pn NA i). apply SS, here_or_before. auto.
      - apply in_map_iff in Hr. destruct Hr as (u & Eu & Hu). apply in_flat_map in Hu. destruct Hu as (p & _ & Hu). apply in_map_iff in Hu.
        destruct Hu as (gr & <- & _). exact (na_np NA _ _ _ (eq_sym Eu)). }
    destruct (place_names _ _ _ r PN Ha) as [K|K]; [|exact (NG K)].
    destruct (PINV _ _ K) as [K'|(p & gr & Ep & Hp)].
    + destruct Hr as [Hr|Hr]; [exact (DJ r Hr K')|]. apply in_map_iff in Hr. destruct Hr as (u & Eu & Hu). apply in_flat_map in Hu. destruct Hu as (p & _ & Hu).
      apply in_map_iff in Hu. destruct Hu as (gr & <- & _). cbn in Eu. subst r.
      destruct (NA1 _ K') as [K2|(j & Ej)]; [|exact (na_tp NA _ _ _ (eq_sym Ej))]. apply (na_pp NA p gr). apply SS, inp_app, K2.
    + subst r. destruct Hr as [Hr|Hr].
      * destruct (NX _ Hr) as [K2|(j & Ej)]; [|exact (na_tp NA _ _ _ (eq_sym Ej))]. apply (na_pp NA p gr). apply SS, here_or_before. auto.
      * apply in_map_iff in Hr. destruct Hr as (u & Eu & Hu). apply in_flat_map in Hu. destruct Hu as (q & Hq & Hu).
        apply in_map_iff in Hu. destruct Hu as (gr' & <- & _). apply (na_perm NA) in Eu. destruct Eu as [-> ->]. exact (DJ _ Hq Hp).
  - intros r d Hd. cbn [rs_updates] in Hd. set (y := mkRS _ _ _).
    assert (INY : forall q, In q (rs_rels x) \/ In q (map fst (perm_updates C zf x)) \/ In q (map fst cur) -> In q (rs_rels y)).
    { intros q Hq. unfold y. cbn. rewrite !in_app_iff. tauto. }
    assert (TO : forall q, In q (flat_map rs_rels (map (add_perms C zf) (a ++ [x]))) -> In q (flat_map rs_rels (a' ++ [y]))).
    { intros q Hq. rewrite map_app, flat_map_app, in_app_iff in Hq. rewrite flat_map_app, in_app_iff. destruct Hq as [Hq|Hq]; [left; apply Q3, Hq|right].
      cbn in *. rewrite app_nil_r in *. rewrite !in_app_iff in *. tauto. }
    assert (AX : forall p, inp (l1 ++ [s]) p -> In p (flat_map rs_rels (a ++ [x]))).
    { intros p Hp. apply here_or_before in Hp. rewrite flat_map_app, in_app_iff. destruct Hp as [Hp|Hp]; [left; apply PA, Hp|right].
      cbn. rewrite app_nil_r. apply PX, Hp. }
    destruct LX as [(z1 & z2 & us & T1 & V1 & R & Ex & I1 & I2 & _)]. cbn [fst snd] in *.
    assert (V1' : inv C (inp (l1 ++ [s])) (inp l1) z1).
    { eapply inv_more; [| |exact V1]; auto. intros p. apply inp_app. }
    destruct (@lower_rules_inv C N (p_reg P) inplace order ORD _ _ _ _ _ _ _ (RD1 _ HERE) V1' R) as (V2 & _ & _ & U1 & _).
    assert (SCP : forall k e, scoped C (inp (l1 ++ [s])) (inp l1) false z2 k e ->
      incl (prefs e) (flat_map rs_rels (a' ++ [y])) /\ incl (nrefs e) (flat_map rs_rels a')).
    { intros k e [S1 S2]. split; intros q Iq; [|eapply NN; [exact I1|exact I2|apply S2, Iq]]. specialize (S1 q Iq).
      destruct S1 as [k q H|k p gr H Hg|k i f L Hf _ _].
      - apply TO, PLAIN, AX, H.
      - apply TO, PERM; auto.
      - apply TO, PLAIN. rewrite flat_map_app, in_app_iff. right. cbn. rewrite app_nil_r, Ex. cbn. apply in_app_iff. right. apply (in_map fst) in Hf. exact Hf. }
    rewrite !in_app_iff in Hd. destruct Hd as [[Hd|Hd]|Hd].
    + rewrite Ex in Hd. cbn in Hd. apply in_app_iff in Hd. destruct Hd as [Hd|Hd].
      * destruct (iv_tdef V2 _ _ Hd) as (i & _ & _ & SC'). split; [|apply (SCP _ _ SC')]. apply INY. left. rewrite Ex. cbn. apply in_app_iff. right.
        apply (in_map fst) in Hd. exact Hd.
      * destruct (U1 _ _ Hd) as (SC' & q & z3 & z4 & Iq & Rq & _). split; [|apply (SCP _ _ SC')]. apply INY. left. apply PX.
        apply in_rules in Iq. destruct Iq as [Iq Ip]. unfold lower_rule, sbind, sopt in Rq. destruct (query_plan _ _ _); [|discriminate].
        destruct (po_rules OK q Iq) as (h & body & -> & _). cbn [r_head] in Rq. apply update_target in Rq. subst r. exact Ip.
    + split; [apply INY; right; left; apply (in_map fst) in Hd; exact Hd|]. apply in_flat_map in Hd. destruct Hd as (p & Hp & Hd). apply in_map_iff in Hd.
      destruct Hd as (gr & Eg & _). injection Eg as <- <-. cbn. split; [|intros q []]. intros q [<-|[]]. apply TO, PLAIN.
      rewrite flat_map_app, in_app_iff. right. cbn. rewrite app_nil_r. exact Hp.
    + split; [apply INY; right; right; apply (in_map fst) in Hd; exact Hd|].
      destruct (iv_ndef V _ _ (Q1 _ (Ic _ Hd))) as (i & _ & _ & [[S1 _] _]). rewrite S1. split; [|intros q []].
      intros q Iq. apply TO. apply (SC _ Hd). cbn. apply sources_refs, Iq.
Qed.
Print Assumptions C54_stratified_partial.

(** ** Stratified strata have a model *)
(** The results of an aggregation depend on the aggregated relation and the group-by
    relation only. *)
Definition ag_local (AG : rels -> nat -> nat -> rgrp -> tuple -> Prop) : Prop := forall (J J' : rels) agg p grp t,
  (forall t, J p t <-> J' p t) -> (forall r t, grp = GJoin r -> (J r t <-> J' r t)) -> (AG J agg p grp t <-> AG J' agg p grp t).
Lemma rden_ag : forall E fp (ag ag' : nat -> nat -> rgrp -> tuple -> Prop) d,
  (forall agg p grp t, In p (nrefs d) -> (forall r, grp = GJoin r -> In r (nrefs d)) -> (ag agg p grp t <-> ag' agg p grp t)) ->
  forall M I t, rden E fp ag M I d t <-> rden E fp ag' M I d t.
Proof.
  intros E fp ag ag'.
  assert (W : forall (l1 l2 : list nat), (forall agg p grp t, In p (l1 ++ l2) -> (forall r, grp = GJoin r -> In r (l1 ++ l2)) -> (ag agg p grp t <-> ag' agg p grp t)) ->
    (forall agg p grp t, In p l1 -> (forall r, grp = GJoin r -> In r l1) -> (ag agg p grp t <-> ag' agg p grp t)) /\
    (forall agg p grp t, In p l2 -> (forall r, grp = GJoin r -> In r l2) -> (ag agg p grp t <-> ag' agg p grp t))).
  { intros l1 l2 H. split; intros agg p grp t Ip Ig; apply H; try (intros r Er; specialize (Ig r Er)); apply in_app_iff; auto. }
  induction d; intros HA M I t; cbn [rden nrefs] in *; try (apply W in HA; destruct HA as [HA1 HA2]); try tauto.
  - apply IHd, HA.
  - rewrite (IHd HA). tauto.
  - split; intros (u & H1 & H2); exists u; split; auto; apply (IHd HA); auto.
  - rewrite (IHd HA). tauto.
  - apply IHd, HA.
  - rewrite (IHd1 HA1), (IHd2 HA2). tauto.
  - split; intros (t1 & t2 & k & x & y & H1 & H2 & H3); exists t1, t2, k, x, y; (split; [apply (IHd1 HA1), H1|split; [apply (IHd2 HA2), H2|exact H3]]).
  - split; intros (t1 & t2 & H1 & H2 & H3); exists t1, t2; (split; [apply (IHd1 HA1), H1|split; [apply (IHd2 HA2), H2|exact H3]]).
  - rewrite (IHd1 HA1), (IHd2 HA2). tauto.
  - apply W in HA2. destruct HA2 as [_ HA3]. rewrite (IHd1 HA1), (IHd2 HA3). tauto.
  - apply W in HA2. destruct HA2 as [_ HA3]. rewrite (IHd1 HA1). split; intros [H1 H2]; (split; [exact H1|]); intros k Hk; [rewrite <- (IHd2 HA3)|rewrite (IHd2 HA3)]; eauto.
  - split; intros (t1 & k & x & y & H1 & H2); exists t1, k, x, y; (split; [apply (IHd HA), H1|exact H2]).
  - rewrite (IHd HA). tauto.
  - split; intros (u & vs & ws & H1 & H2); exists u, vs, ws; (split; [apply (IHd HA), H1|exact H2]).
  - apply HA; [left; auto|]. intros r ->. right; left; auto.
Qed.
Section ModelExists.
  Variables (E : renv) (fp : pred -> rel) (AG : rels -> nat -> nat -> rgrp -> tuple -> Prop) (F : rels).
  Hypothesis AL : ag_local AG.
  (** Reading other relations that agree where the dataflow reads. *)
  Lemma rden_local : forall d (J J' X X' : rels), (forall r, In r (nrefs d) -> forall t, J r t <-> J' r t) ->
    (forall r, In r (prefs d) -> forall t, X r t <-> X' r t) -> forall t, rden E fp (AG J) J X d t <-> rden E fp (AG J') J' X' d t.
  Proof.
    intros d J J' X X' HN HP t. rewrite (@rden_ag E fp (AG J) (AG J') d); [apply rden_ext; auto|].
    intros agg p grp u Ip Ig. apply AL; auto.
  Qed.
  (** The relations of a stratum do not depend on later ones. *)
  Lemma closed_local : forall a y (J J' : rels), stratified (a ++ [y]) -> (forall r, In r (flat_map rs_rels a) -> forall t, J r t <-> J' r t) ->
    forall r t, In r (rs_rels y) -> (forall X, closed E fp AG F y J X -> X r t) -> (forall X, closed E fp AG F y J' X -> X r t).
  Proof.
    intros a y J J' ST EQ r t Ir H X CL. destruct (ST a y [] eq_refl) as [_ UP].
    pose (X' := fun q u => (In q (rs_rels y) /\ X q u) \/ (~ In q (rs_rels y) /\ J q u)).
    assert (XI : forall q u, In q (rs_rels y) -> (X' q u <-> X q u)) by (intros q u Iq; unfold X'; tauto).
    destruct (H X') as [[_ K]|[K _]]; [|exact K|contradiction]. constructor.
    - intros q Nq u. unfold X'. tauto.
    - intros q u Iq Fq. apply XI; auto. apply (cl_fact CL); auto.
    - intros q d u Id Hd. destruct (UP q d Id) as (Iq & HP & HN). apply XI; auto. apply (cl_upd CL q d u Id). refine (proj1 (@rden_local d J J' X' X _ _ u) Hd).
      + intros n Hn v. apply EQ, HN, Hn.
      + intros n Hn v. destruct (in_dec Nat.eq_dec n (rs_rels y)) as [In'|Nn]; [apply XI; auto|].
        rewrite (cl_out CL n Nn). unfold X'. specialize (HP n Hn). rewrite flat_map_app, in_app_iff in HP. cbn in HP. rewrite app_nil_r in HP.
        destruct HP as [HP|HP]; [|contradiction]. rewrite <- (EQ n HP). tauto.
  Qed.
  Definition next (J : rels) (y : rstratum) : rels := fun r t =>
    (In r (rs_rels y) /\ forall X, closed E fp AG F y J X -> X r t) \/ (~ In r (rs_rels y) /\ J r t).
  Lemma next_other : forall b J r, ~ In r (flat_map rs_rels b) -> forall t, fold_left next b J r t <-> J r t.
  Proof.
    induction b as [|y b IH]; intros J r Nr t; cbn in *; [tauto|]. rewrite in_app_iff in Nr. rewrite IH by tauto. unfold next. tauto.
  Qed.
  Lemma stratified_prefix : forall a b, stratified (a ++ b) -> stratified a.
  Proof. intros a b H a1 y a2 ->. apply (H a1 y (a2 ++ b)). rewrite <- app_assoc. reflexivity. Qed.
  Lemma stratified_after : forall a b r, stratified (a ++ b) -> In r (flat_map rs_rels a) -> ~ In r (flat_map rs_rels b).
  Proof.
    intros a b r ST Ir J. apply in_flat_map in J. destruct J as (y & Iy & Jr). apply in_split in Iy. destruct Iy as (b1 & b2 & ->).
    destruct (ST (a ++ b1) y b2) as [D _]; [rewrite <- app_assoc; reflexivity|]. apply (D r Jr). rewrite flat_map_app. apply in_app_iff. auto.
  Qed.
  Theorem rmodel_exists : forall xs, stratified xs -> exists J, rmodel E fp AG F xs J.
  Proof.
    intros xs ST. exists (fold_left next xs (fun _ _ => False)). intros y r t Iy Ir. apply in_split in Iy. destruct Iy as (a & b & ->).
    set (J0 := fun _ _ => False). rewrite fold_left_app. cbn [fold_left]. set (Ja := fold_left next a J0).
    assert (ST' : stratified (a ++ [y])) by (apply stratified_prefix with (b := b); rewrite <- app_assoc; exact ST).
    assert (NB : forall q, In q (flat_map rs_rels a) \/ In q (rs_rels y) -> ~ In q (flat_map rs_rels b)).
    { intros q Hq. apply stratified_after with (a := a ++ [y]); [rewrite <- app_assoc; exact ST|]. rewrite flat_map_app, in_app_iff. cbn. rewrite app_nil_r. exact Hq. }
    assert (EQ : forall q, In q (flat_map rs_rels a) -> forall u, Ja q u <-> fold_left next b (next Ja y) q u).
    { intros q Hq u. rewrite next_other by auto. unfold next. assert (~ In q (rs_rels y)); [|tauto].
      intros K. exact (proj1 (ST a y b eq_refl) q K Hq). }
    rewrite next_other by auto. unfold next at 1. split.
    - intros [[_ H]|[H _]]; [|contradiction]. eapply closed_local; [exact ST'|exact EQ|exact Ir|exact H].
    - intros H. left. split; auto. eapply closed_local; [exact ST'| |exact Ir|exact H]. intros q Hq u. symmetry. apply EQ, Hq.
  Qed.
  (** The model is unique. *)
  Theorem rmodel_unique : forall xs J J', stratified xs -> rmodel E fp AG F xs J -> rmodel E fp AG F xs J' ->
    forall r, In r (flat_map rs_rels xs) -> forall t, J r t <-> J' r t.
  Proof.
    induction xs as [|y xs IH] using rev_ind; intros J J' ST M1 M2 r Ir t; [destruct Ir|].
    assert (EQ : forall q, In q (flat_map rs_rels xs) -> forall u, J q u <-> J' q u).
    { apply IH; [apply stratified_prefix with (b := [y]); auto| |]; intros s q u Is; [apply M1|apply M2]; apply in_app_iff; auto. }
    rewrite flat_map_app, in_app_iff in Ir. destruct Ir as [Ir|Ir]; [apply EQ, Ir|]. cbn in Ir. rewrite app_nil_r in Ir.
    rewrite (M1 y r t), (M2 y r t) by (auto; apply in_app_iff; right; left; auto).
    split; apply closed_local with (a := xs); auto. intros q Hq u. symmetry. auto.
  Qed.
End ModelExists.

(** A program that is lowered has a stable model: the one its strata compute. *)
Theorem C54_model_partial : forall C N B AG P ss Ty inplace order xs,
  (forall ps r l, Permutation (order ps r l) l) -> names_ok C -> names_apart C (fun p => In p (preds ss)) -> ag_local AG ->
  program_ok C N B AG P ss Ty order -> lower_strata C N inplace order (p_rules P) ss = Some (xs, []) ->
  exists J, rmodel (b_env B) (b_fp B) AG (fact_rels P) xs J /\ stable B P (decode C ss J) /\
    forall J', rmodel (b_env B) (b_fp B) AG (fact_rels P) xs J' -> forall p vs, decode C ss J p vs <-> decode C ss J' p vs.
Proof.
  intros C N B AG P ss Ty inplace order xs ORD NM NA AL OK LOW.
  assert (ST : stratified xs) by (eapply C54_stratified_partial; eauto).
  destruct (rmodel_exists (b_env B) (b_fp B) (fact_rels P) AL ST) as (J & MJ). exists J. split; auto. split; [eapply C54_strata_partial; eauto|].
  intros J' MJ' p vs.
  assert (PR : forall p, In p (preds ss) -> In p (flat_map rs_rels xs)).
  { intros q Hq. destruct (@strata_low C N (p_reg P) inplace order ORD (p_rules P) ss xs [] (reads OK) LOW) as (zf & _ & _ & FL & _).
    unfold preds in Hq. apply in_flat_map in Hq. destruct Hq as (s & Is & Hq). apply in_split in Is. destruct Is as (l1 & l2 & Es).
    assert (Iq : In (l1, s) (places [] ss)) by (apply places_In; exists l1, l2; auto).
    destruct (Forall2_left FL _ Iq) as (y & Iy & [(x & cur & [(z1 & z2 & us & _ & _ & _ & -> & _)] & _ & ->)]). apply in_flat_map.
    eexists. split; [exact Iy|]. cbn. rewrite !in_app_iff. auto. }
  unfold decode. split; intros [Hp H]; (split; [exact Hp|]); [rewrite <- (rmodel_unique AL ST MJ MJ' (PR _ Hp))|rewrite (rmodel_unique AL ST MJ MJ' (PR _ Hp))]; exact H.
Qed.
Print Assumptions C54_model_partial.
