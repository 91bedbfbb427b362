(** The updates of lowered strata (B2RStrata.v) are well-formed for the evaluator
    and yield tuples of the right lengths.  Used by C56. *)
From Coq Require Import List ZArith Bool Arith Lia Permutation.
From Verif Require Import Order Value Prov Dataflow View Denote DataflowFacts Back Eval Ram BackSem Scc SccFacts Plan PlanSem PlanFacts PlanFacts2 PropsPlan
  VarTuple VarTupleFacts B2R RamSem B2RFacts B2RFacts2 B2RSpec B2RRule B2RScope PropsB2R B2RStrata StrataSem StrataFacts PropsStrata TypedProg PropsTyped
  PermOrder B2RWf PlanShape.
Import ListNotations.
Set Implicit Arguments.

Lemma grows_update : forall C h p inplace, grows (update_df C h p inplace).
Proof.
  intros C h p inplace. unfold update_df. repeat (apply grows_bind; [|intro]); try apply grows_opt; try apply grows_ret; try apply grows_plan.
  destruct (snd a); [|destruct (gt_eqb (fst a) (gdedup (fst a)))]; try apply grows_ret; apply grows_bind; [apply grows_opt|intro; apply grows_ret|apply grows_opt|intro; apply grows_ret].
Qed.
Lemma grows_rule : forall C N inplace order ps r, grows (lower_rule C N inplace order ps r).
Proof. intros. unfold lower_rule. apply grows_bind; [apply grows_opt|intro]. destruct (r_head r); [apply grows_update|apply grows_opt]. Qed.
Lemma grows_rules : forall C N inplace order ps l, grows (lower_rules C N inplace order ps l).
Proof.
  intros C N inplace order ps. induction l as [|r l IH]; cbn [lower_rules]; [apply grows_ret|]. apply grows_bind; [apply grows_rule|intro].
  apply grows_bind; [apply IH|intro; apply grows_ret].
Qed.

Section Good.
  Variables (P : Prov) (E : renv) (Sh : nat -> tuple -> Prop) (C : cenv) (N : penv) (Pr : program) (sig : pred -> list ty).
  Variables (order : list pred -> rule -> list state -> list state).
  Notation inplace := (fun _ : rule => false).
  Notation g := (p_reg Pr).
  Hypothesis ORD : forall ps r l, Permutation (order ps r l) l.
  Hypothesis SORT : forall l, Permutation (ce_sort C l) l.
  Hypothesis IV : forall r, ce_iv C r = false.
  Hypothesis REG : forall p, g_foreign g p = pe_foreign N p.
  Variable rs : list rule.
  Hypothesis TYP : forall r, In r rs -> exists h body, r = mkRule (HAtom h) body /\ typed_rule C N sig h body /\
    forall a, In (LAtom a) body \/ In (LNeg a) body -> aok Sh a.

  Notation zgood := (zgood P E Sh).
  Notation pwf := (pwf P E Sh).

  Section Final.
  Variable Z : bstate.
  Hypothesis SHT : forall n d e t, In (n, RProject d e) (z_temps Z) \/ In (n, RProject d e) (z_negs Z) -> Sh n t -> elen e t.
  Hypothesis SHP : forall p g t, In (p, g) (z_perms Z) -> Sh (ce_perm C p g) t -> elen (perm_expr g) t.
  Definition upd_ok (n : nat) (d : rdf) : Prop := frag d /\ pwf false d /\ ylen Sh (length (sig n)) d.
  Lemma rule_good : forall ps r z n d z', In r rs -> lower_rule C N inplace order ps r z = Some ((n, d), z') -> zgood z -> ext z' Z ->
    zgood z' /\ upd_ok n d.
  Proof.
    intros ps r z n d z' Ir H Zg X. destruct (TYP _ Ir) as (h & body & -> & TR & A). unfold lower_rule in H. bnd H p z1. opt E0.
    rename E1 into Q. cbn [r_head r_body] in *.
    pose proof (@typed_plan_shape Sh C N Pr sig _ h body p (ORD ps _) REG TR A Q) as NP.
    pose proof (@update_target _ _ _ _ _ _ _ _ H) as ->.
    destruct (@update_good P E Sh C SORT Z SHT SHP IV h p z _ d z' H) as (G1 & G2 & G3 & G4); auto.
    { apply (tr_plain TR). left; auto. }
    split; auto. split; auto. split; auto. destruct (tr_types TR) as (tau & TH & _). rewrite <- (typed_atom_length TH). exact G4.
  Qed.
  Lemma rules_good : forall ps l z us z', incl l rs -> lower_rules C N inplace order ps l z = Some (us, z') -> zgood z -> ext z' Z ->
    zgood z' /\ forall n d, In (n, d) us -> upd_ok n d.
  Proof.
    intros ps. induction l as [|r l IH]; intros z us z' Il H Zg X; cbn [lower_rules] in H.
    - injection H as <- <-. split; auto. intros n d [].
    - bnd H x z1. rename E0 into R1. bnd H us' z2. rename E0 into R2. injection H as <- <-. destruct x as [n d].
      destruct (@rule_good ps r z n d z1 (Il _ (or_introl eq_refl)) R1 Zg (ext_trans (@grows_rules C N inplace order ps l z1 us' z2 R2) X)) as [G1 U1].
      destruct (IH z1 us' z2 (fun q Hq => Il q (or_intror Hq)) R2 G1 X) as (G2 & U2). split; auto.
      intros m e [K|K]; [injection K as <- <-; exact U1|auto].
  Qed.
  End Final.

  (** ** Strata *)
  Lemma zgood_reset : forall z, zgood z -> zgood (mkB (z_next z) [] (z_perms z) (z_negs z)).
  Proof. intros z [Z1 Z2]. constructor; cbn [z_temps z_negs].
    - intros n d [[]|H]. apply (Z1 n). auto.
    - exact Z2.
  Qed.
  Lemma strata1_good : forall ss acc z xs z', (forall q, In q (places acc ss) -> stratum_reads N g rs q) ->
    inv C (inp acc) (inp acc) z -> lower_strata1 C N inplace order rs ss z = Some (xs, z') ->
    (forall x n d e t, In x xs -> In (n, RProject d e) (rs_updates x) -> (exists i, n = ce_temp C i) -> Sh n t -> elen e t) ->
    (forall n d e t, In (n, RProject d e) (z_negs z') -> Sh n t -> elen e t) ->
    (forall p g t, In (p, g) (z_perms z') -> Sh (ce_perm C p g) t -> elen (perm_expr g) t) -> zgood z -> zgood z'.
  Proof.
    induction ss as [|s ss IH]; intros acc z xs z' HR V H HT HN HP Zg; cbn [lower_strata1 places] in *.
    - injection H as <- <-. exact Zg.
    - bnd H x z1. rename E0 into R. bnd H xs' z2. rename E0 into Rs. injection H as <- <-.
      unfold lower_stratum in R. destruct (lower_rules C N inplace order _ _ _) as [[us z3]|] eqn:RR; [|discriminate]. injection R as <- <-.
      pose proof (HR (acc, s) (or_introl eq_refl)) as SR. unfold stratum_reads in SR. cbn [fst snd] in SR.
      assert (V0 : inv C (inp (acc ++ [s])) (inp acc) (mkB (z_next z) [] (z_perms z) (z_negs z))).
      { apply inv_reset. eapply inv_more; [| |exact V]; auto. intros p. apply inp_app. }
      destruct (@lower_rules_inv C N g inplace order ORD _ _ _ _ _ _ _ SR V0 RR) as (V3 & _).
      assert (V3' : inv C (inp (acc ++ [s])) (inp (acc ++ [s])) z3).
      { eapply inv_more; [| |exact V3]; auto. intros p. apply inp_app. }
      destruct (@strata1_low C N g inplace order ORD rs ss (acc ++ [s]) z3 xs' z2 (fun q Hq => HR q (or_intror Hq)) V3' Rs) as (_ & _ & I1 & I2 & _).
      refine (IH (acc ++ [s]) z3 xs' z2 (fun q Hq => HR q (or_intror Hq)) V3' Rs _ HN HP _).
      + intros x n d e t Ix. apply HT. right. exact Ix.
      + refine (proj1 (@rules_good (mkB 0 (z_temps z3) (z_perms z2) (z_negs z2)) _ HP _ _ _ _ _ _ RR (zgood_reset Zg) _)).
        * cbn [z_temps z_negs]. intros n d e t [I|I]; [|apply HN with (d := d); exact I]. eapply HT; [left; reflexivity|cbn; apply in_app_iff; left; exact I|].
          eapply temp_name; [exact V3|]. apply (in_map fst) in I. exact I.
        * intros r Ir. apply in_flat_map in Ir. destruct Ir as (p & _ & Ir). apply filter_In in Ir. apply Ir.
        * repeat split; cbn; auto. apply incl_refl.
  Qed.
End Good.

(** ** Shapes of the relations of a program *)
Section Shapes.
  Variables (P : Prov) (B : benv) (C : cenv) (N : penv) (AG : rels -> nat -> nat -> rgrp -> tuple -> Prop) (Pr : program) (ss : list stratum) (sig : pred -> list ty).
  Variables (order : list pred -> rule -> list state -> list state) (xs : list rstratum).
  Notation inplace := (fun _ : rule => false).
  Hypothesis ORD : forall ps r l, Permutation (order ps r l) l.
  Hypothesis NM : names_ok C.
  Hypothesis NA : names_apart C (inp ss).
  Hypothesis IV : forall r, ce_iv C r = false.
  Hypothesis TP : typed_program C N sig Pr ss.
  Hypothesis LOW : lower_strata C N inplace order (p_rules Pr) ss = Some (xs, []).
  Let OK : program_ok C N B AG Pr ss (typed_fact sig) order := @typed_program_ok C N B AG Pr ss sig order TP.

  (** Predicates hold tuples as long as they have columns; relations made by the
      compiler hold tuples as long as their definitions say. *)
  Definition shapes (n : nat) (t : tuple) : Prop :=
    (inp ss n -> tlen (length (sig n)) t) /\
    forall y d e, In y xs -> In (n, RProject d e) (rs_updates y) -> ~ inp ss n -> elen e t.

  Lemma atoms_ok : forall r, In r (p_rules Pr) -> exists h body, r = mkRule (HAtom h) body /\ typed_rule C N sig h body /\
    forall a, In (LAtom a) body \/ In (LNeg a) body -> aok shapes a.
  Proof.
    intros r Ir. destruct (tp_rules TP r Ir) as (h & body & -> & TR). exists h, body. split; auto. split; auto. intros a Ia t [H _].
    destruct (tr_types TR) as (tau & _ & HT). assert (TA : typed_atom sig tau a) by (destruct Ia as [Ia|Ia]; exact (HT _ Ia)).
    rewrite (typed_atom_length TA). apply H. pose proof (tp_head TP _ Ir) as Hs. unfold preds in Hs. apply in_flat_map in Hs.
    destruct Hs as (s & Is & Hs). apply in_split in Is. destruct Is as (l1 & l2 & Es). destruct Ia as [Ia|Ia].
    - assert (K : In (a_pred a) (preds (l1 ++ [s]))) by (apply (tp_pos TP _ l1 s l2 Ir Es Hs); cbn [r_body]; eapply pos_In; eauto).
      unfold inp. rewrite Es. unfold preds in *. rewrite flat_map_app in *. cbn in *. rewrite app_nil_r in K. rewrite !in_app_iff in *. tauto.
    - assert (K : In (a_pred a) (preds l1)) by (apply (tp_neg TP _ l1 s l2 Ir Es Hs); cbn [r_body]; eapply neg_In; eauto).
      unfold inp. rewrite Es. unfold preds in *. rewrite flat_map_app. apply in_or_app; auto.
  Qed.

  Theorem updates_good : forall y n d, In y xs -> In (n, d) (rs_updates y) ->
    frag d /\ pwf P (b_env B) shapes false d /\ ((inp ss n /\ ylen shapes (length (sig n)) d /\ exists r, In r (p_rules Pr) /\ r_pred r = n) \/ (~ inp ss n /\ projects d)).
  Proof.
    pose proof (@reads C N B AG Pr ss (typed_fact sig) order OK) as RD.
    destruct (@strata_low C N (p_reg Pr) inplace order ORD (p_rules Pr) ss xs [] RD LOW) as (_ & _ & _ & _ & _).
    unfold lower_strata in LOW.
    destruct (lower_strata1 C N inplace order (p_rules Pr) ss (mkB 0 [] [] [])) as [[xs1 zf]|] eqn:R; [|discriminate]. injection LOW as PN.
    assert (V0 : inv C (inp []) (inp []) (mkB 0 [] [] [])).
    { constructor; cbn; try (intros; tauto); apply numbered_nil. }
    destruct (@strata1_low C N (p_reg Pr) inplace order ORD (p_rules Pr) ss [] _ xs1 zf RD V0 R) as (F & (k & V & ->) & _). cbn [app] in V.
    destruct (place_low _ _ _ PN) as [F' NG].
    assert (SUB : forall x, In x xs1 -> exists y, In y xs /\ incl (rs_updates x) (rs_updates y) /\ incl (perm_updates C zf x) (rs_updates y)).
    { intros x Ix. apply (in_map (add_perms C zf)) in Ix. destruct (Forall2_left F' _ Ix) as (y & Iy & cur & _ & ->). eexists. split; [exact Iy|].
      cbn. split; intros u Iu; rewrite !in_app_iff; auto. }
    assert (HT : forall x n d e t, In x xs1 -> In (n, RProject d e) (rs_updates x) -> (exists i, n = ce_temp C i) -> shapes n t -> elen e t).
    { intros x n d e t Ix Iu (i & ->) [_ H]. destruct (SUB x Ix) as (y & Iy & S1 & _). apply (H y d e Iy (S1 _ Iu)), (na_pt NA). }
    assert (HN : forall n d e t, In (n, RProject d e) (z_negs zf) -> shapes n t -> elen e t).
    { intros n d e t I [_ H]. destruct (NG _ I) as [[]|(y & Iy & Iu & _)]. apply (H y d e Iy Iu).
      destruct (neg_name V (in_map fst _ _ I)) as (i & Ei). cbn in Ei. subst n. apply (na_pn NA). }
    assert (HP : forall p g t, In (p, g) (z_perms zf) -> shapes (ce_perm C p g) t -> elen (perm_expr g) t).
    { intros p gr t I [_ H]. assert (Hp : inp ss p) by (destruct (iv_perm V _ _ I); auto).
      unfold inp, preds in Hp. apply in_flat_map in Hp. destruct Hp as (s & Is & Hp). apply in_split in Is. destruct Is as (l1 & l2 & Es).
      assert (Iq : In (l1, s) (places [] ss)) by (apply places_In; exists l1, l2; auto).
      destruct (Forall2_left F _ Iq) as (x & Ix & [(z1 & z2 & us & _ & _ & _ & Ex & _)]). destruct (SUB x Ix) as (y & Iy & _ & S2).
      refine (H y (RRel p) (perm_expr gr) Iy (S2 _ _) (na_pp NA p gr)). unfold perm_updates. apply in_flat_map. exists p. split.
      - rewrite Ex. cbn. apply in_app_iff. left. exact Hp.
      - apply in_map_iff. exists gr. split; auto. apply perms_of_In. exact I. }
    assert (Z0 : zgood P (b_env B) shapes (mkB 0 [] [] [])) by (constructor; cbn; [intros n d [[]|[]]|intros n d []]).
    pose proof (@strata1_good P (b_env B) shapes C N Pr sig order ORD (nm_sort NM) IV (tp_reg TP) (p_rules Pr) atoms_ok ss [] _ xs1 zf RD V0 R HT HN HP Z0) as ZG.
    intros y n d Iy Iu. destruct (Forall2_right F' _ Iy) as (x' & Ix' & cur & Ic & Ey). apply in_map_iff in Ix'. destruct Ix' as (x & <- & Ix).
    destruct (Forall2_right F _ Ix) as ([l1 s] & Iq & [(z1 & z2 & us & T1 & V1 & RR & Ex & I1 & I2 & _)]). cbn [fst snd] in *.
    rewrite Ey in Iu. cbn [rs_updates add_perms] in Iu. rewrite Ex in Iu. cbn [rs_updates] in Iu. rewrite !in_app_iff in Iu.
    pose proof (RD _ Iq) as SR. unfold stratum_reads in SR. cbn [fst snd] in SR.
    assert (V1' : inv C (inp (l1 ++ [s])) (inp l1) z1).
    { eapply inv_more; [| |exact V1]; auto. intros p. apply inp_app. }
    destruct (@lower_rules_inv C N (p_reg Pr) inplace order ORD _ _ _ _ _ _ _ SR V1' RR) as (V2 & X12 & _ & U1 & _).
    assert (Z1 : zgood P (b_env B) shapes z1).
    { destruct ZG as [G1 G2]. destruct X12 as (_ & _ & X3). constructor; rewrite ?T1; cbn [In].
      - intros m e [[]|I]. apply (G1 m e). auto.
      - intros m e I. apply (G2 m e). auto. }
    assert (IR : incl (flat_map (rules_of (p_rules Pr)) (st_preds s)) (p_rules Pr)).
    { intros r Ir. apply in_flat_map in Ir. destruct Ir as (p & _ & Ir). apply filter_In in Ir. apply Ir. }
    assert (HT' : forall m d0 e t, In (m, RProject d0 e) (z_temps z2) \/ In (m, RProject d0 e) (z_negs zf) -> shapes m t -> elen e t).
    { intros m d0 e t [I|I]; [|eapply HN; exact I]. eapply HT; [exact Ix|rewrite Ex; cbn; apply in_app_iff; left; exact I|].
      eapply temp_name; [exact V2|]. apply (in_map fst) in I. exact I. }
    assert (X2 : ext z2 (mkB 0 (z_temps z2) (z_perms zf) (z_negs zf))) by (repeat split; cbn; auto; apply incl_refl).
    destruct (@rules_good P (b_env B) shapes C N Pr sig order ORD (nm_sort NM) IV (tp_reg TP) (p_rules Pr) atoms_ok
      (mkB 0 (z_temps z2) (z_perms zf) (z_negs zf)) HT' HP (st_preds s) _ z1 us z2 IR RR Z1 X2) as [Z2 U2].
    destruct Iu as [[[I|I]|I]|I].
    - destruct (zg_def Z2 n d (or_introl I)) as (G1 & G2 & G3). split; auto. split; auto. right. split; auto.
      destruct (temp_name V2 (in_map fst _ _ I)) as (i & Ei). cbn in Ei. subst n. apply (na_pt NA).
    - destruct (U2 n d I) as (G1 & G2 & G3). split; auto. split; auto. left.
      destruct (U1 n d I) as (_ & r & z0 & z1' & Ir & Lr & _). destruct (tp_rules TP r (IR _ Ir)) as (h & body & -> & _).
      unfold lower_rule in Lr. bnd Lr p z3. pose proof (@update_target _ _ _ _ _ _ _ _ Lr) as ->. split; [exact (tp_head TP _ (IR _ Ir))|].
      split; auto. eexists. split; [exact (IR _ Ir)|reflexivity].
    - unfold perm_updates in I. apply in_flat_map in I. destruct I as (p & _ & I). apply in_map_iff in I. destruct I as (gr & K & _).
      injection K as <- <-. split; [|split].
      + cbn. auto.
      + intros L col EL HC. cbn. auto.
      + right. split; [apply (na_pp NA)|]. do 2 eexists. reflexivity.
    - destruct (zg_def ZG n d (or_intror (Ic _ I))) as (G1 & G2 & G3). split; auto. split; auto. right. split; auto.
      destruct (neg_name V (in_map fst _ _ (Ic _ I))) as (i & Ei). cbn in Ei. subst n. apply (na_pn NA).
  Qed.

  Lemma pred_placed : forall p, inp ss p -> exists y, In y xs /\ In p (rs_rels y).
  Proof.
    intros p Hp. pose proof (@reads C N B AG Pr ss (typed_fact sig) order OK) as RD.
    destruct (@strata_low C N (p_reg Pr) inplace order ORD (p_rules Pr) ss xs [] RD LOW) as (zf & _ & _ & F & _).
    unfold inp, preds in Hp. apply in_flat_map in Hp. destruct Hp as (s & Is & Hp). apply in_split in Is. destruct Is as (l1 & l2 & Es).
    assert (Iq : In (l1, s) (places [] ss)) by (apply places_In; exists l1, l2; auto).
    destruct (Forall2_left F _ Iq) as (y & Iy & [(x & cur & [(z1 & z2 & us & _ & _ & _ & Ex & _)] & _ & Ey)]). exists y. split; auto.
    rewrite Ey, Ex. cbn. rewrite !in_app_iff. auto.
  Qed.

  (** ** Relations made by the compiler have one definition *)
  Let STR : stratified xs := @C54_stratified_partial C N B AG Pr ss (typed_fact sig) inplace order xs ORD NA OK LOW.
  Lemma one_stratum : forall y y' r, In y xs -> In y' xs -> In r (rs_rels y) -> In r (rs_rels y') -> y = y'.
  Proof.
    intros y y' r Iy Iy' Ir Ir'. apply in_split in Iy. destruct Iy as (a & b & E1). rewrite E1 in Iy'. apply in_app_iff in Iy'.
    destruct Iy' as [I|[->|I]]; auto; exfalso.
    - apply (proj1 (STR _ _ _ E1) r Ir). apply in_flat_map. eauto.
    - apply in_split in I. destruct I as (c & d & E2). rewrite E2 in E1. change (y :: c ++ y' :: d) with ((y :: c) ++ y' :: d) in E1. rewrite app_assoc in E1.
      apply (proj1 (STR _ _ _ E1) r Ir'). apply in_flat_map. exists y. split; auto. apply in_app_iff. right. left. auto.
  Qed.
  Lemma upd_unique : forall y y' n d d', In y xs -> In y' xs -> ~ inp ss n -> In (n, d) (rs_updates y) -> In (n, d') (rs_updates y') -> d = d'.
  Proof.
    intros y y' n d d' Iy Iy' Hn Id Id'.
    destruct (@strata_low C N (p_reg Pr) inplace order ORD (p_rules Pr) ss xs [] (@reads C N B AG Pr ss (typed_fact sig) order OK) LOW) as (zf & VF & TF & LO & NG).
    destruct (@at_all C N B AG Pr ss (typed_fact sig) inplace order xs ORD NA OK zf VF LO y Iy) as (l1 & s & z & us & cur & pu & A).
    assert (TG : In n (rs_rels y)) by exact (targets OK A Id).
    destruct (@at_all C N B AG Pr ss (typed_fact sig) inplace order xs ORD NA OK zf VF LO y' Iy') as (l1' & s' & z' & us' & cur' & pu' & A').
    assert (TG' : In n (rs_rels y')) by exact (targets OK A' Id').
    rewrite <- (@one_stratum y y' n Iy Iy' TG TG') in Id'. clear A' TG' l1' s' z' us' cur' pu' y' Iy'.
    pose proof Id as K. rewrite (at_upd A), !in_app_iff in K. destruct K as [[[K|K]|K]|K].
    - destruct (temp_name (at_inv A) (in_map fst _ _ K)) as (i & Ei). cbn in Ei. subst n.
      pose proof (upd_temp NA OK LOW VF LO A Id) as U1. pose proof (upd_temp NA OK LOW VF LO A Id') as U2.
      refine (same_def _ U1 U2). eapply numbered_NoDup; [apply (iv_temps (at_inv A))|apply (na_temp NA)].
    - exfalso. exact (us_not NA OK LOW VF LO A Hn K).
    - apply (at_pu A) in K. destruct K as (p & gr & -> & -> & _). symmetry. exact (upd_perm NA OK LOW VF LO A Id').
    - destruct (neg_name VF (in_map fst _ _ (at_cur A _ K))) as (i & Ei). cbn in Ei. subst n.
      pose proof (upd_neg NA OK LOW VF LO A Id) as U1. pose proof (upd_neg NA OK LOW VF LO A Id') as U2.
      refine (same_def _ U1 U2). eapply numbered_NoDup; [apply (iv_negs VF)|apply (na_ntemp NA)].
  Qed.

  (** ** Rules without negation are lowered to dataflows without it *)
  Hypothesis NONEG : forall r a, In r (p_rules Pr) -> ~ In (LNeg a) (r_body r).
  Notation all := (fun _ : pred => True).
  Notation none := (fun _ : pred => False).
  Lemma none_name : forall z k r, ~ nname C none z k r.
  Proof.
    intros z k r H. induction H as [k r H|k p g H1 H2|k i d H1 H2 [_ H3] H4 IH]; auto. destruct (prefs d) as [|q l]; [auto|]. apply (IH q). left; auto.
  Qed.
  Lemma none_scoped : forall z k d, scoped C all none false z k d -> nrefs d = [].
  Proof. intros z k d [_ H]. destruct (nrefs d) as [|r l]; auto. exfalso. eapply none_name. apply (H r). left; auto. Qed.
  Lemma none_reads : forall r, In r (p_rules Pr) -> reads_in N (p_reg Pr) all none r.
  Proof.
    intros r Ir. destruct (po_rules OK r Ir) as (h & body & -> & RU). destruct (tp_rules TP _ Ir) as (h' & body' & E & TR). injection E as <- <-.
    exists h, body. split; auto. destruct RU as [R1 R2 R3 R4 _ _ _ _ _]. repeat (split; [assumption|]). split; [|split].
    - auto.
    - intros a Ia. exact (NONEG _ a Ir Ia).
    - intros q Iq. exfalso. destruct (tr_types TR) as (tau & _ & HT). exact (HT _ Iq).
  Qed.
  Lemma none_strata : forall l z ys z', inv C all none z -> lower_strata1 C N inplace order (p_rules Pr) l z = Some (ys, z') ->
    inv C all none z' /\ forall y n d, In y ys -> In (n, d) (rs_updates y) -> nrefs d = [].
  Proof.
    induction l as [|s l IH]; intros z ys z' V H; cbn [lower_strata1] in H.
    - injection H as <- <-. split; auto. intros y n d [].
    - bnd H x z1. rename E into R. bnd H ys' z2. rename E into Rs. injection H as <- <-.
      unfold lower_stratum in R. destruct (lower_rules C N inplace order _ _ _) as [[us z3]|] eqn:RR; [|discriminate]. injection R as <- <-.
      assert (SR : forall r, In r (flat_map (rules_of (p_rules Pr)) (st_preds s)) -> reads_in N (p_reg Pr) all none r).
      { intros r Ir. apply none_reads. apply in_flat_map in Ir. destruct Ir as (p & _ & Ir). apply filter_In in Ir. apply Ir. }
      destruct (@lower_rules_inv C N (p_reg Pr) inplace order ORD _ _ _ _ _ _ _ SR (inv_reset V) RR) as (V3 & _ & _ & U & _).
      destruct (IH _ _ _ V3 Rs) as [V4 U4]. split; auto. intros y n d [<-|Iy]; [|apply U4; auto]. cbn [rs_updates]. rewrite in_app_iff. intros [I|I].
      + destruct (iv_tdef V3 _ _ I) as (i & _ & _ & S). eapply none_scoped, S.
      + destruct (U _ _ I) as [S _]. eapply none_scoped, S.
  Qed.
  Theorem no_negation : forall y n d, In y xs -> In (n, d) (rs_updates y) -> nrefs d = [].
  Proof.
    intros y n d Iy Iu. pose proof LOW as LW. clear STR. unfold lower_strata in LW.
    destruct (lower_strata1 C N inplace order (p_rules Pr) ss (mkB 0 [] [] [])) as [[xs1 zf]|] eqn:R; [|discriminate]. injection LW as PN.
    assert (V0 : inv C all none (mkB 0 [] [] [])) by (constructor; cbn; try (intros; tauto); apply numbered_nil).
    destruct (@none_strata ss _ _ _ V0 R) as [V U]. destruct (place_low _ _ _ PN) as [F' _].
    destruct (Forall2_right F' _ Iy) as (x' & Ix' & cur & Ic & Ey). apply in_map_iff in Ix'. destruct Ix' as (x & <- & Ix).
    rewrite Ey in Iu. cbn [rs_updates add_perms] in Iu. rewrite !in_app_iff in Iu. destruct Iu as [[I|I]|I].
    - eapply U; eauto.
    - unfold perm_updates in I. apply in_flat_map in I. destruct I as (p & _ & I). apply in_map_iff in I. destruct I as (gr & K & _).
      injection K as <- <-. reflexivity.
    - destruct (iv_ndef V _ _ (Ic _ I)) as (i & _ & _ & S & _). apply S.
  Qed.
End Shapes.
