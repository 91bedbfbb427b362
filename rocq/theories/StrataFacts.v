(** The structure of lowered strata (B2RStrata.v): which relations and updates they
    have, and what the updates read.  Used by C54. *)
From Coq Require Import List ZArith Bool Arith Lia Permutation.
From Verif Require Import Value Back Eval Ram Dataflow BackSem Scc SccFacts Plan PlanSem PlanFacts PlanFacts2 PropsPlan VarTuple VarTupleFacts
  B2R RamSem B2RFacts B2RFacts2 B2RSpec B2RRule B2RScope PropsB2R B2RStrata StrataSem.
Import ListNotations.
Set Implicit Arguments.

(** ** Scopes *)
Lemma nname_sub : forall C (Pn Pn' : pred -> Prop) z z' k r, (forall p, Pn p -> Pn' p) ->
  incl (z_perms z) (z_perms z') -> incl (z_negs z) (z_negs z') -> nname C Pn z k r -> nname C Pn' z' k r.
Proof.
  intros C Pn Pn' z z' k r H1 H2 H3 H. induction H as [k r H|k p g H4 H5|k i d L H4 H5 _ IH].
  - apply nn_pred; auto.
  - apply nn_perm; auto.
  - apply nn_temp with (d := d); auto.
Qed.
Lemma pname_sub : forall C (Pp Pn Pp' Pn' : pred -> Prop) z z' k r, (forall p, Pp p -> Pp' p) -> (forall p, Pn p -> Pn' p) -> ext z z' ->
  pname C Pp Pn z k r -> pname C Pp' Pn' z' k r.
Proof.
  intros C Pp Pn Pp' Pn' z z' k r H1 H2 (X1 & X2 & X3) H. induction H as [k r H|k p g H4 H5|k i d L H4 _ IH H6].
  - apply pn_pred; auto.
  - apply pn_perm; auto.
  - apply pn_temp with (d := d); auto. intros q Iq. eapply nname_sub; eauto.
Qed.
Lemma scoped_sub : forall C (Pp Pn Pp' Pn' : pred -> Prop) z z' neg k d, (forall p, Pp p -> Pp' p) -> (forall p, Pn p -> Pn' p) -> ext z z' ->
  scoped C Pp Pn neg z k d -> scoped C Pp' Pn' neg z' k d.
Proof.
  intros C Pp Pn Pp' Pn' z z' neg k d H1 H2 X. pose proof X as (X1 & X2 & X3). destruct neg; intros [S1 S2]; split; auto; intros r Ir.
  - eapply nname_sub; eauto.
  - eapply pname_sub; eauto.
  - eapply nname_sub; eauto.
Qed.
Lemma inv_more : forall C (Pp Pn Pp' Pn' : pred -> Prop) z, (forall p, Pp p -> Pp' p) -> (forall p, Pn p -> Pn' p) ->
  inv C Pp Pn z -> inv C Pp' Pn' z.
Proof.
  intros C Pp Pn Pp' Pn' z H1 H2 [V1 V2 V3 V4 V5]. constructor; auto.
  - intros n d Id. destruct (V3 n d Id) as (i & L & E & S). exists i. split; [exact L|]. split; [exact E|]. exact (@scoped_sub C Pp Pn Pp' Pn' z z _ i d H1 H2 (ext_refl z) S).
  - intros n d Id. destruct (V4 n d Id) as (i & L & E & S). exists i. split; [exact L|]. split; [exact E|]. exact (@scoped_sub C Pp Pn Pp' Pn' z z _ i d H1 H2 (ext_refl z) S).
  - intros p g Ig. destruct (V5 p g Ig); auto.
Qed.
Lemma numbered_nil : forall mk k, numbered mk [] k.
Proof. intros. exists []. cbn. split; auto. split; [constructor|intros i []]. Qed.
Lemma inv_reset : forall C (Pp Pn : pred -> Prop) z, inv C Pp Pn z -> inv C Pp Pn (mkB (z_next z) [] (z_perms z) (z_negs z)).
Proof.
  intros C Pp Pn z [V1 V2 V3 V4 V5]. constructor; cbn; auto.
  - apply numbered_nil.
  - intros n d [].
  - intros n d Id. destruct (V4 n d Id) as (i & L & E & S1 & S2). exists i. repeat (split; auto).
    intros r Ir. eapply nname_sub; [| | |apply S2, Ir]; cbn; auto; apply incl_refl.
Qed.

Lemma Forall2_weaken : forall A Bt (R R' : A -> Bt -> Prop) l l', (forall a b, R a b -> R' a b) -> Forall2 R l l' -> Forall2 R' l l'.
Proof. intros A Bt R R' l l' H F. induction F; constructor; auto. Qed.

Section Structure.
  Variables (C : cenv) (N : penv) (g : registry) (inplace : rule -> bool) (order : list pred -> rule -> list state -> list state).
  Hypothesis ORD : forall ps r l, Permutation (order ps r l) l.

  (** ** Rules *)
  (** A rule that can be planned and reads the given predicates. *)
  Definition reads_in (Pp Pn : pred -> Prop) (r : rule) : Prop := exists h body, r = mkRule (HAtom h) body /\
    plannable N g body /\ safe N body /\ no_neg_foreign N body /\ tests_before N body /\ rule_reads N Pp Pn body.
  Lemma lower_rule_inv : forall ps (Pp Pn : pred -> Prop) r z x z', reads_in Pp Pn r -> inv C Pp Pn z ->
    lower_rule C N inplace order ps r z = Some (x, z') ->
    inv C Pp Pn z' /\ ext z z' /\ grown C z z' /\ scoped C Pp Pn false z' (z_next z') (snd x).
  Proof.
    intros ps Pp Pn r z x z' (h & body & -> & P1 & P2 & P3 & P4 & RR) V H. unfold lower_rule, sbind, sopt in H. cbn [r_body r_head] in H.
    destruct (query_plan N _ body) as [p|] eqn:Q; [|discriminate].
    pose proof (@plan_reads N g _ Pp Pn body p (ORD ps _) P1 P2 P3 P4 Q RR) as RO.
    exact (@update_keeps C Pp Pn h p _ RO z x z' V Logic.I H).
  Qed.
  Lemma lower_rules_inv : forall ps (Pp Pn : pred -> Prop) rs z us z', (forall r, In r rs -> reads_in Pp Pn r) -> inv C Pp Pn z ->
    lower_rules C N inplace order ps rs z = Some (us, z') ->
    inv C Pp Pn z' /\ ext z z' /\ grown C z z' /\
    (forall n d, In (n, d) us -> scoped C Pp Pn false z' (z_next z') d /\
       exists r z0 z1, In r rs /\ lower_rule C N inplace order ps r z0 = Some ((n, d), z1) /\ ext z1 z') /\
    (forall r, In r rs -> exists n d z0 z1, In (n, d) us /\ lower_rule C N inplace order ps r z0 = Some ((n, d), z1) /\ ext z1 z').
  Proof.
    intros ps Pp Pn rs. induction rs as [|r rs IH]; intros z us z' RI V H; cbn [lower_rules] in H.
    - injection H as <- <-. split; auto. split; [apply ext_refl|]. split; [apply grown_refl|]. split; [intros n d []|intros r []].
    - unfold sbind at 1 in H. destruct (lower_rule C N inplace order ps r z) as [[[n d] z1]|] eqn:R; [|discriminate].
      unfold sbind in H. destruct (lower_rules C N inplace order ps rs z1) as [[us' z2]|] eqn:Rs; [|discriminate]. injection H as <- <-.
      destruct (@lower_rule_inv ps Pp Pn r z (n, d) z1 (RI r (or_introl eq_refl)) V R) as (V1 & X1 & L1 & S1).
      destruct (IH z1 us' z2 (fun q Hq => RI q (or_intror Hq)) V1 Rs) as (V2 & X2 & L2 & S2 & S3).
      split; auto. split; [eapply ext_trans; eauto|]. split; [eapply grown_trans; eauto|]. split.
      + intros m e [E|Ie].
        * injection E as <- <-. cbn in S1. split; [eapply scoped_mono; [exact X2|apply L2|exact S1]|]. exists r, z, z1. split; [left; auto|]. auto.
        * destruct (S2 m e Ie) as (A & q & z3 & z4 & Iq & R' & X'). split; auto. exists q, z3, z4. split; [right; auto|]. auto.
      + intros q [<-|Iq].
        * exists n, d, z, z1. split; [left; auto|]. auto.
        * destruct (S3 q Iq) as (m & e & z3 & z4 & Ie & R' & X'). exists m, e, z3, z4. split; [right; auto|]. auto.
  Qed.

  (** ** Strata *)
  Definition inp (l : list stratum) (p : pred) : Prop := In p (preds l).
  Fixpoint places (acc : list stratum) (ss : list stratum) : list (list stratum * stratum) :=
    match ss with [] => [] | s :: ss => (acc, s) :: places (acc ++ [s]) ss end.
  Lemma places_In : forall ss acc l s, In (l, s) (places acc ss) <-> exists l1 l2, ss = l1 ++ s :: l2 /\ l = acc ++ l1.
  Proof.
    induction ss as [|x ss IH]; intros acc l s; cbn.
    - split; [intros []|intros ([|] & l2 & E & _); discriminate].
    - rewrite IH. split.
      + intros [E|(l1 & l2 & -> & ->)]; [injection E as <- <-; exists [], ss; rewrite app_nil_r; auto|].
        exists (x :: l1), l2. rewrite <- app_assoc. auto.
      + intros ([|y l1] & l2 & E & ->); injection E as -> E; [left; rewrite app_nil_r; auto|right].
        exists l1, l2. subst. rewrite <- app_assoc. auto.
  Qed.

  Variable rs : list rule.
  (** A stratum after [l1], lowered from a state with [zf] in the end. *)
  Record low1 (zf : bstate) (q : list stratum * stratum) (x : rstratum) : Prop := {
    l1_rel : exists z1 z2 us, z_temps z1 = [] /\ inv C (inp (fst q)) (inp (fst q)) z1 /\
      lower_rules C N inplace order (st_preds (snd q)) (flat_map (rules_of rs) (st_preds (snd q))) z1 = Some (us, z2) /\
      x = mkRS (st_rec (snd q)) (st_preds (snd q) ++ map fst (z_temps z2)) (z_temps z2 ++ us) /\
      incl (z_perms z2) (z_perms zf) /\ incl (z_negs z2) (z_negs zf) /\ z_next z2 <= z_next zf }.
  Definition stratum_reads (q : list stratum * stratum) : Prop :=
    forall r, In r (flat_map (rules_of rs) (st_preds (snd q))) -> reads_in (inp (fst q ++ [snd q])) (inp (fst q)) r.
  Lemma inp_app : forall l l' p, inp l p -> inp (l ++ l') p.
  Proof. intros l l' p H. unfold inp, preds in *. rewrite flat_map_app, in_app_iff. auto. Qed.
  Lemma strata1_low : forall ss acc z xs z', (forall q, In q (places acc ss) -> stratum_reads q) ->
    inv C (inp acc) (inp acc) z -> lower_strata1 C N inplace order rs ss z = Some (xs, z') ->
    Forall2 (low1 z') (places acc ss) xs /\ (exists k, inv C (inp (acc ++ ss)) (inp (acc ++ ss)) (mkB k [] (z_perms z') (z_negs z')) /\ k = z_next z') /\
    incl (z_perms z) (z_perms z') /\ incl (z_negs z) (z_negs z') /\ z_next z <= z_next z'.
  Proof.
    induction ss as [|s ss IH]; intros acc z xs z' HR V H; cbn [lower_strata1 places] in *.
    - injection H as <- <-. split; [constructor|]. split; [eexists; split; [|reflexivity]; rewrite app_nil_r; apply inv_reset, V|].
      split; [apply incl_refl|]. split; [apply incl_refl|]. lia.
    - unfold sbind at 1 in H. destruct (lower_stratum C N inplace order rs s z) as [[x z1]|] eqn:R; [|discriminate].
      unfold sbind in H. destruct (lower_strata1 C N inplace order rs ss z1) as [[xs' z2]|] eqn:Rs; [|discriminate]. injection H as <- <-.
      unfold lower_stratum in R. destruct (lower_rules C N inplace order _ _ _) as [[us z3]|] eqn:RR; [|discriminate]. injection R as <- <-.
      pose proof (HR (acc, s) (or_introl eq_refl)) as SR. unfold stratum_reads in SR. cbn [fst snd] in SR.
      assert (V0 : inv C (inp (acc ++ [s])) (inp acc) (mkB (z_next z) [] (z_perms z) (z_negs z))).
      { apply inv_reset. eapply inv_more; [| |exact V]; auto. intros p. apply inp_app. }
      destruct (@lower_rules_inv _ _ _ _ _ _ _ SR V0 RR) as (V3 & (X1 & X2 & X3) & [L3 G3] & _).
      assert (V3' : inv C (inp (acc ++ [s])) (inp (acc ++ [s])) z3).
      { eapply inv_more; [| |exact V3]; auto. intros p. apply inp_app. }
      destruct (IH (acc ++ [s]) z3 xs' z2 (fun q Hq => HR q (or_intror Hq)) V3' Rs) as (F & (k & V2 & ->) & I1 & I2 & L2).
      cbn in X2, X3, L3. rewrite <- app_assoc in V2. cbn in V2.
      split; [constructor; [|exact F]|].
      + constructor. exists (mkB (z_next z) [] (z_perms z) (z_negs z)), z3, us. cbn [fst snd]. split; auto. split; [apply inv_reset; exact V|].
        split; [exact RR|]. split; [reflexivity|]. auto.
      + split; [eauto|]. split; [eapply incl_tran; eauto|]. split; [eapply incl_tran; eauto|]. lia.
  Qed.

  (** ** Negative dataflows *)
  Lemma place_low : forall ss acc negs ss' rest, place_negs acc negs ss = (ss', rest) ->
    Forall2 (fun s s' => exists cur, incl cur negs /\ s' = mkRS (rs_rec s) (rs_rels s ++ map fst cur) (rs_updates s ++ cur)) ss ss' /\
    forall x, In x negs -> In x rest \/ exists s', In s' ss' /\ In x (rs_updates s') /\ In (fst x) (rs_rels s').
  Proof.
    induction ss as [|s ss IH]; intros acc negs ss' rest H; cbn [place_negs] in H.
    - injection H as <- <-. split; [constructor|auto].
    - set (fits := fun x : nat * rdf => forallb (fun r => memb r (acc ++ rs_rels s)) (sources (snd x))) in *.
      destruct (place_negs _ _ ss) as [ss1 rest1] eqn:R. injection H as <- <-.
      change (place_negs (acc ++ rs_rels s) (filter (fun x => negb (fits x)) negs) ss = (ss1, rest1)) in R.
      destruct (IH _ _ _ _ R) as [F K]. split.
      + constructor.
        * exists (filter fits negs). split; [intros x Ix; apply filter_In in Ix; apply Ix|reflexivity].
        * eapply Forall2_weaken; [|exact F]. intros a b (cur & Ic & ->). exists cur. split; auto.
          intros x Ix. specialize (Ic x Ix). apply filter_In in Ic. apply Ic.
      + intros x Ix. destruct (fits x) eqn:Fx.
        * right. eexists. split; [left; reflexivity|]. cbn. rewrite !in_app_iff, in_map_iff. split; right; [|exists x; split; auto]; apply filter_In; auto.
        * destruct (K x) as [K1|(s' & K1 & K2)]; [apply filter_In; rewrite Fx; auto|left; auto|right]. exists s'. split; [right; auto|auto].
  Qed.

  Lemma place_split : forall a' ss acc negs y b' rest, place_negs acc negs ss = (a' ++ y :: b', rest) -> exists a x b cur negs',
    ss = a ++ x :: b /\ place_negs acc negs a = (a', negs') /\ incl cur negs' /\
    (forall n, In n cur -> incl (sources (snd n)) (acc ++ flat_map rs_rels (a ++ [x]))) /\
    y = mkRS (rs_rec x) (rs_rels x ++ map fst cur) (rs_updates x ++ cur).
  Proof.
    induction a' as [|y0 a' IH]; intros ss acc negs y b' rest H; destruct ss as [|s ss]; cbn [place_negs] in H; try discriminate H;
      destruct (place_negs _ _ ss) as [ss1 rest1] eqn:R; injection H as Hy Hb Hr.
    - exists [], s, ss. eexists. exists negs. split; [reflexivity|]. split; [reflexivity|]. split; [|split; [|symmetry; exact Hy]].
      + intros n Hn. apply filter_In in Hn. apply Hn.
      + intros n Hn q Iq. apply filter_In in Hn. destruct Hn as [_ Hn]. rewrite forallb_forall in Hn. specialize (Hn q Iq).
        apply memb_In in Hn. cbn. rewrite app_nil_r. exact Hn.
    - subst ss1. destruct (IH _ _ _ _ _ _ R) as (a & x & b & cur & negs' & -> & P & Ic & S & ->).
      exists (s :: a), x, b, cur, negs'. split; [reflexivity|]. split; [cbn [place_negs]; rewrite P, Hy; reflexivity|]. split; auto.
      split; auto. intros n Hn q Iq. specialize (S n Hn q Iq). cbn. rewrite app_assoc. exact S.
  Qed.
  Lemma place_where : forall ss acc negs ss' rest x, place_negs acc negs ss = (ss', rest) -> In x negs ->
    In x rest \/ incl (sources (snd x)) (acc ++ flat_map rs_rels ss).
  Proof.
    induction ss as [|s ss IH]; intros acc negs ss' rest x H Ix; cbn [place_negs] in H.
    - injection H as <- <-. auto.
    - set (fits := fun x : nat * rdf => forallb (fun r => memb r (acc ++ rs_rels s)) (sources (snd x))) in *.
      destruct (place_negs _ _ ss) as [ss1 rest1] eqn:R. injection H as <- <-.
      change (place_negs (acc ++ rs_rels s) (filter (fun x => negb (fits x)) negs) ss = (ss1, rest1)) in R. cbn [flat_map].
      destruct (fits x) eqn:Fx.
      + right. unfold fits in Fx. rewrite forallb_forall in Fx. intros q Iq. specialize (Fx q Iq). apply memb_In in Fx.
        rewrite !in_app_iff in *. tauto.
      + destruct (IH _ _ _ _ x R) as [K|K]; [apply filter_In; rewrite Fx; auto|auto|]. right. rewrite app_assoc. exact K.
  Qed.
  Lemma place_names : forall ss acc negs ss' rest r, place_negs acc negs ss = (ss', rest) -> In r (flat_map rs_rels ss') ->
    In r (flat_map rs_rels ss) \/ In r (map fst negs).
  Proof.
    intros ss acc negs ss' rest r H. destruct (place_low _ _ _ H) as [F _]. clear H. induction F as [|x y ss ss' (cur & Ic & ->) F IH]; cbn; auto.
    rewrite !in_app_iff. intros [[K|K]|K]; auto; [|destruct (IH K); auto]. right. apply in_map_iff in K. destruct K as (n & <- & Hn). apply in_map, Ic, Hn.
  Qed.
  (** What has been placed, and what has not. *)
  Lemma place_rest : forall a acc negs a' negs', place_negs acc negs a = (a', negs') ->
    incl negs' negs /\
    (forall x, In x negs -> a <> [] -> incl (sources (snd x)) (acc ++ flat_map rs_rels a) -> In (fst x) (flat_map rs_rels a')) /\
    incl (flat_map rs_rels a) (flat_map rs_rels a') /\
    (NoDup (map fst negs) -> forall n, In n (map fst negs') -> In n (flat_map rs_rels a') -> In n (flat_map rs_rels a)).
  Proof.
    induction a as [|s a IH]; intros acc negs a' negs' H; cbn [place_negs] in H.
    - injection H as <- <-. split; [apply incl_refl|]. split; [intros x _ []; reflexivity|]. split; [apply incl_refl|auto].
    - set (fits := fun x : nat * rdf => forallb (fun r => memb r (acc ++ rs_rels s)) (sources (snd x))) in *.
      destruct (place_negs _ _ a) as [ss1 rest1] eqn:R. injection H as <- <-.
      change (place_negs (acc ++ rs_rels s) (filter (fun x => negb (fits x)) negs) a = (ss1, rest1)) in R.
      destruct (IH _ _ _ _ R) as (I1 & I2 & I3 & I4). cbn [flat_map rs_rels].
      change (filter (fun x => forallb (fun r => memb r (acc ++ rs_rels s)) (sources (snd x))) negs) with (filter fits negs).
      assert (I0 : incl rest1 negs) by (intros x Ix; apply I1, filter_In in Ix; apply Ix).
      split; auto. split; [|split].
      + intros x Ix _ Sx. rewrite !in_app_iff. destruct (fits x) eqn:Fx.
        * left. right. apply in_map, filter_In. auto.
        * right. apply I2; [apply filter_In; rewrite Fx; auto| |rewrite <- app_assoc; exact Sx].
          intros ->. cbn in Sx. rewrite app_nil_r in Sx. unfold fits in Fx. apply not_true_iff_false in Fx. apply Fx.
          apply forallb_forall. intros q Iq. apply memb_In, Sx, Iq.
      + intros n Hn. rewrite !in_app_iff in *. destruct Hn as [Hn|Hn]; auto.
      + intros ND n Hn J. rewrite !in_app_iff in *. destruct J as [[J|J]|J]; auto.
        * exfalso. apply in_map_iff in Hn. destruct Hn as (x & <- & Hx). apply in_map_iff in J. destruct J as (x' & E & Hx').
          apply filter_In in Hx'. destruct Hx' as [Hx' Fx']. apply I1, filter_In in Hx. destruct Hx as [Hx Fx].
          assert (x = x').
          { clear -ND Hx Hx' E. induction negs as [|m l IH]; [destruct Hx|]. cbn in ND. inversion ND as [|? ? NI ND']; subst.
            destruct Hx as [<-|Hx]; destruct Hx' as [<-|Hx']; auto; exfalso; apply NI; [rewrite <- E|rewrite E]; apply in_map; auto. }
          subst x'. rewrite Fx' in Fx. discriminate.
        * right. apply I4; auto. clear -ND. induction negs as [|m l IH]; cbn; [constructor|]. cbn in ND. inversion ND as [|? ? NI ND']; subst.
          destruct (negb (fits m)); cbn; auto. constructor; auto. intros K. apply NI. apply in_map_iff in K. destruct K as (x & <- & Hx).
          apply filter_In in Hx. apply in_map, Hx.
  Qed.
  (** Predicates and temporaries are in one stratum each. *)
  Lemma strata1_rels : forall ss acc z xs z', (forall q, In q (places acc ss) -> stratum_reads q) ->
    inv C (inp acc) (inp acc) z -> names_apart C (inp (acc ++ ss)) -> NoDup (preds ss) ->
    lower_strata1 C N inplace order rs ss z = Some (xs, z') ->
    (forall r, In r (flat_map rs_rels xs) -> In r (preds ss) \/ exists i, z_next z <= i /\ i < z_next z' /\ r = ce_temp C i) /\
    (forall a x b, xs = a ++ x :: b -> forall r, In r (rs_rels x) -> ~ In r (flat_map rs_rels a)).
  Proof.
    induction ss as [|s ss IH]; intros acc z xs z' HR V NA ND H; cbn [lower_strata1 places] in *.
    - injection H as <- <-. split; [intros r []|]. intros [|] x b E; discriminate.
    - unfold sbind at 1 in H. destruct (lower_stratum C N inplace order rs s z) as [[x z1]|] eqn:R; [|discriminate].
      unfold sbind in H. destruct (lower_strata1 C N inplace order rs ss z1) as [[xs' z2]|] eqn:Rs; [|discriminate]. injection H as <- <-.
      unfold lower_stratum in R. destruct (lower_rules C N inplace order _ _ _) as [[us z3]|] eqn:RR; [|discriminate]. injection R as <- <-.
      pose proof (HR (acc, s) (or_introl eq_refl)) as SR. unfold stratum_reads in SR. cbn [fst snd] in SR.
      assert (V0 : inv C (inp (acc ++ [s])) (inp acc) (mkB (z_next z) [] (z_perms z) (z_negs z))).
      { apply inv_reset. eapply inv_more; [| |exact V]; auto. intros p. apply inp_app. }
      destruct (@lower_rules_inv _ _ _ _ _ _ _ SR V0 RR) as (V3 & (X1 & X2 & X3) & [L3 G3] & _).
      assert (V3' : inv C (inp (acc ++ [s])) (inp (acc ++ [s])) z3).
      { eapply inv_more; [| |exact V3]; auto. intros p. apply inp_app. }
      change (preds (s :: ss)) with (st_preds s ++ preds ss) in *.
      assert (ND' : NoDup (preds ss) /\ forall p, In p (st_preds s) -> ~ In p (preds ss)).
      { clear -ND. induction (st_preds s) as [|p l IH]; cbn in ND; [auto|]. inversion ND as [|? ? NI ND']; subst. destruct (IH ND') as [A1 A2].
        split; auto. intros q [<-|Iq]; auto. intros K. apply NI, in_app_iff. auto. }
      destruct ND' as [ND1 ND2].
      pose proof (@strata1_low ss (acc ++ [s]) z3 xs' z2 (fun q Hq => HR q (or_intror Hq)) V3' Rs) as (_ & _ & _ & _ & L2).
      destruct (IH (acc ++ [s]) z3 xs' z2 (fun q Hq => HR q (or_intror Hq)) V3') as [A1 A2]; auto; [rewrite <- app_assoc; exact NA|].
      assert (HD : forall n, In n (map fst (z_temps z3)) -> exists i, z_next z <= i /\ i < z_next z3 /\ n = ce_temp C i).
      { intros n Hn. destruct (G3 n Hn) as [[]|(i & Li & ->)]. cbn in Li. exists i. split; auto. split; auto.
        apply in_map_iff in Hn. destruct Hn as ((m & d) & Em & Im). destruct (iv_tdef V3 _ _ Im) as (j & Lj & Ej & _). cbn in Em. subst m.
        apply (na_temp NA) in Ej. lia. }
      assert (SP : forall p, In p (st_preds s) -> inp (acc ++ s :: ss) p).
      { intros p Hp. unfold inp, preds. rewrite flat_map_app. apply in_app_iff. right. cbn. apply in_app_iff. auto. }
      split.
      + intros q Hq. cbn in Hq. rewrite !in_app_iff in *. destruct Hq as [[Hq|Hq]|Hq]; auto.
        * right. destruct (HD q Hq) as (i & H1 & H2 & ->). exists i. split; auto. split; auto. lia.
        * destruct (A1 q Hq) as [K|(i & H1 & H2 & ->)]; auto. right. exists i. cbn in L3. split; [lia|auto].
      + intros [|x a] x' b E q Hq; injection E as <- E; [intros []|]. cbn. rewrite !in_app_iff.
        assert (Hq' : In q (flat_map rs_rels xs')) by (rewrite E; apply in_flat_map; exists x'; split; auto; apply in_app_iff; cbn; auto).
        intros [[K|K]|K].
        * destruct (A1 q Hq') as [K'|(i & _ & _ & ->)]; [exact (ND2 q K K')|]. exact (na_pt NA _ (SP _ K)).
        * destruct (HD q K) as (i & H1 & H2 & ->). destruct (A1 _ Hq') as [K'|(j & H3 & H4 & Ej)].
          -- apply (na_pt NA i). unfold inp, preds. rewrite flat_map_app. apply in_app_iff. right. cbn. apply in_app_iff. auto.
          -- apply (na_temp NA) in Ej. lia.
        * exact (A2 a x' b E q Hq K).
  Qed.

  (** ** The lowered strata *)
  Record low2 (zf : bstate) (q : list stratum * stratum) (y : rstratum) : Prop := {
    l2_rel : exists x cur, low1 zf q x /\ incl cur (z_negs zf) /\
      y = mkRS (rs_rec x) ((rs_rels x ++ map fst (perm_updates C zf x)) ++ map fst cur) ((rs_updates x ++ perm_updates C zf x) ++ cur) }.
  Theorem strata_low : forall ss ys rest, (forall q, In q (places [] ss) -> stratum_reads q) ->
    lower_strata C N inplace order rs ss = Some (ys, rest) ->
    exists zf, inv C (inp ss) (inp ss) zf /\ z_temps zf = [] /\ Forall2 (low2 zf) (places [] ss) ys /\
      forall x, In x (z_negs zf) -> In x rest \/ exists s', In s' ys /\ In x (rs_updates s') /\ In (fst x) (rs_rels s').
  Proof.
    intros ss ys rest HR H. unfold lower_strata in H.
    destruct (lower_strata1 C N inplace order rs ss (mkB 0 [] [] [])) as [[xs z]|] eqn:R; [|discriminate]. injection H as H.
    assert (V0 : inv C (inp []) (inp []) (mkB 0 [] [] [])).
    { constructor; cbn; try (intros; tauto); apply numbered_nil. }
    destruct (@strata1_low ss [] _ xs z HR V0 R) as (F & (k & V & ->) & _). cbn [app] in V.
    destruct (place_low _ _ _ H) as [F' K].
    exists (mkB (z_next z) [] (z_perms z) (z_negs z)). split; auto. split; auto. split; [|exact K].
    clear -F F'. revert ys F'. induction F as [|q x qs xs H F IH]; intros ys F'; cbn in F'; inversion F' as [|? y ? ys' Hy F'']; subst; constructor; auto.
    destruct Hy as (cur & Ic & ->). constructor. exists x, cur. split.
    - destruct H as [(z1 & z2 & us & H1 & H2 & H3 & H4 & H5 & H6 & H7)]. constructor. exists z1, z2, us. repeat (split; auto).
    - split; auto.
  Qed.
  Lemma Forall2_split : forall Bt (R : list stratum * stratum -> Bt -> Prop) a ss acc x b, Forall2 R (places acc ss) (a ++ x :: b) ->
    exists l1 s l2, ss = l1 ++ s :: l2 /\ Forall2 R (places acc l1) a /\ R (acc ++ l1, s) x.
  Proof.
    intros Bt R. induction a as [|y a IH]; intros ss acc x b F; destruct ss as [|s ss]; cbn [places app] in F; inversion F as [|? ? ? ? H F']; subst.
    - exists [], s, ss. rewrite app_nil_r. split; [reflexivity|]. split; [constructor|assumption].
    - destruct (IH _ _ _ _ F') as (l1 & s' & l2 & -> & F1 & H1). exists (s :: l1), s', l2. split; auto. split; [constructor; auto|].
      rewrite <- app_assoc in H1. exact H1.
  Qed.
  Theorem strata_split : forall ss ys rest, (forall q, In q (places [] ss) -> stratum_reads q) -> names_apart C (inp ss) -> NoDup (preds ss) ->
    lower_strata C N inplace order rs ss = Some (ys, rest) ->
    exists zf, inv C (inp ss) (inp ss) zf /\ z_temps zf = [] /\
      (forall n, In n (z_negs zf) -> In n rest \/ forall i, ~ In (ce_ntemp C i) (sources (snd n))) /\ forall a' y b', ys = a' ++ y :: b' -> exists l1 s l2 a x cur negs',
      ss = l1 ++ s :: l2 /\ Forall2 (low1 zf) (places [] l1) a /\ low1 zf (l1, s) x /\
      place_negs [] (z_negs zf) (map (add_perms C zf) a) = (a', negs') /\ incl cur negs' /\
      (forall n, In n cur -> incl (sources (snd n)) (flat_map rs_rels (map (add_perms C zf) (a ++ [x])))) /\
      y = mkRS (rs_rec x) ((rs_rels x ++ map fst (perm_updates C zf x)) ++ map fst cur) ((rs_updates x ++ perm_updates C zf x) ++ cur) /\
      forall r, In r (rs_rels x) -> ~ In r (flat_map rs_rels a).
  Proof.
    intros ss ys rest HR NA ND H. unfold lower_strata in H.
    destruct (lower_strata1 C N inplace order rs ss (mkB 0 [] [] [])) as [[xs z]|] eqn:R; [|discriminate]. injection H as H.
    assert (V0 : inv C (inp []) (inp []) (mkB 0 [] [] [])).
    { constructor; cbn; try (intros; tauto); apply numbered_nil. }
    destruct (@strata1_low ss [] _ xs z HR V0 R) as (F & (k & V & ->) & _). cbn [app] in V.
    destruct (@strata1_rels ss [] _ xs z HR V0 NA ND R) as [NMS DJ].
    exists (mkB (z_next z) [] (z_perms z) (z_negs z)). split; auto. split; auto. split.
    { intros n Hn. destruct (place_where _ _ _ n H Hn) as [K|K]; auto. right. intros i Hi. apply K in Hi. cbn [app] in Hi.
      apply in_flat_map in Hi. destruct Hi as (x & Hx & Hr). apply in_map_iff in Hx. destruct Hx as (x0 & <- & Hx0). cbn in Hr.
      apply in_app_iff in Hr. destruct Hr as [Hr|Hr].
      - destruct (NMS (ce_ntemp C i)) as [J|(j & _ & _ & J)]; [apply in_flat_map; eauto|exact (na_pn NA _ J)|exact (na_tn NA _ _ (eq_sym J))].
      - apply in_map_iff in Hr. destruct Hr as (u & Eu & Hu). apply in_flat_map in Hu. destruct Hu as (p & _ & Hu).
        apply in_map_iff in Hu. destruct Hu as (g' & <- & _). exact (na_np NA _ _ _ (eq_sym Eu)). }
    assert (LW : forall q x, low1 z q x -> low1 (mkB (z_next z) [] (z_perms z) (z_negs z)) q x).
    { intros q x [(z1 & z2 & us & H1 & H2 & H3 & H4 & H5 & H6 & H7)]. constructor. exists z1, z2, us. repeat (split; auto). }
    intros a' y b' Ey. rewrite Ey in H. destruct (@place_split _ _ _ _ _ _ _ H) as (a & x0 & b & cur & negs' & Ea & P & Ic & S & ->).
    apply map_eq_app in Ea. destruct Ea as (a1 & xb & -> & <- & Eb). apply map_eq_cons in Eb. destruct Eb as (x & b1 & -> & <- & <-).
    destruct (@Forall2_split _ _ _ _ _ _ _ F) as (l1 & s & l2 & -> & F1 & H1). cbn [app] in H1.
    exists l1, s, l2, a1, x, cur, negs'. split; auto. split; [eapply Forall2_weaken; [|exact F1]; auto|]. split; auto.
    split; [exact P|]. split; auto. split; [intros n Hn; rewrite map_app; exact (S n Hn)|]. split; auto.
    apply (DJ a1 x b1 eq_refl).
  Qed.
End Structure.
