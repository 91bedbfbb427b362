(** C59: flattening the expressions of a rule into literals keeps its meaning. *)
From Coq Require Import List ZArith Bool Arith Lia.
From Verif Require Import Value ListAux Back Eval BackSem Optimize PropsOpt Plan PlanSem PlanFacts PropsPlan Front FrontSem FrontFacts PropsFront FlatFacts.
Import ListNotations.
Set Implicit Arguments.
Local Arguments bin_value : simpl never.
Local Arguments un_value : simpl never.

(** ** Parts of formulas *)
Inductive part (l : formula) : formula -> Prop :=
| part_self : part l l
| part_conj fs f : In f fs -> part l f -> part l (FConj fs)
| part_disj fs f : In f fs -> part l f -> part l (FDisj fs).
Lemma part_vars : forall l f, part l f -> forall v, In v (form_vars l) -> In v (form_vars f).
Proof. intros l f H. induction H; intros v I; auto; cbn [form_vars]; apply in_flat_map; eauto. Qed.
Lemma part_neg : forall l f, part l f -> neg_wild_free f = true -> neg_wild_free l = true.
Proof. intros l f H. induction H; intros N; auto; cbn [neg_wild_free] in N; rewrite forallb_forall in N; auto. Qed.
Lemma dnf_part : forall f cs, from_formula f = Some cs -> forall c l, In c cs -> In l (clits c) -> part l f.
Proof.
  intros f. pattern f. apply form_ind2; clear f.
  - intros p l cs H c h I J. injection H as <-. destruct I as [<-|[]]. destruct J as [<-|[]]. constructor.
  - intros p l cs H c h I J. injection H as <-. destruct I as [<-|[]]. destruct J as [<-|[]]. constructor.
  - intros e cs H c h I J. injection H as <-. destruct I as [<-|[]]. destruct J as [<-|[]]. constructor.
  - intros l IH cs H c h I J. cbn [from_formula] in H. destruct (oall (map from_formula l)) as [css|] eqn:E; [|discriminate]. cbn in H. injection H as <-.
    apply oall_map in E. apply in_map_iff in I. destruct I as (sel & <- & I). apply clits_join in J. destruct J as (c & Jc & J).
    destruct css as [|cs0 css]; [destruct I|]. assert (NE : cs0 :: css <> []) by discriminate. apply (multi_product_in sel NE) in I.
    destruct (F2_in_l _ I Jc) as (cs' & I1 & I2). destruct (F2_in_r _ E I1) as (f & I3 & I4). rewrite Forall_forall in IH. eapply part_conj; eauto.
  - intros l IH cs H c h I J. cbn [from_formula] in H. destruct (oall (map from_formula l)) as [css|] eqn:E; [|discriminate]. cbn in H. injection H as <-.
    apply oall_map in E. apply in_concat in I. destruct I as (cs' & I1 & I2). destruct (F2_in_r _ E I1) as (f & I3 & I4). rewrite Forall_forall in IH. eapply part_disj; eauto.
  - intros a b _ _ cs H. discriminate H.
Qed.
Lemma regular_conj : forall B g X M s l, form_regular B g X M s (FConj l) <-> forall f, In f l -> form_regular B g X M s f.
Proof.
  intros B g X M s. induction l as [|f l IH]; [split; [intros _ f []|intros; exact Logic.I]|]. split.
  - intros [H K] h [<-|I]; auto. apply IH; auto.
  - intros H. split; [apply H; left; auto|]. apply IH. intros h I. apply H. right; auto.
Qed.
Lemma regular_disj : forall B g X M s l, form_regular B g X M s (FDisj l) <-> forall f, In f l -> fholds B g X M s f -> form_regular B g X M s f.
Proof.
  intros B g X M s. induction l as [|f l IH]; [split; [intros _ f []|intros; exact Logic.I]|]. split.
  - intros [H K] h [<-|I]; auto. apply IH; auto.
  - intros H. split; [apply H; left; auto|]. apply IH. intros h I. apply H. right; auto.
Qed.
(** The literals of a conjunction that holds are regular. *)
Lemma dnf_regular : forall B g X M s f, full f = true -> forall cs, from_formula f = Some cs -> form_regular B g X M s f ->
  forall c, In c cs -> (forall l, In l (clits c) -> fholds B g X M s l) -> forall l e, In l (clits c) -> In e (fexprs l) -> regular (b_env B) s e.
Proof.
  intros B g X M s f. pattern f. apply form_ind2; clear f.
  - intros p l _ cs H R c I K h e J1 J2. injection H as <-. destruct I as [<-|[]]. destruct J1 as [<-|[]]. apply R. exact J2.
  - intros p l _ cs H R c I K h e J1 J2. injection H as <-. destruct I as [<-|[]]. destruct J1 as [<-|[]]. apply R. exact J2.
  - intros a _ cs H R c I K h e J1 J2. injection H as <-. destruct I as [<-|[]]. destruct J1 as [<-|[]]. apply R. exact J2.
  - intros l IH F cs H R c I K h e J1 J2. cbn [from_formula] in H. destruct (oall (map from_formula l)) as [css|] eqn:E; [|discriminate]. cbn in H. injection H as <-.
    apply oall_map in E. apply in_map_iff in I. destruct I as (sel & <- & I). pose proof J1 as J1'. apply clits_join in J1. destruct J1 as (c & Jc & J).
    destruct css as [|cs0 css]; [destruct I|]. assert (NE : cs0 :: css <> []) by discriminate. apply (multi_product_in sel NE) in I.
    destruct (F2_in_l _ I Jc) as (cs' & I1 & I2). destruct (F2_in_r _ E I1) as (f & I3 & I4). rewrite Forall_forall in IH. cbn in F.
    eapply (IH f I3); eauto.
    + destruct l; [discriminate F|]. rewrite forallb_forall in F. auto.
    + apply (proj1 (regular_conj B g X M s l) R f I3).
    + intros x Ix. apply K. apply clits_join. eauto.
  - intros l IH F cs H R c I K h e J1 J2. cbn [from_formula] in H. destruct (oall (map from_formula l)) as [css|] eqn:E; [|discriminate]. cbn in H. injection H as <-.
    apply oall_map in E. apply in_concat in I. destruct I as (cs' & I1 & I2). destruct (F2_in_r _ E I1) as (f & I3 & I4). rewrite Forall_forall in IH. cbn in F. rewrite forallb_forall in F.
    eapply (IH f I3); eauto. apply (proj1 (regular_disj B g X M s l) R f I3). apply (dnf_sat B g X M s f (F f I3) I4). exists c. split; auto.
  - intros a b _ _ _ cs H. discriminate H.
Qed.

(** ** Heads and rules *)
Section Rules.
  Variable fr : nat -> var.
  Variables (B : benv) (g : registry) (X M : interp).
  Notation sat := (sat B g X M).
  Lemma heads_sound : forall s l n hs ls n', flat_heads fr l n = (hs, ls, n') -> sat s ls ->
    forall h, In h hs -> exists a, In a l /\ a_pred h = fst a /\ have_values (b_env B) s (snd a) (tvals s (a_args h)).
  Proof.
    intros s. induction l as [|[p es] l IH]; intros n hs ls n' H S0 h I; cbn [flat_heads] in H; [injection H as <- <- <-; destruct I|].
    destruct (flat_args fr es n) as [[ts l1] n1] eqn:Q1. destruct (flat_heads fr l n1) as [[hs2 l2] n2] eqn:Q2. injection H as <- <- <-.
    apply sat_app_inv in S0. destruct S0 as [S1 S2]. destruct I as [<-|I].
    - exists (p, es). split; [left; auto|]. split; auto. cbn [snd a_args]. eapply flat_args_sound; eauto.
    - destruct (IH n1 hs2 l2 n2 Q2 S2 h I) as (a & I1 & I2). exists a. split; auto. right; auto.
  Qed.
  Lemma head_sound : forall s hd h ls n, flat_head fr hd = Some (h, ls, n) -> sat s ls ->
    forall x, In x (head_atoms h) -> exists a, In a (fhead_atoms hd) /\ a_pred x = fst a /\ have_values (b_env B) s (snd a) (tvals s (a_args x)).
  Proof.
    intros s hd h ls n H S0 x I. destruct hd as [[p es]|l|a l]; cbn [flat_head] in H; [| discriminate H|].
    - destruct (flat_args fr es 0) as [[ts l1] n1] eqn:Q1. injection H as <- <- <-. destruct I as [<-|[]]. exists (p, es). split; [left; auto|]. split; auto. eapply flat_args_sound; eauto.
    - destruct (flat_heads fr (a :: l) 0) as [[[|h1 hs] l1] n1] eqn:Q1; [discriminate H|]. injection H as <- <- <-. eapply heads_sound; eauto.
  Qed.
  Lemma conj_rules_in : forall h extra cs n rs, conj_rules fr h extra cs n = Some rs ->
    forall r, In r rs -> exists c m x y, In c cs /\ flat_lits fr (c_pos c) m = Some x /\ flat_lits fr (c_neg c) (snd x) = Some y /\ r = mkRule h (fst x ++ fst y ++ extra).
  Proof.
    intros h extra. induction cs as [|c cs IH]; intros n rs H r I; cbn [conj_rules] in H; [injection H as <-; destruct I|].
    destruct (flat_lits fr (c_pos c) n) as [x|] eqn:Qx; [|discriminate H]. cbn [obnd] in H. destruct (flat_lits fr (c_neg c) (snd x)) as [y|] eqn:Qy; [|discriminate H]. cbn [obnd] in H.
    destruct (conj_rules fr h extra cs (snd y)) as [rs'|] eqn:Qr; [|discriminate H]. cbn [obnd] in H. injection H as <-. destruct I as [<-|I].
    - exists c, n, x, y. repeat split; auto. left; auto.
    - destruct (IH _ _ Qr r I) as (c' & m & x' & y' & I1 & I2 & I3 & I4). exists c', m, x', y'. repeat split; auto. right; auto.
  Qed.
  Hypothesis fr_inj : forall i j, fr i = fr j -> i = j.
  Lemma conj_rules_out : forall h extra cs n rs, conj_rules fr h extra cs n = Some rs ->
    forall c, In c cs -> exists m x y, n <= m /\ flat_lits fr (c_pos c) m = Some x /\ flat_lits fr (c_neg c) (snd x) = Some y /\ In (mkRule h (fst x ++ fst y ++ extra)) rs.
  Proof.
    intros h extra. induction cs as [|c cs IH]; intros n rs H c0 I; cbn [conj_rules] in H; [destruct I|].
    destruct (flat_lits fr (c_pos c) n) as [x|] eqn:Qx; [|discriminate H]. cbn [obnd] in H. destruct (flat_lits fr (c_neg c) (snd x)) as [y|] eqn:Qy; [|discriminate H]. cbn [obnd] in H.
    destruct (conj_rules fr h extra cs (snd y)) as [rs'|] eqn:Qr; [|discriminate H]. cbn [obnd] in H. injection H as <-. destruct I as [<-|I].
    - exists n, x, y. repeat split; auto. left; auto.
    - destruct (IH _ _ Qr c0 I) as (m & x' & y' & L & I2 & I3 & I4). exists m, x', y'. repeat split; auto; [|right; auto].
      assert (G : forall l k z, flat_lits fr l k = Some z -> k <= snd z).
      { intros l k [zl zn] Z. destruct (lits_flat_vars fr fr_inj (fun _ => True) l k (fun _ _ _ _ => Logic.I) Z); auto. }
      pose proof (G _ _ _ Qx). pose proof (G _ _ _ Qy). lia.
  Qed.

  Variable V : var -> Prop.
  Hypothesis fresh : forall v i, V v -> v <> fr i.
  Lemma heads_vars : forall l n hs ls n', (forall a v, In a l -> In v (flat_map expr_vars (snd a)) -> V v) -> flat_heads fr l n = (hs, ls, n') ->
    n <= n' /\ within fr V n n' (flat_map lit_vars ls) /\ within fr V n n' (flat_map avars hs).
  Proof.
    induction l as [|[p es] l IH]; intros n hs ls n' Hv H; cbn [flat_heads] in H; [injection H as <- <- <-; split; [auto|split; intros v []]|].
    destruct (flat_args fr es n) as [[ts l1] n1] eqn:Q1. destruct (flat_heads fr l n1) as [[hs2 l2] n2] eqn:Q2. injection H as <- <- <-.
    destruct (flat_args_vars fr fr_inj V es n (fun v => Hv (p, es) v (or_introl eq_refl)) Q1) as (L1 & W1 & W1').
    destruct (IH n1 hs2 l2 n2) as (L2 & W2 & W2'); auto; [intros a v I; apply Hv; right; auto|].
    split; [lia|]. rewrite flat_map_app. cbn [flat_map]. split; apply within_app; eapply within_mono; eauto; lia.
  Qed.
  Lemma heads_complete : forall xs s n hs ls n', (forall x v, In x xs -> In v (flat_map expr_vars (snd (fst x))) -> V v) -> flat_heads fr (map fst xs) n = (hs, ls, n') ->
    (forall x e, In x xs -> In e (snd (fst x)) -> regular (b_env B) s e) -> (forall x, In x xs -> have_values (b_env B) s (snd (fst x)) (snd x)) ->
    exists s', ext fr n n' s s' /\ sat s' ls /\ Forall2 (fun h x => a_pred h = fst (fst x) /\ tvals s' (a_args h) = snd x) hs xs.
  Proof.
    induction xs as [|[[p es] t] xs IH]; intros s n hs ls n' Hv H R K; cbn [flat_heads map fst] in H.
    - injection H as <- <- <-. exists s. split; [apply ext_refl|]. split; [intros l []|constructor].
    - destruct (flat_args fr es n) as [[ts l1] n1] eqn:Q1. destruct (flat_heads fr (map fst xs) n1) as [[hs2 l2] n2] eqn:Q2. injection H as <- <- <-.
      assert (V1 : forall v, In v (flat_map expr_vars es) -> V v) by (intros v; apply (Hv (p, es, t)); left; auto).
      assert (V2 : forall x v, In x xs -> In v (flat_map expr_vars (snd (fst x))) -> V v) by (intros x v I; apply Hv; right; auto).
      destruct (flat_args_vars fr fr_inj V es n V1 Q1) as (L1 & W1 & W1').
      destruct (heads_vars (map fst xs) n1) with (2 := Q2) as (L2 & W2 & _). { intros a v I. apply in_map_iff in I. destruct I as (x & <- & I). exact (V2 x v I). }
      destruct (@flat_args_complete fr fr_inj B g X M V fresh es s n _ _ _ t V1 Q1 (fun e => R (p, es, t) e (or_introl eq_refl)) (K _ (or_introl eq_refl))) as (s1 & X1 & S1 & T1).
      destruct (IH s1 n1 hs2 l2 n2 V2 Q2) as (s2 & X2 & S2 & T2).
      { intros x e I J. apply regular_local with (s := s); [|apply (R x); auto; right; auto]. eapply source_agree; eauto. intros v Y. apply (V2 x); auto. apply in_flat_map. eauto. }
      { intros x I. eapply values_local; [|apply K; right; auto]. eapply source_agree; eauto. }
      exists s2. split; [eapply ext_trans; eauto|]. split.
      + apply sat_app; auto. exact (@ext_sat fr fr_inj B g X M V fresh _ _ _ _ _ _ _ W1' X2 (or_introl (le_n _)) S1).
      + constructor; auto. split; auto. cbn [a_args snd]. rewrite <- T1. symmetry. apply tvals_agree. exact (@ext_agree fr fr_inj V fresh _ _ _ _ _ _ _ W1 X2 (or_introl (le_n _))).
  Qed.
  Lemma values_exist : forall s l, (forall e, In e l -> regular (b_env B) s e) -> exists vs, have_values (b_env B) s l vs.
  Proof.
    induction l as [|e l IH]; intros R; [exists []; constructor|]. destruct IH as (vs & K); [intros; apply R; right; auto|].
    destruct (regular_value _ _ _ (R e (or_introl eq_refl))) as (v & Hv). exists (v :: vs). constructor; auto.
  Qed.
  Lemma choose_values : forall s l, (forall a e, In a l -> In e (snd a) -> regular (b_env B) s e) -> forall a t, In a l -> have_values (b_env B) s (snd a) t ->
    exists xs : list (fatom * list value), map fst xs = l /\ In (a, t) xs /\ forall x, In x xs -> have_values (b_env B) s (snd (fst x)) (snd x).
  Proof.
    assert (ALL : forall s (l : list fatom), (forall a e, In a l -> In e (snd a) -> regular (b_env B) s e) -> exists xs : list (fatom * list value), map fst xs = l /\ forall x, In x xs -> have_values (b_env B) s (snd (fst x)) (snd x)).
    { induction l as [|a l IH]; intros R; [exists []; split; auto; intros x []|]. destruct IH as (xs & E & K); [intros b e I; apply R; right; auto|].
      destruct (@values_exist s (snd a)) as (vs & Hv); [intros e; apply R; left; auto|]. exists ((a, vs) :: xs). split; [cbn; f_equal; auto|]. intros x [<-|I]; auto. }
    intros s l. induction l as [|b l IH]; intros R a t I H; [destruct I|]. destruct I as [<-|I].
    - destruct (ALL s l) as (xs & E & K); [intros c e J; apply R; right; auto|]. exists ((b, t) :: xs). split; [cbn; f_equal; auto|]. split; [left; auto|]. intros x [<-|J]; auto.
    - destruct (IH) with (2 := I) (3 := H) as (xs & E & J & K); [intros c e Y; apply R; right; auto|].
      destruct (@values_exist s (snd b)) as (vs & Hv); [intros e; apply R; left; auto|]. exists ((b, vs) :: xs). split; [cbn; f_equal; auto|]. split; [right; auto|]. intros x [<-|Y]; auto.
  Qed.
  Lemma head_complete : forall s hd h ls n, (forall v, In v (head_vars hd) -> V v) -> flat_head fr hd = Some (h, ls, n) ->
    (forall a e, In a (fhead_atoms hd) -> In e (snd a) -> regular (b_env B) s e) -> forall a t, In a (fhead_atoms hd) -> have_values (b_env B) s (snd a) t ->
    within fr V 0 n (flat_map lit_vars ls) /\ within fr V 0 n (flat_map avars (head_atoms h)) /\
    exists s', ext fr 0 n s s' /\ sat s' ls /\ exists x, In x (head_atoms h) /\ a_pred x = fst a /\ tvals s' (a_args x) = t.
  Proof.
    intros s hd h ls n Hv H R a t I K.
    assert (VV : forall a v, In a (fhead_atoms hd) -> In v (flat_map expr_vars (snd a)) -> V v). { intros b v J J'. apply Hv. unfold head_vars. apply in_flat_map. eauto. }
    assert (G : exists hs, flat_heads fr (fhead_atoms hd) 0 = (hs, ls, n) /\ head_atoms h = hs).
    { destruct hd as [[p es]|l|b l]; cbn [flat_head fhead_atoms] in *; [|discriminate H|].
      - cbn [flat_heads]. destruct (flat_args fr es 0) as [[ts l1] n1]. injection H as <- <- <-. exists [mkAtom p ts]. rewrite app_nil_r. auto.
      - destruct (flat_heads fr (b :: l) 0) as [[[|h1 hs] l1] n1]; [discriminate H|]. injection H as <- <- <-. exists (h1 :: hs). auto. }
    destruct G as (hs & Q & E). destruct (heads_vars _ _ VV Q) as (_ & W & W'). rewrite E. split; auto. split; auto.
    destruct (@choose_values s (fhead_atoms hd) R a t I K) as (xs & EX & J & KX). rewrite <- EX in Q.
    destruct (@heads_complete xs s 0 hs ls n) with (2 := Q) as (s' & X1 & S1 & F); auto.
    - intros x v Y. apply VV. rewrite <- EX. apply in_map; auto.
    - intros x e Y. apply R. rewrite <- EX. apply in_map; auto.
    - exists s'. split; auto. split; auto. destruct (F2_in_r _ F J) as (x & Ix & Ex1 & Ex2). exists x. auto.
  Qed.
End Rules.

(** ** Theorems *)
(** Flattening is sound: the rules it makes have no other consequences than the
    rule it is given. *)
Theorem C59_sound_partial : forall B g X M fr r rs, full (fr_body r) = true -> neg_wild_free (fr_body r) = true -> rule_to_back fr r = Some rs ->
  forall r' p t, In r' rs -> head_consequence B g X M r' p t -> front_consequence B g X M r p t.
Proof.
  intros B g X M fr [hd body] rs F N H r' p t I (s & a & S0 & Ia & -> & ->). cbn [fr_body fr_head] in *. unfold rule_to_back in H. cbn [fr_body fr_head] in H.
  destruct (from_formula body) as [cs|] eqn:D; [|discriminate H]. cbn [obnd] in H. destruct (flat_head fr hd) as [[[h extra] n]|] eqn:Qh; [|discriminate H]. cbn [obnd] in H.
  destruct (@conj_rules_in fr h extra cs n rs H r' I) as (c & m & x & y & Ic & Qx & Qy & ->). cbn [r_body r_head] in *. destruct x as [lx nx], y as [ly ny]. cbn [fst snd] in *.
  assert (SS : sat B g X M s (lx ++ ly ++ extra)) by exact S0. apply sat_app_inv in SS. destruct SS as [Sx SS]. apply sat_app_inv in SS. destruct SS as [Sy Se].
  assert (NW : forall l, In l (clits c) -> neg_wild_free l = true) by (intros l J; eapply part_neg; [eapply dnf_part; eauto|auto]).
  destruct (@head_sound fr B g X M s hd h extra n Qh Se a Ia) as (b & J1 & J2 & J3). exists s, b. split; [|split; auto]. cbn [fr_body].
  apply (dnf_sat B g X M s body F D). exists c. split; auto. intros l J. unfold clits in J. apply in_app_or in J. destruct J as [J|J].
  - eapply (lits_flat_sound fr (c_pos c)); eauto. apply forallb_forall. intros z Z. apply NW. unfold clits. apply in_or_app; auto.
  - eapply (lits_flat_sound fr (c_neg c)); eauto. apply forallb_forall. intros z Z. apply NW. unfold clits. apply in_or_app; auto.
Qed.
(** It is complete when the expressions are regular: all parts have values,
    nothing saturates, only constants are subtracted. *)
Theorem C59_complete_partial : forall B g X M fr r rs, full (fr_body r) = true -> neg_wild_free (fr_body r) = true ->
  (forall i j, fr i = fr j -> i = j) -> (forall v i, In v (head_vars (fr_head r) ++ form_vars (fr_body r)) -> v <> fr i) ->
  (forall s, fholds B g X M s (fr_body r) -> form_regular B g X M s (fr_body r) /\ forall a e, In a (fhead_atoms (fr_head r)) -> In e (snd a) -> regular (b_env B) s e) ->
  rule_to_back fr r = Some rs ->
  forall p t, front_consequence B g X M r p t -> exists r', In r' rs /\ head_consequence B g X M r' p t.
Proof.
  intros B g X M fr [hd body] rs F N INJ FRESH REG H p t (s & a & S0 & Ia & -> & K). cbn [fr_body fr_head] in *. unfold rule_to_back in H. cbn [fr_body fr_head] in H.
  destruct (REG s S0) as [RB RH]. clear REG.
  destruct (from_formula body) as [cs|] eqn:D; [|discriminate H]. cbn [obnd] in H. destruct (flat_head fr hd) as [[[h extra] n]|] eqn:Qh; [|discriminate H]. cbn [obnd] in H.
  pose (V := fun v => In v (head_vars hd ++ form_vars body)).
  pose proof (proj1 (dnf_sat B g X M s body F D) S0) as (c & Ic & Sc).
  destruct (@conj_rules_out fr INJ h extra cs n rs H c Ic) as (m & [lx nx] & [ly ny] & L & Qx & Qy & Ir). cbn [fst snd] in *.
  assert (VH : forall v, In v (head_vars hd) -> V v) by (intros v J; apply in_or_app; auto).
  assert (VL : forall l v, In l (clits c) -> In v (form_vars l) -> V v) by (intros l v J1 J2; apply in_or_app; right; eapply part_vars; eauto; eapply dnf_part; eauto).
  assert (NW : forall l, In l (clits c) -> neg_wild_free l = true) by (intros l J; eapply part_neg; [eapply dnf_part; eauto|auto]).
  assert (RL : forall l e, In l (clits c) -> In e (fexprs l) -> regular (b_env B) s e) by (eapply dnf_regular; eauto).
  assert (IP : forall l, In l (c_pos c) -> In l (clits c)) by (intros; apply in_or_app; auto). assert (IN : forall l, In l (c_neg c) -> In l (clits c)) by (intros; apply in_or_app; auto).
  destruct (@head_complete fr B g X M INJ V FRESH s hd h extra n VH Qh RH a t Ia K) as (We & Wh & s1 & X1 & S1 & b & Ib & Eb1 & Eb2).
  destruct (lits_flat_vars fr INJ V (c_pos c) m (fun l v J => VL l v (IP l J)) Qx) as (Lx & Wx). destruct (lits_flat_vars fr INJ V (c_neg c) nx (fun l v J => VL l v (IN l J)) Qy) as (Ly & Wy).
  assert (RK : forall s' l e, ext fr 0 ny s s' -> In l (clits c) -> In e (fexprs l) -> regular (b_env B) s' e).
  { intros s' l e X' J1 J2. apply regular_local with (s := s); [|eapply RL; eauto]. eapply source_agree with (V := V); eauto. intros v J. apply (VL l); auto. eapply fexprs_vars; eauto. }
  assert (HK : forall s' l k z n0, ext fr 0 ny s s' -> flat_lits fr l k = Some (z, n0) -> (forall f, In f l -> In f (clits c)) -> forall f, In f l -> fholds B g X M s' f).
  { intros s' l k z n0 X' Q J f J'. eapply fholds_lit_local; eauto. eapply source_agree with (V := V); eauto. }
  assert (X1' : ext fr 0 ny s s1) by (eapply ext_mono; eauto; lia).
  destruct (lits_flat_complete fr INJ B g X M V FRESH (c_pos c) s1 m) with (2 := Qx) as (s2 & X2 & S2); auto.
  { intros l v J. apply VL; auto. } { apply forallb_forall; auto. } { intros f e J. apply RK; auto. } { eapply HK; eauto. }
  assert (X2' : ext fr 0 ny s s2). { intros v J. rewrite X2, X1'; auto. intros i Li. apply J. lia. }
  destruct (lits_flat_complete fr INJ B g X M V FRESH (c_neg c) s2 nx) with (2 := Qy) as (s3 & X3 & S3); auto.
  { intros l v J. apply VL; auto. } { apply forallb_forall; auto. } { intros f e J. apply RK; auto. } { eapply HK; eauto. }
  assert (X13 : ext fr m ny s1 s3) by (eapply ext_trans; eauto).
  eexists. split; [exact Ir|]. exists s3, b. split; [|split; [exact Ib|split; [auto|]]].
  - change (sat B g X M s3 (lx ++ ly ++ extra)). apply sat_app; [exact (@ext_sat fr INJ B g X M V FRESH _ _ _ _ _ _ _ Wx X3 (or_introl (le_n _)) S2)|].
    apply sat_app; auto. exact (@ext_sat fr INJ B g X M V FRESH _ _ _ _ _ _ _ We X13 (or_introl L) S1).
  - rewrite <- Eb2. apply tvals_agree. eapply (@ext_agree fr INJ V FRESH) with (2 := X13); [|left; exact L]. intros v J. apply Wh. apply in_flat_map. eauto.
Qed.
(** Flattening fails exactly on implications, conjunctive heads, and constraints
    that are not comparisons or negations. *)
Lemma lit_total : forall fr f n, (exists p l, f = FAtom p l) \/ (exists p l, f = FNeg p l) \/ (exists e, f = FCons e) -> (flat_lit fr f n = None <-> constraints_ok f = false).
Proof.
  intros fr f n [(p & l & ->)|[(p & l & ->)|(e & ->)]]; cbn [flat_lit constraints_ok].
  - destruct (flat_args fr l n) as [[ts ls] n1]. split; discriminate.
  - destruct (flat_args fr l n) as [[ts ls] n1]. split; discriminate.
  - destruct e as [| | |op a b|op a| | |]; cbn [is_constraint]; try (split; reflexivity).
    + destruct op; cbn [cop_of obnd]; try (split; reflexivity); destruct (flat fr a n) as [[ta la] n1]; destruct (flat fr b n1) as [[tb lb] n2]; split; discriminate.
    + destruct op; try (split; reflexivity). destruct (flat fr a n) as [[ta la] n1]. split; discriminate.
Qed.
Lemma lits_total : forall fr l n, (forall f, In f l -> (exists p a, f = FAtom p a) \/ (exists p a, f = FNeg p a) \/ (exists e, f = FCons e)) ->
  (forall f, In f l -> constraints_ok f = true) -> exists x, flat_lits fr l n = Some x.
Proof.
  intros fr l. induction l as [|f l IH]; intros n S K; cbn [flat_lits]; [eauto|].
  destruct (flat_lit fr f n) as [x|] eqn:E.
  - cbn [obnd]. destruct (IH (snd x)) as [y ->]; [intros; apply S; right; auto|intros; apply K; right; auto|]. cbn [obnd]. eauto.
  - apply lit_total in E; [|apply S; left; auto]. rewrite K in E by (left; auto). discriminate.
Qed.
Lemma part_constraints : forall l f, part l f -> constraints_ok f = true -> constraints_ok l = true.
Proof. intros l f H. induction H; intros N; auto; cbn [constraints_ok] in N; rewrite forallb_forall in N; auto. Qed.
Lemma conj_rules_total : forall fr h extra cs n, (forall c l, In c cs -> In l (clits c) -> constraints_ok l = true) ->
  (forall c l, In c cs -> In l (clits c) -> (exists p a, l = FAtom p a) \/ (exists p a, l = FNeg p a) \/ (exists e, l = FCons e)) ->
  exists rs, conj_rules fr h extra cs n = Some rs /\ length rs = length cs.
Proof.
  intros fr h extra cs. induction cs as [|c cs IH]; intros n K S; cbn [conj_rules]; [exists []; auto|].
  destruct (lits_total fr (c_pos c) n) as [x ->].
  { intros f J. apply (S c); [left; auto|apply in_or_app; auto]. } { intros f J. apply (K c); [left; auto|apply in_or_app; auto]. }
  cbn [obnd]. destruct (lits_total fr (c_neg c) (snd x)) as [y ->].
  { intros f J. apply (S c); [left; auto|apply in_or_app; auto]. } { intros f J. apply (K c); [left; auto|apply in_or_app; auto]. }
  cbn [obnd]. destruct (IH (snd y)) as (rs & -> & L).
  { intros c' l' I. apply K. right; auto. } { intros c' l' I. apply S. right; auto. }
  cbn [obnd]. eexists. split; [reflexivity|]. cbn [length]. auto.
Qed.
Theorem C59_total : forall fr r, imp_free (fr_body r) = true -> constraints_ok (fr_body r) = true -> (forall l, fr_head r <> FHConj l) ->
  exists cs rs, from_formula (fr_body r) = Some cs /\ rule_to_back fr r = Some rs /\ length rs = length cs.
Proof.
  intros fr [hd body] I K NC. cbn [fr_body fr_head] in *. unfold rule_to_back. cbn [fr_body fr_head].
  destruct (from_formula body) as [cs|] eqn:D; [|apply dnf_total in D; congruence]. cbn [obnd].
  assert (exists h extra n, flat_head fr hd = Some (h, extra, n)) as (h & extra & n & ->).
  { destruct hd as [[p es]|l|[p es] l]; cbn [flat_head flat_heads].
    - destruct (flat_args fr es 0) as [[ts ls] n]. eauto.
    - exfalso. eapply NC. reflexivity.
    - destruct (flat_args fr es 0) as [[ts ls] n]. destruct (flat_heads fr l n) as [[hs l2] n2]. eauto. }
  cbn [obnd]. destruct (@conj_rules_total fr h extra cs n) as (rs & Q & L).
  - intros c l Ic Il. eapply part_constraints; eauto. eapply dnf_part; eauto.
  - intros c l Ic Il. destruct (dnf_shape body D c Ic) as [P Ng]. unfold clits in Il. apply in_app_or in Il. rewrite forallb_forall in P, Ng.
    destruct Il as [Il|Il]; [specialize (P _ Il)|specialize (Ng _ Il)]; destruct l; try discriminate; eauto 6.
  - exists cs, rs. auto.
Qed.

(** ** The whole front end on one rule *)
Lemma walk_same : forall n f, fsize f <= n -> imp_free f = true -> implies_walk n f = Some f.
Proof.
  induction n as [|n IH]; intros f L I; [destruct f; cbn in L; lia|].
  assert (LL : forall l, S (list_sum (map fsize l)) <= S n -> forallb imp_free l = true -> oall (map (implies_walk n) l) = Some l).
  { induction l as [|a l IHl]; intros L' I'; [reflexivity|]. cbn [map oall]. cbn [forallb] in I'. apply andb_true_iff in I'. destruct I' as [I1 I2].
    assert (fsize a <= n /\ list_sum (map fsize l) <= n) as [? ?] by (cbn [map] in L'; change (list_sum (fsize a :: map fsize l)) with (fsize a + list_sum (map fsize l)) in L'; lia).
    rewrite IH by auto. cbn [obnd]. rewrite IHl by (auto; lia). reflexivity. }
  destruct f; cbn [implies_walk]; try reflexivity; cbn [fsize imp_free] in *.
  - rewrite LL by auto. reflexivity.
  - rewrite LL by auto. reflexivity.
  - discriminate.
Qed.
Lemma transform_same : forall r, imp_free (fr_body r) = true -> apply_transformations r = Some (split_heads r).
Proof.
  intros [hd body] I. unfold apply_transformations, split_heads, transform_implies. cbn [fr_head fr_body] in *.
  rewrite walk_same by auto. destruct hd; reflexivity.
Qed.
Theorem C59_compile_partial : forall B g X M fr r rs, imp_free (fr_body r) = true -> full (fr_body r) = true -> neg_wild_free (fr_body r) = true ->
  (forall i j, fr i = fr j -> i = j) -> (forall v i, In v (head_vars (fr_head r) ++ form_vars (fr_body r)) -> v <> fr i) ->
  (forall s, fholds B g X M s (fr_body r) -> form_regular B g X M s (fr_body r) /\ forall a e, In a (fhead_atoms (fr_head r)) -> In e (snd a) -> regular (b_env B) s e) ->
  compile_rule fr r = Some rs ->
  forall p t, front_consequence B g X M r p t <-> exists r', In r' rs /\ head_consequence B g X M r' p t.
Proof.
  intros B g X M fr r rs I F N INJ FRESH REG H p t. unfold compile_rule in H. rewrite transform_same in H by auto. cbn [obnd] in H.
  destruct (oall (map (rule_to_back fr) (split_heads r))) as [css|] eqn:Q; [|discriminate H]. cbn [obnd] in H. injection H as <-. apply oall_map in Q.
  assert (SH : forall r1, In r1 (split_heads r) -> fr_body r1 = fr_body r /\ forall a, In a (fhead_atoms (fr_head r1)) -> In a (fhead_atoms (fr_head r))).
  { intros r1 J. unfold split_heads in J. destruct (fr_head r) as [x|l|x l] eqn:Eh; [destruct J as [<-|[]]; rewrite Eh; auto| |destruct J as [<-|[]]; rewrite Eh; auto].
    apply in_map_iff in J. destruct J as (a & <- & J). cbn. split; auto. intros b [<-|[]]. auto. }
  assert (SO : forall a, In a (fhead_atoms (fr_head r)) -> exists r1, In r1 (split_heads r) /\ In a (fhead_atoms (fr_head r1))).
  { intros a J. unfold split_heads. destruct (fr_head r) as [x|l|x l] eqn:Eh; [exists r; rewrite Eh; split; [left|]; auto| |exists r; rewrite Eh; split; [left|]; auto].
    exists (mkFrule (FHAtom a) (fr_body r)). split; [apply in_map_iff; eauto|left; auto]. }
  split.
  - intros (s & a & S0 & Ia & -> & K). destruct (SO a Ia) as (r1 & J1 & J2). destruct (SH r1 J1) as [EB EH]. destruct (F2_in_l _ Q J1) as (cs & J3 & J4).
    destruct (@C59_complete_partial B g X M fr r1 cs) with (p := fst a) (t := t) as (r' & K1 & K2); rewrite ?EB; auto.
    + intros v i J. apply FRESH. apply in_app_or in J. apply in_or_app. destruct J as [J|J]; auto. left. unfold head_vars in *. apply in_flat_map in J.
      destruct J as (b & J & J'). apply in_flat_map. eauto.
    + intros s' S'. destruct (REG s' S') as [R1 R2]. split; auto. intros b e J. eapply R2. auto.
    + exists s, a. rewrite EB. auto.
    + exists r'. split; auto. apply in_concat. eauto.
  - intros (r' & J & K). apply in_concat in J. destruct J as (cs & J & J'). destruct (F2_in_r _ Q J) as (r1 & J1 & J2). destruct (SH r1 J1) as [EB EH].
    destruct (@C59_sound_partial B g X M fr r1 cs) with (r' := r') (p := p) (t := t) as (s & a & S0 & Ia & Ep & Kt); rewrite ?EB; auto.
    exists s, a. rewrite <- EB. auto.
Qed.

(** [a(x + 1, x), b(y) = p(x), (y == x * 2 or not n(x - 1, y))], in models where
    [p] holds of small numbers. *)
Definition C59_fr (n : nat) : var := 50 + n.
Definition C59_r : frule := mkFrule
  (FHConj [(8, [EBin OAdd (EVar 0) (EConst (I32 1)); EVar 0]); (9, [EVar 1])])
  (FConj [FAtom 1 [EVar 0]; FAtom 2 [EVar 1];
          FDisj [FCons (EBin OEq (EVar 1) (EBin OMul (EVar 0) (EConst (I32 2)))); FNeg 3 [EBin OSub (EVar 0) (EConst (I32 1)); EVar 1]]]).
Definition C59_X : interp := fun p t => match p with 1 | 2 => exists z, t = [I32 z] /\ (0 <= z <= 100)%Z | _ => False end.
Definition C59_M : interp := fun p t => p = 3 /\ t = [I32 4; I32 7].
Lemma small_sum : forall op k z, (op = OAdd \/ op = OSub \/ op = OMul) -> (0 <= z <= 100)%Z -> (0 <= k <= 2)%Z -> exists v, bin_value env_none op (I32 z) (I32 k) = EOk v.
Proof.
  intros op k z H Hz Hk. destruct H as [->|[->| ->]]; [eexists; reflexivity|eexists; reflexivity|].
  assert (z * k <= 200)%Z by nia. assert (0 <= z * k)%Z by nia. unfold bin_value. cbn. unfold checked. change (imin KI32) with (-2147483648)%Z. change (imax KI32) with 2147483647%Z.
  replace (-2147483648 <=? z * k)%Z with true by (symmetry; apply Z.leb_le; lia). replace (z * k <=? 2147483647)%Z with true by (symmetry; apply Z.leb_le; lia). eexists. reflexivity.
Qed.
Lemma small_regular : forall s v op k, (op = OAdd \/ op = OSub \/ op = OMul) -> (exists z, s v = I32 z /\ (0 <= z <= 100)%Z) -> (0 <= k <= 2)%Z ->
  regular env_none s (EBin op (EVar v) (EConst (I32 k))).
Proof.
  intros s v op k O (z & Ez & Hz) Hk. split; [|split; [|split]].
  - destruct (small_sum O Hz Hk) as [r Hr]. exists r, (I32 z), (I32 k). split; [symmetry; exact Ez|]. split; [reflexivity|exact Hr].
  - split; [exists (s v); reflexivity|exact Logic.I].
  - split; [exists (I32 k); reflexivity|exact Logic.I].
  - assert (K : forall o, exact_at env_none s o (EVar v) (EConst (I32 k))).
    { intros o x y Hx Hy. cbn in Hx, Hy. exists KI32, z, k. rewrite Hx, Hy, Ez. unfold in_range. change (imin KI32) with (-2147483648)%Z. change (imax KI32) with 2147483647%Z.
      destruct o; repeat split; auto; lia. }
    destruct O as [->|[->| ->]]; cbn [exact]; auto. split; auto. eauto.
Qed.
Example C59_ex : imp_free (fr_body C59_r) = true /\ full (fr_body C59_r) = true /\ neg_wild_free (fr_body C59_r) = true /\
  (forall i j, C59_fr i = C59_fr j -> i = j) /\ (forall v i, In v (head_vars (fr_head C59_r) ++ form_vars (fr_body C59_r)) -> v <> C59_fr i) /\
  (forall s, fholds benv_none C58_g C59_X C59_M s (fr_body C59_r) -> form_regular benv_none C58_g C59_X C59_M s (fr_body C59_r) /\
    forall a e, In a (fhead_atoms (fr_head C59_r)) -> In e (snd a) -> regular (b_env benv_none) s e) /\
  (exists rs, compile_rule C59_fr C59_r = Some rs /\ length rs = 4) /\
  front_consequence benv_none C58_g C59_X C59_M C59_r 8 [I32 4; I32 3] /\ front_consequence benv_none C58_g C59_X C59_M C59_r 9 [I32 7].
Proof.
  split; [reflexivity|]. split; [reflexivity|]. split; [reflexivity|]. split; [intros i j H; unfold C59_fr in H; lia|].
  split; [intros v i H; cbn in H; unfold C59_fr; intros ->; repeat (destruct H as [H|H]; [lia|]); destruct H|]. split.
  - intros s H. cbn [fr_body C59_r fholds] in H. destruct H as ((vs & H1 & H2) & (ws & H3 & H4) & _).
    assert (S0 : exists z, s 0 = I32 z /\ (0 <= z <= 100)%Z).
    { destruct H2 as (z & -> & Hz). inversion H1 as [|? ? ? ? P]; subst. cbn in P. eauto. }
    assert (S1 : regular env_none s (EVar 1)) by (split; [exists (s 1); reflexivity|exact Logic.I]).
    assert (R0 : regular env_none s (EVar 0)) by (split; [exists (s 0); reflexivity|exact Logic.I]).
    assert (RA : regular env_none s (EBin OAdd (EVar 0) (EConst (I32 1)))) by (apply small_regular; auto; lia).
    assert (RS : regular env_none s (EBin OSub (EVar 0) (EConst (I32 1)))) by (apply small_regular; auto; lia).
    assert (RM : regular env_none s (EBin OMul (EVar 0) (EConst (I32 2)))) by (apply small_regular; auto; lia).
    split.
    + cbn [fr_body C59_r form_regular]. split; [intros e [<-|[]]; auto|]. split; [intros e [<-|[]]; auto|]. split; auto. split; [|split; auto].
      * intros _ e J. cbn in J. destruct J as [<-|[<-|[]]]; auto.
      * intros _ e J. cbn in J. destruct J as [<-|[<-|[]]]; auto.
    + intros a e Ia Ie. cbn in Ia. destruct Ia as [<-|[<-|[]]]; cbn in Ie.
      * destruct Ie as [<-|[<-|[]]]; auto.
      * destruct Ie as [<-|[]]; auto.
  - split; [eexists; split; [vm_compute; reflexivity|reflexivity]|].
    assert (K : fholds benv_none C58_g C59_X C59_M (fun v => match v with 0 => I32 3 | _ => I32 7 end) (fr_body C59_r)).
    { cbn [fr_body C59_r fholds]. split; [|split; [|split; auto]].
      - exists [I32 3]. split; [repeat constructor|]. exists 3%Z. split; auto. lia.
      - exists [I32 7]. split; [repeat constructor|]. exists 7%Z. split; auto. lia.
      - right. left. exists [Some (I32 2); Some (I32 7)]. split.
        + constructor; [|constructor; [|constructor]]; cbn [arg_pattern]; (split; [discriminate|]); [|reflexivity].
          exists (I32 3), (I32 1). repeat split; reflexivity.
        + intros vs Hf [_ ->]. inversion Hf; subst. discriminate. }
    split; (eexists; eexists; split; [exact K|]); cbn [fhead_atoms C59_r fr_head].
    + split; [left; reflexivity|]. split; [reflexivity|]. constructor; [|constructor; [reflexivity|constructor]]. exists (I32 3), (I32 1). repeat split; reflexivity.
    + split; [right; left; reflexivity|]. split; [reflexivity|]. constructor; [reflexivity|constructor].
Qed.

(** ** Rules that are compiled wrongly *)
(** What a rule adds when its body is replaced by the plan. *)
Definition plan_consequence (B : benv) (M X : interp) (h : head) (pl : plan) (p : pred) (t : list value) : Prop :=
  exists s a, psem B M X pl s /\ In a (head_atoms h) /\ p = a_pred a /\ t = tvals s (a_args a).
(** Front end, rule optimizations, planner. *)
Definition front_to_plan (r : frule) : option (head * plan) :=
  match rule_to_back C59_fr r with
  | Some [r1] => match opt_rule env_none C58_g (fun _ => 0) r1 with
                 | Fine r2 => obnd (query_plan N1 id_order (r_body r2)) (fun pl => Some (r_head r2, pl))
                 | _ => None end
  | _ => None
  end.
(** [q(y) = p(x, z), x - y == z]: the second operand of a difference is computed
    as a sum.  From [p(5, 3)] follows [q(2)]; the plan gives [q(8)]. *)
Theorem C59_subtraction_refuted : exists r h pl X p t t', full (fr_body r) = true /\ neg_wild_free (fr_body r) = true /\ constraints_ok (fr_body r) = true /\
  front_to_plan r = Some (h, pl) /\
  front_consequence benv_none C58_g X X r p t /\ ~ plan_consequence benv_none X X h pl p t /\
  plan_consequence benv_none X X h pl p t' /\ ~ front_consequence benv_none C58_g X X r p t'.
Proof.
  exists (mkFrule (FHAtom (9, [EVar 1])) (FConj [FAtom 1 [EVar 0; EVar 2]; FCons (EBin OEq (EBin OSub (EVar 0) (EVar 1)) (EVar 2))])).
  eexists. eexists. exists (fun p t => p = 1 /\ t = [I32 5; I32 3]), 9, [I32 2], [I32 8].
  split; [reflexivity|]. split; [reflexivity|]. split; [reflexivity|]. split; [vm_compute; reflexivity|]. split; [|split; [|split]].
  - exists (fun v => match v with 0 => I32 5 | 1 => I32 2 | _ => I32 3 end), (9, [EVar 1]). split; [|split; [left; reflexivity|split; [reflexivity|repeat constructor]]].
    cbn [fr_body fholds]. split; [|split; auto]. { exists [I32 5; I32 3]. split; [repeat constructor|split; reflexivity]. }
    cbn [constraint_holds cop_of]. exists (I32 3), (I32 3). split; [|split; reflexivity]. exists (I32 5), (I32 2). repeat split; reflexivity.
  - intros (s & a & (s' & A & (s2 & A2 & Hp) & Q) & [<-|[]] & _ & E). cbn in Hp. destruct Hp as [_ Hp]. injection Hp as H0 H2.
    specialize (Q _ (or_introl eq_refl)). unfold assign_sat in Q. cbn [fst snd aeval tval] in Q.
    rewrite (A2 0), (A2 2) in Q by (cbn; auto). rewrite H0, H2 in Q. injection E as E. rewrite (A 1) in E by (cbn; auto). rewrite <- E in Q. vm_compute in Q. discriminate.
  - exists (fun v => match v with 0 => I32 5 | 1 => I32 8 | _ => I32 3 end). eexists. split; [|split; [left; reflexivity|split; reflexivity]].
    cbn [psem bvars]. eexists. split; [apply agree_refl|]. split.
    + eexists. split; [apply agree_refl|]. split; reflexivity.
    + intros x [<-|[]]. reflexivity.
  - intros (s & a & H & [<-|[]] & _ & K). cbn [fr_body fholds] in H. destruct H as ((vs & H1 & _ & ->) & H2 & _).
    inversion H1 as [|? ? ? ? P1 P2]; subst. inversion P2 as [|? ? ? ? P3 P4]; subst. cbn in P1, P3.
    cbn [snd] in K. inversion K as [|? ? ? ? Q1 Q2]; subst. cbn in Q1.
    cbn [constraint_holds cop_of] in H2. destruct H2 as (x & y & (x1 & y1 & E1 & E2 & E3) & Ey & Exy). cbn in E1, E2, Ey. subst.
    rewrite <- P1, <- Q1 in E3. cbn in Exy. subst x. rewrite <- P3 in E3. vm_compute in E3. discriminate.
Qed.
(** [q(x) = p(x, x + 1)]: the sum is an assignment of a variable that already has
    values, and is dropped.  [p(5, 3)] gives [q(5)]. *)
Theorem C59_sum_refuted : exists r h pl X p t, full (fr_body r) = true /\ neg_wild_free (fr_body r) = true /\
  (forall s, fholds benv_none C58_g X X s (fr_body r) -> form_regular benv_none C58_g X X s (fr_body r)) /\
  front_to_plan r = Some (h, pl) /\
  plan_consequence benv_none X X h pl p t /\ ~ front_consequence benv_none C58_g X X r p t.
Proof.
  exists (mkFrule (FHAtom (9, [EVar 0])) (FAtom 1 [EVar 0; EBin OAdd (EVar 0) (EConst (I32 1))])).
  eexists. eexists. exists (fun p t => p = 1 /\ t = [I32 5; I32 3]), 9, [I32 5].
  assert (NO : forall s, ~ fholds benv_none C58_g (fun p t => p = 1 /\ t = [I32 5; I32 3]) (fun p t => p = 1 /\ t = [I32 5; I32 3]) s (FAtom 1 [EVar 0; EBin OAdd (EVar 0) (EConst (I32 1))])).
  { intros s (vs & H1 & _ & ->). inversion H1 as [|? ? ? ? P1 P2]; subst. inversion P2 as [|? ? ? ? P3 P4]; subst. cbn in P1.
    destruct P3 as (x & y & E1 & E2 & E3). cbn in E1, E2. subst. rewrite <- P1 in E3. vm_compute in E3. discriminate. }
  split; [reflexivity|]. split; [reflexivity|]. split; [intros s H; destruct (NO s H)|]. split; [vm_compute; reflexivity|]. split.
  - exists (fun v => match v with 0 => I32 5 | _ => I32 3 end). eexists. split; [|split; [left; reflexivity|split; reflexivity]].
    cbn [psem bvars]. eexists. split; [apply agree_refl|]. split; reflexivity.
  - intros (s & a & H & _). exact (NO s H).
Qed.
(** [q(y) = p(x), y == if x == 0 then 0 else 10 / x]: both branches are computed.
    From [p(0)] follows [q(0)]; the rule gives nothing. *)
Theorem C59_branch_refuted : exists r rs X p t, full (fr_body r) = true /\ neg_wild_free (fr_body r) = true /\ rule_to_back C59_fr r = Some rs /\
  front_consequence benv_none C58_g X X r p t /\ ~ (exists r', In r' rs /\ head_consequence benv_none C58_g X X r' p t) /\
  exists h pl, front_to_plan r = Some (h, pl) /\ ~ plan_consequence benv_none X X h pl p t.
Proof.
  exists (mkFrule (FHAtom (9, [EVar 1])) (FConj [FAtom 1 [EVar 0]; FCons (EBin OEq (EVar 1) (EIte (EBin OEq (EVar 0) (EConst (I32 0))) (EConst (I32 0)) (EBin ODiv (EConst (I32 10)) (EVar 0))))])).
  eexists. exists (fun p t => p = 1 /\ t = [I32 0]), 9, [I32 0].
  split; [reflexivity|]. split; [reflexivity|]. split; [vm_compute; reflexivity|]. split; [|split].
  - exists (fun _ => I32 0), (9, [EVar 1]). split; [|split; [left; reflexivity|split; [reflexivity|repeat constructor]]].
    cbn [fr_body fholds]. split; [|split; auto]. { exists [I32 0]. split; [repeat constructor|split; reflexivity]. }
    cbn [constraint_holds cop_of]. exists (I32 0), (I32 0). split; [reflexivity|]. split; [|reflexivity]. left. split; [|reflexivity]. exists (I32 0), (I32 0). repeat split; reflexivity.
  - intros (r' & [<-|[]] & s & a & H & _). cbn [r_body] in H. pose proof (H _ (or_introl eq_refl)) as H0. cbn in H0. destruct H0 as [_ H0]. injection H0 as H0.
    pose proof (H _ (or_intror (or_intror (or_intror (or_intror (or_introl eq_refl)))))) as H1. cbn [lit_sat other_sat aeval tval b_env benv_none] in H1. rewrite H0 in H1. vm_compute in H1. discriminate.
  - eexists. eexists. split; [vm_compute; reflexivity|]. intros (s & a & (s1 & A1 & (s2 & A2 & (s3 & A3 & Hp) & Q) & _) & _).
    cbn in Hp. destruct Hp as [_ Hp]. injection Hp as H0. specialize (Q _ (or_intror (or_introl eq_refl))). unfold assign_sat in Q. cbn [fst snd aeval tval b_env benv_none] in Q.
    rewrite (A3 0) in Q by (cbn; auto). rewrite H0 in Q. vm_compute in Q. discriminate.
Qed.
(** [q(x) = p(x), not n(x, _)]: the wildcard becomes a variable of the negated atom,
    which a satisfying substitution may choose: the rule read literally gives
    [q(1)] even when [n(1, 2)] holds.  (The planner repairs this: it compares
    the bound variables only.) *)
Theorem C59_wildcard_refuted : exists r rs X p t, full (fr_body r) = true /\ wild_ok (fr_body r) = true /\ rule_to_back C59_fr r = Some rs /\
  (exists r', In r' rs /\ head_consequence benv_none C58_g X X r' p t) /\ ~ front_consequence benv_none C58_g X X r p t /\
  exists h pl, front_to_plan r = Some (h, pl) /\ ~ plan_consequence benv_none X X h pl p t.
Proof.
  exists (mkFrule (FHAtom (9, [EVar 0])) (FConj [FAtom 1 [EVar 0]; FNeg 2 [EVar 0; EWild]])).
  eexists. exists (fun p t => match p with 1 => t = [I32 1] | _ => t = [I32 1; I32 2] end), 9, [I32 1].
  split; [reflexivity|]. split; [reflexivity|]. split; [vm_compute; reflexivity|]. split; [|split].
  - eexists. split; [left; reflexivity|]. exists (fun v => I32 1). eexists. split; [|split; [left; reflexivity|split; reflexivity]].
    intros l [<-|[<-|[]]]; [reflexivity|]. cbn. discriminate.
  - intros (s & a & H & [<-|[]] & _ & K). cbn [fr_body fholds] in H. destruct H as (_ & (ws & H1 & H2) & _). cbn [snd] in K. inversion K as [|? ? ? ? Q1 Q2]; subst. cbn in Q1.
    inversion H1 as [|? w1 ? ? P1 P2]; subst. inversion P2 as [|? w2 ? ? P3 P4]; subst. inversion P4; subst. destruct w1 as [w1|]; [|discriminate P1]. destruct P1 as [_ P1]. cbn in P1.
    destruct w2 as [w2|]; [destruct P3 as [P3 _]; congruence|]. apply (H2 [I32 1; I32 2]); [|reflexivity]. constructor; [congruence|constructor; auto; constructor].
  - eexists. eexists. split; [vm_compute; reflexivity|]. intros (s & a & (s1 & A1 & (s2 & A2 & Hp) & Q) & _). cbn in Hp. injection Hp as H0. apply Q.
    exists (fun v => match v with 0 => s1 0 | _ => I32 2 end). split; [intros v J; cbn in J; destruct J as [<-|[]]; reflexivity|].
    cbn [psem bvars]. eexists. split; [apply agree_refl|]. cbn. rewrite (A2 0) by (cbn; auto). rewrite H0. reflexivity.
Qed.
(** [q(x) = p(x), x % 2 == 0]: the remainder is given to a fresh variable, which is
    then compared with a constant; propagating the constant drops the assignment
    (constant_propagation.rs 104-135), and with it the condition.  From [p(1)]
    the plan gives [q(1)]. *)
Theorem C59_remainder_refuted : exists r h pl X p t, full (fr_body r) = true /\ neg_wild_free (fr_body r) = true /\ constraints_ok (fr_body r) = true /\
  front_to_plan r = Some (h, pl) /\
  plan_consequence benv_none X X h pl p t /\ ~ front_consequence benv_none C58_g X X r p t.
Proof.
  exists (mkFrule (FHAtom (9, [EVar 0])) (FConj [FAtom 1 [EVar 0]; FCons (EBin OEq (EBin OMod (EVar 0) (EConst (I32 2))) (EConst (I32 0)))])).
  eexists. eexists. exists (fun p t => p = 1 /\ t = [I32 1]), 9, [I32 1].
  split; [reflexivity|]. split; [reflexivity|]. split; [reflexivity|]. split; [vm_compute; reflexivity|]. split.
  - exists (fun _ => I32 1). eexists. split; [|split; [left; reflexivity|split; reflexivity]].
    eexists. split; [apply agree_refl|]. split; reflexivity.
  - intros (s & a & H & [<-|[]] & _ & K). cbn [fr_body fholds] in H. destruct H as (_ & H & _).
    cbn [snd] in K. inversion K as [|? ? ? ? Q1 Q2]; subst. cbn in Q1.
    cbn [constraint_holds cop_of] in H. destruct H as (x & y & (x1 & x2 & E1 & E2 & E3) & E4 & E5). cbn in E1, E2, E4. subst.
    rewrite <- Q1 in E3. vm_compute in E3. injection E3 as <-. vm_compute in E5. discriminate.
Qed.
Print Assumptions C59_sound_partial.
Print Assumptions C59_complete_partial.
Print Assumptions C59_total.
Print Assumptions C59_compile_partial.
Print Assumptions C59_subtraction_refuted.
Print Assumptions C59_sum_refuted.
Print Assumptions C59_branch_refuted.
Print Assumptions C59_wildcard_refuted.
Print Assumptions C59_remainder_refuted.
