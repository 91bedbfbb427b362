(** C58: the passes on formulas preserve their meaning. *)
From Coq Require Import List ZArith Bool Arith Lia.
From Verif Require Import Value Order ListAux Back Eval BackSem PropsOpt Front FrontSem FrontFacts.
Import ListNotations.
Set Implicit Arguments.
Local Arguments bin_value : simpl never.
Local Arguments un_value : simpl never.

Lemma F2_forall_l : forall A B (R : A -> B -> Prop) (P : A -> Prop) l r, Forall P l -> Forall2 R l r -> Forall2 (fun x y => P x /\ R x y) l r.
Proof. intros A B R P l r H K. induction K; inversion H; subst; constructor; auto. Qed.

Lemma forallb_false : forall A (f : A -> bool) l, forallb f l = false <-> exists x, In x l /\ f x = false.
Proof.
  induction l as [|x l IH]; cbn; [split; [discriminate|intros (? & [] & _)]|]. destruct (f x) eqn:E; cbn.
  - rewrite IH. split; intros (y & I & Q); [exists y; auto|]. destruct I as [<-|I]; [congruence|]. eauto.
  - split; eauto.
Qed.

(** ** The disjunctive normal form *)
Section DNF.
  Variables (B : benv) (g : registry) (X M : interp) (s : subst).
  Notation sat f := (fholds B g X M s f).
  Definition conj_sat (c : cctx) : Prop := forall f, In f (clits c) -> sat f.

  Lemma dnf_sat : forall f, full f = true -> forall cs, from_formula f = Some cs -> (sat f <-> exists c, In c cs /\ conj_sat c).
  Proof.
    assert (ONE : forall f c, clits c = [f] -> (sat f <-> exists c', In c' [c] /\ conj_sat c')).
    { intros f c H. split.
      - intros K. exists c. split; [left; auto|]. intros h I. rewrite H in I. destruct I as [<-|[]]. exact K.
      - intros (c' & [<-|[]] & K). apply K. rewrite H. left; auto. }
    intros f. pattern f. apply form_ind2; clear f.
    - intros p l _ cs H. injection H as <-. apply ONE. reflexivity.
    - intros p l _ cs H. injection H as <-. apply ONE. reflexivity.
    - intros e _ cs H. injection H as <-. apply ONE. reflexivity.
    - intros l IH F cs H. cbn [from_formula] in H. destruct (oall (map from_formula l)) as [css|] eqn:E; [|discriminate]. cbn in H. injection H as <-.
      apply oall_map in E. assert (F' : Forall (fun f => full f = true) l).
      { apply Forall_forall. destruct l; [discriminate F|]. cbn [full] in F. rewrite forallb_forall in F. exact F. }
      assert (NE : css <> []) by (destruct E; [discriminate F|discriminate]). clear F.
      pose proof (F2_forall_l IH (F2_forall_l F' E)) as K. clear IH F' E.
      rewrite holds_conj. split.
      + intros H. assert (J : exists sel, Forall2 (fun c cs => In c cs) sel css /\ Forall conj_sat sel).
        { clear NE. induction K as [|f cs l css (K1 & K2 & K3) K IHK]; [exists []; split; constructor|].
          destruct IHK as (sel & S1 & S2); [intros; apply H; right; auto|].
          destruct (proj1 (K1 K2 cs K3)) as (c & C1 & C2); [apply H; left; auto|].
          exists (c :: sel). split; constructor; auto. }
        destruct J as (sel & S1 & S2). exists (conj_join sel). split.
        * apply in_map. apply multi_product_in; auto.
        * intros f I. apply clits_join in I. destruct I as (c & I1 & I2). rewrite Forall_forall in S2. apply (S2 c I1 f I2).
      + intros (c & I & C) f If. apply in_map_iff in I. destruct I as (sel & <- & I). apply multi_product_in in I; auto. clear NE.
        revert sel I C. induction K as [|f' cs l css (K1 & K2 & K3) K IHK]; intros sel I C; [destruct If|].
        inversion I as [|c cs' sel' css' C1 C2]; subst. destruct If as [->|If].
        * apply (K1 K2 cs K3). exists c. split; auto. intros h Ih. apply C. apply clits_join. exists c. split; [left|]; auto.
        * apply IHK with sel'; auto. intros h Ih. apply clits_join in Ih. destruct Ih as (c' & J1 & J2). apply C. apply clits_join. exists c'. split; [right|]; auto.
    - intros l IH F cs H. cbn [from_formula] in H. destruct (oall (map from_formula l)) as [css|] eqn:E; [|discriminate]. cbn in H. injection H as <-.
      apply oall_map in E. assert (F' : Forall (fun f => full f = true) l).
      { apply Forall_forall. cbn [full] in F. rewrite forallb_forall in F. exact F. }
      pose proof (F2_forall_l IH (F2_forall_l F' E)) as K. clear IH F' E F. rewrite holds_disj. split.
      + intros (f & I & H). destruct (F2_in_l _ K I) as (cs & J & K1 & K2 & K3). destruct (proj1 (K1 K2 cs K3) H) as (c & C1 & C2).
        exists c. split; auto. apply in_concat. eauto.
      + intros (c & I & C). apply in_concat in I. destruct I as (cs & J & I). destruct (F2_in_r _ K J) as (f & If & K1 & K2 & K3).
        exists f. split; auto. apply (K1 K2 cs K3). eauto.
    - intros; discriminate.
  Qed.
End DNF.
(** What conjuncts are made of. *)
Definition is_pos_lit (f : formula) : bool := match f with FAtom _ _ | FCons _ => true | _ => false end.
Definition is_neg_lit (f : formula) : bool := match f with FNeg _ _ => true | _ => false end.
Lemma dnf_shape : forall f cs, from_formula f = Some cs -> forall c, In c cs -> forallb is_pos_lit (c_pos c) = true /\ forallb is_neg_lit (c_neg c) = true.
Proof.
  intros f. pattern f. apply form_ind2; clear f; try (intros; match goal with H : from_formula _ = Some _ |- _ => injection H as <- end; cbn in *; intuition (subst; auto); fail).
  - intros l IH cs H c I. cbn [from_formula] in H. destruct (oall (map from_formula l)) as [css|] eqn:E; [|discriminate]. cbn in H. injection H as <-.
    apply oall_map in E. apply in_map_iff in I. destruct I as (sel & <- & I).
    assert (I' : Forall2 (fun y c => In y c) sel css) by (destruct css; [destruct I|apply multi_product_in in I; auto; discriminate]). clear I.
    destruct (join_lits sel) as [-> ->]. rewrite !forallb_forall.
    assert (K : forall c, In c sel -> forallb is_pos_lit (c_pos c) = true /\ forallb is_neg_lit (c_neg c) = true).
    { clear -IH E I'. pose proof (F2_forall_l IH E) as K. clear IH E. intros c I. destruct (F2_in_l _ I' I) as (cs & J1 & J2).
      destruct (F2_in_r _ K J1) as (f & _ & K1 & K2). eauto. }
    split; intros h Ih; apply in_flat_map in Ih; destruct Ih as (c & I1 & I2); destruct (K c I1) as [K1 K2]; rewrite forallb_forall in K1, K2; auto.
  - intros l IH cs H c I. cbn [from_formula] in H. destruct (oall (map from_formula l)) as [css|] eqn:E; [|discriminate]. cbn in H. injection H as <-.
    apply oall_map in E. apply in_concat in I. destruct I as (cs & J & I). destruct (F2_in_r _ (F2_forall_l IH E) J) as (f & _ & K1 & K2). eauto.
  - intros; discriminate.
Qed.
Lemma dnf_total : forall f, from_formula f = None <-> imp_free f = false.
Proof.
  intros f. pattern f. apply form_ind2; clear f; try (intros; cbn; split; intros; discriminate); try (intros; cbn; tauto).
  - intros l IH. cbn [from_formula imp_free]. rewrite Forall_forall in IH.
    assert (K : oall (map from_formula l) = None <-> forallb imp_free l = false).
    { rewrite oall_none. rewrite forallb_false. split; intros (x & I & Q); exists x; split; auto; apply IH; auto. }
    rewrite <- K. destruct (oall (map from_formula l)); cbn; split; intros; discriminate || auto.
  - intros l IH. cbn [from_formula imp_free]. rewrite Forall_forall in IH.
    assert (K : oall (map from_formula l) = None <-> forallb imp_free l = false).
    { rewrite oall_none. rewrite forallb_false. split; intros (x & I & Q); exists x; split; auto; apply IH; auto. }
    rewrite <- K. destruct (oall (map from_formula l)); cbn; split; intros; discriminate || auto.
Qed.

(** ** Decisions *)
Lemma value_dec : forall E s e, no_wild e = true -> (exists v, has_value E s e v) \/ ~ exists v, has_value E s e v.
Proof.
  intros E s e. pattern e. apply expr_ind2; clear e.
  - intros v _. left. exists (s v). reflexivity.
  - discriminate.
  - intros c _. left. exists c. reflexivity.
  - cbn. intros op a b IA IB W. apply andb_prop in W. destruct W as [Wa Wb].
    destruct (IA Wa) as [(x & Hx)|N]; [|right; intros (v & x & y & H & _); eauto].
    destruct (IB Wb) as [(y & Hy)|N]; [|right; intros (v & x' & y & _ & H & _); eauto].
    destruct (bin_value E op x y) as [r| |] eqn:Q; [left; exists r, x, y; auto| |];
      right; intros (v & x' & y' & H1 & H2 & H3); rewrite (value_unique _ _ _ Wa _ _ H1 Hx), (value_unique _ _ _ Wb _ _ H2 Hy) in H3; congruence.
  - cbn. intros op a IA Wa. destruct (IA Wa) as [(x & Hx)|N]; [|right; intros (v & x & H & _); eauto].
    destruct (un_value E op x) as [r| |] eqn:Q; [left; exists r, x; auto| |];
      right; intros (v & x' & H1 & H3); rewrite (value_unique _ _ _ Wa _ _ H1 Hx) in H3; congruence.
  - cbn. intros c a b IC IA IB W. apply andb_prop in W. destruct W as [W Wb]. apply andb_prop in W. destruct W as [Wc Wa].
    destruct (IC Wc) as [(x & Hx)|N]; [|right; intros (v & [[H _]|[H _]]); eauto].
    assert (T : forall b, has_value E s c (VBool b) -> x = VBool b) by (intros b' Hb; apply (value_unique E s c Wc); auto).
    assert (O : x <> VBool true -> x <> VBool false -> ~ exists v, has_value E s c (VBool true) /\ has_value E s a v \/ has_value E s c (VBool false) /\ has_value E s b v)
      by (intros N1 N2 (v & [[H _]|[H _]]); apply T in H; congruence).
    destruct x; try (right; apply O; discriminate). destruct b0.
    + destruct (IA Wa) as [(y & Hy)|N]; [left; exists y; auto|]. right. intros (v & [[_ H]|[H _]]); [eauto|]. apply T in H. discriminate.
    + destruct (IB Wb) as [(y & Hy)|N]; [left; exists y; auto|]. right. intros (v & [[H _]|[_ H]]); [|eauto]. apply T in H. discriminate.
  - intros f l IH W. cbn in W.
    assert (L : (exists vs, have_values E s l vs) \/ ~ exists vs, have_values E s l vs).
    { induction IH as [|e l He IH IHl]; [left; exists []; constructor|]. cbn in W. apply andb_prop in W. destruct W as [We Wl].
      destruct (He We) as [(v & Hv)|N]; [|right; intros (vs & H); inversion H; subst; eauto].
      destruct (IHl Wl) as [(vs & Hs)|N]; [left; exists (v :: vs); constructor; auto|right; intros (vs & H); inversion H; subst; eauto]. }
    destruct L as [(vs & Hs)|N]; [|right; intros (v & H); apply has_value_call in H; destruct H as (vs & H & _); eauto].
    destruct (e_call E f vs) as [r| |] eqn:Q; [left; exists r; apply has_value_call; eauto| |];
      (right; intros (v & H); apply has_value_call in H; destruct H as (us & H & K);
       replace us with vs in K; [congruence|]; clear -W H Hs; revert us H; induction Hs; intros us H'; inversion H'; subst; auto;
       cbn in W; apply andb_prop in W; destruct W; f_equal; [eapply value_unique; eauto|auto]).
  - intros f l IH W. cbn in W.
    assert (L : (exists vs, have_values E s l vs) \/ ~ exists vs, have_values E s l vs).
    { induction IH as [|e l He IH IHl]; [left; exists []; constructor|]. cbn in W. apply andb_prop in W. destruct W as [We Wl].
      destruct (He We) as [(v & Hv)|N]; [|right; intros (vs & H); inversion H; subst; eauto].
      destruct (IHl Wl) as [(vs & Hs)|N]; [left; exists (v :: vs); constructor; auto|right; intros (vs & H); inversion H; subst; eauto]. }
    destruct L as [(vs & Hs)|N]; [left; eexists; apply has_value_new; eauto|right; intros (v & H); apply has_value_new in H; destruct H as (vs & H & _); eauto].
Qed.
Lemma value_is_dec : forall E s e v, no_wild e = true -> has_value E s e v \/ ~ has_value E s e v.
Proof.
  intros E s e v W. destruct (value_dec E s e W) as [(x & H)|N]; [|right; eauto].
  destruct (to_eq_dec vcmp_TOrder x v) as [<-|N]; [left; auto|right]. intros K. apply N, (value_unique E s e W); auto.
Qed.
Lemma cop_dec : forall c x y, cop_sat c x y \/ ~ cop_sat c x y.
Proof.
  intros c x y. destruct c; cbn.
  - destruct (to_eq_dec vcmp_TOrder x y); auto.
  - destruct (to_eq_dec vcmp_TOrder x y); auto.
  - destruct (same_variant x y), (lt_able x), (vcmp x y); intuition congruence.
  - destruct (same_variant x y), (lt_able x), (vcmp x y); intuition congruence.
  - destruct (same_variant x y), (lt_able x), (vcmp x y); intuition congruence.
  - destruct (same_variant x y), (lt_able x), (vcmp x y); intuition congruence.
Qed.
Lemma cons_dec : forall E s e, no_wild e = true -> constraint_holds E s e \/ ~ constraint_holds E s e.
Proof.
  intros E s e W. unfold constraint_holds. destruct e; try (apply value_is_dec; exact W).
  - destruct (cop_of op) as [c|]; [|apply value_is_dec; exact W]. cbn in W. apply andb_prop in W. destruct W as [W1 W2].
    destruct (value_dec E s e1 W1) as [(x & Hx)|N]; [|right; intros (x & y & H & _); eauto].
    destruct (value_dec E s e2 W2) as [(y & Hy)|N]; [|right; intros (x' & y & _ & H & _); eauto].
    destruct (cop_dec c x y) as [C|C]; [left; eauto|right]. intros (x' & y' & H1 & H2 & H3).
    rewrite (value_unique _ _ _ W1 _ _ H1 Hx), (value_unique _ _ _ W2 _ _ H2 Hy) in H3. auto.
  - destruct op; try (apply value_is_dec; exact W).
Qed.

(** ** Negation and implication *)
Lemma eval_conj : forall E s l, args_evaluate E s (FConj l) <-> forall f, In f l -> args_evaluate E s f.
Proof.
  intros E s. induction l as [|f l IH]; cbn in *; [tauto|].
  rewrite IH. split; [intros [H K] h [<-|I]; auto|]. intros H. split; intros; apply H; auto.
Qed.
Lemma eval_disj : forall E s l, args_evaluate E s (FDisj l) <-> forall f, In f l -> args_evaluate E s f.
Proof. exact eval_conj. Qed.
Lemma pattern_values : forall E s l ws vs, forallb arg_ok l = true -> Forall2 (arg_pattern E s) l ws -> (fits ws vs <-> have_values E s l vs).
Proof.
  intros E s l ws vs W H. revert vs W. induction H as [|e w l ws H1 H IH]; intros vs W.
  - split; intros K; inversion K; constructor.
  - cbn in W. apply andb_prop in W. destruct W as [We Wl]. split; intros K; inversion K; subst; constructor; try (apply IH; auto; fail).
    + destruct w as [x|]; [subst; apply H1|cbn in H1; subst; exact Logic.I].
    + destruct w as [x|]; [|exact Logic.I]. destruct H1 as [H1 H1']. apply (value_unique E s e); auto. destruct e; auto; congruence.
Qed.
Lemma pattern_exists : forall E s l, (forall e, In e l -> exists v, has_value E s e v) -> exists ws, Forall2 (arg_pattern E s) l ws.
Proof.
  intros E s. induction l as [|e l IH]; intros H; [exists []; constructor|].
  destruct IH as (ws & K); [intros; apply H; right; auto|]. destruct (H e) as (v & Hv); [left; auto|].
  assert (exists w, arg_pattern E s e w) as (w & Hw) by (destruct e; try (exists (Some v); split; [discriminate|exact Hv]); exists None; reflexivity).
  exists (w :: ws). constructor; auto.
Qed.

Section Implies.
  Variables (B : benv) (g : registry) (D : interp) (s : subst).
  Hypothesis DEC : decided B g D.
  Notation sat f := (fholds B g D D s f).
  Notation E := (b_env B).
  Definition fine (f : formula) : Prop := wild_ok f = true /\ args_evaluate E s f.

  Lemma fine_list : forall l, (fine (FConj l) <-> forall f, In f l -> fine f) /\ (fine (FDisj l) <-> forall f, In f l -> fine f).
  Proof.
    intros l. unfold fine. rewrite eval_conj, eval_disj. cbn [wild_ok]. rewrite forallb_forall. split; split; intros H; repeat split; try intros f I; try (destruct H as [H1 H2]; split; auto); apply H; auto.
  Qed.
  Lemma atom_neg : forall p l, fine (FAtom p l) -> (sat (FNeg p l) <-> ~ sat (FAtom p l)) /\ (sat (FAtom p l) \/ ~ sat (FAtom p l)).
  Proof.
    intros p l [W Ev]. cbn in W, Ev. destruct (pattern_exists E s l Ev) as (ws & P). 
    assert (A : sat (FAtom p l) <-> exists vs, fits ws vs /\ tuples B g D p vs).
    { cbn. split; intros (vs & H & K); exists vs; split; auto; apply (pattern_values vs W P); auto. }
    split.
    - rewrite A. cbn. split.
      + intros (ws' & P' & H) (vs & F & T). apply (H vs); auto. apply (pattern_values vs W P'). apply (pattern_values vs W P). exact F.
      + intros H. exists ws. split; auto. intros vs F T. apply H. eauto.
    - rewrite A. apply DEC.
  Qed.
  Lemma sat_dec : forall f, fine f -> sat f \/ ~ sat f.
  Proof.
    intros f. pattern f. apply form_ind2; clear f.
    - intros p l F. apply atom_neg. exact F.
    - intros p l F. assert (F' : fine (FAtom p l)) by exact F. destruct (atom_neg F') as [H [K|K]]; [right|left]; rewrite H; tauto.
    - intros e [W _]. apply cons_dec. exact W.
    - intros l IH F. rewrite holds_conj. assert (F' := proj1 (proj1 (fine_list l)) F). clear F. induction IH as [|f l Hf IH IHl]; [left; intros f []|].
      destruct (Hf (F' _ (or_introl eq_refl))) as [H|H]; [|right; intros K; apply H, K; left; auto].
      destruct IHl as [K|K]; [intros; apply F'; right; auto| |]; [left; intros h [<-|I]; auto|right; intros Q; apply K; intros; apply Q; right; auto].
    - intros l IH F. rewrite holds_disj. assert (F' := proj1 (proj2 (fine_list l)) F). clear F. induction IH as [|f l Hf IH IHl]; [right; intros (f & [] & _)|].
      destruct (Hf (F' _ (or_introl eq_refl))) as [H|H]; [left; exists f; split; [left|]; auto|].
      destruct IHl as [(h & I & K)|K]; [intros; apply F'; right; auto| |]; [left; exists h; split; [right|]; auto|].
      right. intros (h & [<-|I] & Q); eauto.
    - intros a b IA IB [W [Ea Eb]]. cbn in W. apply andb_prop in W. destruct W as [Wa Wb]. cbn.
      destruct (IA (conj Wa Ea)), (IB (conj Wb Eb)); tauto.
  Qed.
  Lemma negate_sat : forall f, fine f -> forall f', negate f = Some f' -> (sat f' <-> ~ sat f) /\ fine f' /\ fsize f' <= fsize f.
  Proof.
    intros f. pattern f. apply form_ind2; clear f.
    - intros p l F f' H. injection H as <-. split; [apply atom_neg; auto|]. split; [exact F|auto].
    - intros p l F f' H. injection H as <-. assert (F' : fine (FAtom p l)) by exact F. destruct (atom_neg F') as [H K]. rewrite H. split; [tauto|]. split; [exact F|auto].
    - intros; discriminate.
    - intros l IH F f' H. cbn [negate] in H. destruct (oall (map negate l)) as [l'|] eqn:Q; [|discriminate]. injection H as <-. apply oall_map in Q.
      assert (F' := proj1 (proj1 (fine_list l)) F). clear F.
      pose proof (F2_forall_l IH Q) as K. clear IH Q.
      assert (K' : Forall2 (fun f f' => fine f /\ (sat f' <-> ~ sat f) /\ fine f' /\ fsize f' <= fsize f) l l').
      { clear -K F'. induction K as [|f f' l l' (K1 & K2) K IH]; constructor; [|apply IH; intros; apply F'; right; auto].
        assert (fine f) by (apply F'; left; auto). auto. }
      clear K. split; [|split].
      + rewrite holds_disj, holds_conj. split.
        * intros (f' & I & H) A. destruct (F2_in_r _ K' I) as (f & J & _ & K1 & _). apply K1 in H. apply H, A, J.
        * intros N. clear F'. induction K' as [|f f' l l' (K0 & K1 & _) K IH]; [exfalso; apply N; intros f []|].
          destruct (sat_dec K0) as [H|H]; [|exists f'; split; [left; auto|apply K1; auto]].
          destruct IH as (h & I & Q); [intros A; apply N; intros h [<-|I]; auto|]. exists h. split; [right|]; auto.
      + apply (proj2 (fine_list l')). intros f' I. destruct (F2_in_r _ K' I) as (f & J & _ & _ & K2 & _). exact K2.
      + cbn. apply le_n_S. clear F'. induction K' as [|f f' l l' (K0 & K1 & K2 & K3) K IH]; unfold list_sum in *; cbn in *; lia.
    - intros l IH F f' H. cbn [negate] in H. destruct (oall (map negate l)) as [l'|] eqn:Q; [|discriminate]. injection H as <-. apply oall_map in Q.
      assert (F' := proj1 (proj2 (fine_list l)) F). clear F.
      pose proof (F2_forall_l IH Q) as K. clear IH Q.
      assert (K' : Forall2 (fun f f' => fine f /\ (sat f' <-> ~ sat f) /\ fine f' /\ fsize f' <= fsize f) l l').
      { clear -K F'. induction K as [|f f' l l' (K1 & K2) K IH]; constructor; [|apply IH; intros; apply F'; right; auto].
        assert (fine f) by (apply F'; left; auto). auto. }
      clear K. split; [|split].
      + rewrite holds_disj, holds_conj. split.
        * intros A (f & I & H). destruct (F2_in_l _ K' I) as (f' & J & _ & K1 & _). apply A in J. apply K1 in J. auto.
        * intros N f' I. destruct (F2_in_r _ K' I) as (f & J & _ & K1 & _). apply K1. intros H. apply N. eauto.
      + apply (proj1 (fine_list l')). intros f' I. destruct (F2_in_r _ K' I) as (f & J & _ & _ & K2 & _). exact K2.
      + cbn. apply le_n_S. clear F'. induction K' as [|f f' l l' (K0 & K1 & K2 & K3) K IH]; unfold list_sum in *; cbn in *; lia.
    - intros a b IA IB [W [Ea Eb]] f' H. cbn in W. apply andb_prop in W. destruct W as [Wa Wb]. cbn [negate] in H. destruct (negate b) as [b'|] eqn:Q; [|discriminate].
      injection H as <-. destruct (IB (conj Wb Eb) b' eq_refl) as (K1 & [K2 K2'] & K3). split; [|split].
      + cbn. rewrite K1. destruct (sat_dec (f := a)) as [H|H]; [split; auto| |]; cbn in *; tauto.
      + split; cbn; [rewrite Wa, K2; auto|auto].
      + cbn. lia.
  Qed.
  Lemma walk_sat : forall n f, fine f -> forall f', implies_walk n f = Some f' -> sat f' <-> sat f.
  Proof.
    induction n as [|n IH]; intros f F f' H; [discriminate|]. destruct f; try (injection H as <-; tauto); cbn [implies_walk] in H.
    - destruct (oall (map (implies_walk n) l)) as [l'|] eqn:Q; [|discriminate]. injection H as <-. apply oall_map in Q. rewrite !holds_conj.
      assert (F' := proj1 (proj1 (fine_list l)) F). split.
      + intros A f I. destruct (F2_in_l _ Q I) as (f' & J & K). apply (IH f (F' f I) f' K). auto.
      + intros A f' I. destruct (F2_in_r _ Q I) as (f & J & K). apply (IH f (F' f J) f' K). auto.
    - destruct (oall (map (implies_walk n) l)) as [l'|] eqn:Q; [|discriminate]. injection H as <-. apply oall_map in Q. rewrite !holds_disj.
      assert (F' := proj1 (proj2 (fine_list l)) F). split.
      + intros (f' & I & A). destruct (F2_in_r _ Q I) as (f & J & K). exists f. split; auto. apply (IH f (F' f J) f' K). auto.
      + intros (f & I & A). destruct (F2_in_l _ Q I) as (f' & J & K). exists f'. split; auto. apply (IH f (F' f I) f' K). auto.
    - destruct (negate f1) as [a|] eqn:Q; [|discriminate]. cbn in H. destruct (implies_walk n a) as [a'|] eqn:Q1; [|discriminate]. cbn in H.
      destruct (implies_walk n f2) as [b'|] eqn:Q2; [|discriminate]. injection H as <-.
      destruct F as [W [Ea Eb]]. cbn in W. apply andb_prop in W. destruct W as [Wa Wb].
      assert (F1 : fine f1) by (split; auto). destruct (negate_sat F1 Q) as (K1 & K2 & _).
      pose proof (IH a K2 a' Q1) as S1. pose proof (IH f2 (conj Wb Eb) b' Q2) as S2. cbn. destruct (sat_dec F1); tauto.
  Qed.
End Implies.
(** The walk fails exactly on negated constraints, and leaves no implication. *)
Lemma negate_size : forall f f', negate f = Some f' -> fsize f' <= fsize f.
Proof.
  intros f. pattern f. apply form_ind2; clear f; try (intros; match goal with H : negate _ = Some _ |- _ => injection H as <- end; cbn; auto; fail).
  - intros; discriminate.
  - intros l IH f' H. cbn [negate] in H. destruct (oall (map negate l)) as [l'|] eqn:Q; [|discriminate]. injection H as <-. apply oall_map in Q.
    pose proof (F2_forall_l IH Q) as K. cbn. apply le_n_S. clear -K. induction K as [|f f' l l' [K1 K2] K IH]; unfold list_sum in *; cbn in *; [lia|]. specialize (K1 _ K2). lia.
  - intros l IH f' H. cbn [negate] in H. destruct (oall (map negate l)) as [l'|] eqn:Q; [|discriminate]. injection H as <-. apply oall_map in Q.
    pose proof (F2_forall_l IH Q) as K. cbn. apply le_n_S. clear -K. induction K as [|f f' l l' [K1 K2] K IH]; unfold list_sum in *; cbn in *; [lia|]. specialize (K1 _ K2). lia.
  - intros a b _ IB f' H. cbn [negate] in H. destruct (negate b) as [b'|] eqn:Q; [|discriminate]. injection H as <-. specialize (IB _ eq_refl). cbn. lia.
Qed.
Lemma negate_total : forall f, (match negate f with Some f' => cons_ok true f' | None => false end) = cons_ok false f.
Proof.
  intros f. pattern f. apply form_ind2; clear f; auto.
  - intros l IH. cbn [negate cons_ok]. induction IH as [|f l Hf IH IHl]; [reflexivity|]. cbn. rewrite <- Hf, <- IHl.
    destruct (negate f) as [f'|]; cbn; [|reflexivity]. destruct (oall (map negate l)) as [l'|]; cbn; [reflexivity|]. destruct (cons_ok true f'); reflexivity.
  - intros l IH. cbn [negate cons_ok]. induction IH as [|f l Hf IH IHl]; [reflexivity|]. cbn. rewrite <- Hf, <- IHl.
    destruct (negate f) as [f'|]; cbn; [|reflexivity]. destruct (oall (map negate l)) as [l'|]; cbn; [reflexivity|]. destruct (cons_ok true f'); reflexivity.
  - intros a b _ IB. cbn [negate cons_ok]. rewrite <- IB. destruct (negate b) as [b'|]; cbn; [rewrite andb_true_r; reflexivity|rewrite andb_false_r; reflexivity].
Qed.
Lemma in_size : forall l f, In f l -> fsize f <= list_sum (map fsize l).
Proof. induction l as [|h l IH]; intros f []; unfold list_sum in *; cbn; [subst; lia|]. specialize (IH f H). lia. Qed.
Lemma walk_total : forall n f, fsize f <= n -> (implies_walk n f = None <-> cons_ok true f = false).
Proof.
  induction n as [|n IH]; intros f L; [destruct f; cbn in L; lia|].
  destruct f; try (cbn; split; discriminate); cbn [implies_walk cons_ok negb].
  - assert (K : oall (map (implies_walk n) l) = None <-> forallb (cons_ok true) l = false).
    { rewrite oall_none, forallb_false. cbn in L. split; intros (x & I & Q); exists x; split; auto; apply IH; auto; pose proof (in_size _ _ I); lia. }
    rewrite <- K. destruct (oall (map (implies_walk n) l)); cbn; split; intros; discriminate || auto.
  - assert (K : oall (map (implies_walk n) l) = None <-> forallb (cons_ok true) l = false).
    { rewrite oall_none, forallb_false. cbn in L. split; intros (x & I & Q); exists x; split; auto; apply IH; auto; pose proof (in_size _ _ I); lia. }
    rewrite <- K. destruct (oall (map (implies_walk n) l)); cbn; split; intros; discriminate || auto.
  - cbn in L. rewrite <- negate_total. destruct (negate f1) as [a|] eqn:Q; cbn; [|tauto]. pose proof (negate_size _ Q).
    pose proof (IH a ltac:(lia)) as K1. pose proof (IH f2 ltac:(lia)) as K2.
    destruct (implies_walk n a) as [a'|]; cbn.
    + destruct (cons_ok true a); [|exfalso; destruct K1 as [_ K1]; discriminate (K1 eq_refl)]. cbn.
      rewrite <- K2. destruct (implies_walk n f2); cbn; split; intros; discriminate || auto.
    + destruct K1 as [K1 _]. rewrite (K1 eq_refl). cbn. tauto.
Qed.
Lemma walk_imp_free : forall n f f', implies_walk n f = Some f' -> imp_free f' = true.
Proof.
  induction n as [|n IH]; intros f f' H; [discriminate|]. destruct f; try (injection H as <-; reflexivity); cbn [implies_walk] in H.
  - destruct (oall (map (implies_walk n) l)) as [l'|] eqn:Q; [|discriminate]. injection H as <-. apply oall_map in Q. cbn. apply forallb_forall. intros x I.
    destruct (F2_in_r _ Q I) as (y & _ & K). eauto.
  - destruct (oall (map (implies_walk n) l)) as [l'|] eqn:Q; [|discriminate]. injection H as <-. apply oall_map in Q. cbn. apply forallb_forall. intros x I.
    destruct (F2_in_r _ Q I) as (y & _ & K). eauto.
  - destruct (negate f1) as [a|]; [|discriminate]. cbn in H. destruct (implies_walk n a) as [a'|] eqn:Q1; [|discriminate]. cbn in H.
    destruct (implies_walk n f2) as [b'|] eqn:Q2; [|discriminate]. injection H as <-. cbn. rewrite (IH _ _ Q1), (IH _ _ Q2). reflexivity.
Qed.

(** ** C58 *)
(** The alternatives that the boundness analysis and the translation to the back
    end work on are together the formula. *)
Theorem C58_dnf : forall B g X M s f cs, full f = true -> from_formula f = Some cs ->
  (fholds B g X M s f <-> exists c, In c cs /\ forall l, In l (c_pos c ++ c_neg c) -> fholds B g X M s l) /\
  forall c l, In c cs -> (In l (c_pos c) -> (exists p es, l = FAtom p es) \/ exists e, l = FCons e) /\ (In l (c_neg c) -> exists p es, l = FNeg p es).
Proof.
  intros B g X M s f cs F H. split; [apply (dnf_sat B g X M s f F H)|]. intros c l I. destruct (dnf_shape f H c I) as [K1 K2].
  rewrite forallb_forall in K1, K2. split; intros J; [apply K1 in J|apply K2 in J]; destruct l; try discriminate J; eauto.
Qed.
Theorem C58_dnf_total : forall f, from_formula f = None <-> imp_free f = false.
Proof. exact dnf_total. Qed.

(** Rewriting implications keeps the meaning in every model whose relations are
    decided, for substitutions that give values to the arguments of atoms; it
    leaves no implication, and fails exactly when a constraint is negated. *)
Theorem C58_implies : forall B g D s f f', decided B g D -> wild_ok f = true -> args_evaluate (b_env B) s f ->
  transform_implies f = Some f' -> (fholds B g D D s f' <-> fholds B g D D s f) /\ imp_free f' = true.
Proof.
  intros B g D s f f' DEC W Ev H. split; [|exact (walk_imp_free _ _ H)]. apply (walk_sat DEC (fsize f) (conj W Ev) H).
Qed.
Theorem C58_implies_total : forall f, transform_implies f = None <-> cons_ok true f = false.
Proof. intros f. apply walk_total. auto. Qed.

(** Both passes on a rule. *)
Theorem C58_rule_partial : forall B g D r rs, decided B g D -> wild_ok (fr_body r) = true -> (forall s, args_evaluate (b_env B) s (fr_body r)) ->
  apply_transformations r = Some rs ->
  forall p t, front_consequence B g D D r p t <-> exists r', In r' rs /\ front_consequence B g D D r' p t.
Proof.
  intros B g D r rs DEC W Ev H p t. unfold apply_transformations in H. destruct (fr_head r) as [a|l|a l] eqn:Q.
  - destruct (transform_implies (fr_body r)) as [b|] eqn:T; [|discriminate]. injection H as <-. split.
    + intros (s & x & H & K & L). eexists. split; [left; reflexivity|]. exists s, x. cbn. rewrite Q in K. split; [|split; auto]. apply (@C58_implies B g D s _ _ DEC W (Ev s) T). exact H.
    + intros (r' & [<-|[]] & s & x & H & K & L). exists s, x. cbn in K. rewrite Q. split; [|split; auto]. apply (@C58_implies B g D s _ _ DEC W (Ev s) T). exact H.
  - injection H as <-. unfold split_heads. rewrite Q. split.
    + intros (s & x & H & K & L). rewrite Q in K. cbn in K. exists (mkFrule (FHAtom x) (fr_body r)). split; [apply in_map_iff; eauto|].
      exists s, x. cbn. auto.
    + intros (r' & I & s & x & H & K & L). apply in_map_iff in I. destruct I as (y & <- & I). cbn in *. destruct K as [<-|[]]. exists s, y. rewrite Q. auto.
  - destruct (transform_implies (fr_body r)) as [b|] eqn:T; [|discriminate]. injection H as <-. split.
    + intros (s & x & H & K & L). eexists. split; [left; reflexivity|]. exists s, x. cbn. rewrite Q in K. split; [|split; auto]. apply (@C58_implies B g D s _ _ DEC W (Ev s) T). exact H.
    + intros (r' & [<-|[]] & s & x & H & K & L). exists s, x. cbn in K. rewrite Q. split; [|split; auto]. apply (@C58_implies B g D s _ _ DEC W (Ev s) T). exact H.
Qed.

(** [q(x) = p(x, _) and (r(x) implies (s(x) or not t(x, _)))], in a model with
    p = {(1,1), (2,1), (3,1)}, r = {1, 2}, s = {1}, t = {(2, 3)}. *)
Definition C58_f : formula :=
  FConj [FAtom 1 [EVar 0; EWild]; FImp (FAtom 2 [EVar 0]) (FDisj [FAtom 3 [EVar 0]; FNeg 4 [EVar 0; EWild]])].
Definition C58_rel (p : pred) : list (list value) :=
  match p with
  | 1 => [[I32 1; I32 1]; [I32 2; I32 1]; [I32 3; I32 1]] | 2 => [[I32 1]; [I32 2]] | 3 => [[I32 1]] | 4 => [[I32 2; I32 3]]
  | _ => [] end.
Definition C58_D : interp := fun p t => In t (C58_rel p).
Definition C58_g : registry := mkReg (fun _ => false) (fun _ => false) (fun _ => false) [].
Lemma C58_decided : decided benv_none C58_g C58_D.
Proof.
  intros p ws. unfold tuples, C58_D. cbn [g_foreign C58_g]. generalize (C58_rel p). intros l.
  assert (F : forall vs, fits ws vs \/ ~ fits ws vs).
  { unfold fits. induction ws as [|w ws IH]; intros [|v vs]; try (left; constructor; fail); try (right; intros H; inversion H; fail).
    destruct (IH vs) as [H|H]; [|right; intros K; inversion K; auto].
    destruct w as [x|]; [|left; constructor; auto]. destruct (to_eq_dec vcmp_TOrder v x); [left; constructor; auto|right; intros K; inversion K; auto]. }
  induction l as [|t l IH]; [right; intros (vs & _ & [])|]. destruct (F t); [left; exists t; cbn; auto|].
  destruct IH as [(vs & H1 & H2)|N]; [left; exists vs; cbn; auto|right]. intros (vs & H1 & [<-|H2]); eauto.
Qed.
Example C58_ex : exists f' cs, transform_implies C58_f = Some f' /\ from_formula f' = Some cs /\ length cs = 3 /\
  wild_ok C58_f = true /\ full f' = true /\ (forall s, args_evaluate env_none s C58_f) /\
  fholds benv_none C58_g C58_D C58_D (fun _ => I32 1) C58_f /\ ~ fholds benv_none C58_g C58_D C58_D (fun _ => I32 2) C58_f /\
  fholds benv_none C58_g C58_D C58_D (fun _ => I32 3) C58_f.
Proof.
  assert (V : forall s l, (forall e, In e l -> e = EVar 0 \/ e = EWild) -> forall e, In e l -> exists v, has_value env_none s e v)
    by (intros s l H e I; destruct (H e I) as [-> | ->]; [exists (s 0); reflexivity|exists (I32 0); exact Logic.I]).
  eexists. eexists. split; [vm_compute; reflexivity|]. split; [vm_compute; reflexivity|]. split; [reflexivity|]. split; [reflexivity|]. split; [reflexivity|].
  split; [|split; [|split]].
  - intros s. cbn [args_evaluate C58_f]. repeat split; intros e I; (eapply V; [|exact I]); cbn; intuition auto.
  - cbn. split; [exists [I32 1; I32 1]; split; [repeat constructor|left; reflexivity]|]. split; [|exact Logic.I].
    intros _. left. exists [I32 1]. split; [repeat constructor|left; reflexivity].
  - cbn. intros (_ & H & _). destruct H as [(vs & H & K)|[(ws & H & K)|[]]].
    + exists [I32 2]. split; [repeat constructor|right; left; reflexivity].
    + inversion H as [|? ? ? ? H1 H2]; subst. inversion H2; subst. cbn in H1. subst. destruct K as [K|[]]. discriminate K.
    + apply (K [I32 2; I32 3]); [|left; reflexivity]. inversion H as [|? w ? ? H1 H2]; subst. inversion H2 as [|? u ? ? H3 H4]; subst. inversion H4; subst.
      destruct w as [x|]; [destruct H1 as [_ ->]|discriminate H1]. destruct u as [y|]; [destruct H3 as [H3 _]; congruence|]. repeat constructor.
  - cbn. split; [exists [I32 3; I32 1]; split; [repeat constructor|right; right; left; reflexivity]|]. split; [|exact Logic.I].
    intros (vs & H & K). inversion H as [|? ? ? ? H1 H2]; subst. inversion H2; subst. cbn in H1. subst. destruct K as [K|[K|[]]]; discriminate K.
Qed.

(** [q(x) = p(x, _) and (x > 1 implies s(x))]: the compiler panics. *)
Theorem C58_constraint_refuted : exists r, wild_ok (fr_body r) = true /\ full (fr_body r) = true /\ (forall v, In v (form_vars (fr_body r)) -> v = 0) /\
  apply_transformations r = None.
Proof.
  exists (mkFrule (FHAtom (5, [EVar 0])) (FConj [FAtom 1 [EVar 0; EWild]; FImp (FCons (EBin OGt (EVar 0) (EConst (I32 1)))) (FAtom 3 [EVar 0])])).
  split; [reflexivity|]. split; [reflexivity|]. split; [cbn; intuition auto|reflexivity].
Qed.
(** [q(x), r(x) = ...] with an implication in the body panics, while [q(x) = ...]
    and [r(x) = ...] compile. *)
Theorem C58_conjunctive_refuted : exists fr a b body, (forall n, fr n <> 0) /\
  compile_rule fr (mkFrule (FHAtom a) body) <> None /\ compile_rule fr (mkFrule (FHAtom b) body) <> None /\
  compile_rule fr (mkFrule (FHConj [a; b]) body) = None.
Proof.
  exists S, (5, [EVar 0]), (6, [EVar 0]), C58_f. split; [discriminate|]. split; [vm_compute; discriminate|]. split; [vm_compute; discriminate|]. vm_compute. reflexivity.
Qed.

(** ** Facts with expressions, queries, ranges *)
Lemma no_vars_value : forall E s s' e r, expr_vars e = [] -> has_value E s e r -> has_value E s' e r.
Proof. intros E s s' e r V. apply value_local. rewrite V. intros v []. Qed.
Lemma fact_args_ok : forall B g X M fnc, (forall i j, fnc i = fnc j -> i = j) -> forall l i es fs, fact_args fnc i l = (es, fs) -> (forall e, In e l -> expr_vars e = []) ->
  forall s0 t, have_values (b_env B) s0 l t <-> exists s, (forall f, In f fs -> fholds B g X M s f) /\ have_values (b_env B) s es t.
Proof.
  intros B g X M fnc INJ l. induction l as [|e l IH]; intros i es fs H V s0 t; cbn in H.
  - injection H as <- <-. split.
    + intros K. inversion K. exists s0. split; [intros f []|constructor].
    + intros (s & _ & K). inversion K. constructor.
  - destruct (fact_args fnc (S i) l) as [es' fs'] eqn:Q. 
    assert (Ve : expr_vars e = []) by (apply V; left; auto).
    assert (V' : forall e, In e l -> expr_vars e = []) by (intros; apply V; right; auto).
    assert (FV : forall f v, In f fs' -> In v (form_vars f) -> exists j, i < j /\ v = fnc j).
    { clear -Q V'. revert i es' fs' Q. induction l as [|e l IH]; intros i es' fs' Q f v I J; cbn in Q; [injection Q as <- <-; destruct I|].
      destruct (fact_args fnc (S (S i)) l) as [es2 fs2] eqn:Q2. assert (K : In f fs2 -> exists j, i < j /\ v = fnc j).
      { intros I2. destruct (IH (fun e I => V' e (or_intror I)) _ _ _ Q2 f v I2 J) as (j & L & ->). exists j. split; auto. lia. }
      destruct (is_econst e); injection Q as <- <-; auto. destruct I as [<-|I]; auto. cbn in J. rewrite (V' e (or_introl eq_refl)) in J.
      destruct J as [<-|[]]. exists (S i). split; auto. }
    assert (FE : forall e v, In e es' -> In v (expr_vars e) -> exists j, i < j /\ v = fnc j).
    { clear -Q V'. revert i es' fs' Q. induction l as [|e l IH]; intros i es' fs' Q f v I J; cbn in Q; [injection Q as <- <-; destruct I|].
      destruct (fact_args fnc (S (S i)) l) as [es2 fs2] eqn:Q2. assert (K : In f es2 -> exists j, i < j /\ v = fnc j).
      { intros I2. destruct (IH (fun e I => V' e (or_intror I)) _ _ _ Q2 f v I2 J) as (j & L & ->). exists j. split; auto. lia. }
      destruct (is_econst e) eqn:C; injection Q as <- <-; destruct I as [<-|I]; auto.
      - rewrite (V' e (or_introl eq_refl)) in J. destruct J.
      - destruct J as [<-|[]]. exists (S i). split; auto. }
    assert (CONS : forall f, In f fs' -> exists e', f = FCons e').
    { clear -Q. revert i es' fs' Q. induction l as [|e l IH]; intros i es' fs' Q f I; cbn in Q; [injection Q as <- <-; destruct I|].
      destruct (fact_args fnc (S (S i)) l) as [es2 fs2] eqn:Q2. destruct (is_econst e); injection Q as <- <-; eauto. destruct I as [<-|I]; eauto. }
    assert (CL : forall s s' f, In f fs' -> (forall v, In v (form_vars f) -> s v = s' v) -> fholds B g X M s f -> fholds B g X M s' f).
    { assert (EQS : forall f, In f fs' -> exists a b, f = FCons (EBin OEq a b)).
      { clear -Q. revert i es' fs' Q. induction l as [|e l IH]; intros i es' fs' Q f I; cbn in Q; [injection Q as <- <-; destruct I|].
        destruct (fact_args fnc (S (S i)) l) as [es2 fs2] eqn:Q2. destruct (is_econst e); injection Q as <- <-; eauto. destruct I as [<-|I]; eauto. }
      intros s s' f I Vs. destruct (EQS f I) as (a & b & ->). cbn. intros (x & y & H1 & H2 & H3). exists x, y.
      split; [|split; auto]; (eapply value_local; [|eauto]); intros; apply Vs; cbn; rewrite in_app_iff; auto. }
    destruct (is_econst e) eqn:C; injection H as <- <-.
    + split.
      * intros K. inversion K as [|? v ? vs K1 K2]; subst. apply (IH (S i) es' fs' Q V' s0) in K2. destruct K2 as (s & A & K2). exists s. split; auto.
        constructor; auto. eapply no_vars_value; eauto.
      * intros (s & A & K). inversion K as [|? v ? vs K1 K2]; subst. constructor; [eapply no_vars_value; eauto|]. apply (IH (S i) es' fs' Q V' s0). exists s. auto.
    + split.
      * intros K. inversion K as [|? v ? vs K1 K2]; subst. apply (IH (S i) es' fs' Q V' s0) in K2. destruct K2 as (s & A & K2).
        pose (s' := fun w => if Nat.eq_dec w (fnc i) then v else s w).
        assert (AG : forall j, i < j -> s (fnc j) = s' (fnc j)) by (intros j L; unfold s'; destruct (Nat.eq_dec (fnc j) (fnc i)) as [Z|]; auto; apply INJ in Z; lia).
        exists s'. split.
        -- intros f [<-|I].
           ++ cbn. exists v, v. split; [|split; auto]; [unfold s'; destruct (Nat.eq_dec (fnc i) (fnc i)); congruence|]. eapply no_vars_value; eauto.
           ++ apply (CL s s' f I); [|apply A; auto]. intros w Iw. destruct (FV f w I Iw) as (j & L & ->). auto.
        -- constructor; [cbn; unfold s'; destruct (Nat.eq_dec (fnc i) (fnc i)); congruence|]. eapply values_local; [|exact K2].
           intros w Iw. apply in_flat_map in Iw. destruct Iw as (e' & I1 & I2). destruct (FE e' w I1 I2) as (j & L & ->). auto.
      * intros (s & A & K). inversion K as [|? v ? vs K1 K2]; subst. constructor.
        -- destruct (A _ (or_introl eq_refl)) as (x & y & H1 & H2 & H3). cbn in H1, H3, K1. subst. eapply no_vars_value; eauto.
        -- apply (IH (S i) es' fs' Q V' s0). exists s. split; auto. intros; apply A; right; auto.
Qed.
(** A fact whose arguments are expressions without variables becomes a rule that
    derives exactly this fact. *)
Theorem C58_fact : forall B g X M fnc a r, (forall i j, fnc i = fnc j -> i = j) -> (forall e, In e (snd a) -> expr_vars e = []) ->
  fact_to_rule fnc a = Some r ->
  forall s0 p t, front_consequence B g X M r p t <-> p = fst a /\ have_values (b_env B) s0 (snd a) t.
Proof.
  intros B g X M fnc a r INJ V H s0 p t. unfold fact_to_rule in H. destruct (fact_args fnc 0 (snd a)) as [es fs] eqn:Q.
  assert (R : r = mkFrule (FHAtom (fst a, es)) (FConj fs)) by (destruct fs; [discriminate|congruence]). clear H. subst r.
  rewrite (fact_args_ok B g X M fnc INJ _ _ Q V s0 t). unfold front_consequence. cbn [fr_body fr_head fhead_atoms]. split.
  - intros (s & x & H & [<-|[]] & -> & K). split; auto. exists s. split; auto. apply holds_conj. exact H.
  - intros (-> & s & H & K). exists s, (fst a, es). split; [apply holds_conj; exact H|]. cbn. auto.
Qed.
Lemma query_args_in : forall qa B g X M s l i es fs, query_args qa i l = (es, fs) -> (forall f, In f fs -> fholds B g X M s f) ->
  forall t, have_values (b_env B) s es t -> have_values (b_env B) s l t.
Proof.
  intros qa B g X M s. induction l as [|e l IH]; intros i es fs H A t K; cbn in H; [injection H as <- <-; exact K|].
  destruct (query_args qa (S i) l) as [es' fs'] eqn:Q.
  assert (C : exists e', es = e' :: es' /\ incl fs' fs /\ forall v, has_value (b_env B) s e' v -> has_value (b_env B) s e v).
  { destruct e; injection H as <- <-; eexists; (split; [reflexivity|]); (split; [intros h I; cbn; auto|]); auto; try (intros v _; exact Logic.I);
      intros v Hv; destruct (A _ (or_introl eq_refl)) as (x & y & H1 & H2 & H3); cbn in H1, H3, Hv; subst; exact H2. }
  destruct C as (e' & -> & I & C). inversion K; subst. constructor; auto. eapply IH; eauto.
Qed.
Lemma query_args_out : forall qa B g X M, (forall i j, qa i = qa j -> i = j) -> forall l i es fs, query_args qa i l = (es, fs) ->
  (forall v j, In v (flat_map expr_vars l) -> v <> qa j) -> forall s t, have_values (b_env B) s l t ->
  exists s', (forall v, (forall j, i <= j -> v <> qa j) -> s' v = s v) /\ (forall f, In f fs -> fholds B g X M s' f) /\ have_values (b_env B) s' es t.
Proof.
  intros qa B g X M INJ. induction l as [|e l IH]; intros i es fs H V s t K; cbn in H.
  - injection H as <- <-. inversion K; subst. exists s. split; auto. split; [intros f []|constructor].
  - destruct (query_args qa (S i) l) as [es' fs'] eqn:Q. inversion K as [|? v ? vs K1 K2]; subst.
    destruct (IH (S i) es' fs' Q (fun v j I => V v j (in_or_app _ _ _ (or_intror I))) s vs K2) as (s1 & A1 & A2 & A3).
    pose (s2 := fun w => if Nat.eq_dec w (qa i) then v else s1 w).
    assert (AG : forall w, w <> qa i -> s2 w = s1 w) by (intros w N; unfold s2; destruct (Nat.eq_dec w (qa i)); congruence).
    assert (SI : s2 (qa i) = v) by (unfold s2; destruct (Nat.eq_dec (qa i) (qa i)); congruence).
    assert (OUT : forall w, (forall j, i <= j -> w <> qa j) -> s2 w = s w) by (intros w N; rewrite AG by auto; apply A1; intros; apply N; lia).
    assert (VAR : forall w, In w (expr_vars e) -> s w = s2 w) by (intros w I; symmetry; apply OUT; intros; apply V; apply in_or_app; auto).
    assert (FV : forall w, In w (flat_map form_vars fs') \/ In w (flat_map expr_vars es') -> w <> qa i).
    { assert (V' : forall v j, In v (flat_map expr_vars l) -> v <> qa j) by (intros; apply V; apply in_or_app; auto).
      clear -Q V' INJ. assert (G : forall i0 l es' fs', query_args qa i0 l = (es', fs') -> i < i0 -> (forall v j, In v (flat_map expr_vars l) -> v <> qa j) ->
        forall w, In w (flat_map form_vars fs') \/ In w (flat_map expr_vars es') -> w <> qa i).
      { intros i0 l0. revert i0. induction l0 as [|e l0 IH]; intros i0 es fs Q0 L V w I; cbn in Q0; [injection Q0 as <- <-; destruct I as [[]|[]]|].
        destruct (query_args qa (S i0) l0) as [es2 fs2] eqn:Q2.
        specialize (IH (S i0) es2 fs2 Q2 ltac:(lia) (fun v j I => V v j (in_or_app _ _ _ (or_intror I))) w).
        assert (N : qa i0 <> qa i) by (intros Z; apply INJ in Z; lia).
        assert (Ve : In w (expr_vars e) -> w <> qa i) by (intros J; apply V, in_or_app; auto).
        assert (J : In w (expr_vars e) \/ w = qa i0 \/ In w (flat_map form_vars fs2) \/ In w (flat_map expr_vars es2)).
        { clear -Q0 I. assert (J : fs = fs2 /\ (es = e :: es2 \/ es = EVar (qa i0) :: es2) \/ fs = FCons (EBin OEq (EVar (qa i0)) e) :: fs2 /\ es = EVar (qa i0) :: es2)
            by (destruct e; injection Q0 as <- <-; auto).
          destruct J as [[-> [-> | ->]]|[-> ->]]; cbn [flat_map form_vars expr_vars] in I; rewrite ?in_app_iff in I; cbn [In] in I; intuition auto. }
        destruct J as [J|[->|J]]; auto. }
      intros w I. eapply G; eauto. }
    assert (VE : has_value (b_env B) s2 e v) by (eapply value_local; [|exact K1]; auto).
    assert (A3' : have_values (b_env B) s2 es' vs) by (eapply values_local; [|exact A3]; intros w I; symmetry; apply AG, FV; auto).
    assert (A2' : forall f, In f fs' -> fholds B g X M s2 f).
    { assert (EQS : forall f, In f fs' -> exists a b, f = FCons (EBin OEq a b)).
      { clear -Q. revert i es' fs' Q. induction l as [|e l IH]; intros i es' fs' Q f I; cbn in Q; [injection Q as <- <-; destruct I|].
        destruct (query_args qa (S (S i)) l) as [es2 fs2] eqn:Q2. destruct e; injection Q as <- <-; eauto; destruct I as [<-|I]; eauto. }
      intros f I. specialize (A2 f I). destruct (EQS f I) as (a & b & ->). cbn in A2 |- *. destruct A2 as (x & y & H1 & H2 & H3). exists x, y.
      assert (LV : forall w, In w (expr_vars a ++ expr_vars b) -> s1 w = s2 w) by (intros w J; symmetry; apply AG, FV; left; apply in_flat_map; eexists; split; [exact I|exact J]).
      split; [|split; auto]; (eapply value_local; [|eauto]); intros; apply LV, in_or_app; auto. }
    exists s2. split; [exact OUT|].
    destruct e; injection H as <- <-; (split; [|constructor; auto; try (cbn; congruence)]); auto;
      intros h [<-|I]; auto; exists v, v; (split; [cbn; congruence|split; [exact VE|reflexivity]]).
Qed.
(** A query that is an atom gets the tuples of the relation that are values of the
    arguments. *)
Theorem C58_query_partial : forall B g X M qa bare q a, (forall i j, qa i = qa j -> i = j) -> (forall v j, In v (flat_map expr_vars (snd a)) -> v <> qa j) ->
  bare (fst a) = fst a ->
  forall p t, front_consequence B g X M (query_rule qa bare q a) p t <-> p = q /\ tuples B g X (fst a) t /\ exists s, have_values (b_env B) s (snd a) t.
Proof.
  intros B g X M qa bare q a INJ V BA p t. unfold query_rule. rewrite BA. destruct (query_args qa 0 (snd a)) as [es fs] eqn:Q.
  unfold front_consequence. cbn [fr_body fr_head fhead_atoms]. 
  assert (U : forall s vs us, have_values (b_env B) s es vs -> have_values (b_env B) s es us -> vs = us).
  { assert (G : forall l i es fs, query_args qa i l = (es, fs) -> forall s vs us, have_values (b_env B) s es vs -> have_values (b_env B) s es us -> vs = us).
    { intros l. induction l as [|e l IH]; intros i es0 fs0 Q0 s vs us H K; cbn in Q0; [injection Q0 as <- <-; inversion H; inversion K; auto|].
      destruct (query_args qa (S i) l) as [es2 fs2] eqn:Q2. destruct e; injection Q0 as <- <-; inversion H; inversion K; subst; cbn in *; f_equal; try congruence; eauto. }
    intros; eapply G; eauto. }
  split.
  - intros (s & x & H & [<-|[]] & -> & K). cbn in K. pose proof (proj1 (holds_conj B g X M s _) H) as H0. clear H. rename H0 into H. split; auto.
    destruct (H (FAtom (fst a) es) (or_introl eq_refl)) as (vs & H1 & H2). rewrite (U s _ _ K H1). split; auto.
    exists s. eapply query_args_in; eauto. intros f I. apply H. right; auto.
  - intros (-> & T & s & H). destruct (@query_args_out qa B g X M INJ _ _ _ _ Q V s t H) as (s' & _ & A & K). exists s', (q, es). split; [|cbn; auto].
    apply holds_conj. intros f [<-|I]; auto. exists t. auto.
Qed.
(** A range is the set of the numbers from its lower to its upper end. *)
Theorem C58_range_partial : forall B g X M s rng v lo hi inclusive, g_foreign g rng = true ->
  (forall t, b_fp B rng t <-> exists a b c, t = [I32 a; I32 b; I32 c] /\ (a <= c < b)%Z) ->
  (forall w, has_value (b_env B) s hi w -> exists b, w = I32 b /\ -2147483648 <= b < 2147483647)%Z ->
  (fholds B g X M s (desugar_range rng v lo hi inclusive) <->
   exists a b c, has_value (b_env B) s lo (I32 a) /\ has_value (b_env B) s hi (I32 b) /\ s v = I32 c /\ (a <= c)%Z /\ (if inclusive then c <= b else c < b)%Z).
Proof.
  intros B g X M s rng v lo hi inc FR RNG HI. unfold desugar_range. cbn [fholds]. unfold tuples. rewrite FR. split.
  - intros (vs & H & K). apply RNG in K. destruct K as (a & b & c & -> & L1 & L2). inversion H as [|? ? ? ? H1 H2]; subst. inversion H2 as [|? ? ? ? H3 H4]; subst.
    inversion H4 as [|? ? ? ? H5 H6]; subst. cbn in H5. destruct inc.
    + cbn in H3. destruct H3 as (x & y & X1 & -> & X2). destruct (HI x X1) as (z & -> & HZ). exists a, z, c. repeat split; auto.
      cbn in X2. unfold bin_value in X2. cbn in X2. injection X2 as X2. change (imin KI32) with (-2147483648)%Z in X2. change (imax KI32) with 2147483647%Z in X2. rewrite Z.min_r, Z.max_r in X2 by lia. subst b. lia.
    + exists a, b, c. auto.
  - intros (a & b & c & H1 & H2 & H3 & L1 & L2). destruct (HI _ H2) as (b0 & EB & HZ). injection EB as <-. exists [I32 a; I32 (if inc then b + 1 else b)%Z; I32 c]. split.
    + constructor; auto. constructor; [|constructor; [cbn; auto|constructor]]. destruct inc; auto. exists (I32 b), (I32 1). split; auto. split; [reflexivity|].
      unfold bin_value. cbn. unfold saturating. change (imin KI32) with (-2147483648)%Z. change (imax KI32) with 2147483647%Z. rewrite Z.min_r, Z.max_r by lia. reflexivity.
    + apply RNG. exists a, (if inc then b + 1 else b)%Z, c. split; auto. destruct inc; lia.
Qed.
(** [x in 0..=2147483647] does not contain 2147483647: the addition saturates. *)
Definition rng_rel (t : list value) : Prop := exists a b c, t = [I32 a; I32 b; I32 c] /\ (a <= c < b)%Z.
Definition benv_rng : benv.
Proof.
  refine (mkBenv env_none (fun _ => rng_rel) (fun _ _ _ _ => False) _ _ (fun _ _ _ _ => False) (fun _ _ _ _ => False)); intros; assumption.
Defined.
Theorem C58_range_refuted : exists B g X M s rng v lo hi a b c, g_foreign g rng = true /\
  (forall t, b_fp B rng t <-> exists a b c, t = [I32 a; I32 b; I32 c] /\ (a <= c < b)%Z) /\
  has_value (b_env B) s lo (I32 a) /\ has_value (b_env B) s hi (I32 b) /\ s v = I32 c /\ (a <= c <= b)%Z /\
  ~ fholds B g X M s (desugar_range rng v lo hi true).
Proof.
  exists benv_rng, (mkReg (fun _ => true) (fun _ => false) (fun _ => false) []), (fun _ _ => False), (fun _ _ => False), (fun _ => I32 2147483647), 7, 0,
    (EConst (I32 0)), (EConst (I32 2147483647)), 0%Z, 2147483647%Z, 2147483647%Z.
  split; [reflexivity|]. split; [intros; reflexivity|]. repeat split; try lia. intros (vs & H & K). destruct K as (a & b & c & -> & L1 & L2).
  inversion H as [|? ? ? ? H1 H2]; subst. inversion H2 as [|? ? ? ? H3 H4]; subst. inversion H4 as [|? ? ? ? H5 H6]; subst. cbn in H5. injection H5 as ->.
  destruct H3 as (x & y & -> & -> & H3). vm_compute in H3. injection H3 as <-. lia.
Qed.
(** [grid(x) = x in 2..=4] with [x = 4], and [x = 5]. *)
Example C58_range_ex : fholds benv_rng (mkReg (fun _ => true) (fun _ => false) (fun _ => false) []) (fun _ _ => False) (fun _ _ => False) (fun _ => I32 4)
    (desugar_range 7 0 (EConst (I32 2)) (EConst (I32 4)) true) /\
  ~ fholds benv_rng (mkReg (fun _ => true) (fun _ => false) (fun _ => false) []) (fun _ _ => False) (fun _ _ => False) (fun _ => I32 5)
    (desugar_range 7 0 (EConst (I32 2)) (EConst (I32 4)) true).
Proof.
  split.
  - apply C58_range_partial; [reflexivity|intros; reflexivity|intros w H; cbn in H; subst w; eexists; split; [reflexivity|lia]|]. exists 2%Z, 4%Z, 4%Z. repeat split; lia.
  - rewrite C58_range_partial; [|reflexivity|intros; reflexivity|intros w H; cbn in H; subst w; eexists; split; [reflexivity|lia]].
    intros (a & b & c & H1 & H2 & H3 & L1 & L2). cbn in H1, H2, H3. injection H1 as ->. injection H2 as ->. injection H3 as <-. lia.
Qed.
(** The fact [p(1 + 2, 7)] and the query [p(x, x + 1)]. *)
Example C58_fact_ex : exists r, fact_to_rule S (3, [EBin OAdd (EConst (I32 1)) (EConst (I32 2)); EConst (I32 7)]) = Some r /\
  front_consequence benv_none C58_g (fun _ _ => False) (fun _ _ => False) r 3 [I32 3; I32 7].
Proof.
  eexists. split; [reflexivity|]. eapply C58_fact with (fnc := S) (a := (3, [EBin OAdd (EConst (I32 1)) (EConst (I32 2)); EConst (I32 7)])) (s0 := fun _ => I32 0).
  - intros; congruence.
  - cbn. intros e [<-|[<-|[]]]; reflexivity.
  - reflexivity.
  - split; [reflexivity|]. constructor; [|constructor; [reflexivity|constructor]]. exists (I32 1), (I32 2). split; [reflexivity|]. split; [reflexivity|]. vm_compute. reflexivity.
Qed.
Example C58_query_ex : let r := query_rule (fun i => S (S i)) (fun p => p) 9 (1, [EVar 0; EBin OAdd (EVar 0) (EConst (I32 1))]) in
  let X := fun p t => p = 1 /\ In t [[I32 1; I32 2]; [I32 3; I32 5]] in
  front_consequence benv_none C58_g X X r 9 [I32 1; I32 2] /\ ~ front_consequence benv_none C58_g X X r 9 [I32 3; I32 5].
Proof.
  intros r X. assert (Q := fun p t => @C58_query_partial benv_none C58_g X X (fun i => S (S i)) (fun p => p) 9 (1, [EVar 0; EBin OAdd (EVar 0) (EConst (I32 1))])
    ltac:(intros; congruence) ltac:(cbn; intros v j [<-|[<-|[]]]; discriminate) eq_refl p t). fold r in Q. split.
  - apply Q. split; [reflexivity|]. split; [split; [reflexivity|cbn; auto]|]. exists (fun _ => I32 1). constructor; [reflexivity|]. constructor; [|constructor].
    exists (I32 1), (I32 1). split; [reflexivity|]. split; [reflexivity|]. vm_compute. reflexivity.
  - intros H. apply Q in H. destruct H as (_ & _ & s & H). inversion H as [|? ? ? ? H1 H2]; subst. inversion H2 as [|? ? ? ? H3 H4]; subst.
    destruct H3 as (x & y & H5 & -> & H6). cbn in H1, H5. subst x. rewrite <- H1 in H6. vm_compute in H6. discriminate H6.
Qed.
Print Assumptions C58_dnf. Print Assumptions C58_dnf_total. Print Assumptions C58_implies. Print Assumptions C58_implies_total. Print Assumptions C58_rule_partial.
Print Assumptions C58_constraint_refuted. Print Assumptions C58_conjunctive_refuted. Print Assumptions C58_fact. Print Assumptions C58_query_partial.
Print Assumptions C58_range_partial. Print Assumptions C58_range_refuted.
