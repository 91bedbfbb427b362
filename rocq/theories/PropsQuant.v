(** C75: what [exists] and [forall] in the bodies of rules mean. *)
From Coq Require Import List ZArith Bool Arith Lia.
From Verif Require Import Value ListAux Back Eval BackSem Scc SccFacts Plan PlanSem Front FrontSem FrontFacts PropsOpt PropsFront Bound FrontAgg AggSem AggFacts AggFacts2.
Import ListNotations.

(** ** Specification *)
(** The aggregator [exists] tells whether there is a tuple. *)
Definition is_exists (A : aggregator) (ex : nat) : Prop :=
  forall k S ws, A ex k S ws <-> exists b, ws = [VBool b] /\ (b = true <-> exists t, S t).
Definition set (s : subst) (v : var) (x : value) : subst := fun w => if Nat.eqb w v then x else s w.
(** Formulas without aggregations. *)
Fixpoint aof (f : formula) : aform :=
  match f with
  | FAtom p l => AAtom p l
  | FNeg p l => ANeg p l
  | FCons e => ACons e
  | FConj l => AConj (map aof l)
  | FDisj l => ADisj (map aof l)
  | FImp a b => AImp (aof a) (aof b)
  end.
Definition negated (neg : bool) (P : Prop) : Prop := if neg then ~ P else P.

(** ** Facts *)
Lemma oall_aof : forall (h : formula -> option formula) (k : aform -> option aform) l, Forall (fun f => k (aof f) = option_map aof (h f)) l ->
  oall (map k (map aof l)) = option_map (map aof) (oall (map h l)).
Proof.
  intros h k l F. induction F as [|f l Hf F IH]; [reflexivity|]. cbn [map oall]. rewrite Hf, IH. destruct (h f); [|reflexivity]. cbn. destruct (oall (map h l)); reflexivity.
Qed.
Lemma negate_aof : forall f, anegate (aof f) = option_map aof (negate f).
Proof.
  intros f. pattern f. apply form_ind2; clear f; try reflexivity.
  - intros l IH. cbn [aof anegate negate]. rewrite (oall_aof negate anegate l IH). destruct (oall (map negate l)); reflexivity.
  - intros l IH. cbn [aof anegate negate]. rewrite (oall_aof negate anegate l IH). destruct (oall (map negate l)); reflexivity.
  - intros a b _ IB. cbn [aof anegate negate]. rewrite IB. destruct (negate b); reflexivity.
Qed.
Lemma walk_aof : forall qv ft te k f, quant_walk qv ft te k (aof f) = option_map aof (implies_walk k f).
Proof.
  intros qv ft te. induction k as [|k IH]; intros f; [reflexivity|]. destruct f as [p l|p l|e|l|l|a b]; try reflexivity; cbn [aof quant_walk implies_walk].
  - rewrite (oall_aof (implies_walk k) (quant_walk qv ft te k) l) by (apply Forall_forall; auto). destruct (oall (map (implies_walk k) l)); reflexivity.
  - rewrite (oall_aof (implies_walk k) (quant_walk qv ft te k) l) by (apply Forall_forall; auto). destruct (oall (map (implies_walk k) l)); reflexivity.
  - rewrite negate_aof. destruct (negate a) as [a'|]; [|reflexivity]. cbn [option_map obnd]. rewrite IH. destruct (implies_walk k a') as [a2|]; [|reflexivity]. cbn [option_map obnd]. rewrite IH. destruct (implies_walk k b); reflexivity.
Qed.
Lemma walk_same : forall k f f', imp_free f = true -> implies_walk k f = Some f' -> f' = f.
Proof.
  induction k as [|k IH]; intros f f' F H; [discriminate H|]. destruct f as [p l|p l|e|l|l|a b]; try (injection H as <-; reflexivity); cbn [implies_walk imp_free] in *; [| |discriminate F];
  (destruct (oall (map (implies_walk k) l)) as [l'|] eqn:E; [|discriminate H]; injection H as <-; f_equal; apply oall_map in E; rewrite forallb_forall in F; induction E as [|x y l l' E1 E IHE]; [reflexivity|]; f_equal; [apply IH; auto; apply F; left; auto|apply IHE; intros; apply F; right; auto]).
Qed.
Lemma holds_aof : forall A B g M wc bv X hv s f, aholds A B g M wc bv X hv s (aof f) <-> fholds B g X M s f.
Proof.
  intros A B g M wc bv X hv s f. pattern f. apply form_ind2; clear f; try (intros; reflexivity).
  - intros l IH. cbn [aof aholds fholds]. induction IH as [|f l Hf IH IHl]; [reflexivity|]. cbn [map]. rewrite Hf, IHl. reflexivity.
  - intros l IH. cbn [aof aholds fholds]. induction IH as [|f l Hf IH IHl]; [reflexivity|]. cbn [map]. rewrite Hf, IHl. reflexivity.
  - intros a b IA IB. cbn [aof aholds fholds]. rewrite IA, IB. reflexivity.
Qed.
Lemma vars_aof : forall wc f v, In v (aform_vars wc (aof f)) -> In v (form_vars f).
Proof.
  intros wc f. pattern f. apply form_ind2; clear f; auto.
  - intros l IH v H. cbn [aof aform_vars form_vars] in *. rewrite Forall_forall in IH. apply in_flat_map in H. destruct H as (x & I & H). apply in_map_iff in I. destruct I as (f & <- & I). apply in_flat_map. eauto.
  - intros l IH v H. cbn [aof aform_vars form_vars] in *. rewrite Forall_forall in IH. apply in_flat_map in H. destruct H as (x & I & H). apply in_map_iff in I. destruct I as (f & <- & I). apply in_flat_map. eauto.
  - intros a b IA IB v H. cbn [aof aform_vars form_vars] in *. apply in_app_or in H. apply in_or_app. destruct H; auto.
Qed.
Lemma grounds_vars : forall foreign nb ar f v, In v (grounds foreign nb ar (aof f)) -> In v (form_vars f).
Proof.
  intros foreign nb ar f v H. apply (vars_aof (fun n => n)). unfold grounds in H. destruct (from_aform (aof f)) as [cs|] eqn:E; [|destruct H]. unfold ctx_vars in H.
  destruct (rctx_bound foreign nb ar [] [] cs) as [[vs|]|] eqn:R; try destruct H. pose proof (rctx_vars foreign nb ar (fun n => n) [] cs vs R v H) as K. apply in_flat_map in K. destruct K as (c & I & K). eapply from_vars; eauto.
Qed.
Lemma negate_vars : forall f f', negate f = Some f' -> forall v, In v (form_vars f') -> In v (form_vars f).
Proof.
  intros f. pattern f. apply form_ind2; clear f.
  - intros p l f' H. injection H as <-. auto.
  - intros p l f' H. injection H as <-. auto.
  - intros e f' H. discriminate H.
  - intros l IH f' H v I. cbn [negate] in H. destruct (oall (map negate l)) as [l'|] eqn:Q; [|discriminate]. injection H as <-. apply oall_map in Q. cbn [form_vars] in *. apply in_flat_map in I. destruct I as (y & J & I). destruct (F2_in_r _ Q J) as (x & Jx & Ex). apply in_flat_map. rewrite Forall_forall in IH. eauto.
  - intros l IH f' H v I. cbn [negate] in H. destruct (oall (map negate l)) as [l'|] eqn:Q; [|discriminate]. injection H as <-. apply oall_map in Q. cbn [form_vars] in *. apply in_flat_map in I. destruct I as (y & J & I). destruct (F2_in_r _ Q J) as (x & Jx & Ex). apply in_flat_map. rewrite Forall_forall in IH. eauto.
  - intros a b _ IB f' H v I. cbn [negate] in H. destruct (negate b) as [b'|] eqn:Q; [|discriminate]. injection H as <-. cbn [form_vars flat_map] in *. rewrite app_nil_r in I. apply in_app_or in I. apply in_or_app. destruct I; eauto.
Qed.
Lemma walk_form_vars : forall k f f', implies_walk k f = Some f' -> forall v, In v (form_vars f') -> In v (form_vars f).
Proof.
  induction k as [|k IH]; intros f f' H v I; [discriminate H|]. destruct f as [p l|p l|e|l|l|a b]; try (injection H as <-; exact I); cbn [implies_walk] in H.
  - destruct (oall (map (implies_walk k) l)) as [l'|] eqn:Q; [|discriminate H]. injection H as <-. apply oall_map in Q. cbn [form_vars] in *. apply in_flat_map in I. destruct I as (y & J & I). destruct (F2_in_r _ Q J) as (x & Jx & Ex). apply in_flat_map. eauto.
  - destruct (oall (map (implies_walk k) l)) as [l'|] eqn:Q; [|discriminate H]. injection H as <-. apply oall_map in Q. cbn [form_vars] in *. apply in_flat_map in I. destruct I as (y & J & I). destruct (F2_in_r _ Q J) as (x & Jx & Ex). apply in_flat_map. eauto.
  - destruct (negate a) as [a'|] eqn:Qa; [|discriminate H]. cbn [obnd] in H. destruct (implies_walk k a') as [a2|] eqn:Q1; [|discriminate H]. cbn [obnd] in H. destruct (implies_walk k b) as [b2|] eqn:Q2; [|discriminate H]. injection H as <-.
    cbn [form_vars flat_map] in *. rewrite app_nil_r in I. apply in_app_or in I. apply in_or_app. destruct I as [I|I]; [left; eapply negate_vars; eauto|right; eauto].
Qed.

(** An [exists] without group-by variables. *)
Lemma filter_none : forall (T : Type) (f : T -> bool) l, (forall x, In x l -> f x = false) -> filter f l = [].
Proof. intros T f l H. induction l as [|x l IH]; [reflexivity|]. cbn. rewrite (H x) by (left; auto). apply IH. intros; apply H; right; auto. Qed.
Lemma exists_closed : forall A B g M wc foreign nb ar X hv s q ex bs f, is_exists A ex -> (forall v, In v hv -> In v (form_vars f) -> In v bs) ->
  (aholds A B g M wc (grounds foreign nb ar) X hv s (ARed [LV q] ex [] bs (aof f) None) <-> exists b, s q = VBool b /\ (b = true <-> exists s', fholds B g M M s' f)).
Proof.
  intros A B g M wc foreign nb ar X hv s q ex bs f EX NF. cbn [aholds].
  assert (G : implicit (grounds foreign nb ar) hv [] bs (aof f) = []).
  { apply filter_none. intros v I. destruct (memb v hv) eqn:E1; [|reflexivity]. apply memb_In in E1. destruct (memb v bs) eqn:E2; [reflexivity|]. exfalso.
    assert (In v bs) by (apply NF; auto; eapply grounds_vars; eauto). apply memb_In in H. congruence. }
  unfold is_exists in EX. rewrite G, EX. cbn [map lvar_of app]. split.
  - intros (_ & b & E & H). injection E as E. exists b. split; auto. rewrite H. split.
    + intros (t & s' & _ & K & _). exists s'. apply holds_aof in K. exact K.
    + intros (s' & K). exists (map s' bs), s'. split; [intros v []|]. split; [apply holds_aof; exact K|reflexivity].
  - intros (b & E & H). split; [left; reflexivity|]. exists b. split; [rewrite E; reflexivity|]. rewrite H. split.
    + intros (s' & K). exists (map s' bs), s'. split; [intros v []|]. split; [apply holds_aof; exact K|reflexivity].
    + intros (t & s' & _ & K & _). exists s'. apply holds_aof in K. exact K.
Qed.
(** An [exists] with a where-clause. *)
Lemma exists_where : forall A B g M wc foreign nb ar X hv s q ex bs f vs w, is_exists A ex ->
  (aholds A B g M wc (grounds foreign nb ar) X hv s (ARed [LV q] ex [] bs (aof f) (Some (vs, aof w))) <->
   (exists s', agree (grounds foreign nb ar (aof w)) s s' /\ fholds B g M M s' w) /\
   exists b, s q = VBool b /\ (b = true <-> exists s', (forall v, In v (grounds foreign nb ar (aof w)) -> In v (grounds foreign nb ar (aof f)) -> s v = s' v) /\ fholds B g M M s' f)).
Proof.
  intros A B g M wc foreign nb ar X hv s q ex bs f vs w EX. cbn [aholds].
  assert (G : forall s', agree (explicit (grounds foreign nb ar) (aof w) (aof f)) s s' <-> forall v, In v (grounds foreign nb ar (aof w)) -> In v (grounds foreign nb ar (aof f)) -> s v = s' v).
  { intros s'. unfold explicit, agree. split.
    - intros H v I1 I2. apply H. apply filter_In. split; auto. apply memb_In. exact I2.
    - intros H v I. apply filter_In in I. destruct I as [I1 I2]. apply memb_In in I2. auto. }
  unfold is_exists in EX. rewrite EX. cbn [map lvar_of app].
  assert (W : (exists s', agree (grounds foreign nb ar (aof w)) s s' /\ aholds A B g M wc (grounds foreign nb ar) M vs s' (aof w)) <-> exists s', agree (grounds foreign nb ar (aof w)) s s' /\ fholds B g M M s' w).
  { split; intros (s' & H1 & H2); exists s'; split; auto; apply holds_aof in H2 || apply holds_aof; auto. }
  rewrite W. split.
  - intros (HW & b & E & H). split; auto. injection E as E. exists b. split; auto. rewrite H. split.
    + intros (t & s' & AG & K & _). exists s'. split; [apply G; auto|]. apply holds_aof in K. exact K.
    + intros (s' & AG & K). exists (map s' bs), s'. split; [apply G; auto|]. split; [apply holds_aof; exact K|reflexivity].
  - intros (HW & b & E & H). split; auto. exists b. split; [rewrite E; reflexivity|]. rewrite H. split.
    + intros (s' & AG & K). exists (map s' bs), s'. split; [apply G; auto|]. split; [apply holds_aof; exact K|reflexivity].
    + intros (t & s' & AG & K & _). exists s'. split; [apply G; auto|]. apply holds_aof in K. exact K.
Qed.
Lemma is_bool : forall E s q b, constraint_holds E s (EBin OEq (EVar q) (EConst (VBool b))) <-> s q = VBool b.
Proof. intros E s q b. cbn. split; [intros (x & y & -> & -> & H); exact H|]. intros H. exists (s q), (VBool b). auto. Qed.
Lemma is_not : forall E s q t, constraint_holds E s (EBin OEq (EVar q) (EUn UNot (EVar t))) <-> exists b, s t = VBool b /\ s q = VBool (negb b).
Proof.
  intros E s q t. cbn. split.
  - intros (x & y & -> & (z & -> & H) & K). destruct (s t) eqn:Et; try discriminate H. injection H as <-. eauto.
  - intros (b & E1 & E2). exists (s q), (VBool (negb b)). split; auto. split; auto. exists (s t). split; auto. rewrite E1. reflexivity.
Qed.
Lemma set_same : forall s v x, set s v x v = x.
Proof. intros. unfold set. rewrite Nat.eqb_refl. reflexivity. Qed.
Lemma set_other : forall s v x w, w <> v -> set s v x w = s w.
Proof. intros s v x w H. unfold set. apply Nat.eqb_neq in H. rewrite H. reflexivity. Qed.
Lemma bool_iff : forall (b : bool) (P : Prop) neg, (b = true <-> P) -> (b = negb neg <-> negated neg P).
Proof.
  intros b P neg H. destruct neg; cbn.
  - rewrite <- H. destruct b; split; intros K; try discriminate; auto. exfalso. apply K. reflexivity.
  - exact H.
Qed.

(** The shape of what the passes leave of quantifiers. *)
Section Shape.
  Variables (qv : nat -> var) (ft : var -> var) (te : nat -> option nat).
  Notation walk := (quant_walk qv ft te).
  Definition walk_where (k : nat) (wh : option (list var * aform)) : option (option (list var * aform)) :=
    match wh with None => Some None | Some (vs, w) => obnd (walk k w) (fun w => Some (Some (vs, w))) end.
  Lemma walk_all : forall k id neg op bs body wh, walk (S k) (AAll id neg op bs body wh) = walk k (desugar_quant qv id neg op bs body wh).
  Proof. reflexivity. Qed.
  Lemma walk_red : forall k lv op args bs body wh, walk (S k) (ARed lv op args bs body wh) =
    obnd (transform_forall ft te lv op args bs body wh) (fun t => match t with
      | Some f' => walk k f'
      | None => obnd (walk k body) (fun body => obnd (walk_where k wh) (fun wh => Some (ARed lv op args bs body wh))) end).
  Proof. reflexivity. Qed.
  Lemma walk_conj2 : forall k a b f', walk k (AConj [a; b]) = Some f' -> exists k' a' b', k = S k' /\ walk k' a = Some a' /\ walk k' b = Some b' /\ f' = AConj [a'; b'].
  Proof.
    intros [|k] a b f' H; [discriminate H|]. cbn [quant_walk map oall] in H. destruct (walk k a) as [a'|] eqn:E1; [|discriminate H]. cbn [obnd] in H. destruct (walk k b) as [b'|] eqn:E2; [|discriminate H]. cbn [obnd] in H. injection H as <-. exists k, a', b'. auto.
  Qed.
  Lemma walk_cons : forall k e f', walk k (ACons e) = Some f' -> f' = ACons e.
  Proof. intros [|k] e f' H; [discriminate H|]. injection H as <-. reflexivity. Qed.
  Lemma walk_exists : forall k lv ex args bs f wh f', te ex = None -> walk k (ARed lv ex args bs (aof f) wh) = Some f' ->
    exists k' f1 wh1, implies_walk k' f = Some f1 /\ walk_where k' wh = Some wh1 /\ f' = ARed lv ex args bs (aof f1) wh1.
  Proof.
    intros [|k] lv ex args bs f wh f' TE H; [discriminate H|]. rewrite walk_red in H. unfold transform_forall in H. rewrite TE in H. cbn [obnd] in H. rewrite walk_aof in H.
    destruct (implies_walk k f) as [f1|] eqn:E1; [|discriminate H]. cbn [option_map obnd] in H. destruct (walk_where k wh) as [wh1|] eqn:E2; [|discriminate H]. injection H as <-. exists k, f1, wh1. auto.
  Qed.
  Lemma where_shape : forall k wh wh1, walk_where k wh = Some wh1 -> match wh with None => wh1 = None | Some (vs, w) => exists w1, walk k w = Some w1 /\ wh1 = Some (vs, w1) end.
  Proof. intros k [[vs w]|] wh1 H; cbn [walk_where] in H; [|injection H as <-; reflexivity]. destruct (walk k w) as [w1|]; [|discriminate H]. injection H as <-. eauto. Qed.
  Lemma exists_shape : forall id neg ex bs f wh f', te ex = None -> transform_quants qv ft te (AAll id neg ex bs (aof f) wh) = Some f' ->
    exists k f1 wh1, implies_walk k f = Some f1 /\ f' = AConj [ARed [LV (qv id)] ex [] bs (aof f1) wh1; ACons (EBin OEq (EVar (qv id)) (EConst (VBool (negb neg))))] /\
      match wh with None => wh1 = None | Some (vs, w) => exists w1, walk k w = Some w1 /\ wh1 = Some (vs, w1) end.
  Proof.
    intros id neg ex bs f wh f' TE H. unfold transform_quants in H. destruct (asize (AAll id neg ex bs (aof f) wh)) as [|n]; [discriminate H|]. rewrite walk_all in H. unfold desugar_quant in H.
    apply walk_conj2 in H. destruct H as (k & a & b & -> & Ha & Hb & ->). apply walk_cons in Hb. subst b. apply walk_exists in Ha; auto. destruct Ha as (k' & f1 & wh1 & E1 & E2 & ->). exists k', f1, wh1. split; auto. split; auto. apply where_shape; auto.
  Qed.
  Lemma forall_shape : forall id neg all ex bs l r wh f', te all = Some ex -> te ex = None -> transform_quants qv ft te (AAll id neg all bs (AImp (aof l) (aof r)) wh) = Some f' ->
    exists r' k f1 wh1, negate r = Some r' /\ implies_walk k (FConj [l; r']) = Some f1 /\
      f' = AConj [AConj [ACons (EBin OEq (EVar (qv id)) (EUn UNot (EVar (ft (qv id))))); ARed [LV (ft (qv id))] ex [] bs (aof f1) wh1]; ACons (EBin OEq (EVar (qv id)) (EConst (VBool (negb neg))))] /\
      match wh with None => wh1 = None | Some (vs, w) => exists w1, walk k w = Some w1 /\ wh1 = Some (vs, w1) end.
  Proof.
    intros id neg all ex bs l r wh f' T1 T2 H. unfold transform_quants in H. destruct (asize (AAll id neg all bs (AImp (aof l) (aof r)) wh)) as [|n]; [discriminate H|]. rewrite walk_all in H. unfold desugar_quant in H.
    apply walk_conj2 in H. destruct H as (k & a & b & -> & Ha & Hb & ->). apply walk_cons in Hb. subst b. destruct k as [|k]; [discriminate Ha|]. rewrite walk_red in Ha. unfold transform_forall in Ha. rewrite T1, negate_aof in Ha.
    destruct (negate r) as [r'|]; [|discriminate Ha]. cbn [option_map obnd] in Ha. apply walk_conj2 in Ha. destruct Ha as (k1 & a1 & b1 & -> & Ha & Hb & ->). apply walk_cons in Ha. subst a1.
    apply (walk_exists k1 _ ex [] bs (FConj [l; r'])) in Hb; auto. destruct Hb as (k' & f1 & wh1 & E1 & E2 & ->). exists r', k', f1, wh1. split; auto. split; auto. split; auto. apply where_shape; auto.
  Qed.
End Shape.

(** ** C75 *)
(** [exists] and [not exists] of formulas without variables of the head. *)
Theorem C75_exists_partial : forall A B g M X wc foreign nb ar qv ft te id neg ex bs f f' hv s,
  is_exists A ex -> te ex = None -> decided B g M -> wild_ok f = true -> (forall s, args_evaluate (b_env B) s f) ->
  (forall v, In v hv -> In v (form_vars f) -> In v bs) ->
  transform_quants qv ft te (AAll id neg ex bs (aof f) None) = Some f' ->
  ((exists x, aholds A B g M wc (grounds foreign nb ar) X hv (set s (qv id) x) f') <-> negated neg (exists s', fholds B g M M s' f)).
Proof.
  intros A B g M X wc foreign nb ar qv ft te id neg ex bs f f' hv s EX TE DEC W EV NF H. destruct (exists_shape _ _ _ _ _ _ _ _ _ _ TE H) as (k & f1 & wh1 & E1 & -> & ->).
  assert (SAT : (exists s', fholds B g M M s' f1) <-> exists s', fholds B g M M s' f).
  { split; intros (s' & K); exists s'; apply (@walk_sat B g M s' DEC k f (conj W (EV s')) f1 E1); exact K. }
  assert (NF1 : forall v, In v hv -> In v (form_vars f1) -> In v bs) by (intros v I J; apply NF; auto; eapply walk_form_vars; eauto).
  split.
  - intros (x & K & L & _). apply exists_closed in K; auto. apply is_bool in L. destruct K as (b & Eb & K). rewrite L in Eb. injection Eb as <-. rewrite SAT in K. apply (proj1 (bool_iff _ _ neg K)). reflexivity.
  - intros K. exists (VBool (negb neg)). split; [|split; [apply is_bool, set_same|exact Logic.I]]. apply exists_closed; auto. exists (negb neg). split; [apply set_same|]. rewrite SAT. destruct neg; cbn in *; split; intros; auto; try discriminate; contradiction.
Qed.
(** [forall] and [not forall] of formulas without variables of the head. *)
Theorem C75_forall_partial : forall A B g M X wc foreign nb ar qv ft te id neg all ex bs l r f' hv s,
  is_exists A ex -> te all = Some ex -> te ex = None -> (forall v, ft v <> v) -> decided B g M -> wild_ok l = true -> wild_ok r = true ->
  (forall s, args_evaluate (b_env B) s l /\ args_evaluate (b_env B) s r) -> (forall v, In v hv -> In v (form_vars l ++ form_vars r) -> In v bs) ->
  transform_quants qv ft te (AAll id neg all bs (AImp (aof l) (aof r)) None) = Some f' ->
  ((exists x y, aholds A B g M wc (grounds foreign nb ar) X hv (set (set s (qv id) x) (ft (qv id)) y) f') <->
   if neg then exists s', fholds B g M M s' l /\ ~ fholds B g M M s' r else forall s', fholds B g M M s' l -> fholds B g M M s' r).
Proof.
  intros A B g M X wc foreign nb ar qv ft te id neg all ex bs l r f' hv s EX T1 T2 FT DEC Wl Wr EV NF H. destruct (forall_shape _ _ _ _ _ _ _ _ _ _ _ _ T1 T2 H) as (r' & k & f1 & wh1 & N & E1 & -> & ->).
  assert (FN : forall s', fine B s' l /\ fine B s' r) by (intros s'; split; split; auto; apply EV).
  assert (SAT : (exists s', fholds B g M M s' f1) <-> exists s', fholds B g M M s' l /\ ~ fholds B g M M s' r).
  { split; intros (s' & K); exists s'; destruct (FN s') as [F1 F2]; destruct (@negate_sat B g M s' DEC r F2 r' N) as (N1 & N2 & _);
    assert (FC : fine B s' (FConj [l; r'])) by (apply fine_list; intros x [<-|[<-|[]]]; auto); pose proof (@walk_sat B g M s' DEC k _ FC f1 E1) as K2.
    - apply K2 in K. cbn in K. rewrite N1 in K. tauto.
    - apply K2. cbn. rewrite N1. tauto. }
  assert (ALL : (~ exists s', fholds B g M M s' l /\ ~ fholds B g M M s' r) <-> forall s', fholds B g M M s' l -> fholds B g M M s' r).
  { split; [|intros K (s' & K1 & K2); auto]. intros K s' L. destruct (@sat_dec B g M s' DEC r (proj2 (FN s'))) as [R|R]; auto. exfalso. eauto. }
  assert (NF1 : forall v, In v hv -> In v (form_vars f1) -> In v bs).
  { intros v I J. apply NF; auto. pose proof (walk_form_vars _ _ _ E1 v J) as K. cbn [form_vars flat_map] in K. rewrite app_nil_r in K. apply in_app_or in K. apply in_or_app. destruct K as [K|K]; auto. right. eapply negate_vars; eauto. }
  assert (GO : (exists x y, aholds A B g M wc (grounds foreign nb ar) X hv (set (set s (qv id) x) (ft (qv id)) y)
      (AConj [AConj [ACons (EBin OEq (EVar (qv id)) (EUn UNot (EVar (ft (qv id))))); ARed [LV (ft (qv id))] ex [] bs (aof f1) None]; ACons (EBin OEq (EVar (qv id)) (EConst (VBool (negb neg))))])) <->
      (neg = true <-> exists s', fholds B g M M s' l /\ ~ fholds B g M M s' r)).
  { split.
    - intros (x & y & (K1 & K2 & _) & K3 & _). apply (proj1 (is_not _ _ _ _)) in K1. apply exists_closed in K2; auto. apply (proj1 (is_bool _ _ _ _)) in K3. destruct K1 as (b & Eb1 & Eb2). destruct K2 as (b' & Eb3 & K2). rewrite Eb1 in Eb3. injection Eb3 as <-. rewrite K3 in Eb2. injection Eb2 as Eb2.
      rewrite SAT in K2. rewrite <- K2. destruct neg, b; try discriminate Eb2; tauto.
    - intros K. exists (VBool (negb neg)), (VBool neg). 
      assert (Q1 : set (set s (qv id) (VBool (negb neg))) (ft (qv id)) (VBool neg) (qv id) = VBool (negb neg)) by (rewrite set_other by (intros Q; exact (FT _ (eq_sym Q))); apply set_same).
      assert (Q2 : set (set s (qv id) (VBool (negb neg))) (ft (qv id)) (VBool neg) (ft (qv id)) = VBool neg) by apply set_same.
      split; [|split; [apply is_bool; exact Q1|exact Logic.I]]. split; [apply is_not; eauto|]. split; [|exact Logic.I]. apply exists_closed; auto. exists neg. split; auto. rewrite SAT. exact K. }
  rewrite GO. destruct neg; [tauto|]. rewrite <- ALL. split; [intros K1 K2; apply K1 in K2; discriminate K2|]. intros K. split; [discriminate|]. intros; contradiction.
Qed.
(** With a where-clause, they are for the values of the variables that the where-clause
    and the body ground. *)
Theorem C75_exists_where_partial : forall A B g M X wc foreign nb ar qv ft te id neg ex bs f vs w f' hv s,
  is_exists A ex -> te ex = None -> imp_free f = true -> imp_free w = true -> ~ In (qv id) (form_vars w) ->
  transform_quants qv ft te (AAll id neg ex bs (aof f) (Some (vs, aof w))) = Some f' ->
  ((exists x, aholds A B g M wc (grounds foreign nb ar) X hv (set s (qv id) x) f') <->
   (exists s', agree (grounds foreign nb ar (aof w)) s s' /\ fholds B g M M s' w) /\
   negated neg (exists s', (forall v, In v (grounds foreign nb ar (aof w)) -> In v (grounds foreign nb ar (aof f)) -> s v = s' v) /\ fholds B g M M s' f)).
Proof.
  intros A B g M X wc foreign nb ar qv ft te id neg ex bs f vs w f' hv s EX TE If Iw NQ H. destruct (exists_shape _ _ _ _ _ _ _ _ _ _ TE H) as (k & f1 & wh1 & E1 & -> & w1 & E2 & ->).
  apply walk_same in E1; auto. subst f1. rewrite walk_aof in E2. destruct (implies_walk k w) as [w2|] eqn:E3; [|discriminate E2]. injection E2 as <-. apply walk_same in E3; auto. subst w2.
  assert (AG : forall x v, In v (grounds foreign nb ar (aof w)) -> set s (qv id) x v = s v) by (intros x v I; apply set_other; intros ->; apply NQ; eapply grounds_vars; eauto).
  assert (W : forall x, (exists s', agree (grounds foreign nb ar (aof w)) (set s (qv id) x) s' /\ fholds B g M M s' w) <-> exists s', agree (grounds foreign nb ar (aof w)) s s' /\ fholds B g M M s' w).
  { intros x. split; intros (s' & K1 & K2); exists s'; split; auto; intros v I; [rewrite <- (AG x v I)|rewrite (AG x v I)]; auto. }
  assert (G : forall x, (exists s', (forall v, In v (grounds foreign nb ar (aof w)) -> In v (grounds foreign nb ar (aof f)) -> set s (qv id) x v = s' v) /\ fholds B g M M s' f) <->
    exists s', (forall v, In v (grounds foreign nb ar (aof w)) -> In v (grounds foreign nb ar (aof f)) -> s v = s' v) /\ fholds B g M M s' f).
  { intros x. split; intros (s' & K1 & K2); exists s'; split; auto; intros v I J; [rewrite <- (AG x v I)|rewrite (AG x v I)]; auto. }
  split.
  - intros (x & K & L & _). apply exists_where in K; auto. apply (proj1 (is_bool _ _ _ _)) in L. destruct K as (HW & b & Eb & K). rewrite L in Eb. injection Eb as <-. rewrite (W x) in HW. rewrite (G x) in K. split; auto. apply (proj1 (bool_iff _ _ neg K)). reflexivity.
  - intros (HW & K). exists (VBool (negb neg)). split; [|split; [apply is_bool, set_same|exact Logic.I]]. apply exists_where; auto. rewrite (W _). split; auto. exists (negb neg). split; [apply set_same|]. rewrite (G _). destruct neg; cbn in *; split; intros; auto; try discriminate; contradiction.
Qed.
Lemma negate_imp_free : forall f f', negate f = Some f' -> imp_free f = true -> imp_free f' = true.
Proof.
  intros f. pattern f. apply form_ind2; clear f; try (intros; discriminate); try (intros p l f' H; injection H as <-; reflexivity).
  - intros l IH f' H F. cbn [negate] in H. destruct (oall (map negate l)) as [l'|] eqn:Q; [|discriminate]. injection H as <-. apply oall_map in Q. cbn [imp_free] in *. rewrite forallb_forall in *. intros y I. destruct (F2_in_r _ Q I) as (x & J & K). rewrite Forall_forall in IH. eauto.
  - intros l IH f' H F. cbn [negate] in H. destruct (oall (map negate l)) as [l'|] eqn:Q; [|discriminate]. injection H as <-. apply oall_map in Q. cbn [imp_free] in *. rewrite forallb_forall in *. intros y I. destruct (F2_in_r _ Q I) as (x & J & K). rewrite Forall_forall in IH. eauto.
Qed.
Theorem C75_forall_where_partial : forall A B g M X wc foreign nb ar qv ft te id neg all ex bs l r r' vs w f' hv s,
  is_exists A ex -> te all = Some ex -> te ex = None -> (forall v, ft v <> v) -> decided B g M -> wild_ok r = true -> (forall s, args_evaluate (b_env B) s r) ->
  imp_free l = true -> imp_free r = true -> imp_free w = true -> negate r = Some r' -> ~ In (qv id) (form_vars w) -> ~ In (ft (qv id)) (form_vars w) ->
  transform_quants qv ft te (AAll id neg all bs (AImp (aof l) (aof r)) (Some (vs, aof w))) = Some f' ->
  let same s' := forall v, In v (grounds foreign nb ar (aof w)) -> In v (grounds foreign nb ar (aof (FConj [l; r']))) -> s v = s' v in
  ((exists x y, aholds A B g M wc (grounds foreign nb ar) X hv (set (set s (qv id) x) (ft (qv id)) y) f') <->
   (exists s', agree (grounds foreign nb ar (aof w)) s s' /\ fholds B g M M s' w) /\
   if neg then exists s', same s' /\ fholds B g M M s' l /\ ~ fholds B g M M s' r else forall s', same s' -> fholds B g M M s' l -> fholds B g M M s' r).
Proof.
  intros A B g M X wc foreign nb ar qv ft te id neg all ex bs l r r' vs w f' hv s EX T1 T2 FT DEC Wr EV Il Ir Iw N NQ NF H same.
  destruct (forall_shape _ _ _ _ _ _ _ _ _ _ _ _ T1 T2 H) as (r0 & k & f1 & wh1 & N' & E1 & -> & w1 & E2 & ->). rewrite N in N'. injection N' as <-.
  apply walk_same in E1; [|cbn; rewrite Il, (negate_imp_free _ _ N Ir); reflexivity]. subst f1. rewrite walk_aof in E2. destruct (implies_walk k w) as [w2|] eqn:E3; [|discriminate E2]. injection E2 as <-. apply walk_same in E3; auto. subst w2.
  set (f1 := FConj [l; r']) in *.
  assert (SAT : forall s', fholds B g M M s' f1 <-> fholds B g M M s' l /\ ~ fholds B g M M s' r).
  { intros s'. destruct (@negate_sat B g M s' DEC r (conj Wr (EV s')) r' N) as (N1 & _). unfold f1. cbn. rewrite N1. tauto. }
  assert (AG : forall x y v, In v (grounds foreign nb ar (aof w)) -> set (set s (qv id) x) (ft (qv id)) y v = s v) by (intros x y v I; rewrite !set_other; auto; intros ->; [apply NQ|apply NF]; eapply grounds_vars; eauto).
  assert (W : forall x y, (exists s', agree (grounds foreign nb ar (aof w)) (set (set s (qv id) x) (ft (qv id)) y) s' /\ fholds B g M M s' w) <-> exists s', agree (grounds foreign nb ar (aof w)) s s' /\ fholds B g M M s' w).
  { intros x y. split; intros (s' & K1 & K2); exists s'; split; auto; intros v I; [rewrite <- (AG x y v I)|rewrite (AG x y v I)]; auto. }
  assert (G : forall x y, (exists s', (forall v, In v (grounds foreign nb ar (aof w)) -> In v (grounds foreign nb ar (aof f1)) -> set (set s (qv id) x) (ft (qv id)) y v = s' v) /\ fholds B g M M s' f1) <->
    exists s', same s' /\ fholds B g M M s' l /\ ~ fholds B g M M s' r).
  { intros x y. split; intros (s' & K1 & K2); exists s'; (split; [|apply SAT; exact K2]); intros v I J; [rewrite <- (AG x y v I)|rewrite (AG x y v I)]; auto. }
  assert (ALL : (~ exists s', same s' /\ fholds B g M M s' l /\ ~ fholds B g M M s' r) <-> forall s', same s' -> fholds B g M M s' l -> fholds B g M M s' r).
  { split; [|intros K (s' & K1 & K2 & K3); auto]. intros K s' Z L. destruct (@sat_dec B g M s' DEC r (conj Wr (EV s'))) as [R|R]; auto. exfalso. apply K. eauto. }
  assert (GO : (exists x y, aholds A B g M wc (grounds foreign nb ar) X hv (set (set s (qv id) x) (ft (qv id)) y)
      (AConj [AConj [ACons (EBin OEq (EVar (qv id)) (EUn UNot (EVar (ft (qv id))))); ARed [LV (ft (qv id))] ex [] bs (aof f1) (Some (vs, aof w))]; ACons (EBin OEq (EVar (qv id)) (EConst (VBool (negb neg))))])) <->
      (exists s', agree (grounds foreign nb ar (aof w)) s s' /\ fholds B g M M s' w) /\
      (neg = true <-> exists s', same s' /\ fholds B g M M s' l /\ ~ fholds B g M M s' r)).
  { split.
    - intros (x & y & (K1 & K2 & _) & K3 & _). apply (proj1 (is_not _ _ _ _)) in K1. apply exists_where in K2; auto. apply (proj1 (is_bool _ _ _ _)) in K3. destruct K1 as (b & Eb1 & Eb2). destruct K2 as (HW & b' & Eb3 & K2). rewrite Eb1 in Eb3. injection Eb3 as <-. rewrite K3 in Eb2. injection Eb2 as Eb2.
      rewrite (W x y) in HW. rewrite (G x y) in K2. split; auto. rewrite <- K2. destruct neg, b; try discriminate Eb2; tauto.
    - intros (HW & K). exists (VBool (negb neg)), (VBool neg).
      assert (Q1 : set (set s (qv id) (VBool (negb neg))) (ft (qv id)) (VBool neg) (qv id) = VBool (negb neg)) by (rewrite set_other by (intros Q; exact (FT _ (eq_sym Q))); apply set_same).
      assert (Q2 : set (set s (qv id) (VBool (negb neg))) (ft (qv id)) (VBool neg) (ft (qv id)) = VBool neg) by apply set_same.
      split; [|split; [apply is_bool; exact Q1|exact Logic.I]]. split; [apply is_not; eauto|]. split; [|exact Logic.I]. apply exists_where; auto. rewrite (W _ _). split; auto. exists neg. split; auto. rewrite (G _ _). exact K. }
  rewrite GO. destruct neg; [tauto|]. rewrite <- ALL. split; intros (HW & K); split; auto; [intros K2; apply K in K2; discriminate K2|]. split; [discriminate|]. intros; contradiction.
Qed.
Print Assumptions C75_exists_partial.
Print Assumptions C75_forall_partial.
Print Assumptions C75_exists_where_partial.
Print Assumptions C75_forall_where_partial.

(** *** Examples *)
(** In the database of C58: r = {1, 2} (2), s = {1} (3), p = {(1, 1), (2, 1), (3, 1)} (1). *)
Definition q_exists : aggregator := fun op k S ws => op = 1 /\ exists b, ws = [VBool b] /\ (b = true <-> exists t, S t).
Lemma q_exists_ok : is_exists q_exists 1.
Proof. intros k S ws. unfold q_exists. split; [intros [_ H]; exact H|auto]. Qed.
Definition q_te (o : nat) : option nat := if Nat.eqb o 2 then Some 1 else None.
Definition q_qv (i : nat) : var := 300 + i.
Definition q_ft (v : var) : var := 400 + v.
Definition q_none : pred -> bool := fun _ => false.
Definition q_zero : pred -> nat := fun _ => 0.
Definition q_hold (hv : list var) (s : subst) (f : aform) : Prop := aholds q_exists benv_none C58_g C58_D (fun n => 200 + n) (grounds q_none q_zero q_zero) C58_D hv s f.
(** exists(o: p(o, _)) holds; forall(o: s(o) implies r(o)) holds, forall(o: r(o) implies s(o)) does not. *)
Example C75_exists_ex : exists f', transform_quants q_qv q_ft q_te (AAll 0 false 1 [0] (aof (FAtom 1 [EVar 0; EWild])) None) = Some f' /\
  forall s, exists x, q_hold [5] (set s 300 x) f'.
Proof.
  eexists. split; [vm_compute; reflexivity|]. intros s.
  apply (proj2 (C75_exists_partial q_exists benv_none C58_g C58_D C58_D (fun n => 200 + n) q_none q_zero q_zero q_qv q_ft q_te 0 false 1 [0] (FAtom 1 [EVar 0; EWild]) _ [5] s
    q_exists_ok eq_refl C58_decided eq_refl ltac:(intros s' e [<-|[<-|[]]]; [exists (s' 0); reflexivity|exists (I32 0); exact Logic.I]) ltac:(cbn; intuition) eq_refl)).
  exists (fun _ => I32 1), [I32 1; I32 1]. split; [repeat constructor|left; reflexivity].
Qed.
Definition q_all (neg : bool) (a b : pred) : aform := AAll 0 neg 2 [0] (AImp (aof (FAtom a [EVar 0])) (aof (FAtom b [EVar 0]))) None.
Lemma q_sat : forall s a, fholds benv_none C58_g C58_D C58_D s (FAtom a [EVar 0]) <-> C58_D a [s 0].
Proof.
  intros s a. cbn. split; [|intros H; exists [s 0]; split; [repeat constructor|exact H]]. intros (vs & H & K). inversion H as [|? v ? ? Hv Hn]; subst. inversion Hn; subst. cbn in Hv. subst. exact K.
Qed.
Example C75_forall_ex : exists f1 f2, transform_quants q_qv q_ft q_te (q_all false 3 2) = Some f1 /\ transform_quants q_qv q_ft q_te (q_all false 2 3) = Some f2 /\
  forall s, (exists x y, q_hold [5] (set (set s 300 x) 700 y) f1) /\ ~ exists x y, q_hold [5] (set (set s 300 x) 700 y) f2.
Proof.
  eexists. eexists. split; [vm_compute; reflexivity|]. split; [vm_compute; reflexivity|]. intros s.
  assert (T : forall a b f', transform_quants q_qv q_ft q_te (q_all false a b) = Some f' -> (exists x y, q_hold [5] (set (set s 300 x) 700 y) f') <-> forall s', C58_D a [s' 0] -> C58_D b [s' 0]).
  { intros a b f' H. unfold q_hold. change 300 with (q_qv 0). change 700 with (q_ft (q_qv 0)).
    rewrite (C75_forall_partial q_exists benv_none C58_g C58_D C58_D (fun n => 200 + n) q_none q_zero q_zero q_qv q_ft q_te 0 false 2 1 [0] (FAtom a [EVar 0]) (FAtom b [EVar 0]) f' [5] s
      q_exists_ok eq_refl eq_refl ltac:(unfold q_ft; intros; lia) C58_decided eq_refl eq_refl ltac:(intros s'; split; intros e [<-|[]]; exists (s' 0); reflexivity) ltac:(cbn; intuition) H).
    split; intros K s' L; apply q_sat; apply K; apply q_sat; exact L. }
  split.
  - apply (proj2 (T 3 2 _ eq_refl)). intros s' [E|[]]. rewrite <- E. left; reflexivity.
  - intros K. pose proof (proj1 (T 2 3 _ eq_refl) K) as K'. clear K. rename K' into K. specialize (K (fun _ => I32 2) (or_intror (or_introl eq_refl))). destruct K as [E|[]]. discriminate E.
Qed.
(** exists(o: p(x, o) where x: r(x)). *)
Example C75_where_ex : exists f', transform_quants q_qv q_ft q_te (AAll 0 false 1 [0] (aof (FAtom 1 [EVar 1; EVar 0])) (Some ([1], aof (FAtom 2 [EVar 1])))) = Some f' /\
  (exists x, q_hold [1] (set (fun _ => I32 2) 300 x) f') /\ ~ exists x, q_hold [1] (set (fun _ => I32 3) 300 x) f'.
Proof.
  eexists. split; [vm_compute; reflexivity|].
  assert (T : forall s, _) by (exact (fun s => C75_exists_where_partial q_exists benv_none C58_g C58_D C58_D (fun n => 200 + n) q_none q_zero q_zero q_qv q_ft q_te 0 false 1 [0] (FAtom 1 [EVar 1; EVar 0]) [1] (FAtom 2 [EVar 1]) _ [1] s
      q_exists_ok eq_refl eq_refl eq_refl ltac:(cbn; intuition discriminate) eq_refl)).
  split.
  - apply (T (fun _ => I32 2)). split.
    + exists (fun _ => I32 2). split; [intros v _; reflexivity|]. exists [I32 2]. split; [repeat constructor|]. right; left; reflexivity.
    + exists (fun v => if Nat.eqb v 1 then I32 2 else I32 1). split; [|exists [I32 2; I32 1]; split; [repeat constructor|]; right; left; reflexivity].
      intros v I _. assert (E : v = 1) by (vm_compute in I; intuition). subst v. reflexivity.
  - intros K. apply (T (fun _ => I32 3)) in K. destruct K as [(s' & A & vs & H & K) _]. inversion H as [|? v ? ? Hv Hn]; subst. inversion Hn; subst. cbn in Hv. subst v. rewrite <- (A 1) in K by (vm_compute; auto). destruct K as [K|[K|[]]]; discriminate K.
Qed.

(** ** Group-by variables from the head *)
(** Not true of variables of the head: [t(k) = q(k), not exists(o: a(o, k))] adds nothing
    for a [k] without [o], although this is what it asks for; the groups of an aggregation
    are those in which its body holds. *)
Theorem C75_not_exists_refuted : exists f body M, f = AConj [AAtom 2 [EVar 1]; AAll 0 true 1 [0] (AAtom 4 [EVar 0; EVar 1]) None] /\
  transform_quants q_qv q_ft q_te f = Some body /\ decided benv_none C58_g M /\ M 2 [I32 1] /\ (forall o, ~ M 4 [o; I32 1]) /\
  forall A wc X p t, is_exists A 1 -> ~ agg_consequence A benv_none C58_g M wc (grounds q_none q_zero q_zero) X (mkArule (FHAtom (9, [EVar 1])) body) p t.
Proof.
  eexists. eexists. exists C58_D. split; [reflexivity|]. split; [vm_compute; reflexivity|]. split; [exact C58_decided|]. split; [left; reflexivity|]. split; [intros o [E|[]]; discriminate E|].
  intros A wc X p t EX (s & a & H & _). cbn [ar_body ar_head] in H. destruct H as (_ & (H1 & H2 & _) & _). apply (proj1 (is_bool _ _ _ _)) in H2.
  cbn [aholds] in H1. match type of H1 with (?G = [] \/ _) /\ _ => change G with [1] in H1 end. destruct H1 as [[H1|H1] H3]; [discriminate H1|]. apply EX in H3. destruct H3 as (b & E & H3). cbn [map lvar_of] in E. rewrite H2 in E. injection E as <-.
  apply H3 in H1. discriminate H1.
Qed.
(** Likewise [t(k) = q(k), forall(o: a(o, k) implies b(o))]: it adds nothing at all, in
    whatever database. *)
Theorem C75_forall_refuted : exists f body, f = AConj [AAtom 2 [EVar 1]; AAll 0 false 2 [0] (AImp (AAtom 4 [EVar 0; EVar 1]) (AAtom 3 [EVar 0])) None] /\
  transform_quants q_qv q_ft q_te f = Some body /\
  (exists M, decided benv_none C58_g M /\ M 2 [I32 1] /\ forall o, M 4 [o; I32 1] -> M 3 [o]) /\
  forall A B g M wc X p t, is_exists A 1 -> ~ agg_consequence A B g M wc (grounds q_none q_zero q_zero) X (mkArule (FHAtom (9, [EVar 1])) body) p t.
Proof.
  eexists. eexists. split; [reflexivity|]. split; [vm_compute; reflexivity|]. split; [exists C58_D; split; [exact C58_decided|]; split; [left; reflexivity|]; intros o [E|[]]; discriminate E|].
  intros A B g M wc X p t EX (s & a & H & _). cbn [ar_body ar_head] in H. destruct H as (_ & ((H0 & H1 & _) & H2 & _) & _). apply (proj1 (is_bool _ _ _ _)) in H2. apply (proj1 (is_not _ _ _ _)) in H0. destruct H0 as (b & E1 & E2). rewrite H2 in E2. injection E2 as E2.
  cbn [aholds] in H1. match type of H1 with (?G = [] \/ _) /\ _ => change G with [1] in H1 end. destruct H1 as [[H1|H1] H3]; [discriminate H1|]. apply EX in H3. destruct H3 as (b' & E & H3). cbn [map lvar_of] in E. rewrite E1 in E. injection E as <-.
  apply H3 in H1. subst b. discriminate E2.
Qed.
Print Assumptions C75_not_exists_refuted.
Print Assumptions C75_forall_refuted.
