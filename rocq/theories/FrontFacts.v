(** Lemmas about the front end: induction principles, values of lists of
    expressions, the disjunctive normal form, flattening.  Used by C58-C60. *)
From Coq Require Import List ZArith Bool Arith Lia.
From Verif Require Import Value ListAux Back Eval BackSem Front FrontSem.
Import ListNotations.
Set Implicit Arguments.
Local Arguments bin_value : simpl never.
Local Arguments un_value : simpl never.

Section ExprInd.
  Variable P : expr -> Prop.
  Hypotheses (Hv : forall v, P (EVar v)) (Hw : P EWild) (Hc : forall c, P (EConst c))
    (Hb : forall op a b, P a -> P b -> P (EBin op a b)) (Hu : forall op a, P a -> P (EUn op a))
    (Hi : forall c a b, P c -> P a -> P b -> P (EIte c a b))
    (Hf : forall f l, Forall P l -> P (ECall f l)) (Hn : forall f l, Forall P l -> P (ENew f l)).
  Fixpoint expr_ind2 (e : expr) : P e :=
    match e with
    | EVar v => Hv v
    | EWild => Hw
    | EConst c => Hc c
    | EBin op a b => Hb op (expr_ind2 a) (expr_ind2 b)
    | EUn op a => Hu op (expr_ind2 a)
    | EIte c a b => Hi (expr_ind2 c) (expr_ind2 a) (expr_ind2 b)
    | ECall f l => Hf f ((fix go l : Forall P l := match l with [] => Forall_nil _ | e :: l => Forall_cons _ (expr_ind2 e) (go l) end) l)
    | ENew f l => Hn f ((fix go l : Forall P l := match l with [] => Forall_nil _ | e :: l => Forall_cons _ (expr_ind2 e) (go l) end) l)
    end.
End ExprInd.
Section FormInd.
  Variable P : formula -> Prop.
  Hypotheses (Ha : forall p l, P (FAtom p l)) (Hn : forall p l, P (FNeg p l)) (Hc : forall e, P (FCons e))
    (Hj : forall l, Forall P l -> P (FConj l)) (Hd : forall l, Forall P l -> P (FDisj l))
    (Hi : forall a b, P a -> P b -> P (FImp a b)).
  Fixpoint form_ind2 (f : formula) : P f :=
    match f with
    | FAtom p l => Ha p l
    | FNeg p l => Hn p l
    | FCons e => Hc e
    | FConj l => Hj ((fix go l : Forall P l := match l with [] => Forall_nil _ | e :: l => Forall_cons _ (form_ind2 e) (go l) end) l)
    | FDisj l => Hd ((fix go l : Forall P l := match l with [] => Forall_nil _ | e :: l => Forall_cons _ (form_ind2 e) (go l) end) l)
    | FImp a b => Hi (form_ind2 a) (form_ind2 b)
    end.
End FormInd.

(** ** Values *)
Lemma go_values : forall E s l vs,
  (fix go l vs := match l, vs with
                  | [], [] => True
                  | e :: l, v :: vs => has_value E s e v /\ go l vs
                  | _, _ => False end) l vs <-> have_values E s l vs.
Proof.
  intros E s. unfold have_values. induction l as [|e l IH]; intros [|v vs].
  - split; constructor.
  - split; [intros []|intros H; inversion H].
  - split; [intros []|intros H; inversion H].
  - split.
    + intros [H K]. constructor; auto. apply IH; auto.
    + intros H. inversion H; subst. split; auto. apply IH; auto.
Qed.
Lemma has_value_call : forall E s f l r, has_value E s (ECall f l) r <-> exists vs, have_values E s l vs /\ e_call E f vs = EOk r.
Proof. intros. cbn. split; intros (vs & H & K); exists vs; split; auto; apply go_values; auto. Qed.
Lemma has_value_new : forall E s f l r, has_value E s (ENew f l) r <-> exists vs, have_values E s l vs /\ r = VEntity (e_entity E f vs).
Proof. intros. cbn. split; intros (vs & H & K); exists vs; split; auto; apply go_values; auto. Qed.

Lemma holds_conj : forall B g X M s l, fholds B g X M s (FConj l) <-> forall f, In f l -> fholds B g X M s f.
Proof.
  intros B g X M s. induction l as [|f l IH]; cbn in *.
  - tauto.
  - rewrite IH. split; [intros [H K] h [<-|I]; auto|]. intros H. split; intros; apply H; auto.
Qed.
Lemma holds_disj : forall B g X M s l, fholds B g X M s (FDisj l) <-> exists f, In f l /\ fholds B g X M s f.
Proof.
  intros B g X M s. induction l as [|f l IH]; cbn in *.
  - split; [intros []|intros (? & [] & _)].
  - rewrite IH. split.
    + intros [H|(h & I & H)]; eauto.
    + intros (h & [<-|I] & H); eauto.
Qed.

(** Without wildcards the value is unique. *)
Lemma value_unique : forall E s e, no_wild e = true -> forall x y, has_value E s e x -> has_value E s e y -> x = y.
Proof.
  intros E s e. pattern e. apply expr_ind2; clear e.
  - cbn. intros; congruence.
  - discriminate.
  - cbn. intros; congruence.
  - cbn. intros op a b IA IB W x y (x1 & x2 & H1 & H2 & H3) (y1 & y2 & K1 & K2 & K3). apply andb_prop in W. destruct W as [Wa Wb].
    rewrite (IA Wa _ _ H1 K1), (IB Wb _ _ H2 K2) in H3. congruence.
  - cbn. intros op a IA W x y (x1 & H1 & H3) (y1 & K1 & K3). rewrite (IA W _ _ H1 K1) in H3. congruence.
  - cbn. intros c a b IC IA IB W x y H K. apply andb_prop in W. destruct W as [W Wb]. apply andb_prop in W. destruct W as [Wc Wa].
    destruct H as [[H1 H2]|[H1 H2]], K as [[K1 K2]|[K1 K2]]; eauto; specialize (IC Wc _ _ H1 K1); discriminate.
  - intros f l IH W x y H K. apply has_value_call in H, K. destruct H as (vs & H & H'), K as (us & K & K').
    replace us with vs in K' by (clear -IH W H K; cbn in W; revert us K; induction H as [|e v l vs H1 H IHH]; intros us K; inversion K; subst; auto;
      cbn in W; apply andb_prop in W; destruct W; inversion IH; subst; f_equal; auto). congruence.
  - intros f l IH W x y H K. apply has_value_new in H, K. destruct H as (vs & H & H'), K as (us & K & K').
    replace us with vs in K' by (clear -IH W H K; cbn in W; revert us K; induction H as [|e v l vs H1 H IHH]; intros us K; inversion K; subst; auto;
      cbn in W; apply andb_prop in W; destruct W; inversion IH; subst; f_equal; auto). congruence.
Qed.

(** Values depend on the variables of the expression only. *)
Lemma value_local : forall E s s' e, (forall v, In v (expr_vars e) -> s v = s' v) -> forall r, has_value E s e r -> has_value E s' e r.
Proof.
  intros E s s' e. pattern e. apply expr_ind2; clear e; auto.
  - cbn. intros v H r ->. apply H; auto.
  - cbn. intros op a b IA IB V r (x & y & H1 & H2 & H3). exists x, y. repeat split; auto; [apply IA|apply IB]; auto; intros; apply V; rewrite in_app_iff; auto.
  - cbn. intros op a IA V r (x & H1 & H3). exists x. split; auto.
  - cbn. intros c a b IC IA IB V r [[H1 H2]|[H1 H2]]; [left|right]; (split; [apply IC|]); auto; try apply IA; auto; try apply IB; auto; intros; apply V; rewrite !in_app_iff; auto.
  - intros f l IH V r H. apply has_value_call in H. apply has_value_call. destruct H as (vs & H & K). exists vs. split; auto. clear K.
    unfold have_values in *. induction H as [|e v l vs H1 H IHH]; constructor; inversion IH; subst.
    + apply H3; auto. intros; apply V; cbn; rewrite in_app_iff; auto.
    + apply IHH; auto. intros; apply V; cbn; rewrite in_app_iff; auto.
  - intros f l IH V r H. apply has_value_new in H. apply has_value_new. destruct H as (vs & H & K). exists vs. split; auto. clear K.
    unfold have_values in *. induction H as [|e v l vs H1 H IHH]; constructor; inversion IH; subst.
    + apply H3; auto. intros; apply V; cbn; rewrite in_app_iff; auto.
    + apply IHH; auto. intros; apply V; cbn; rewrite in_app_iff; auto.
Qed.
Lemma values_local : forall E s s' l, (forall v, In v (flat_map expr_vars l) -> s v = s' v) -> forall vs, have_values E s l vs -> have_values E s' l vs.
Proof.
  unfold have_values. intros E s s' l V vs H. induction H as [|e v l vs H1 H IH]; constructor.
  - eapply value_local; [|eauto]. intros; apply V; cbn; rewrite in_app_iff; auto.
  - apply IH. intros; apply V; cbn; rewrite in_app_iff; auto.
Qed.

(** ** Options *)
Lemma oall_some : forall A (l : list (option A)) r, oall l = Some r -> Forall2 (fun x y => x = Some y) l r.
Proof.
  induction l as [|x l IH]; cbn; intros r H; [injection H as <-; constructor|].
  destruct x as [x|]; cbn in H; [|discriminate]. destruct (oall l) as [r'|]; cbn in H; [|discriminate]. injection H as <-. constructor; auto.
Qed.
Lemma oall_map : forall A B (f : A -> option B) l r, oall (map f l) = Some r -> Forall2 (fun x y => f x = Some y) l r.
Proof.
  intros A B f l r H. apply oall_some in H. remember (map f l) as m eqn:E. revert l E. induction H as [|x y m r H1 H IH]; intros [|z l] E; try discriminate; constructor.
  - cbn in E. congruence.
  - apply IH. cbn in E. congruence.
Qed.
Lemma oall_none : forall A B (f : A -> option B) l, oall (map f l) = None <-> exists x, In x l /\ f x = None.
Proof.
  induction l as [|x l IH]; cbn; [split; [discriminate|intros (? & [] & _)]|].
  destruct (f x) as [y|] eqn:E; cbn; [|split; eauto].
  destruct (oall (map f l)) as [r|]; cbn.
  - split; [discriminate|]. intros (z & [<-|I] & Q); [congruence|]. exfalso. assert (K : Some r = None) by (apply IH; eauto). discriminate.
  - split; [|auto]. intros _. destruct (proj1 IH eq_refl) as (z & I & Q). eauto.
Qed.
Lemma F2_in_l : forall A B (R : A -> B -> Prop) l r x, Forall2 R l r -> In x l -> exists y, In y r /\ R x y.
Proof. intros A B R l r x H. induction H; intros []; subst; eauto. - exists y; split; auto; left; auto. - destruct (IHForall2 H1) as (z & I & Q). exists z; split; auto; right; auto. Qed.
Lemma F2_in_r : forall A B (R : A -> B -> Prop) l r y, Forall2 R l r -> In y r -> exists x, In x l /\ R x y.
Proof. intros A B R l r x H. induction H; intros []; subst; eauto. - exists x0; split; auto; left; auto. - destruct (IHForall2 H1) as (z & I & Q). exists z; split; auto; right; auto. Qed.

(** ** Products and the disjunctive normal form *)
Lemma product_in : forall A (l : list (list A)) x, In x (product l) <-> Forall2 (fun y c => In y c) x l.
Proof.
  induction l as [|c l IH]; cbn; intros x.
  - split; [intros [<-|[]]; constructor|intros H; inversion H; auto].
  - rewrite in_flat_map. split.
    + intros (y & I & J). apply in_map_iff in J. destruct J as (z & <- & J). constructor; auto. apply IH; auto.
    + intros H. inversion H; subst. exists x0. split; auto. apply in_map_iff. exists l0. split; auto. apply IH; auto.
Qed.
Lemma multi_product_in : forall A (l : list (list A)) x, l <> [] -> (In x (multi_product l) <-> Forall2 (fun y c => In y c) x l).
Proof. intros A [|c l] x N; [congruence|]. apply product_in. Qed.
Definition clits (c : cctx) : list formula := c_pos c ++ c_neg c.
Lemma join_lits : forall l, c_pos (conj_join l) = flat_map c_pos l /\ c_neg (conj_join l) = flat_map c_neg l.
Proof.
  intros l. unfold conj_join.
  assert (H : forall a, c_pos (fold_left (fun a c => mkConj (c_pos a ++ c_pos c) (c_neg a ++ c_neg c)) l a) = c_pos a ++ flat_map c_pos l /\
                        c_neg (fold_left (fun a c => mkConj (c_pos a ++ c_pos c) (c_neg a ++ c_neg c)) l a) = c_neg a ++ flat_map c_neg l).
  { induction l as [|c l IH]; intros a; cbn; [rewrite !app_nil_r; auto|]. destruct (IH (mkConj (c_pos a ++ c_pos c) (c_neg a ++ c_neg c))) as [-> ->].
    cbn. rewrite <- !app_assoc. auto. }
  apply (H (mkConj [] [])).
Qed.
Lemma clits_join : forall l f, In f (clits (conj_join l)) <-> exists c, In c l /\ In f (clits c).
Proof.
  intros l f. unfold clits. destruct (join_lits l) as [-> ->]. rewrite in_app_iff, !in_flat_map. split.
  - intros [(c & I & J)|(c & I & J)]; exists c; rewrite in_app_iff; auto.
  - intros (c & I & J). apply in_app_iff in J. destruct J; eauto.
Qed.
