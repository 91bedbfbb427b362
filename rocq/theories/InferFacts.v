(** Lemmas about the steps of type inference: every step only narrows the sets of types
    at its own locations. *)
From Coq Require Import List Bool Arith Lia.
From Verif Require Import Back TypeSet Infer PropsTypeSet.
Import ListNotations.

(** ** Maps *)
Lemma get_nil {A} j : get (@nil (option A)) j = None.
Proof. destruct j; reflexivity. Qed.
Lemma get_put {A} (m : list (option A)) k j a : get (put m k a) j = if Nat.eqb j k then Some a else get m j.
Proof.
  unfold get. revert m j. induction k as [|k IH]; intros m j.
  - destruct m, j; cbn; try reflexivity. destruct j; reflexivity.
  - destruct m as [|x m], j as [|j]; cbn; try reflexivity.
    + rewrite IH. destruct j; cbn; reflexivity.
    + apply IH.
Qed.
Lemma get_put_eq {A} (m : list (option A)) k a : get (put m k a) k = Some a.
Proof. rewrite get_put, Nat.eqb_refl. reflexivity. Qed.
Lemma get_put_neq {A} (m : list (option A)) k j a : j <> k -> get (put m k a) j = get m j.
Proof. intros H. rewrite get_put. apply Nat.eqb_neq in H. rewrite H. reflexivity. Qed.

(** ** Results *)
Lemma tbind_ok {A B} (x : tres A) (f : A -> tres B) b : tbind x f = TOk b -> exists a, x = TOk a /\ f a = TOk b.
Proof. destruct x; cbn; [eauto|discriminate..]. Qed.
Lemma of_opt_ok {A} (x : option A) a : of_opt x = TOk a -> x = Some a.
Proof. destruct x; cbn; congruence. Qed.
Lemma unwrap_ok {A} (x : option A) a : unwrap x = TOk a -> x = Some a.
Proof. destruct x; cbn; congruence. Qed.
Lemma tfold_app {A B} (f : A -> B -> tres B) l l' b : tfold f (l ++ l') b = tbind (tfold f l b) (tfold f l').
Proof. revert b. induction l as [|a l IH]; cbn; intros b; [reflexivity|]. destruct (f a b); cbn; auto. Qed.
Lemma tmap_Forall2 {A B} (f : A -> tres B) l r : tmap f l = TOk r -> Forall2 (fun a b => f a = TOk b) l r.
Proof.
  revert r. induction l as [|a l IH]; cbn; intros r H; [injection H as <-; constructor|].
  apply tbind_ok in H. destruct H as (b & E & H). apply tbind_ok in H. destruct H as (r' & E' & H).
  injection H as <-. constructor; auto.
Qed.

(** ** Narrowing *)
Definition ole (a b : option tset) : Prop :=
  match b, a with Some b, Some a => sle a b | Some _, None => False | None, _ => True end.
Lemma ole_refl a : ole a a.
Proof. destruct a; cbn; [apply sle_refl|exact Logic.I]. Qed.
Lemma ole_trans a b c : ole a b -> ole b c -> ole a c.
Proof. destruct a, b, c; cbn; try tauto. apply sle_trans. Qed.
Lemma ole_some a b : ole a (Some b) -> exists c, a = Some c /\ sle c b.
Proof. destruct a; cbn; [eauto|tauto]. Qed.
Definition dec (L : list loc) (X X' : exprs) : Prop :=
  forall e, ole (get X' e) (get X e) /\ (get X' e = get X e \/ In e L).
Lemma dec_refl L X : dec L X X.
Proof. intros e. split; [apply ole_refl|auto]. Qed.
Lemma dec_trans L X Y Z : dec L X Y -> dec L Y Z -> dec L X Z.
Proof.
  intros H K e. destruct (H e) as [A B], (K e) as [C D]. split; [eapply ole_trans; eauto|].
  destruct B as [B|B], D as [D|D]; auto. left. congruence.
Qed.
Lemma dec_weaken L L' X Y : incl L L' -> dec L X Y -> dec L' X Y.
Proof. intros I H e. destruct (H e) as [A [B|B]]; auto. Qed.
Lemma dec_put L X e s : In e L -> (forall a, get X e = Some a -> sle s a) -> dec L X (put X e s).
Proof.
  intros I H j. rewrite get_put. destruct (Nat.eqb_spec j e) as [->|N]; [|split; [apply ole_refl|auto]].
  split; [|auto]. destruct (get X e) as [a|] eqn:E; cbn; auto.
Qed.
Lemma dec_ole L X Y e : dec L X Y -> ole (get Y e) (get X e).
Proof. intros H. apply H. Qed.
Lemma dec_get L X Y e a : dec L X Y -> get X e = Some a -> exists b, get Y e = Some b /\ sle b a.
Proof. intros H E. pose proof (dec_ole _ _ _ e H) as K. rewrite E in K. apply ole_some, K. Qed.
Lemma dec_frame L X Y e : dec L X Y -> ~ In e L -> get Y e = get X e.
Proof. intros H N. destruct (H e) as [_ [E|I]]; [exact E|contradiction]. Qed.

(** ** The helpers *)
Lemma unify_ty_ok e s X n X' : unify_ty e s X = TOk (n, X') ->
  dec [e] X X' /\ get X' e = Some n /\ sle n s.
Proof.
  unfold unify_ty. destruct (ts_unify s _) as [m|] eqn:E; [|discriminate]. intros H. injection H as <- <-.
  destruct (unify_le _ _ _ E) as [A B]. rewrite get_put_eq. split; [|auto].
  apply dec_put; [left; reflexivity|]. intros a G. rewrite G in B. exact B.
Qed.
Lemma unify_loc_ok e s X X' : unify_loc e s X = TOk X' ->
  dec [e] X X' /\ exists n, get X' e = Some n /\ sle n s.
Proof.
  unfold unify_loc. intros H. apply tbind_ok in H. destruct H as ((n & Y) & E & H). injection H as <-.
  apply unify_ty_ok in E. cbn. destruct E as (A & B & C). eauto.
Qed.
Lemma get_or_insert_ok e s X n X' : get_or_insert e s X = (n, X') ->
  dec [e] X X' /\ get X' e = Some n /\ (get X e = None -> n = s).
Proof.
  unfold get_or_insert. destruct (get X e) as [t|] eqn:E; intros H; injection H as <- <-.
  - split; [apply dec_refl|]. split; [assumption|discriminate].
  - rewrite get_put_eq. split; [apply dec_put; [left; reflexivity|congruence]|]. auto.
Qed.
Lemma incl1 (e : loc) L : In e L -> incl [e] L.
Proof. intros H x [<-|[]]; auto. Qed.

(** Typing rules with three and with two types. *)
Definition fits3 (X : exprs) (a b e : loc) (r : vtype * vtype * vtype) : Prop :=
  get X a = Some (SBase (fst (fst r))) /\ get X b = Some (SBase (snd (fst r))) /\ get X e = Some (SBase (snd r)).
Lemma base_kept L X Y e t : dec L X Y -> get X e = Some (SBase t) -> get Y e = Some (SBase t).
Proof.
  intros D E. destruct (dec_get _ _ _ _ _ D E) as (b & G & S). apply sle_base in S. subst. exact G.
Qed.
Lemma unify_base_ok e t X X' : unify_loc e (SBase t) X = TOk X' -> dec [e] X X' /\ get X' e = Some (SBase t).
Proof.
  intros H. apply unify_loc_ok in H. destruct H as (D & n & G & S). apply sle_base in S. subst. auto.
Qed.
Ltac tb H := apply tbind_ok in H; let x := fresh "r" in let E := fresh "E" in destruct H as (x & E & H).
Lemma unify_poly_ok rules strict a b e X X' : unify_poly rules strict a b e X = TOk X' ->
  dec [a; b; e] X X' /\
  exists sa sb se, get X' a = Some sa /\ get X' b = Some sb /\ get X' e = Some se /\
  (strict = true -> exists r, In r rules /\ fits3 X' a b e r).
Proof.
  unfold unify_poly. intros H. tb H. destruct r as (sa & X1). tb H. destruct r as (sb & X2). tb H. destruct r as (se & X3).
  apply unify_ty_ok in E, E0, E1. destruct E as (D1 & G1 & _), E0 as (D2 & G2 & _), E1 as (D3 & G3 & _).
  assert (D : dec [a; b; e] X X3).
  { apply (dec_trans _ _ X1); [apply (dec_weaken [a]); auto; apply incl1; cbn; auto|].
    apply (dec_trans _ _ X2); [apply (dec_weaken [b]); auto; apply incl1; cbn; auto|].
    apply (dec_weaken [e]); auto; apply incl1; cbn; auto. }
  cbv zeta in H.
  set (fits := filter _ rules) in H.
  assert (C : forall r X', In r rules ->
    (let '(t1, t2, te) := r in tbind (unify_loc a (SBase t1) X3) (fun X0 => tbind (unify_loc b (SBase t2) X0) (fun X4 => unify_loc e (SBase te) X4))) = TOk X' ->
    dec [a; b; e] X X' /\ exists r, In r rules /\ fits3 X' a b e r).
  { clear H X'. intros ((t1 & t2) & te) X' I H. tb H. tb H.
    apply unify_base_ok in E, E0, H. destruct E as (Da & Ga), E0 as (Db & Gb), H as (De & Ge).
    split.
    - apply (dec_trans _ _ X3); [exact D|]. apply (dec_trans _ _ r); [apply (dec_weaken [a]); auto; apply incl1; cbn; auto|].
      apply (dec_trans _ _ r0); [apply (dec_weaken [b]); auto; apply incl1; cbn; auto|].
      apply (dec_weaken [e]); auto; apply incl1; cbn; auto.
    - exists (t1, t2, te). split; [exact I|]. unfold fits3. cbn.
      split; [eapply base_kept; [exact De|eapply base_kept; [exact Db|exact Ga]]|].
      split; [eapply base_kept; [exact De|exact Gb]|exact Ge]. }
  assert (F : forall r, In r fits -> In r rules) by (intros r I; apply filter_In in I; tauto).
  assert (N : dec [a; b; e] X X' /\ (exists r, In r rules /\ fits3 X' a b e r) -> dec [a; b; e] X X' /\
    exists sa sb se, get X' a = Some sa /\ get X' b = Some sb /\ get X' e = Some se /\
    (strict = true -> exists r, In r rules /\ fits3 X' a b e r)).
  { intros (A & r & I & Q). split; [exact A|]. destruct Q as (Q1 & Q2 & Q3).
    exists (SBase (fst (fst r))), (SBase (snd (fst r))), (SBase (snd r)). repeat split; auto. intros _. exists r. repeat split; auto. }
  destruct fits as [|r [|r' l]]; [discriminate| |].
  - apply N, (C r); [apply F; left; reflexivity|exact H].
  - destruct strict; [apply N, (C r); [apply F; left; reflexivity|exact H]|].
    injection H as <-. split; [exact D|].
    destruct (dec_get _ _ _ _ _ D2 G1) as (s1 & K1 & _). destruct (dec_get _ _ _ _ _ D3 K1) as (s1' & K1' & _).
    destruct (dec_get _ _ _ _ _ D3 G2) as (s2 & K2 & _).
    exists s1', s2, se. repeat split; auto. discriminate.
Qed.
Lemma unify_compare_ok strict a b e X X' : unify_compare strict a b e X = TOk X' ->
  dec [a; b; e] X X' /\ get X' e = Some (SBase TBool) /\
  exists sa sb, get X' a = Some sa /\ get X' b = Some sb /\
  (strict = true -> exists r, In r compare_rules /\ get X' a = Some (SBase (fst r)) /\ get X' b = Some (SBase (snd r))).
Proof.
  unfold unify_compare. intros H. tb H. rename r into X0. tb H. destruct r as (sa & X1). tb H. destruct r as (sb & X2).
  apply unify_base_ok in E. apply unify_ty_ok in E0, E1.
  destruct E as (D0 & G0), E0 as (D1 & G1 & _), E1 as (D2 & G2 & _).
  assert (D : dec [a; b; e] X X2).
  { apply (dec_trans _ _ X0); [apply (dec_weaken [e]); auto; apply incl1; cbn; auto|].
    apply (dec_trans _ _ X1); [apply (dec_weaken [a]); auto; apply incl1; cbn; auto|].
    apply (dec_weaken [b]); auto; apply incl1; cbn; auto. }
  assert (G0' : get X2 e = Some (SBase TBool)) by (eapply base_kept; [exact D2|eapply base_kept; [exact D1|exact G0]]).
  cbv zeta in H. set (fits := filter _ compare_rules) in H.
  assert (C : forall r X', In r compare_rules ->
    (let '(t1, t2) := r in tbind (unify_loc a (SBase t1) X2) (fun X0 => unify_loc b (SBase t2) X0)) = TOk X' ->
    dec [a; b; e] X X' /\ get X' e = Some (SBase TBool) /\
    exists r, In r compare_rules /\ get X' a = Some (SBase (fst r)) /\ get X' b = Some (SBase (snd r))).
  { clear H X'. intros (t1 & t2) X' I H. tb H.
    apply unify_base_ok in E, H. destruct E as (Da & Ga), H as (Db & Gb).
    split; [|split].
    - apply (dec_trans _ _ X2); [exact D|]. apply (dec_trans _ _ r); [apply (dec_weaken [a]); auto; apply incl1; cbn; auto|].
      apply (dec_weaken [b]); auto; apply incl1; cbn; auto.
    - eapply base_kept; [exact Db|eapply base_kept; [exact Da|exact G0']].
    - exists (t1, t2). split; [exact I|]. cbn. split; [eapply base_kept; [exact Db|exact Ga]|exact Gb]. }
  assert (F : forall r, In r fits -> In r compare_rules) by (intros r I; apply filter_In in I; tauto).
  assert (N : dec [a; b; e] X X' /\ get X' e = Some (SBase TBool) /\
    (exists r, In r compare_rules /\ get X' a = Some (SBase (fst r)) /\ get X' b = Some (SBase (snd r))) ->
    dec [a; b; e] X X' /\ get X' e = Some (SBase TBool) /\
    exists sa sb, get X' a = Some sa /\ get X' b = Some sb /\
    (strict = true -> exists r, In r compare_rules /\ get X' a = Some (SBase (fst r)) /\ get X' b = Some (SBase (snd r)))).
  { intros (A & B & r & I & Q1 & Q2). split; [exact A|]. split; [exact B|].
    exists (SBase (fst r)), (SBase (snd r)). repeat split; auto. intros _. exists r. repeat split; auto. }
  destruct fits as [|r [|r' l]]; [discriminate| |].
  - apply N, (C r); [apply F; left; reflexivity|exact H].
  - destruct strict; [apply N, (C r); [apply F; left; reflexivity|exact H]|].
    injection H as <-. split; [exact D|]. split; [exact G0'|].
    destruct (dec_get _ _ _ _ _ D2 G1) as (s1 & K1 & _). exists s1, sb. repeat split; auto. discriminate.
Qed.

(** ** Calls *)
Lemma call_args_ok f args : forall i X l X', call_args f i args X = TOk (l, X') ->
  dec args X X' /\
  (forall k a, nth_error args k = Some a -> exists t, arg_type f (i + k) = Some t /\
     match t with
     | AGeneric g => In (g, a) l
     | ASet s => exists n, get X' a = Some n /\ sle n s
     end) /\
  (forall g a, In (g, a) l -> In a args /\ exists k, arg_type f (i + k) = Some (AGeneric g) /\ nth_error args k = Some a).
Proof.
  induction args as [|a args IH]; intros i X l X' H; cbn in H.
  - injection H as <- <-. split; [apply dec_refl|]. split; [intros [|k] b E; discriminate|intros g b []].
  - tb H. apply unwrap_ok in E.
    destruct r as [g|s].
    + tb H. destruct r as (l' & Y). injection H as <- <-. apply IH in E0. destruct E0 as (D & P & Q).
      split; [eapply dec_weaken; [|exact D]; intros x; cbn; auto|]. split.
      * intros [|k] b G; cbn in G.
        -- injection G as <-. exists (AGeneric g). rewrite Nat.add_0_r. split; [exact E|left; reflexivity].
        -- destruct (P k b G) as (t & T & M). exists t. rewrite <- Nat.add_succ_comm. split; [exact T|].
           destruct t; [right; exact M|exact M].
      * intros g' b [G|G].
        -- injection G as <- <-. split; [left; reflexivity|]. exists 0. rewrite Nat.add_0_r. auto.
        -- destruct (Q g' b G) as (I & k & T & N). split; [right; exact I|]. exists (S k). rewrite <- Nat.add_succ_comm. auto.
    + tb H. apply unify_loc_ok in E0. destruct E0 as (D0 & n & G0 & S0). apply IH in H. destruct H as (D & P & Q).
      split; [apply (dec_trans _ _ r); [eapply dec_weaken; [|exact D0]; apply incl1; left; reflexivity|eapply dec_weaken; [|exact D]; intros x; cbn; auto]|].
      split.
      * intros [|k] b G; cbn in G.
        -- injection G as <-. exists (ASet s). rewrite Nat.add_0_r. split; [exact E|].
           destruct (dec_get _ _ _ _ _ D G0) as (m & Gm & Sm). exists m. split; [exact Gm|eapply sle_trans; eauto].
        -- destruct (P k b G) as (t & T & M). exists t. rewrite <- Nat.add_succ_comm. auto.
      * intros g' b G. destruct (Q g' b G) as (I & k & T & N). split; [right; exact I|]. exists (S k). rewrite <- Nat.add_succ_comm. auto.
Qed.
Lemma put_all_get l s : forall X e, get (put_all l s X) e = if in_dec Nat.eq_dec e l then Some s else get X e.
Proof.
  unfold put_all. induction l as [|a l IH]; intros X e; cbn [fold_left]; [reflexivity|].
  rewrite IH, get_put. destruct (in_dec Nat.eq_dec e l) as [I|N], (in_dec Nat.eq_dec e (a :: l)) as [I'|N']; auto.
  - destruct N'. right. exact I.
  - destruct I' as [<-|I']; [rewrite Nat.eqb_refl; reflexivity|contradiction].
  - destruct (Nat.eqb_spec e a) as [->|K]; [destruct N'; left; reflexivity|reflexivity].
Qed.
Lemma unify_instances_ok fam l : forall agg X s X', unify_instances fam agg l X = TOk (s, X') ->
  dec l X X' /\ sle s agg /\ (forall a, In a l -> exists n, get X' a = Some n /\ sle s n /\ sle n fam) .
Proof.
  induction l as [|a l IH]; intros agg X s X' H; cbn in H.
  - injection H as <- <-. split; [apply dec_refl|]. split; [apply sle_refl|intros a []].
  - tb H. destruct r as (n & Y). tb H. apply of_opt_ok in E0. apply unify_ty_ok in E. destruct E as (D0 & G0 & S0).
    apply IH in H. destruct H as (D & S & P). destruct (unify_le _ _ _ E0) as (L1 & L2).
    split; [apply (dec_trans _ _ Y); [eapply dec_weaken; [|exact D0]; apply incl1; left; reflexivity|eapply dec_weaken; [|exact D]; intros x; cbn; auto]|].
    split; [eapply sle_trans; eauto|].
    intros b [<-|I]; [|auto].
    destruct (in_dec Nat.eq_dec a l) as [I|N]; [auto|].
    exists n. rewrite (dec_frame _ _ _ _ D N). split; [exact G0|]. split; [eapply sle_trans; eauto|exact S0].
Qed.
Lemma unify_generic_ok insts g fam X X' : unify_generic insts (g, fam) X = TOk X' ->
  dec (instances g insts) X X' /\
  (forall a, In a (instances g insts) -> exists s, sle s fam /\ forall b, In b (instances g insts) -> get X' b = Some s).
Proof.
  unfold unify_generic. cbn [fst snd]. destruct (instances g insts) as [|a l] eqn:EI.
  - intros H. injection H as <-. split; [apply dec_refl|intros a []].
  - intros H. tb H. destruct r as (s0 & Y). tb H. destruct r as (s & Z). injection H as <-.
    apply unify_ty_ok in E. destruct E as (D0 & G0 & S0). apply unify_instances_ok in E0. destruct E0 as (D & S & P).
    assert (D' : dec (a :: l) X Z).
    { apply (dec_trans _ _ Y); [eapply dec_weaken; [|exact D0]; apply incl1; left; reflexivity|eapply dec_weaken; [|exact D]; intros x; cbn; auto]. }
    assert (Q : forall b, In b (a :: l) -> exists n, get Z b = Some n /\ sle s n).
    { intros b [<-|I].
      - destruct (dec_get _ _ _ _ _ D G0) as (m & Gm & Sm). destruct (in_dec Nat.eq_dec a l) as [I|N].
        + destruct (P a I) as (n & G & S1 & S2). eauto.
        + exists s0. rewrite (dec_frame _ _ _ _ D N). auto.
      - destruct (P b I) as (n & G & S1 & S2). eauto. }
    split.
    + intros e. change (put_all l s (put Z a s)) with (put_all (a :: l) s Z). rewrite put_all_get.
      destruct (in_dec Nat.eq_dec e (a :: l)) as [I|N].
      * split; [|right; exact I]. destruct (Q e I) as (n & G & S1).
        eapply ole_trans; [|apply (dec_ole _ _ _ e D')]. rewrite G. exact S1.
      * apply D'.
    + intros b0 _. exists s. split; [eapply sle_trans; eauto|].
      intros b I. change (put_all l s (put Z a s)) with (put_all (a :: l) s Z). rewrite put_all_get.
      destruct (in_dec Nat.eq_dec b (a :: l)); [reflexivity|contradiction].
Qed.
Lemma instances_In g l a : In a (instances g l) <-> In (g, a) l.
Proof.
  unfold instances. rewrite in_map_iff. split.
  - intros ((h & b) & E & I). cbn in E. subst. apply filter_In in I. destruct I as [I E]. cbn in E.
    apply Nat.eqb_eq in E. subst. exact I.
  - intros I. exists (g, a). split; [reflexivity|]. apply filter_In. cbn. rewrite Nat.eqb_refl. auto.
Qed.
Lemma dec_tfold {A} (f : A -> exprs -> tres exprs) (L : list loc) l :
  (forall a X X', In a l -> f a X = TOk X' -> dec L X X') -> forall X X', tfold f l X = TOk X' -> dec L X X'.
Proof.
  induction l as [|a l IH]; cbn; intros F X X' H; [injection H as <-; apply dec_refl|].
  tb H. apply (dec_trans _ _ r); [apply (F a); auto|]. eapply IH; [|exact H].
  intros b Y Y' I. apply F. right. exact I.
Qed.
(** A step in the middle. *)
Lemma dec_tfold_mid {A} (f : A -> exprs -> tres exprs) (L : list loc) l :
  (forall a X X', In a l -> f a X = TOk X' -> dec L X X') -> forall X X' a, tfold f l X = TOk X' -> In a l ->
  exists Y Z, dec L X Y /\ f a Y = TOk Z /\ dec L Z X'.
Proof.
  induction l as [|b l IH]; cbn; intros F X X' a H I; [destruct I|].
  tb H. destruct I as [<-|I].
  - exists X, r. split; [apply dec_refl|]. split; [exact E|]. eapply dec_tfold; [|exact H]. intros c Y Y' J. apply F. right. exact J.
  - destruct (IH (fun c Y Y' J => F c Y Y' (or_intror J)) r X' a H I) as (Y & Z & D1 & D2 & D3).
    exists Y, Z. split; [|auto]. apply (dec_trans _ _ r); [apply (F b); auto|exact D1].
Qed.
Lemma enumerate_In {A} (l : list A) i a : In (i, a) (enumerate l) <-> nth_error l i = Some a.
Proof.
  unfold enumerate. assert (G : forall k, In (i, a) (combine (seq k (length l)) l) <-> k <= i /\ nth_error l (i - k) = Some a).
  { induction l as [|b l IH]; intros k; cbn.
    - split; [tauto|]. intros [_ H]. destruct (i - k); discriminate.
    - rewrite IH. split.
      + intros [E|[H E]]; [injection E as <- <-; split; [lia|]; rewrite Nat.sub_diag; reflexivity|].
        split; [lia|]. replace (i - k) with (S (i - S k)) by lia. exact E.
      + intros [H E]. destruct (Nat.eq_dec k i) as [->|N]; [rewrite Nat.sub_diag in E; cbn in E; injection E as ->; auto|].
        right. split; [lia|]. replace (i - k) with (S (i - S k)) in E by lia. exact E. }
  rewrite G, Nat.sub_0_r. split; [tauto|]. split; [lia|assumption].
Qed.

(** The instances of the generic types of a call. *)
Lemma unify_call_ok f args e X X' : unify_call f args e X = TOk X' ->
  valid_num_args f (length args) = true /\ dec (args ++ [e]) X X' /\
  (forall k a, nth_error args k = Some a -> exists t, arg_type f k = Some t /\
     forall s, t = ASet s -> exists n, get X' a = Some n /\ sle n s) /\
  (forall t, fn_return f = RBase t -> get X' e = Some (SBase t)) /\
  (forall g fam, nth_error (fn_generics f) g = Some fam -> exists Y, dec (args ++ [e]) X Y /\ dec (args ++ [e]) Y X' /\
     exists s, sle s fam /\
       (forall k a, nth_error args k = Some a -> arg_type f k = Some (AGeneric g) -> get Y a = Some s) /\
       (fn_return f = RGeneric g -> get Y e = Some s)).
Proof.
  unfold unify_call. destruct (valid_num_args f (length args)) eqn:V; [|discriminate]. intros H.
  tb H. destruct r as (insts & X1). tb H. destruct r as (insts' & X2).
  apply call_args_ok in E. destruct E as (D1 & P & Q).
  set (L := args ++ [e]).
  assert (LA : incl args L) by (intros x I; apply in_or_app; auto).
  assert (LE : In e L) by (apply in_or_app; cbn; auto).
  assert (I' : forall g a, In (g, a) insts' <-> In (g, a) insts \/ (fn_return f = RGeneric g /\ a = e)).
  { intros g a. destruct (fn_return f) as [h|t].
    - injection E0 as <- <-. rewrite in_app_iff. cbn. split; [intros [I|[I|[]]]; [auto|injection I as <- <-; auto]|].
      intros [I|[I ->]]; [auto|injection I as ->; auto].
    - tb E0. injection E0 as <- <-. split; [auto|]. intros [I|[I _]]; [exact I|discriminate]. }
  assert (D2 : dec L X1 X2 /\ (forall t, fn_return f = RBase t -> get X2 e = Some (SBase t))).
  { destruct (fn_return f) as [h|t].
    - injection E0 as <- <-. split; [apply dec_refl|discriminate].
    - tb E0. injection E0 as <- <-. apply unify_base_ok in E. destruct E as (D & G).
      split; [eapply dec_weaken; [|exact D]; apply incl1, LE|]. intros u U. injection U as <-. exact G. }
  destruct D2 as (D2 & RB).
  assert (LI : forall g, incl (instances g insts') L).
  { intros g a I. apply instances_In in I. rewrite I' in I. destruct I as [I|[_ ->]]; [|exact LE].
    apply LA. destruct (Q g a I); assumption. }
  assert (FD : forall gf Y Y', In gf (enumerate (fn_generics f)) -> unify_generic insts' gf Y = TOk Y' -> dec L Y Y').
  { intros (g & fam) Y Y' _ U. apply unify_generic_ok in U. eapply dec_weaken; [|apply U]. apply LI. }
  assert (D3 : dec L X2 X') by (eapply dec_tfold; [exact FD|exact H]).
  assert (D1' : dec L X X1) by (eapply dec_weaken; [exact LA|exact D1]).
  split; [reflexivity|]. split; [eapply dec_trans; [exact D1'|eapply dec_trans; [exact D2|exact D3]]|].
  split; [|split].
  - intros k a G. destruct (P k a G) as (t & T & M). exists t. split; [exact T|]. intros s ->. destruct M as (n & Gn & S).
    destruct (dec_get _ _ _ _ _ D2 Gn) as (m & Gm & Sm). destruct (dec_get _ _ _ _ _ D3 Gm) as (o & Go & So).
    exists o. split; [exact Go|]. eapply sle_trans; [exact So|eapply sle_trans; eauto].
  - intros t T. eapply base_kept; [exact D3|auto].
  - intros g fam GF. assert (I : In (g, fam) (enumerate (fn_generics f))) by (apply enumerate_In, GF).
    destruct (dec_tfold_mid _ _ _ FD _ _ _ H I) as (Y & Z & DY & U & DZ).
    pose proof (unify_generic_ok _ _ _ _ _ U) as (DU & PU).
    exists Z. assert (DYZ : dec L Y Z) by (eapply FD; eauto).
    split; [eapply dec_trans; [exact D1'|eapply dec_trans; [exact D2|eapply dec_trans; [exact DY|exact DYZ]]]|].
    split; [exact DZ|].
    destruct (instances g insts') as [|a0 l0] eqn:EI.
    + exists fam. split; [apply sle_refl|]. split.
      * intros k a G T. destruct (P k a G) as (t & T' & M). cbn in T'. rewrite T in T'. injection T' as <-.
        exfalso. assert (In a (instances g insts')) by (apply instances_In, I'; auto). rewrite EI in H0. destruct H0.
      * intros T. exfalso. assert (In e (instances g insts')) by (apply instances_In, I'; auto). rewrite EI in H0. destruct H0.
    + destruct (PU a0 (or_introl eq_refl)) as (s & S & B). exists s. split; [exact S|].
      split.
      * intros k a G T. apply B. rewrite <- EI. apply instances_In, I'. left.
        destruct (P k a G) as (t & T' & M). cbn in T'. rewrite T in T'. injection T' as <-. exact M.
      * intros T. apply B. rewrite <- EI. apply instances_In, I'. auto.
Qed.

(** ** Aggregates: only that they narrow *)
Lemma unify_loc_dec L e s X X' : In e L -> unify_loc e s X = TOk X' -> dec L X X'.
Proof. intros I H. apply unify_loc_ok in H. eapply dec_weaken; [|apply H]. apply incl1, I. Qed.
Lemma unify_params_dec l : forall opt params X r X', unify_params l opt params X = TOk (r, X') -> dec params X X'.
Proof.
  induction l as [|[t|t] l IH]; intros opt params X r X' H; cbn in H.
  - injection H as <- <-. apply dec_refl.
  - destruct opt; [discriminate|]. destruct params as [|a params]; [discriminate|]. tb H.
    apply (dec_trans _ _ r0); [eapply unify_loc_dec; [|exact E]; left; reflexivity|].
    apply IH in H. eapply dec_weaken; [|exact H]. intros x; cbn; auto.
  - destruct params as [|a params]; [apply IH in H; exact H|].
    destruct (unify_loc a (SBase t) X) as [Y| |] eqn:E; [|apply IH in H; exact H|discriminate].
    apply (dec_trans _ _ Y); [eapply unify_loc_dec; [|exact E]; left; reflexivity|].
    apply IH in H. eapply dec_weaken; [|exact H]. intros x; cbn; auto.
Qed.
Lemma assoc_In {A} k (l : list (nat * A)) a : assoc k l = Some a -> In (k, a) l.
Proof.
  induction l as [|(j & b) l IH]; cbn; [discriminate|]. destruct (Nat.eqb_spec k j) as [->|N]; intros H.
  - injection H as ->. auto.
  - auto.
Qed.
Lemma unify_named_dec named p X X' : unify_named named p X = TOk X' -> dec (map snd named) X X'.
Proof.
  unfold unify_named. destruct (assoc (fst p) named) as [a|] eqn:E.
  - intros H. eapply unify_loc_dec; [|exact H]. apply assoc_In in E. apply in_map_iff. exists (fst p, a). auto.
  - destruct (is_mandatory (snd p)); [discriminate|]. intros H. injection H as <-. apply dec_refl.
Qed.
Lemma unify_each_dec s : forall l X X', unify_each s l X = TOk X' -> dec l X X'.
Proof.
  induction s as [|t s IH]; intros [|a l] X X' H; cbn in H; try (injection H as <-; apply dec_refl).
  tb H. apply (dec_trans _ _ r); [eapply unify_loc_dec; [|exact E]; left; reflexivity|].
  apply IH in H. eapply dec_weaken; [|exact H]. intros x; cbn; auto.
Qed.
Lemma unify_each_ty_dec s : forall l X ns X', unify_each_ty s l X = TOk (ns, X') -> dec l X X'.
Proof.
  induction s as [|t s IH]; intros [|a l] X ns X' H; cbn in H; try (injection H as <- <-; apply dec_refl).
  tb H. destruct r as (n & Y). tb H. destruct r as (ns' & Z). injection H as <- <-.
  apply unify_ty_ok in E. apply (dec_trans _ _ Y); [eapply dec_weaken; [|apply E]; apply incl1; left; reflexivity|].
  apply IH in E0. eapply dec_weaken; [|exact E0]. intros x; cbn; auto.
Qed.
Lemma solve_generic_dec g : forall vars X ns X', solve_generic g vars X = TOk (ns, X') -> dec vars X X'.
Proof.
  induction g as [g IH| | |f]; intros vars X ns X' H; cbn [solve_generic] in H.
  - destruct vars as [|a vars]; [injection H as <- <-; apply dec_refl|eauto].
  - destruct vars as [|a vars]; [discriminate|]. eapply unify_each_ty_dec; exact H.
  - destruct (all_some _) as [fams|]; [|discriminate]. destruct (Nat.eqb _ _); [|discriminate].
    tb H. eapply unify_each_ty_dec; exact H.
  - destruct vars as [|a [|b vars]]; try discriminate. tb H. eapply unify_each_ty_dec; exact H.
Qed.
Lemma ground_input_dec gs b vars G X G' X' : ground_input gs b vars G X = TOk (G', X') -> dec vars X X'.
Proof.
  assert (BAD : forall l, (if existsb is_generic l then @TErr (grounded_t * exprs)
    else if negb (Nat.eqb (length l) (length vars)) then TErr else TPanic) <> TOk (G', X')).
  { intros l. destruct (existsb is_generic l), (negb (Nat.eqb (length l) (length vars))); discriminate. }
  destruct b as [[|[g|t] [|b l]]|]; cbn [ground_input]; intros H; try discriminate; try (apply BAD in H; destruct H).
  - destruct vars; [injection H as <- <-; apply dec_refl|discriminate].
  - destruct (assoc g G) as [sets|].
    + destruct (Nat.eqb _ _); [|discriminate]. tb H. injection H as <- <-. eapply unify_each_dec; exact E.
    + destruct (assoc g gs) as [fam|]; [|discriminate]. tb H. destruct r as (sets & Y). injection H as <- <-.
      eapply solve_generic_dec; exact E.
  - destruct vars as [|a [|b vars]]; try discriminate. tb H. injection H as <- <-. eapply unify_loc_dec; [|exact E]. left. reflexivity.
Qed.
Lemma unify_agg_dec a lefts params named args inputs excl X X' : unify_agg a lefts params named args inputs excl X = TOk X' ->
  dec (lefts ++ params ++ map snd named ++ args ++ inputs) X X'.
Proof.
  unfold unify_agg. destruct lefts as [|e0 ll]; [discriminate|]. set (lefts := e0 :: ll). intros H. tb H. destruct r as (rest & X1).
  destruct (1 <? length rest); [discriminate|]. tb H. rename r into X2.
  destruct (existsb _ _); [discriminate|]. destruct (excl && _); [discriminate|].
  tb H. destruct r as (G & X3). tb H. destruct r as (G' & X4). tb H. destruct (Nat.eqb _ _); [|discriminate].
  set (L := lefts ++ params ++ map snd named ++ args ++ inputs).
  apply unify_params_dec in E. apply ground_input_dec in E1, E2. apply unify_each_dec in H.
  assert (D : dec (map snd named) X1 X2) by (eapply dec_tfold; [|exact E0]; intros; eapply unify_named_dec; eauto).
  apply (dec_trans _ _ X1); [eapply dec_weaken; [|exact E]; intros x I; unfold L; rewrite !in_app_iff; auto|].
  apply (dec_trans _ _ X2); [eapply dec_weaken; [|exact D]; intros x I; unfold L; rewrite !in_app_iff; auto|].
  apply (dec_trans _ _ X3); [eapply dec_weaken; [|exact E1]; intros x I; unfold L; rewrite !in_app_iff; auto 10|].
  apply (dec_trans _ _ X4); [eapply dec_weaken; [|exact E2]; intros x I; unfold L; rewrite !in_app_iff; auto 10|].
  eapply dec_weaken; [|exact H]; intros x I; unfold L; rewrite !in_app_iff; auto.
Qed.
Lemma unify_entity_ok s : forall l X X', unify_entity s l X = TOk X' ->
  dec l X X' /\ forall k a t, nth_error l k = Some a -> nth_error s k = Some t -> exists n, get X' a = Some n /\ sle n t.
Proof.
  induction s as [|t s IH]; intros [|a l] X X' H; cbn in H;
    try (injection H as <-; split; [apply dec_refl|intros [|k] b u; cbn; discriminate]).
  destruct (get_or_insert a SAny X) as (old & Y) eqn:E. tb H. apply of_opt_ok in E0.
  apply get_or_insert_ok in E. destruct E as (D0 & G0 & _). destruct (unify_le _ _ _ E0) as (L1 & L2).
  assert (D1 : dec [a] Y (put Y a r)).
  { apply dec_put; [left; reflexivity|]. intros x Ex. rewrite G0 in Ex. injection Ex as <-. exact L1. }
  apply IH in H. destruct H as (D & P).
  split.
  - apply (dec_trans _ _ Y); [eapply dec_weaken; [|exact D0]; apply incl1; left; reflexivity|].
    apply (dec_trans _ _ (put Y a r)); [eapply dec_weaken; [|exact D1]; apply incl1; left; reflexivity|].
    eapply dec_weaken; [|exact D]. intros x; cbn; auto.
  - intros [|k] b u A B; cbn in A, B.
    + injection A as <-. injection B as <-. destruct (dec_get _ _ _ a r D (get_put_eq _ _ _)) as (n & Gn & Sn).
      exists n. split; [exact Gn|eapply sle_trans; eauto].
    + eapply P; eauto.
Qed.

(** ** One unification *)
Definition ulocs (u : unif) : list loc :=
  match u with
  | UArg e _ _ => [e]
  | UVar e _ => [e]
  | UConst e _ _ => [e]
  | UPoly _ a b e | UMod a b e | UEq a b e | ULogic a b e | UCmp a b e => [a; b; e]
  | UPosNeg a e | UNott a e | UCastt a e _ => [a; e]
  | UIte e c a b => [e; c; a; b]
  | UCall _ args e => args ++ [e]
  | UAgg lefts _ params named args inputs _ => lefts ++ params ++ map snd named ++ args ++ inputs
  | UEntity _ args e => e :: args
  end.
(** What a unification that has been carried out means for the sets of types.  It
    speaks about sets [Y] on the way from [X] to [X']. *)
Definition tyat (X : exprs) (e : loc) (s : tset) : Prop := exists n, get X e = Some n /\ sle n s.
Definition same2 (X : exprs) (a b : loc) : Prop := exists n, get X a = Some n /\ get X b = Some n.
Definition means (T : tenv) (strict : bool) (R : rels) (u : unif) (X X' : exprs) : Prop :=
  match u with
  | UArg e p i =>
      match t_pred T p with
      | Some ts => exists t, nth_error ts i = Some t /\ get X' e = Some (SBase t)
      | None => exists ts s, get R p = Some ts /\ nth_error ts i = Some s /\ tyat X' e s
      end
  | UVar _ _ => True
  | UConst e s (Some t) => member s t /\ get X' e = Some (SBase t)
  | UConst e s None => tyat X' e s
  | UPoly op a b e => strict = true -> exists r, In r (rules_of op) /\ fits3 X' a b e r
  | UMod a b e => same2 X' a b /\ same2 X' a e
  | UEq a b e => same2 X' a b /\ get X' e = Some (SBase TBool)
  | ULogic a b e => get X' a = Some (SBase TBool) /\ get X' b = Some (SBase TBool) /\ get X' e = Some (SBase TBool)
  | UCmp a b e => get X' e = Some (SBase TBool) /\
      (strict = true -> exists r, In r compare_rules /\ get X' a = Some (SBase (fst r)) /\ get X' b = Some (SBase (snd r)))
  | UPosNeg a e => same2 X' a e
  | UNott a e => get X' a = Some (SBase TBool) /\ get X' e = Some (SBase TBool)
  | UIte e c a b => get X' c = Some (SBase TBool) /\ same2 X' e a /\ same2 X' e b
  | UCastt a e t => get X' e = Some (SBase t) /\ tyat X' a SAny
  | UCall f args e => exists ft, t_fun T f = Some ft /\ valid_num_args ft (length args) = true /\
      (forall k a, nth_error args k = Some a -> exists t, arg_type ft k = Some t /\ forall s, t = ASet s -> tyat X' a s) /\
      (forall t, fn_return ft = RBase t -> get X' e = Some (SBase t)) /\
      (forall g fam, nth_error (fn_generics ft) g = Some fam -> exists Y, dec (ulocs u) X Y /\ dec (ulocs u) Y X' /\
        exists s, sle s fam /\
          (forall k a, nth_error args k = Some a -> arg_type ft k = Some (AGeneric g) -> get Y a = Some s) /\
          (fn_return ft = RGeneric g -> get Y e = Some s))
  | UAgg _ _ _ _ _ _ _ => True
  | UEntity p args e => get X' e = Some (SBase TEntity) /\ exists t0 ts, get R p = Some (t0 :: ts) /\ length args = length ts /\
      forall k a t, nth_error args k = Some a -> nth_error ts k = Some t -> tyat X' a t
  end.
Definition typed_const (u : unif) : option (loc * vtype) :=
  match u with UConst e _ (Some t) => Some (e, t) | _ => None end.
Lemma same2_put3 X e a b n : same2 (put (put (put X e n) a n) b n) a b /\ same2 (put (put (put X e n) a n) b n) a e.
Proof.
  unfold same2. rewrite !get_put, !Nat.eqb_refl.
  split; exists n; split; repeat match goal with |- context [Nat.eqb ?x ?y] => destruct (Nat.eqb x y) end; reflexivity.
Qed.
Lemma dec_put2 L X a n : In a L -> forall s, get X a = Some s -> sle n s -> dec L X (put X a n).
Proof. intros I s G S. apply dec_put; [exact I|]. intros x Ex. rewrite G in Ex. injection Ex as <-. exact S. Qed.
(** After several insertions of the same set, which is below all of the old ones. *)
Lemma dec_puts L X n l : incl l L -> (forall a, In a l -> exists s, get X a = Some s /\ sle n s) ->
  dec L X (fold_left (fun X a => put X a n) l X).
Proof.
  intros I H e. change (fold_left _ l X) with (put_all l n X). rewrite put_all_get.
  destruct (in_dec Nat.eq_dec e l) as [J|J]; [|split; [apply ole_refl|auto]].
  split; [|right; auto]. destruct (H e J) as (s & G & S). rewrite G. exact S.
Qed.
Theorem unify_ok T strict R u X X' : unify T strict R u X = TOk X' ->
  (typed_const u = None -> dec (ulocs u) X X') /\ means T strict R u X X'.
Proof.
  destruct u; cbn [unify ulocs means typed_const]; intros H.
  - (* UArg *) destruct (t_pred T p) as [ts|].
    + destruct (nth_error ts i) as [t|] eqn:E; [|discriminate]. apply unify_base_ok in H. destruct H. split; [auto|eauto].
    + tb H. apply unwrap_ok in E. destruct (nth_error r i) as [s|] eqn:N; [|discriminate].
      apply unify_loc_ok in H. destruct H as (D & P). split; [auto|]. exists r, s. auto.
  - injection H as <-. split; [intros; apply dec_refl|exact Logic.I].
  - (* UConst *) destruct decl as [t|].
    + tb H. apply of_opt_ok in E. injection H as <-. destruct (unify_le _ _ _ E) as (L1 & L2). apply sle_base in L2. subst r.
      split; [discriminate|]. split; [eapply sle_member; [exact L1|reflexivity]|apply get_put_eq].
    + apply unify_loc_ok in H. destruct H as (D & P). split; [auto|exact P].
  - (* UPoly *) apply unify_poly_ok in H. destruct H as (D & sa & sb & se & _ & _ & _ & P). auto.
  - (* UMod *)
    destruct (get_or_insert e SArith X) as (se & X1) eqn:E1. destruct (get_or_insert a SArith X1) as (sa & X2) eqn:E2.
    destruct (get_or_insert b SArith X2) as (sb & X3) eqn:E3.
    tb H. tb H. injection H as <-. apply of_opt_ok in E, E0.
    apply get_or_insert_ok in E1, E2, E3. destruct E1 as (D1 & G1 & _), E2 as (D2 & G2 & _), E3 as (D3 & G3 & _).
    destruct (unify_le _ _ _ E) as (L1 & L2), (unify_le _ _ _ E0) as (L3 & L4).
    split; [intros _|apply same2_put3].
    destruct (dec_get _ _ _ _ _ D2 G1) as (se' & G1' & S1'). destruct (dec_get _ _ _ _ _ D3 G1') as (se'' & G1'' & S1'').
    destruct (dec_get _ _ _ _ _ D3 G2) as (sa' & G2' & S2').
    assert (F : forall x L Y Z s, dec L Y Z -> get Y x = Some s -> (get Z x = Some s \/ In x L)).
    { intros x L Y Z s D G. destruct (D x) as [_ [Q|Q]]; [left; congruence|auto]. }
    apply (dec_trans _ _ X1); [eapply dec_weaken; [|exact D1]; apply incl1; cbn; auto|].
    apply (dec_trans _ _ X2); [eapply dec_weaken; [|exact D2]; apply incl1; cbn; auto|].
    apply (dec_trans _ _ X3); [eapply dec_weaken; [|exact D3]; apply incl1; cbn; auto|].
    change (dec [a; b; e] X3 (fold_left (fun X x => put X x r0) [e; a; b] X3)).
    apply dec_puts; [intros x; cbn; tauto|].
    assert (Ga : exists s, get X3 a = Some s /\ sle r0 s).
    { destruct (F _ _ _ _ _ D3 G2) as [Q|[<-|[]]]; [exists sa; split; [exact Q|exact (sle_trans _ _ _ L3 L1)]|].
      exists sb. split; [exact G3|exact (sle_trans _ _ _ L3 L2)]. }
    intros x [<-|[<-|[<-|[]]]]; [|exact Ga|exists sb; split; [exact G3|exact (sle_trans _ _ _ L3 L2)]].
    destruct (F _ _ _ _ _ D2 G1) as [Q|[<-|[]]]; [|exact Ga].
    destruct (F _ _ _ _ _ D3 Q) as [Q'|[<-|[]]]; [exists se; auto|exists sb; split; [exact G3|exact (sle_trans _ _ _ L3 L2)]].
  - (* UEq *) tb H. apply unify_base_ok in E. destruct E as (D0 & G0).
    destruct (get_or_insert a SAny r) as (sa & X2) eqn:E2. destruct (get_or_insert b SAny X2) as (sb & X3) eqn:E3.
    tb H. injection H as <-. apply of_opt_ok in E. apply get_or_insert_ok in E2, E3. destruct E2 as (D2 & G2 & _), E3 as (D3 & G3 & _).
    destruct (unify_le _ _ _ E) as (L1 & L2).
    assert (D : dec [a; b; e] X3 (put (put X3 a r0) b r0)).
    { change (dec [a; b; e] X3 (fold_left (fun X x => put X x r0) [a; b] X3)). apply dec_puts; [intros x; cbn; tauto|].
      intros x [<-|[<-|[]]]; [|eauto].
      destruct (D3 a) as [_ [Q|[<-|[]]]]; [exists sa; split; [congruence|auto]|eauto]. }
    split.
    + intros _. apply (dec_trans _ _ r); [eapply dec_weaken; [|exact D0]; apply incl1; cbn; auto|].
      apply (dec_trans _ _ X2); [eapply dec_weaken; [|exact D2]; apply incl1; cbn; auto|].
      apply (dec_trans _ _ X3); [eapply dec_weaken; [|exact D3]; apply incl1; cbn; auto|exact D].
    + split.
      * exists r0. rewrite !get_put, !Nat.eqb_refl. destruct (Nat.eqb a b); auto.
      * eapply base_kept; [exact D|]. eapply base_kept; [exact D3|]. eapply base_kept; [exact D2|exact G0].
  - (* ULogic *) tb H. tb H. apply unify_base_ok in E, E0, H. destruct E as (D1 & G1), E0 as (D2 & G2), H as (D3 & G3).
    split.
    + intros _. apply (dec_trans _ _ r); [eapply dec_weaken; [|exact D1]; apply incl1; cbn; auto|].
      apply (dec_trans _ _ r0); [eapply dec_weaken; [|exact D2]; apply incl1; cbn; auto|].
      eapply dec_weaken; [|exact D3]; apply incl1; cbn; auto.
    + split; [eapply base_kept; [exact D3|exact G2]|]. split; [exact G3|]. eapply base_kept; [exact D3|]. eapply base_kept; [exact D2|exact G1].
  - (* UCmp *) apply unify_compare_ok in H. destruct H as (D & G & sa & sb & _ & _ & P). auto.
  - (* UPosNeg *)
    destruct (get_or_insert e SArith X) as (se & X1) eqn:E1. destruct (get_or_insert a SArith X1) as (sa & X2) eqn:E2.
    tb H. injection H as <-. apply of_opt_ok in E. apply get_or_insert_ok in E1, E2. destruct E1 as (D1 & G1 & _), E2 as (D2 & G2 & _).
    destruct (unify_le _ _ _ E) as (L1 & L2).
    split.
    + intros _. apply (dec_trans _ _ X1); [eapply dec_weaken; [|exact D1]; apply incl1; cbn; auto|].
      apply (dec_trans _ _ X2); [eapply dec_weaken; [|exact D2]; apply incl1; cbn; auto|].
      change (dec [a; e] X2 (fold_left (fun X x => put X x r) [e; a] X2)). apply dec_puts; [intros x; cbn; tauto|].
      intros x [<-|[<-|[]]]; [|eauto]. destruct (D2 e) as [_ [Q|[<-|[]]]]; [exists se; split; [congruence|auto]|eauto].
    + exists r. rewrite !get_put, !Nat.eqb_refl. destruct (Nat.eqb e a); auto.
  - (* UNott *) tb H. apply unify_base_ok in E, H. destruct E as (D1 & G1), H as (D2 & G2). split.
    + intros _. apply (dec_trans _ _ r); [eapply dec_weaken; [|exact D1]; apply incl1; cbn; auto|].
      eapply dec_weaken; [|exact D2]; apply incl1; cbn; auto.
    + split; [exact G2|eapply base_kept; [exact D2|exact G1]].
  - (* UIte *) tb H. apply unify_base_ok in E. destruct E as (D0 & G0).
    destruct (get_or_insert e SAny r) as (se & X1) eqn:E1. destruct (get_or_insert a SAny X1) as (sa & X2) eqn:E2.
    destruct (get_or_insert b SAny X2) as (sb & X3) eqn:E3.
    tb H. tb H. injection H as <-. apply of_opt_ok in E, E0.
    apply get_or_insert_ok in E1, E2, E3. destruct E1 as (D1 & G1 & _), E2 as (D2 & G2 & _), E3 as (D3 & G3 & _).
    destruct (unify_le _ _ _ E) as (L1 & L2), (unify_le _ _ _ E0) as (L3 & L4).
    assert (D : dec [e; c; a; b] X3 (put (put (put X3 e r1) a r1) b r1)).
    { change (dec [e; c; a; b] X3 (fold_left (fun X x => put X x r1) [e; a; b] X3)).
      apply dec_puts; [intros x; cbn; tauto|].
      assert (Gb : exists s, get X3 b = Some s /\ sle r1 s) by eauto.
      assert (Ga : exists s, get X3 a = Some s /\ sle r1 s).
      { destruct (D3 a) as [_ [Q|[<-|[]]]]; [exists sa; split; [congruence|exact (sle_trans _ _ _ L3 L2)]|exact Gb]. }
      intros x [<-|[<-|[<-|[]]]]; [|exact Ga|exact Gb].
      destruct (D2 e) as [_ [Q|[<-|[]]]]; [|exact Ga]. destruct (D3 e) as [_ [Q'|[<-|[]]]]; [|exact Gb].
      exists se. split; [congruence|exact (sle_trans _ _ _ L3 L1)]. }
    split.
    + intros _. apply (dec_trans _ _ r); [eapply dec_weaken; [|exact D0]; apply incl1; cbn; auto|].
      apply (dec_trans _ _ X1); [eapply dec_weaken; [|exact D1]; apply incl1; cbn; auto|].
      apply (dec_trans _ _ X2); [eapply dec_weaken; [|exact D2]; apply incl1; cbn; auto|].
      apply (dec_trans _ _ X3); [eapply dec_weaken; [|exact D3]; apply incl1; cbn; auto|exact D].
    + split; [eapply base_kept; [exact D|]; eapply base_kept; [exact D3|]; eapply base_kept; [exact D2|]; eapply base_kept; [exact D1|exact G0]|].
      destruct (same2_put3 X3 e a b r1) as ((n & A & B) & (m & A' & C)).
      split; [exists m; auto|]. exists m. split; [exact C|congruence].
  - (* UCastt *) tb H. apply unify_base_ok in E. apply unify_loc_ok in H. destruct E as (D1 & G1), H as (D2 & P).
    split; [|split; [eapply base_kept; [exact D2|exact G1]|exact P]].
    intros _. apply (dec_trans _ _ r); [eapply dec_weaken; [|exact D1]; apply incl1; cbn; auto|].
    eapply dec_weaken; [|exact D2]; apply incl1; cbn; auto.
  - (* UCall *) destruct (t_fun T f) as [ft|]; [|discriminate]. apply unify_call_ok in H.
    destruct H as (V & D & P & RB & GG). split; [auto|]. exists ft. repeat split; auto.
  - (* UAgg *) destruct (t_agg T g) as [ag|]; [|discriminate]. apply unify_agg_dec in H. auto.
  - (* UEntity *) tb H. apply unify_base_ok in E. destruct E as (D0 & G0).
    destruct (get R p) as [[|t0 ts]|]; try discriminate. destruct (Nat.eqb_spec (length args) (length ts)) as [EL|]; [|discriminate].
    apply unify_entity_ok in H. destruct H as (D & P). split.
    + intros _. apply (dec_trans _ _ r); [eapply dec_weaken; [|exact D0]; apply incl1; cbn; auto|].
      eapply dec_weaken; [|exact D]. intros x; cbn; auto.
    + split; [eapply base_kept; [exact D|exact G0]|]. exists t0, ts. repeat split; auto.
Qed.
