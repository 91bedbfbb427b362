(** Incremental evaluation of dataflows against their denotation. *)
From Coq Require Import List Arith Bool Lia Sorted.
From Verif Require Import Order Value Prov ListAux SortedCol GallopFacts SortedColFacts
  Schedulers Relation View SchedFacts Dataflow Denote OpFacts.
Import ListNotations.
Set Implicit Arguments.

(** ** Subsequences *)
Inductive subl {A} : list A -> list A -> Prop :=
| subl_nil : subl [] []
| subl_keep : forall x l m, subl l m -> subl (x :: l) (x :: m)
| subl_skip : forall x l m, subl l m -> subl l (x :: m).

Lemma subl_nil_l : forall A (l : list A), subl [] l.
Proof. induction l; constructor; auto. Qed.
Lemma subl_refl : forall A (l : list A), subl l l.
Proof. induction l; [constructor|apply subl_keep; auto]. Qed.
Lemma subl_In : forall A (l m : list A), subl l m -> forall x, In x l -> In x m.
Proof. induction 1; simpl; intros y I; auto. destruct I; auto. Qed.
Lemma subl_app : forall A (l m l' m' : list A), subl l m -> subl l' m' -> subl (l ++ l') (m ++ m').
Proof. induction 1; simpl; intros; auto; constructor; auto. Qed.
Lemma subl_skipn : forall A n (l m : list A), subl l (skipn n m) -> subl l m.
Proof.
  intros A n l m S. rewrite <- (firstn_skipn n m). change l with ([] ++ l). apply subl_app; auto.
  apply subl_nil_l.
Qed.
Lemma subl_StronglySorted : forall A (R : A -> A -> Prop) l m, subl l m -> StronglySorted R m -> StronglySorted R l.
Proof.
  induction 1; intros S; auto; inversion S; subst; auto. constructor; auto.
  rewrite Forall_forall in *. intros y I. apply H3. eapply subl_In; eauto.
Qed.
Lemma StronglySorted_fst : forall A B (R : A -> A -> Prop) (l : list (A * B)),
  StronglySorted (fun a b => R (fst a) (fst b)) l <-> StronglySorted R (map fst l).
Proof.
  induction l; simpl; split; intros S; try constructor; inversion S; subst; try apply IHl; auto.
  - rewrite Forall_map. auto.
  - rewrite Forall_map in H2. auto.
Qed.

Section DF.
  Variable P : Prov.
  Notation elem := (elem P).
  Notation batch := (batch P).
  Implicit Types (l : list elem) (e : elem) (d : dflow P) (bs : list batch).

  Definition tsub (l m : list elem) : Prop := subl (map fst l) (map fst m).

  Lemma ssorted_fst : forall l, ssorted l <-> StronglySorted (fun a b => tcmp a b = Lt) (map fst l).
  Proof. intros. exact (StronglySorted_fst (fun a b => tcmp a b = Lt) l). Qed.
  Lemma wsorted_fst : forall l, wsorted l <-> StronglySorted (fun a b => tcmp a b <> Gt) (map fst l).
  Proof. intros. exact (StronglySorted_fst (fun a b => tcmp a b <> Gt) l). Qed.
  Lemma tsub_ssorted : forall l m, tsub l m -> ssorted m -> ssorted l.
  Proof.
    intros l m T S. rewrite ssorted_fst in *. eapply subl_StronglySorted; eauto.
  Qed.
  Lemma tsub_wsorted : forall l m, tsub l m -> wsorted m -> wsorted l.
  Proof.
    intros l m T S. rewrite wsorted_fst in *. eapply subl_StronglySorted; eauto.
  Qed.

  Lemma filter_tsub : forall p l, tsub (filter p l) l.
  Proof. unfold tsub. induction l; simpl; [constructor|]. destruct (p a); simpl; constructor; auto. Qed.
  Lemma find_tsub : forall k l, tsub (find_batch k l) l.
  Proof.
    unfold tsub. induction l; cbn [find_batch]; [constructor|].
    destruct (tnth (fst a) 0) as [k'|]; [|constructor; auto]. destruct (tcmp k' k); simpl; try apply subl_nil_l; constructor; auto.
  Qed.
  Lemma constr_tsub : forall fp l, tsub (flat_map (constr_elem fp) l) l.
  Proof.
    unfold tsub. induction l; simpl; [constructor|]. unfold constr_elem at 1.
    destruct (fp (fst a)); simpl; constructor; auto.
  Qed.
  Lemma advance_tail : forall gal (lt : elem -> bool) x l, exists n, advance gal lt (x :: l) = skipn n l.
  Proof.
    intros. unfold advance. destruct gal; [|exists 0; auto]. unfold search_ahead. simpl.
    destruct (lt x); simpl; [|exists (length l); symmetry; apply skipn_all].
    eexists; reflexivity.
  Qed.
  Lemma inter_tsub : forall fuel g1 g2 l1 l2, tsub (inter_loop fuel g1 g2 l1 l2) l1.
  Proof.
    unfold tsub. induction fuel; cbn [inter_loop]; intros; [apply subl_nil_l|].
    destruct l1 as [|e1 r1]; [constructor|]. destruct l2 as [|e2 r2]; [apply subl_nil_l|].
    destruct (tcmp (fst e1) (fst e2)).
    - simpl. constructor. auto.
    - destruct (@advance_tail g1 (fun x => tltb (fst x) (fst e2)) e1 r1) as (n & ->).
      simpl. constructor. apply subl_skipn with n. rewrite skipn_map. auto.
    - auto.
  Qed.
  Lemma diff_tsub : forall fuel g2 l1 l2, tsub (diff_loop fuel g2 l1 l2) l1.
  Proof.
    unfold tsub. induction fuel; cbn [diff_loop]; intros; [apply subl_nil_l|].
    destruct l1 as [|e1 r1]; [constructor|]. destruct l2 as [|e2 r2]; [simpl; constructor; auto|].
    destruct (tcmp (fst e1) (fst e2)).
    - destruct (pminus P (snd e1) (snd e2)); simpl; constructor; auto.
    - simpl. constructor. auto.
    - auto.
  Qed.
  Lemma anti_prod_tsub : forall v e2, tsub (anti_prod v e2) v.
  Proof.
    unfold tsub, anti_prod. induction v; simpl; intros; [constructor|].
    destruct (pminus P (snd a) (snd e2)); simpl; constructor; auto.
  Qed.
  Lemma anti_tsub : forall fuel g2 l1 l2, tsub (anti_loop fuel g2 l1 l2) l1.
  Proof.
    unfold tsub. induction fuel; cbn [anti_loop]; intros; [apply subl_nil_l|].
    destruct l1 as [|e1 r1]; [constructor|]. destruct l2 as [|e2 r2]; [simpl; constructor; auto|].
    destruct (tnth (fst e1) 0) as [k|]; [|simpl; constructor; auto].
    destruct (tcmp k (fst e2)).
    - rewrite map_app. rewrite (take_drop_key k (e1 :: r1)) at 3. rewrite map_app.
      apply subl_app; auto. apply anti_prod_tsub.
    - simpl. constructor. auto.
    - auto.
  Qed.

  (** ** Sets of batches *)
  Definition inBt (bs : list batch) (e : elem) : Prop := exists b, In b bs /\ In e (snd b).

  Lemma inBt_app : forall bs cs e, inBt (bs ++ cs) e <-> inBt bs e \/ inBt cs e.
  Proof.
    intros. unfold inBt. split.
    - intros (b & I & J). apply in_app_or in I as [I|I]; eauto.
    - intros [(b & I & J)|(b & I & J)]; exists b; split; auto; apply in_or_app; auto.
  Qed.
  Lemma inBt_one : forall b e, inBt [b] e <-> In e (snd b).
  Proof. intros. unfold inBt. split; [intros (? & [<-|[]] & I); auto|]. intros. exists b. simpl; auto. Qed.
  Lemma inBt_nil : forall e, ~ inBt [] e.
  Proof. intros e (b & [] & _). Qed.

  Lemma inBt_unary : forall op bs e,
    inBt (unary op bs) e <-> exists b, In b bs /\ In e (op (snd b)).
  Proof.
    intros. unfold inBt, unary. split.
    - intros (b & I & J). apply in_map_iff in I as (c & <- & I). eauto.
    - intros (b & I & J). exists (false, op (snd b)). split; auto. apply in_map_iff. eauto.
  Qed.
  (** Element-wise operators. *)
  Lemma inBt_flat : forall (op : elem -> list elem) bs e,
    inBt (unary (flat_map op) bs) e <-> exists x, inBt bs x /\ In e (op x).
  Proof.
    intros. rewrite inBt_unary. split.
    - intros (b & I & J). apply in_flat_map in J as (x & J & K). exists x. split; auto. exists b; auto.
    - intros (x & (b & I & J) & K). exists b. split; auto. apply in_flat_map. eauto.
  Qed.
  Lemma inBt_map : forall (op : elem -> elem) bs e,
    inBt (unary (map op) bs) e <-> exists x, inBt bs x /\ e = op x.
  Proof.
    intros. rewrite inBt_unary. split.
    - intros (b & I & J). apply in_map_iff in J as (x & <- & J). exists x. split; auto. exists b; auto.
    - intros (x & (b & I & J) & ->). exists b. split; auto. apply in_map; auto.
  Qed.
  Lemma inBt_filter : forall p bs e,
    inBt (unary (filter p) bs) e <-> inBt bs e /\ p e = true.
  Proof.
    intros. rewrite inBt_unary. split.
    - intros (b & I & J). apply filter_In in J as (J & K). split; auto. exists b; auto.
    - intros ((b & I & J) & K). exists b. split; auto. apply filter_In. auto.
  Qed.
  Lemma inBt_binary : forall op bs cs e,
    inBt (binary op bs cs) e <-> exists b c, In b bs /\ In c cs /\ In e (snd (op b c)).
  Proof.
    intros. unfold inBt, binary. split.
    - intros (x & I & J). apply in_flat_map in I as (b & I & K). apply in_map_iff in K as (c & <- & K). eauto.
    - intros (b & c & I & J & K). exists (op b c). split; auto. apply in_flat_map. exists b. split; auto.
      apply in_map; auto.
  Qed.

  Definition allss bs := Forall (fun b : batch => ssorted (snd b)) bs.
  Definition allws bs := Forall (fun b : batch => wsorted (snd b)) bs.
  Lemma allss_allws : forall bs, allss bs -> allws bs.
  Proof. intros bs. apply Forall_impl. intros; apply ssorted_wsorted; auto. Qed.

  (** ** Environments *)
  Variable Sh : nat -> tuple -> Prop.
  Definition Stb (v : denv P) (r : nat) : elem -> Prop := inB (stable (e_rel v r)).
  Definition Vis (v : denv P) (r : nat) : elem -> Prop := rel_vis (e_rel v r).
  (** Collections are sorted and hold tuples of the given shapes. *)
  Definition shaped (col : nat -> option (list elem)) (I : nat -> elem -> Prop) : Prop :=
    (forall r c e, col r = Some c -> In e c -> Sh r (fst e)) /\ (forall r e, I r e -> Sh r (fst e)).
  Definition env_ok (v : denv P) : Prop :=
    (forall r c, e_col v r = Some c -> ssorted c) /\
    (forall r, Forall (@ssorted P) (stable (e_rel v r)) /\ ssorted (recent (e_rel v r))) /\
    shaped (e_col v) (Vis v).

  Notation den v := (den (e_col v)).

  Lemma unary_all : forall (Q R : list elem -> Prop) op bs, (forall l, Q l -> R (op l)) ->
    Forall (fun b : batch => Q (snd b)) bs -> Forall (fun b : batch => R (snd b)) (unary op bs).
  Proof.
    intros Q R op bs H F. unfold unary. rewrite Forall_map. eapply Forall_impl; [|apply F]. simpl; auto.
  Qed.
  Lemma binary_all : forall (Q1 Q2 R : list elem -> Prop) op bs cs,
    (forall b c : batch, Q1 (snd b) -> Q2 (snd c) -> R (snd (op b c))) ->
    Forall (fun b : batch => Q1 (snd b)) bs -> Forall (fun b : batch => Q2 (snd b)) cs ->
    Forall (fun b : batch => R (snd b)) (binary op bs cs).
  Proof.
    intros Q1 Q2 R op bs cs H F G. rewrite Forall_forall in *. intros x I. unfold binary in I.
    apply in_flat_map in I as (b & I & K). apply in_map_iff in K as (c & <- & K). auto.
  Qed.

  Lemma ssorted_nil : ssorted (@nil elem). Proof. constructor. Qed.
  Lemma ssorted_single : forall e, ssorted [e]. Proof. repeat constructor. Qed.

  Lemma map_one_tsub : forall l, tsub (map (fun e : elem => (fst e, pone P)) l) l.
  Proof. intros. unfold tsub. rewrite map_map. simpl. apply subl_refl. Qed.
  Lemma ssort_strict : forall l, ssorted l -> ssort l = l.
  Proof.
    induction l as [|a l IH]; intros S; auto. apply ssorted_cons_inv in S as [S F]. simpl. rewrite IH by auto.
    destruct l as [|b l]; auto. simpl. inversion F; subst. unfold elt in *. rewrite H1. auto.
  Qed.
  Lemma proj_sorted : forall (R R' : tuple -> tuple -> Prop) f l,
    (forall t t' u u', In t (map fst l) -> In t' (map fst l) -> R t t' -> f t = Some u -> f t' = Some u' -> R' u u') ->
    StronglySorted (fun a b : elem => R (fst a) (fst b)) l ->
    StronglySorted (fun a b : elem => R' (fst a) (fst b)) (flat_map (proj_elem f) l).
  Proof.
    intros R R' f l H S. induction S as [|a l S IH F]; simpl; [constructor|].
    assert (IH' : StronglySorted (fun a b : elem => R' (fst a) (fst b)) (flat_map (proj_elem f) l)).
    { apply IH. intros; eapply H; eauto; simpl; auto. }
    unfold proj_elem at 1. destruct (f (fst a)) as [u|] eqn:E; simpl; auto. constructor; auto.
    apply Forall_forall. intros x I. apply in_flat_map in I as (y & I & J). unfold proj_elem in J.
    destruct (f (fst y)) as [w|] eqn:E2; [|destruct J]. destruct J as [<-|[]]. simpl.
    rewrite Forall_forall in F. eapply H; eauto; simpl; auto. right. apply in_map; auto.
  Qed.

  Lemma tsub_in : forall l m e, tsub l m -> In e l -> exists g, In (fst e, g) m.
  Proof.
    intros l m e T I. assert (K : In (fst e) (map fst m)).
    { unfold tsub in T. apply (in_map fst) in I. revert I. generalize (fst e). revert T. generalize (map fst l) (map fst m).
      induction 1; simpl; auto. - intros t [<-|J]; auto. }
    apply in_map_iff in K as ([t g] & E & K). simpl in E. subst. eauto.
  Qed.
  (** The tuples that a dataflow yields. *)
  Definition alldom (d : dflow P) (bs : list batch) : Prop := Forall (fun b : batch => forall x, In x (snd b) -> dom Sh d (fst x)) bs.
  Lemma iters_dom : forall v d, env_ok v -> alldom d (iter_stable v d) /\ alldom d (iter_recent v d).
  Proof.
    unfold iter_stable, iter_recent, alldom. intros v d EO.
    assert (TR : forall d0 bs, dom Sh d0 = (fun _ => True) -> Forall (fun b : batch => forall x, In x (snd b) -> dom Sh d0 (fst x)) bs).
    { intros d0 bs E. apply Forall_forall. intros. rewrite E. auto. }
    assert (UN : forall op d0 (Q : tuple -> Prop), (forall l x, (forall y, In y l -> dom Sh d0 (fst y)) -> In x (op l) -> Q (fst x)) ->
      forall bs, Forall (fun b : batch => forall x, In x (snd b) -> dom Sh d0 (fst x)) bs ->
      Forall (fun b : batch => forall x, In x (snd b) -> Q (fst x)) (unary op bs)).
    { intros op d0 Q H bs F. unfold unary. rewrite Forall_map. eapply Forall_impl; [|exact F]. simpl. intros b K x I. eapply H; eauto. }
    assert (TS : forall op d0, (forall l, tsub (op l) l) -> forall l x, (forall y, In y l -> dom Sh d0 (fst y)) -> In x (op l) -> dom Sh d0 (fst x)).
    { intros op d0 T l x H I. destruct (tsub_in _ (T l) I) as (g & J). apply (H _ J). }
    assert (BI : forall op d0, (forall b c : batch, tsub (snd (op b c)) (snd b)) -> forall bs cs, Forall (fun b : batch => forall x, In x (snd b) -> dom Sh d0 (fst x)) bs ->
      Forall (fun b : batch => forall x, In x (snd b) -> dom Sh d0 (fst x)) (binary op bs cs)).
    { intros op d0 T bs cs F. apply binary_all with (Q1 := fun l => forall x, In x l -> dom Sh d0 (fst x)) (Q2 := fun _ => True) (R := fun l => forall x, In x l -> dom Sh d0 (fst x)); auto.
      - intros b c H _ x I. destruct (tsub_in _ (T b c) I) as (g & J). apply (H _ J).
      - apply Forall_forall; auto. }
    induction d; try (split; apply TR; reflexivity); cbn [dom iters].
    - destruct EO as (_ & _ & SC & SV). destruct (e_col v r) eqn:E.
      + destruct (e_first v); split; repeat constructor; simpl; eauto.
      + simpl. split.
        * rewrite Forall_map. apply Forall_forall. simpl. intros b I x J. apply (SV r). left. exists b. auto.
        * repeat constructor. simpl. intros x J. apply (SV r). right. auto.
    - destruct (iters v d) as [s r]. destruct IHd. simpl in *. split; (eapply UN; [|eassumption]); apply TS, map_one_tsub.
    - destruct (iters v d) as [s r]. destruct IHd. simpl in *.
      split; (eapply (UN _ d (fun t => dom Sh d t /\ p t = true)); [|eassumption]); intros l x K I; apply filter_In in I; split; try tauto; apply K; tauto.
    - destruct (iters v d) as [s r]. destruct IHd. simpl in *.
      split; (eapply (UN _ d (fun u => exists t, dom Sh d t /\ f t = Some u)); [|eassumption]); intros l x K I; apply in_flat_map in I as (y & J & I); unfold proj_elem in I;
        (destruct (f (fst y)) as [u|] eqn:E; [|destruct I]); destruct I as [<-|[]]; eauto.
    - destruct (iters v d) as [s r]. destruct IHd. simpl in *. split; (eapply UN; [|eassumption]); apply TS, find_tsub.
    - destruct (iters v d) as [s r]. destruct IHd. simpl in *.
      split; (eapply (UN _ d (dom Sh d)); [|eassumption]); intros l x K I; apply K; apply ssort_In; auto.
    - destruct (iters v d1) as [s1 r1]. destruct (iters v d2) as [s2 r2]. destruct IHd1. simpl in *.
      assert (T : forall b c : batch, tsub (snd (inter_batch b c)) (snd b)) by (intros; apply inter_tsub).
      unfold binary_recent. rewrite !Forall_app. repeat split; apply BI; auto.
    - destruct (iters v d1) as [s1 r1]. destruct (iters v d2) as [s2 r2]. destruct IHd1. simpl in *.
      assert (T : forall b c : batch, tsub (snd (diff_batch b c)) (snd b)) by (intros; apply diff_tsub).
      unfold binary_recent. rewrite !Forall_app. repeat split; try constructor; apply BI; auto.
    - destruct (iters v d1) as [s1 r1]. destruct (iters v d2) as [s2 r2]. destruct IHd1. simpl in *.
      assert (T : forall b c : batch, tsub (snd (anti_batch b c)) (snd b)) by (intros; apply anti_tsub).
      unfold binary_recent. rewrite !Forall_app. repeat split; try constructor; apply BI; auto.
    - destruct (iters v d) as [s r]. destruct IHd. simpl in *. split; (eapply UN; [|eassumption]); apply TS, constr_tsub.
  Qed.

  Lemma iters_strict : forall v d, env_ok v -> is_strict Sh d ->
    allss (iter_stable v d) /\ allss (iter_recent v d).
  Proof.
    unfold iter_stable, iter_recent, allss. intros v d EO.
    assert (UN : forall op d0, (forall l, tsub (op l) l) ->
      Forall (fun b : batch => ssorted (snd b)) (fst (iters v d0)) /\
      Forall (fun b : batch => ssorted (snd b)) (snd (iters v d0)) ->
      Forall (fun b : batch => ssorted (snd b)) (unary op (fst (iters v d0))) /\
      Forall (fun b : batch => ssorted (snd b)) (unary op (snd (iters v d0)))).
    { intros op d0 T [A B]. split; eapply unary_all; eauto; intros; eapply tsub_ssorted; eauto. }
    induction d; cbn [is_strict iters]; intros W; try tauto.
    - destruct (e_first v); split; repeat constructor.
    - destruct EO as (EC & ER & _). destruct (e_col v r) eqn:E.
      + destruct (e_first v); split; repeat constructor; simpl; eauto.
      + simpl. split; [rewrite Forall_map; simpl; apply ER|]. repeat constructor. simpl. apply ER.
    - specialize (IHd W). apply UN with (op := map (fun e : elem => (fst e, pone P))) in IHd;
        [|apply map_one_tsub]. destruct (iters v d); auto.
    - specialize (IHd W). apply UN with (op := filter (fun e : elem => p (fst e))) in IHd;
        [|apply filter_tsub]. destruct (iters v d); auto.
    - destruct W as [W M]. specialize (IHd W).
      assert (Q : exists Q : tuple -> Prop, smono Q f /\
        Forall (fun b : batch => forall x, In x (snd b) -> Q (fst x)) (fst (iters v d)) /\
        Forall (fun b : batch => forall x, In x (snd b) -> Q (fst x)) (snd (iters v d))).
      { exists (dom Sh d). split; [exact M|]. apply (iters_dom d EO). }
      destruct Q as (Q & SM & QS & QR). destruct (iters v d) as [s r]. simpl in *. destruct IHd as [SS SR].
      assert (X : forall bs, Forall (fun b : batch => ssorted (snd b)) bs ->
        Forall (fun b : batch => forall x, In x (snd b) -> Q (fst x)) bs ->
        Forall (fun b : batch => ssorted (snd b)) (unary (flat_map (proj_elem f)) bs)).
      { intros bs A B. unfold unary. rewrite Forall_map. simpl. rewrite Forall_forall in *. intros b I.
        specialize (A _ I). specialize (B _ I). unfold ssorted, elt in *.
        eapply proj_sorted with (R := fun a b => tcmp a b = Lt) (R' := fun a b => tcmp a b = Lt); eauto.
        intros t t' u u' J J' L E E'. apply in_map_iff in J as (z & <- & J).
        apply in_map_iff in J' as (z' & <- & J'). eapply SM; [| |exact L|exact E|exact E']; auto. }
      split; apply X; auto.
    - specialize (IHd W). apply UN with (op := find_batch k) in IHd;
        [|apply find_tsub]. destruct (iters v d); auto.
    - specialize (IHd W). destruct (iters v d) as [s r]. simpl in *. unfold unary. rewrite !Forall_map. simpl.
      destruct IHd as [A B]. split; eapply Forall_impl; eauto; simpl; intros; rewrite ssort_strict; auto.
    - destruct W as [W1 W2]. specialize (IHd1 W1). specialize (IHd2 W2). destruct (iters v d1) as [s1 r1].
      destruct (iters v d2) as [s2 r2]. simpl in *. destruct IHd1, IHd2.
      assert (IB : forall b c : batch, ssorted (snd b) -> ssorted (snd c) -> ssorted (snd (inter_batch b c))).
      { intros b c A _. simpl. eapply tsub_ssorted; [apply inter_tsub|auto]. }
      unfold binary_recent. rewrite !Forall_app. repeat split; eapply binary_all; eauto.
    - specialize (IHd1 W). destruct (iters v d1) as [s1 r1].
      destruct (iters v d2) as [s2 r2]. simpl in *. destruct IHd1.
      assert (IB : forall b c : batch, ssorted (snd b) -> True -> ssorted (snd (diff_batch b c))).
      { intros b c A _. simpl. eapply tsub_ssorted; [apply diff_tsub|auto]. }
      assert (TT : forall bs, Forall (fun b : batch => (fun _ => True) (snd b)) bs) by (intros; apply Forall_forall; auto).
      unfold binary_recent. rewrite !Forall_app. split; [constructor|].
      repeat split; (eapply binary_all with (Q2 := fun _ => True); [apply IB| |]; auto).
    - specialize (IHd1 W). destruct (iters v d1) as [s1 r1].
      destruct (iters v d2) as [s2 r2]. simpl in *. destruct IHd1.
      assert (IB : forall b c : batch, ssorted (snd b) -> True -> ssorted (snd (anti_batch b c))).
      { intros b c A _. simpl. eapply tsub_ssorted; [apply anti_tsub|auto]. }
      assert (TT : forall bs, Forall (fun b : batch => (fun _ => True) (snd b)) bs) by (intros; apply Forall_forall; auto).
      unfold binary_recent. rewrite !Forall_app. split; [constructor|].
      repeat split; (eapply binary_all with (Q2 := fun _ => True); [apply IB| |]; auto).
    - destruct (e_first v); split; repeat constructor; auto.
    - specialize (IHd W). apply UN with (op := flat_map (constr_elem fp)) in IHd;
        [|apply constr_tsub]. destruct (iters v d); auto.
    - destruct (e_first v); split; repeat constructor; auto.
  Qed.

  Lemma iters_sorted : forall v d, env_ok v -> is_sorted Sh d ->
    allws (iter_stable v d) /\ allws (iter_recent v d).
  Proof.
    intros v d EO.
    assert (UN : forall op d0, (forall l, tsub (op l) l) ->
      allws (fst (iters v d0)) /\ allws (snd (iters v d0)) ->
      allws (unary op (fst (iters v d0))) /\ allws (unary op (snd (iters v d0)))).
    { intros op d0 T [A B]. split; eapply unary_all; eauto; intros; eapply tsub_wsorted; eauto. }
    assert (ST : forall d0, is_strict Sh d0 -> allws (iter_stable v d0) /\ allws (iter_recent v d0)).
    { intros d0 S. destruct (iters_strict _ EO S). split; apply allss_allws; auto. }
    induction d; cbn [is_sorted]; intros W; try tauto; try (apply ST; exact W);
      unfold iter_stable, iter_recent in *; cbn [iters].
    - specialize (IHd W). apply UN with (op := map (fun e : elem => (fst e, pone P))) in IHd;
        [|apply map_one_tsub]. destruct (iters v d); auto.
    - specialize (IHd W). apply UN with (op := filter (fun e : elem => p (fst e))) in IHd;
        [|apply filter_tsub]. destruct (iters v d); auto.
    - destruct W as [W M]. specialize (IHd W). destruct (iters v d) as [s r]. simpl in *. destruct IHd as [A B].
      assert (X : forall l, wsorted l -> wsorted (flat_map (proj_elem f) l)).
      { intros l WL. unfold wsorted, ele in *.
        eapply proj_sorted with (R := fun a b => tcmp a b <> Gt) (R' := fun a b => tcmp a b <> Gt); eauto. }
      split; eapply unary_all; eauto.
    - specialize (IHd W). apply UN with (op := find_batch k) in IHd;
        [|apply find_tsub]. destruct (iters v d); auto.
    - destruct (iters v d) as [s r]. simpl. unfold allws, unary. rewrite !Forall_map.
      split; apply Forall_forall; intros; simpl; apply ssort_wsorted.
    - specialize (IHd1 W). destruct (iters v d1) as [s1 r1].
      destruct (iters v d2) as [s2 r2]. simpl in *. destruct IHd1.
      assert (IB : forall b c : batch, wsorted (snd b) -> True -> wsorted (snd (anti_batch b c))).
      { intros b c A _. simpl. eapply tsub_wsorted; [apply anti_tsub|auto]. }
      assert (TT : forall bs, Forall (fun b : batch => (fun _ => True) (snd b)) bs) by (intros; apply Forall_forall; auto).
      unfold binary_recent, allws. rewrite !Forall_app. split; [constructor|].
      repeat split; (eapply binary_all with (Q2 := fun _ => True); [apply IB| |]; auto).
    - destruct (e_first v); split; repeat constructor; auto.
    - specialize (IHd W). apply UN with (op := flat_map (constr_elem fp)) in IHd;
        [|apply constr_tsub]. destruct (iters v d); auto.
    - destruct (e_first v); split; repeat constructor; auto.
  Qed.

  (** ** Static dataflows have one batch, fresh in the first iteration only *)
  Lemma iters_static : forall v d, is_static (e_col v) d ->
    exists b, iters v d = if e_first v then ([], [b]) else ([b], []).
  Proof.
    clear Sh.
    induction d; cbn [is_static iters]; intros W; try tauto;
      try (destruct (IHd W) as (b & ->); destruct (e_first v); eexists; reflexivity);
      try (destruct W as [W1 W2]; destruct (IHd1 W1) as (b & ->); destruct (IHd2 W2) as (c & ->);
           destruct (e_first v); eexists; reflexivity).
    - eexists; reflexivity.
    - destruct (e_col v r); [|tauto]. eexists; reflexivity.
    - eexists; reflexivity.
  Qed.

  Lemma den_static : forall col d I J e, is_static col d ->
    (Denote.den col true I d e <-> Denote.den col true J d e).
  Proof.
    clear Sh.
    intros col d I J. induction d; cbn [is_static Denote.den]; intros e W; try tauto;
      try (rewrite (IHd _ W); tauto).
    - destruct (col r); tauto.
    - split; intros [(g & H) E]; split; auto; exists g; apply (IHd _ W); auto.
    - split; intros (t & H & E); exists t; split; auto; apply (IHd _ W); auto.
    - destruct W as [W1 W2]. split; intros (a & b & A & B & E); exists a, b; repeat split; auto;
        try apply (IHd1 _ W1); try apply (IHd2 _ W2); auto.
    - destruct W as [W1 W2]. split; intros (t1 & t2 & a & b & k & x & y & A & B & E);
        exists t1, t2, a, b, k, x, y; (split; [apply (IHd1 _ W1); auto|split; [apply (IHd2 _ W2); auto|auto]]).
    - destruct W as [W1 W2]. split; intros (t1 & t2 & a & b & A & B & E);
        exists t1, t2, a, b; (split; [apply (IHd1 _ W1); auto|split; [apply (IHd2 _ W2); auto|auto]]).
    - split; intros (t & a & k & x & y & g & A & E); exists t, a, k, x, y, g; (split; [apply (IHd _ W); auto|auto]).
    - split; intros (a & g & A & E); exists a, g; (split; [apply (IHd _ W); auto|auto]).
    - split; intros (t & a & u & g & A & E); exists t, a, u, g; (split; [apply (IHd _ W); auto|auto]).
  Qed.

  Lemma wf_weaken : forall col d n, wf col Sh true d -> wf col Sh n d.
  Proof.
    intros col. induction d; cbn [wf]; intros n W; auto; try discriminate;
      try (destruct W; split; auto; fail); try (destruct W as [W _]; discriminate).
  Qed.

  Ltac in_one := first [apply in_eq | apply in_cons, in_eq].

  (** ** Incremental evaluation *)
  Section Env.
    Variable v : denv P.
    Hypothesis EO : env_ok v.
    Notation stb := (fun d e => inBt (iter_stable v d) e).
    Notation rcn := (fun d e => inBt (iter_recent v d) e).

    (** What each operator yields, from what its inputs yield, batch by batch. *)
    Lemma unary_iters : forall d0 op d, iters v d = (unary op (fst (iters v d0)), unary op (snd (iters v d0))) ->
      forall e, (stb d e <-> exists b, In b (iter_stable v d0) /\ In e (op (snd b))) /\
                (rcn d e <-> exists b, In b (iter_recent v d0) /\ In e (op (snd b))).
    Proof.
      intros d0 op d E e. unfold iter_stable, iter_recent. rewrite E. simpl. split; apply inBt_unary.
    Qed.

    Lemma iters_overwrite : forall d e,
      (stb (DOverwrite d) e <-> (exists g, stb d (fst e, g)) /\ snd e = pone P) /\
      (rcn (DOverwrite d) e <-> (exists g, rcn d (fst e, g)) /\ snd e = pone P).
    Proof.
      intros. unfold iter_stable, iter_recent. cbn [iters]. destruct (iters v d) as [s r]. cbn [fst snd].
      rewrite !inBt_map. split; split.
      - intros ([t g] & I & ->). simpl. eauto.
      - intros ((g & I) & E). exists (fst e, g). split; auto. destruct e; simpl in *; congruence.
      - intros ([t g] & I & ->). simpl. eauto.
      - intros ((g & I) & E). exists (fst e, g). split; auto. destruct e; simpl in *; congruence.
    Qed.
    Lemma iters_filter : forall d p e,
      (stb (DFilter d p) e <-> stb d e /\ p (fst e) = true) /\
      (rcn (DFilter d p) e <-> rcn d e /\ p (fst e) = true).
    Proof.
      intros. unfold iter_stable, iter_recent. cbn [iters]. destruct (iters v d) as [s r]. cbn [fst snd].
      rewrite !inBt_filter. tauto.
    Qed.
    Lemma proj_elem_In : forall f x e, In e (proj_elem f x) <-> f (fst x) = Some (fst e) /\ snd e = snd x.
    Proof.
      intros. unfold proj_elem. destruct (f (fst x)); simpl; [|split; [tauto|intros [H _]; discriminate]].
      destruct e; simpl. split; [intros [[= <- <-]|[]]; auto|intros [[= ->] ->]; auto].
    Qed.
    Lemma iters_project : forall d f e,
      (stb (DProject d f) e <-> exists t, stb d (t, snd e) /\ f t = Some (fst e)) /\
      (rcn (DProject d f) e <-> exists t, rcn d (t, snd e) /\ f t = Some (fst e)).
    Proof.
      intros. unfold iter_stable, iter_recent. cbn [iters]. destruct (iters v d) as [s r]. cbn [fst snd].
      rewrite !inBt_flat. split; split.
      - intros ([t g] & I & J). apply proj_elem_In in J as [J K]. simpl in *. subst. eauto.
      - intros (t & I & J). exists (t, snd e). split; auto. apply proj_elem_In; auto.
      - intros ([t g] & I & J). apply proj_elem_In in J as [J K]. simpl in *. subst. eauto.
      - intros (t & I & J). exists (t, snd e). split; auto. apply proj_elem_In; auto.
    Qed.
    Lemma iters_find : forall d k e, is_sorted Sh d ->
      (stb (DFind d k) e <-> stb d e /\ tnth (fst e) 0 = Some k) /\
      (rcn (DFind d k) e <-> rcn d e /\ tnth (fst e) 0 = Some k).
    Proof.
      intros d k e S. destruct (iters_sorted d EO S) as [A B]. unfold iter_stable, iter_recent in *. cbn [iters].
      destruct (iters v d) as [s r]. cbn [fst snd] in *.
      assert (X : forall bs, allws bs -> (inBt (unary (find_batch k) bs) e <-> inBt bs e /\ tnth (fst e) 0 = Some k)).
      { intros bs F. unfold allws in F. rewrite Forall_forall in F. rewrite inBt_unary. unfold inBt. split.
        - intros (b & I & J). rewrite find_batch_spec in J by auto. apply filter_In in J as [J K].
          apply has_key_iff in K. split; eauto.
        - intros ((b & I & J) & K). exists b. split; auto. rewrite find_batch_spec by auto.
          apply filter_In. split; auto. apply has_key_iff; auto. }
      split; apply X; auto.
    Qed.
    Lemma iters_sorted_op : forall d e, (stb (DSorted d) e <-> stb d e) /\ (rcn (DSorted d) e <-> rcn d e).
    Proof.
      intros. unfold iter_stable, iter_recent. cbn [iters]. destruct (iters v d) as [s r]. cbn [fst snd].
      rewrite !inBt_unary. unfold inBt. split; split; intros (b & I & J); exists b; split; auto;
        apply ssort_In; auto.
    Qed.
    Lemma joiv_elem_In : forall get x e, In e (joiv_elem get x) <->
      exists k z y g, tnth (fst x) 0 = Some k /\ tnth (fst x) 1 = Some z /\ get k = Some (y, g) /\
        e = (TTup [k; z; y], pmult P (snd x) g).
    Proof.
      intros. unfold joiv_elem. split.
      - destruct (tnth (fst x) 0) as [k|] eqn:A; [|intros []]. destruct (tnth (fst x) 1) as [z|] eqn:B; [|intros []].
        destruct (get k) as [[y g]|] eqn:C; [|intros []]. intros [<-|[]]. exists k, z, y, g. auto.
      - intros (k & z & y & g & A & B & C & ->). rewrite A, B, C. left; auto.
    Qed.
    Lemma iters_joiv : forall d get e,
      (stb (DJoinIV d get) e <-> exists x, stb d x /\ In e (joiv_elem get x)) /\
      (rcn (DJoinIV d get) e <-> exists x, rcn d x /\ In e (joiv_elem get x)).
    Proof.
      intros. unfold iter_stable, iter_recent. cbn [iters]. destruct (iters v d) as [s r]. cbn [fst snd].
      rewrite !inBt_flat. tauto.
    Qed.
    Lemma constr_elem_In : forall fp x e, In e (constr_elem fp x) <->
      exists g, fp (fst x) = Some g /\ e = (fst x, pmult P (snd x) g).
    Proof.
      intros. unfold constr_elem. destruct (fp (fst x)); simpl; split.
      - intros [<-|[]]; eauto. - intros (g & [= ->] & ->); auto. - tauto. - intros (g & H & _); discriminate.
    Qed.
    Lemma iters_constr : forall d fp e,
      (stb (DConstraint d fp) e <-> exists x, stb d x /\ In e (constr_elem fp x)) /\
      (rcn (DConstraint d fp) e <-> exists x, rcn d x /\ In e (constr_elem fp x)).
    Proof.
      intros. unfold iter_stable, iter_recent. cbn [iters]. destruct (iters v d) as [s r]. cbn [fst snd].
      rewrite !inBt_flat. tauto.
    Qed.
    Lemma fpjoin_elem_In : forall fp x e, In e (fpjoin_elem fp x) <->
      exists u g, In (u, g) (fp (fst x)) /\ e = (TTup [fst x; u], pmult P (snd x) g).
    Proof.
      intros. unfold fpjoin_elem. rewrite in_map_iff. split.
      - intros ([u g] & <- & I). simpl. eauto.
      - intros (u & g & I & ->). exists (u, g). auto.
    Qed.
    Lemma iters_fpjoin : forall d fp e,
      (stb (DFpJoin d fp) e <-> exists x, stb d x /\ In e (fpjoin_elem fp x)) /\
      (rcn (DFpJoin d fp) e <-> exists x, rcn d x /\ In e (fpjoin_elem fp x)).
    Proof.
      intros. unfold iter_stable, iter_recent. cbn [iters]. destruct (iters v d) as [s r]. cbn [fst snd].
      rewrite !inBt_flat. tauto.
    Qed.
    Lemma iters_union : forall d1 d2 e,
      (stb (DUnion d1 d2) e <-> stb d1 e \/ stb d2 e) /\ (rcn (DUnion d1 d2) e <-> rcn d1 e \/ rcn d2 e).
    Proof.
      intros. unfold iter_stable, iter_recent. cbn [iters]. destruct (iters v d1) as [s r], (iters v d2).
      cbn [fst snd]. rewrite !inBt_app. tauto.
    Qed.

    (** Binary operators that combine elements pairwise. *)
    Lemma binary_pair : forall (op : batch -> batch -> batch) (R : elem -> elem -> elem -> Prop)
      (Q1 Q2 : list elem -> Prop) bs cs,
      (forall b c : batch, Q1 (snd b) -> Q2 (snd c) -> forall e, In e (snd (op b c)) <->
         exists x y, In x (snd b) /\ In y (snd c) /\ R x y e) ->
      Forall (fun b : batch => Q1 (snd b)) bs -> Forall (fun b : batch => Q2 (snd b)) cs ->
      forall e, inBt (binary op bs cs) e <-> exists x y, inBt bs x /\ inBt cs y /\ R x y e.
    Proof.
      intros op R Q1 Q2 bs cs H F G e. rewrite inBt_binary. rewrite Forall_forall in *. split.
      - intros (b & c & I & J & K). apply H in K; auto. destruct K as (x & y & A & B & C).
        exists x, y. repeat split; auto; [exists b|exists c]; auto.
      - intros (x & y & (b & I & A) & (c & J & B) & C). exists b, c. repeat split; auto.
        apply H; eauto.
    Qed.

    Lemma iters_pair : forall op (R : elem -> elem -> elem -> Prop) (Q1 Q2 : list elem -> Prop) d1 d2 d,
      (forall b c : batch, Q1 (snd b) -> Q2 (snd c) -> forall e, In e (snd (op b c)) <->
         exists x y, In x (snd b) /\ In y (snd c) /\ R x y e) ->
      (Forall (fun b : batch => Q1 (snd b)) (iter_stable v d1) /\ Forall (fun b : batch => Q1 (snd b)) (iter_recent v d1)) ->
      (Forall (fun b : batch => Q2 (snd b)) (iter_stable v d2) /\ Forall (fun b : batch => Q2 (snd b)) (iter_recent v d2)) ->
      iters v d = (binary op (iter_stable v d1) (iter_stable v d2),
                   binary_recent op (iter_stable v d1) (iter_recent v d1) (iter_stable v d2) (iter_recent v d2)) ->
      forall e, (stb d e <-> exists x y, stb d1 x /\ stb d2 y /\ R x y e) /\
                (rcn d e <-> exists x y, (stb d1 x /\ rcn d2 y \/ rcn d1 x /\ stb d2 y \/ rcn d1 x /\ rcn d2 y) /\ R x y e).
    Proof.
      intros op R Q1 Q2 d1 d2 d H [S1 C1] [S2 C2] E e. unfold iter_stable at 1, iter_recent at 1. rewrite E.
      cbn [fst snd]. unfold binary_recent. rewrite !inBt_app.
      rewrite !(@binary_pair op R Q1 Q2) by auto. split; [tauto|]. split.
      - intros [(x & y & A & B & C)|[(x & y & A & B & C)|(x & y & A & B & C)]]; exists x, y; tauto.
      - intros (x & y & [[A B]|[[A B]|[A B]]] & C); [left|right; left|right; right]; exists x, y; auto.
    Qed.

    Definition R_inter (x y e : elem) : Prop :=
      fst x = fst e /\ fst y = fst e /\ snd e = pmult P (snd x) (snd y).
    Definition R_join (x y e : elem) : Prop := exists k a b,
      tnth (fst x) 0 = Some k /\ tnth (fst y) 0 = Some k /\ tnth (fst x) 1 = Some a /\ tnth (fst y) 1 = Some b /\
      e = (TTup [k; a; b], pmult P (snd x) (snd y)).
    Definition R_prod (x y e : elem) : Prop := e = (TTup [fst x; fst y], pmult P (snd x) (snd y)).

    Lemma inter_batch_R : forall b c : batch, ssorted (snd b) -> ssorted (snd c) -> forall e,
      In e (snd (inter_batch b c)) <-> exists x y, In x (snd b) /\ In y (snd c) /\ R_inter x y e.
    Proof.
      intros b c A B [t g]. simpl.
      destruct (@inter_loop_spec P (length (snd b) + length (snd c)) (fst b) (fst c) (snd b) (snd c)) as (_ & _ & H); auto.
      rewrite H. unfold R_inter; simpl. split.
      - intros (x & y & I & J & ->). exists (t, x), (t, y). auto.
      - intros ([xt x] & [yt y] & I & J & E1 & E2 & ->). simpl in *. subst. eauto.
    Qed.
    Lemma join_pair_In : forall x y e : elem, key x = key y -> In e (join_pair x y) <->
      exists k a b, tnth (fst x) 0 = Some k /\ tnth (fst x) 1 = Some a /\ tnth (fst y) 1 = Some b /\
      e = (TTup [k; a; b], pmult P (snd x) (snd y)).
    Proof.
      intros x y e _. unfold join_pair. split.
      - destruct (tnth (fst x) 0) as [k|] eqn:A; [|intros []]. destruct (tnth (fst x) 1) as [a|] eqn:B; [|intros []].
        destruct (tnth (fst y) 1) as [b|] eqn:C; [|intros []]. intros [<-|[]]. exists k, a, b. auto.
      - intros (k & a & b & A & B & C & ->). rewrite A, B, C. left; auto.
    Qed.
    Lemma join_batch_R : forall b c : batch, wsorted (snd b) -> wsorted (snd c) -> forall e,
      In e (snd (join_batch b c)) <-> exists x y, In x (snd b) /\ In y (snd c) /\ R_join x y e.
    Proof.
      intros b c A B e. simpl. rewrite join_loop_spec by auto. unfold joined, R_join. split.
      - intros (x & y & k & I & J & KX & KY & D). apply join_pair_In in D as (k' & p & q & E1 & E2 & E3 & ->); [|congruence].
        exists x, y. repeat split; auto. exists k', p, q. unfold key in *. repeat split; auto. congruence.
      - intros (x & y & I & J & k & p & q & E0 & E1 & E2 & E3 & ->). exists x, y, k. repeat split; auto.
        apply join_pair_In; [unfold key; congruence|]. exists k, p, q. auto.
    Qed.
    Lemma prod_batch_R : forall b c : batch, True -> True -> forall e,
      In e (snd (prod_batch b c)) <-> exists x y, In x (snd b) /\ In y (snd c) /\ R_prod x y e.
    Proof.
      intros b c _ _ e. simpl. unfold R_prod. rewrite in_flat_map. split.
      - intros (x & I & J). apply in_map_iff in J as (y & <- & J). eauto.
      - intros (x & y & I & J & ->). exists x. split; auto. apply in_map_iff. eauto.
    Qed.

    Lemma iters_inter : forall d1 d2, is_strict Sh d1 -> is_strict Sh d2 -> forall e,
      (stb (DInter d1 d2) e <-> exists x y, stb d1 x /\ stb d2 y /\ R_inter x y e) /\
      (rcn (DInter d1 d2) e <-> exists x y, (stb d1 x /\ rcn d2 y \/ rcn d1 x /\ stb d2 y \/ rcn d1 x /\ rcn d2 y) /\ R_inter x y e).
    Proof.
      intros d1 d2 S1 S2. eapply iters_pair with (Q1 := @ssorted P) (Q2 := @ssorted P).
      - apply inter_batch_R. - apply iters_strict; auto. - apply iters_strict; auto.
      - unfold iter_stable, iter_recent. cbn [iters]. destruct (iters v d1), (iters v d2). reflexivity.
    Qed.
    Lemma iters_join : forall d1 d2, is_sorted Sh d1 -> is_sorted Sh d2 -> forall e,
      (stb (DJoin d1 d2) e <-> exists x y, stb d1 x /\ stb d2 y /\ R_join x y e) /\
      (rcn (DJoin d1 d2) e <-> exists x y, (stb d1 x /\ rcn d2 y \/ rcn d1 x /\ stb d2 y \/ rcn d1 x /\ rcn d2 y) /\ R_join x y e).
    Proof.
      intros d1 d2 S1 S2. eapply iters_pair with (Q1 := @wsorted P) (Q2 := @wsorted P).
      - apply join_batch_R. - apply iters_sorted; auto. - apply iters_sorted; auto.
      - unfold iter_stable, iter_recent. cbn [iters]. destruct (iters v d1), (iters v d2). reflexivity.
    Qed.
    Lemma iters_prod : forall d1 d2 e,
      (stb (DProd d1 d2) e <-> exists x y, stb d1 x /\ stb d2 y /\ R_prod x y e) /\
      (rcn (DProd d1 d2) e <-> exists x y, (stb d1 x /\ rcn d2 y \/ rcn d1 x /\ stb d2 y \/ rcn d1 x /\ rcn d2 y) /\ R_prod x y e).
    Proof.
      intros d1 d2. eapply iters_pair with (Q1 := fun _ => True) (Q2 := fun _ => True).
      - apply prod_batch_R. - split; apply Forall_forall; auto. - split; apply Forall_forall; auto.
      - unfold iter_stable, iter_recent. cbn [iters]. destruct (iters v d1), (iters v d2). reflexivity.
    Qed.

    (** Difference and anti-join against a one-batch right side. *)
    Definition R_diff (N : elem -> Prop) (D : elem -> Prop) (e : elem) : Prop :=
      (D e /\ forall g, ~ N (fst e, g)) \/ exists a b, D (fst e, a) /\ N (fst e, b) /\ pminus P a b = Some (snd e).
    Definition R_anti (N : elem -> Prop) (D : elem -> Prop) (e : elem) : Prop :=
      (D e /\ forall k g, tnth (fst e) 0 = Some k -> ~ N (k, g)) \/
      exists k a b, tnth (fst e) 0 = Some k /\ D (fst e, a) /\ N (k, b) /\ pminus P a b = Some (snd e).

    Definition nowd (d : dflow P) (e : elem) : Prop := rcn d e \/ (e_first v = true /\ stb d e).

    Lemma neg_iters : forall (op : batch -> batch -> batch) (R : (elem -> Prop) -> (elem -> Prop) -> elem -> Prop) (Q : list elem -> Prop) d1 d2 d,
      (forall b c : batch, Q (snd b) -> ssorted (snd c) -> forall e, In e (snd (op b c)) <->
        R (fun x => In x (snd c)) (fun x => In x (snd b)) e) ->
      (forall (N N' D D' : elem -> Prop) e, (forall x, N x <-> N' x) -> (forall x, D x -> D' x) -> R N D e -> R N' D' e) ->
      (forall N (D : batch -> elem -> Prop) bs e, R N (fun x => exists b, In b bs /\ D b x) e -> exists b, In b bs /\ R N (D b) e) ->
      Forall (fun b : batch => Q (snd b)) (iter_stable v d1) -> Forall (fun b : batch => Q (snd b)) (iter_recent v d1) ->
      is_static (e_col v) d2 -> is_strict Sh d2 ->
      iters v d = ([], binary_recent op (iter_stable v d1) (iter_recent v d1) (iter_stable v d2) (iter_recent v d2)) ->
      forall e, ~ stb d e /\ (rcn d e <-> R (fun x => stb d2 x \/ rcn d2 x) (nowd d1) e).
    Proof.
      intros op R Q d1 d2 d HO HM HE F1 F2 ST SS E e. unfold iter_stable at 1, iter_recent at 1. rewrite E. cbn [fst snd].
      split; [apply inBt_nil|]. destruct (iters_static v d2 ST) as (c & EC).
      assert (SC : ssorted (snd c)).
      { destruct (iters_strict d2 EO SS) as [A B]. unfold allss, iter_stable, iter_recent in *. rewrite EC in *.
        destruct (e_first v); simpl in *; [inversion B|inversion A]; auto. }
      assert (CI : forall x, (stb d2 x \/ rcn d2 x) <-> In x (snd c)).
      { intros x. unfold iter_stable, iter_recent. rewrite EC. destruct (e_first v); cbn [fst snd]; rewrite inBt_one;
        pose proof (@inBt_nil x); tauto. }
      assert (NW : forall x, nowd d1 x <-> exists b, In b (if e_first v then iter_stable v d1 ++ iter_recent v d1 else iter_recent v d1) /\ In x (snd b)).
      { intros x. unfold nowd. destruct (e_first v).
        - fold (inBt (iter_stable v d1 ++ iter_recent v d1) x). rewrite inBt_app. tauto.
        - fold (inBt (iter_recent v d1) x). intuition congruence. }
      assert (X : inBt (binary_recent op (iter_stable v d1) (iter_recent v d1) (iter_stable v d2) (iter_recent v d2)) e <->
        exists b, In b (if e_first v then iter_stable v d1 ++ iter_recent v d1 else iter_recent v d1) /\ In e (snd (op b c))).
      { assert (ES : iter_stable v d2 = if e_first v then [] else [c]) by (unfold iter_stable; rewrite EC; destruct (e_first v); auto).
        assert (ER : iter_recent v d2 = if e_first v then [c] else []) by (unfold iter_recent; rewrite EC; destruct (e_first v); auto).
        unfold binary_recent. rewrite !inBt_app, !inBt_binary, ES, ER. destruct (e_first v); split.
        - intros [(b & x & I & [<-|[]] & J)|[(b & x & I & [] & J)|(b & x & I & [<-|[]] & J)]]; exists b; split; auto;
          apply in_or_app; auto.
        - intros (b & I & J). apply in_app_or in I as [I|I]; [left|right; right]; exists b, c; simpl; auto.
        - intros [(b & x & I & [] & J)|[(b & x & I & [<-|[]] & J)|(b & x & I & [] & J)]]; exists b; split; auto.
        - intros (b & I & J). right; left. exists b, c; simpl; auto. }
      rewrite X. clear X. rewrite Forall_forall in F1, F2.
      assert (FQ : forall b, In b (if e_first v then iter_stable v d1 ++ iter_recent v d1 else iter_recent v d1) -> Q (snd b)).
      { intros b I. destruct (e_first v); auto. apply in_app_or in I as [I|I]; auto. }
      split.
      - intros (b & I & J). apply HO in J; auto. eapply HM; [| |exact J].
        + intros x. symmetry. apply CI.
        + intros x K. apply NW. eauto.
      - intros H. eapply HM with (N' := fun x => In x (snd c)) (D' := fun x => exists b, In b _ /\ In x (snd b)) in H;
          [|intros x; apply CI|intros x; apply NW].
        apply HE in H as (b & I & H). exists b. split; auto. apply HO; auto.
    Qed.

    Lemma iters_diff : forall d1 d2, is_strict Sh d1 -> is_static (e_col v) d2 -> is_strict Sh d2 -> forall e,
      ~ stb (DDiff d1 d2) e /\
      (rcn (DDiff d1 d2) e <-> R_diff (fun x => stb d2 x \/ rcn d2 x) (nowd d1) e).
    Proof.
      intros d1 d2 S1 ST S2. destruct (iters_strict d1 EO S1) as [A B].
      eapply neg_iters with (op := @diff_batch P) (Q := @ssorted P); auto.
      - intros b c X Y e. cbn [diff_batch snd]. rewrite diff_loop_spec by auto. reflexivity.
      - intros N N' D D' e EN ED [[I H]|(a & b & I & J & M)]; [left|right].
        + split; auto. intros g K. apply (H g), EN; auto.
        + exists a, b. repeat split; auto. apply EN; auto.
      - intros N D bs e [[(b & I & K) H]|(a & g & (b & I & K) & J & M)]; exists b; split; auto; [left|right]; eauto.
      - unfold iter_stable, iter_recent. cbn [iters]. destruct (iters v d1), (iters v d2). reflexivity.
    Qed.
    Lemma iters_anti : forall d1 d2, is_sorted Sh d1 -> is_static (e_col v) d2 -> is_strict Sh d2 -> forall e,
      ~ stb (DAnti d1 d2) e /\
      (rcn (DAnti d1 d2) e <-> R_anti (fun x => stb d2 x \/ rcn d2 x) (nowd d1) e).
    Proof.
      intros d1 d2 S1 ST S2. destruct (iters_sorted d1 EO S1) as [A B].
      eapply neg_iters with (op := @anti_batch P) (Q := @wsorted P); auto.
      - intros b c X Y e. cbn [anti_batch snd]. rewrite anti_loop_spec by auto. reflexivity.
      - intros N N' D D' e EN ED [[I H]|(k & a & b & K & I & J & M)]; [left|right].
        + split; auto. intros k g K L. apply (H k g), EN; auto.
        + exists k, a, b. repeat split; auto. apply EN; auto.
      - intros N D bs e [[(b & I & K) H]|(k & a & g & K & (b & I & L) & J & M)]; exists b; split; auto; [left|right]; auto.
        exists k, a, g. auto.
      - unfold iter_stable, iter_recent. cbn [iters]. destruct (iters v d1), (iters v d2). reflexivity.
    Qed.
  End Env.
End DF.

(** No condition on the shapes of tuples. *)
Definition any_shape : nat -> tuple -> Prop := fun _ _ => True.
Lemma env_any : forall (P : Prov) (v : denv P), (forall r c, e_col v r = Some c -> ssorted c) ->
  (forall r, Forall (@ssorted P) (stable (e_rel v r)) /\ ssorted (recent (e_rel v r))) -> env_ok any_shape v.
Proof. intros P v A B. split; [exact A|split; [exact B|]]. split; intros; exact I. Qed.
