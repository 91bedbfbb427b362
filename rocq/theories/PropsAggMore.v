(** C81: aggregators that order and select.  C82: aggregators over the possible worlds that
    join strings and take averages.  C83: elements that are made exclusive. *)
From Coq Require Import List Arith Bool ZArith QArith Qcanon Lia Permutation Sorted String.
From Coq Require Import List.
From Verif Require Import Order Value Prov ProvInst SortedCol Dataflow Aggregate AggregateFacts PropsAgg AggMore.
Import ListNotations.
Local Open Scope nat_scope.
Set Implicit Arguments.

(** ** Specification *)
(** What elements are sorted by: the value, or what follows the arguments. *)
Definition skey (n : nat) (t : tuple) : list tuple := match t with TVal _ => [t] | TTup l => skipn n l end.
Definition same_shape (P : Prov) (batch : list (elem P)) : Prop :=
  (forall e, In e batch -> exists v, fst e = TVal v) \/ (forall e, In e batch -> exists l, fst e = TTup l).
(** [a] need not come after [b]. *)
Definition may_precede (asc : bool) (K : Type) (cmp : K -> K -> comparison) (a b : K) : Prop :=
  if asc then cmp a b <> Gt else cmp a b <> Lt.

(** ** Stable sorting *)
Section SortFacts.
  Variables (A K : Type) (key : A -> K) (kc : K -> K -> comparison) (O : TOrder kc).
  Let c (x y : A) := kc (key x) (key y).

  Lemma sinsert_perm : forall x l, Permutation (sinsert c x l) (x :: l).
  Proof.
    induction l as [|y l IH]; simpl; auto. destruct (c x y); auto.
    rewrite IH. apply perm_swap.
  Qed.
  Lemma ssort_perm : forall l, Permutation (ssort c l) l.
  Proof. induction l as [|x l IH]; simpl; auto. rewrite sinsert_perm. auto. Qed.
  Lemma sinsert_sorted : forall x l, StronglySorted (fun a b => c a b <> Gt) l -> StronglySorted (fun a b => c a b <> Gt) (sinsert c x l).
  Proof.
    induction l as [|y l IH]; simpl; intros S; [repeat constructor|]. inversion S as [|? ? S' F]; subst.
    assert (Le : c x y <> Gt -> StronglySorted (fun a b => c a b <> Gt) (x :: y :: l)).
    { intros N. constructor; auto. constructor; auto. eapply Forall_impl; [|exact F]. intros z Hz. eapply (to_le_trans O); eauto. }
    destruct (c x y) eqn:E; try (apply Le; congruence). constructor; auto.
    rewrite Forall_forall in *. intros z Hz. apply (Permutation_in _ (sinsert_perm x l)) in Hz. destruct Hz as [<-|Hz]; auto.
    apply (to_gt_lt O) in E. unfold c. rewrite E. discriminate.
  Qed.
  Lemma ssort_sorted : forall l, StronglySorted (fun a b => c a b <> Gt) (ssort c l).
  Proof. induction l; simpl; [constructor|]. apply sinsert_sorted; auto. Qed.
  Lemma sinsert_filter : forall k x l, filter (fun e => cmp_eqb (cmp := kc) (key e) k) (sinsert c x l) =
    filter (fun e => cmp_eqb (cmp := kc) (key e) k) (x :: l).
  Proof.
    intros k x. induction l as [|y l IH]; auto. cbn [sinsert]. destruct (c x y) eqn:E; auto.
    cbn [filter] in *. rewrite IH. destruct (cmp_eqb (key x) k) eqn:X, (cmp_eqb (key y) k) eqn:Y; auto.
    apply (cmp_eqb_true O) in X, Y. unfold c in E. rewrite X, Y, (to_refl O) in E. discriminate.
  Qed.
  Lemma ssort_filter : forall k l, filter (fun e => cmp_eqb (cmp := kc) (key e) k) (ssort c l) = filter (fun e => cmp_eqb (cmp := kc) (key e) k) l.
  Proof. induction l as [|x l IH]; auto. cbn [ssort]. rewrite sinsert_filter. cbn [filter]. rewrite IH. auto. Qed.
End SortFacts.
Lemma flip_TOrder : forall K (kc : K -> K -> comparison), TOrder kc -> TOrder (fun a b => kc b a).
Proof.
  intros K kc O. split; intros.
  - rewrite (to_eq O). split; auto.
  - apply (to_opp O).
  - eapply (to_trans O); eauto.
Qed.
Lemma sinsert_ext : forall A (c1 c2 : A -> A -> comparison) x l, (forall y, In y l -> c1 x y = c2 x y) -> sinsert c1 x l = sinsert c2 x l.
Proof.
  induction l as [|y l IH]; simpl; intros H; auto. rewrite H by auto. destruct (c2 x y); auto. rewrite IH; auto.
Qed.
Lemma sinsert_In : forall A (c : A -> A -> comparison) x l y, In y (sinsert c x l) -> y = x \/ In y l.
Proof.
  induction l as [|z l IH]; simpl; intros y H; [intuition|]. destruct (c x z); simpl in H; try tauto; intuition auto.
  destruct (IH _ H0); auto.
Qed.
Lemma ssort_In : forall A (c : A -> A -> comparison) l y, In y (ssort c l) -> In y l.
Proof. induction l as [|x l IH]; simpl; intros y H; auto. apply sinsert_In in H as [->|H]; auto. Qed.
Lemma ssort_ext : forall A (c1 c2 : A -> A -> comparison) l, (forall x y, In x l -> In y l -> c1 x y = c2 x y) -> ssort c1 l = ssort c2 l.
Proof.
  induction l as [|x l IH]; simpl; intros H; auto. rewrite IH by auto. apply sinsert_ext.
  intros y I. apply H; auto. right. eapply ssort_In; eauto.
Qed.

Lemma nth_error_enum_from : forall A (l : list A) s i, nth_error (combine (seq s (length l)) l) i = option_map (fun a => (s + i, a)) (nth_error l i).
Proof.
  induction l as [|a l IH]; intros s [|i]; simpl; auto.
  - rewrite Nat.add_0_r. auto.
  - rewrite IH. replace (S s + i) with (s + S i) by lia. auto.
Qed.
Lemma nth_error_numbered : forall P values (l : list (elem P)) i, nth_error (numbered values l) i =
  option_map (fun e => (TTup (usize i :: values (fst e)), snd e)) (nth_error l i).
Proof.
  intros. unfold numbered, enum. rewrite nth_error_map, nth_error_enum_from. destruct (nth_error l i); auto.
Qed.

Lemma scmp_one : forall a b, scmp [a] [b] = tcmp a b.
Proof. intros. unfold scmp. simpl. destruct (tcmp a b); auto. Qed.
Lemma sort_cmp_key : forall P n (batch : list (elem P)) x y, same_shape batch -> In x batch -> In y batch ->
  sort_cmp n (fst x) (fst y) = scmp (skey n (fst x)) (skey n (fst y)).
Proof.
  intros P n batch x y [S|S] X Y; destruct (S _ X) as (a & ->), (S _ Y) as (b & ->); auto.
  unfold skey. rewrite scmp_one. auto.
Qed.

(** ** C81 *)
Section C81.
  Variable P : Prov.
  Notation elem := (elem P).

  (** Sorting numbers the elements in an order in which what they are sorted by does not
      decrease (increase), equal ones as they came; no element is lost or made twice, and
      tags stay. *)
  Theorem C81_sort : forall argsort asc n (batch : list elem), same_shape batch -> exists l, Permutation l batch /\
    StronglySorted (fun a b => may_precede asc scmp (skey n (fst a)) (skey n (fst b))) l /\
    (forall k, filter (fun e => cmp_eqb (cmp := scmp) (skey n (fst e)) k) l = filter (fun e => cmp_eqb (cmp := scmp) (skey n (fst e)) k) batch) /\
    forall i, nth_error (sort_agg argsort asc n batch) i =
      option_map (fun e => (TTup (usize i :: if argsort then firstn n (to_values (fst e)) else to_values (fst e)), snd e)) (nth_error l i).
  Proof.
    intros argsort asc n batch S. unfold sort_agg.
    set (kc := fun a b : list tuple => if asc then scmp a b else scmp b a).
    assert (O : TOrder kc) by (unfold kc; destruct asc; [apply scmp_TOrder|apply flip_TOrder, scmp_TOrder]).
    set (key := fun e : elem => skey n (fst e)).
    rewrite ssort_ext with (c2 := fun a b => kc (key a) (key b)).
    2:{ intros x y X Y. unfold kc, key. rewrite (@sort_cmp_key P n batch x y), (@sort_cmp_key P n batch y x) by auto. auto. }
    exists (ssort (fun a b => kc (key a) (key b)) batch). repeat split.
    - apply ssort_perm.
    - assert (X := ssort_sorted key O batch). assert (Y : forall a b, kc (key a) (key b) <> Gt -> may_precede asc scmp (key a) (key b)).
      { intros a b. unfold kc, may_precede. destruct asc; auto. rewrite (to_opp scmp_TOrder (key b)). destruct (scmp (key b) (key a)); simpl; congruence. }
      revert X. generalize (ssort (fun a b => kc (key a) (key b)) batch). induction l as [|a l IH]; intros X; [constructor|].
      inversion X as [|? ? X1 X2]; subst. constructor; auto. eapply Forall_impl; [|exact X2]. intros b. apply Y.
    - intros k. assert (X := ssort_filter key O k batch). unfold key in *.
      assert (Y : forall a b, cmp_eqb (cmp := kc) a b = cmp_eqb (cmp := scmp) a b).
      { intros a b. destruct (cmp_eqb (cmp := scmp) a b) eqn:E.
        - apply (cmp_eqb_true O). apply (cmp_eqb_true scmp_TOrder). auto.
        - apply (cmp_eqb_false O). apply (cmp_eqb_false scmp_TOrder). auto. }
      etransitivity; [|etransitivity; [exact X|]]; apply filter_ext; intros; rewrite Y; auto.
    - intros i. apply nth_error_numbered.
  Qed.

  Lemma Qc_TOrder : TOrder Qccompare.
  Proof.
    split.
    - intros a b. symmetry. apply Qceq_alt.
    - intros a b. unfold Qccompare. rewrite Qcompare_antisym. auto.
    - intros a b c H1 H2. apply Qclt_alt in H1, H2. apply Qclt_alt. eapply Qclt_trans; eauto.
  Qed.
  Lemma Qc_opp_cmp : forall a b : Qc, ((- a ?= - b) = (b ?= a))%Qc.
  Proof.
    intros a b. destruct (b ?= a)%Qc eqn:E.
    - apply Qceq_alt in E. subst. apply (to_refl Qc_TOrder).
    - apply Qclt_alt in E. apply -> Qclt_alt. apply Qclt_minus_iff. apply Qclt_minus_iff in E. replace (- b + - - a)%Qc with (a + - b)%Qc by ring. auto.
    - apply Qcgt_alt in E. apply -> Qcgt_alt. apply Qclt_minus_iff. apply Qclt_minus_iff in E. replace (- a + - - b)%Qc with (b + - a)%Qc by ring. auto.
  Qed.
  (** The same by the weights of the tags. *)
  Theorem C81_rank : forall (weight : ptag P -> Qc) (asc : bool) (batch : list elem), exists l, Permutation l batch /\
    StronglySorted (fun a b => if asc then weight (snd a) <= weight (snd b) else weight (snd b) <= weight (snd a))%Qc l /\
    (forall w, filter (fun e => if Qc_eq_dec (weight (snd e)) w then true else false) l =
               filter (fun e => if Qc_eq_dec (weight (snd e)) w then true else false) batch) /\
    forall i, nth_error (rank_agg weight asc batch) i = option_map (fun e => (TTup (usize i :: to_values (fst e)), snd e)) (nth_error l i).
  Proof.
    intros weight asc batch. unfold rank_agg.
    set (kc := fun a b : Qc => if asc then (a ?= b)%Qc else (b ?= a)%Qc).
    assert (O : TOrder kc) by (unfold kc; destruct asc; [apply Qc_TOrder|apply flip_TOrder, Qc_TOrder]).
    set (key := fun e : elem => weight (snd e)).
    rewrite ssort_ext with (c2 := fun a b => kc (key a) (key b)).
    2:{ intros x y _ _. unfold kc, key. destruct asc; auto. apply Qc_opp_cmp. }
    exists (ssort (fun a b => kc (key a) (key b)) batch). repeat split.
    - apply ssort_perm.
    - assert (X := ssort_sorted key O batch). revert X. generalize (ssort (fun a b => kc (key a) (key b)) batch). induction l as [|a l IH]; intros X; [constructor|].
      inversion X as [|? ? X1 X2]; subst. constructor; auto. eapply Forall_impl; [|exact X2]. intros b.
      unfold kc, key. destruct asc; intros H; apply Qcle_alt; auto.
    - intros w. assert (X := ssort_filter key O w batch). 
      assert (Y : forall e, cmp_eqb (cmp := kc) (key e) w = if Qc_eq_dec (weight (snd e)) w then true else false).
      { intros e. destruct (Qc_eq_dec (weight (snd e)) w) as [E|E]; [apply (cmp_eqb_true O)|apply (cmp_eqb_false O)]; auto. }
      etransitivity; [|etransitivity; [exact X|]]; apply filter_ext; intros; rewrite Y; auto.
    - intros i. apply nth_error_numbered.
  Qed.
  Theorem C81_enumerate : forall (batch : list elem) i,
    nth_error (enumerate_agg batch) i = option_map (fun e => (TTup (usize i :: to_values (fst e)), snd e)) (nth_error batch i).
  Proof. intros. apply nth_error_numbered. Qed.
End C81.

(** Positions are among all elements, not among those that hold: in the world of the tags
    here one element holds, and sorting gives it the position 1. *)
Theorem C81_world_refuted : exists batch : list (elem bool_prov),
  held (P := bool_prov) (fun b => b) batch = [TVal (USize 7)] /\ held (P := bool_prov) (fun b => b) (sort_agg (P := bool_prov) false true 0 batch) = [TTup [usize 1; TVal (USize 7)]].
Proof. exists [(TVal (USize 3), false); (TVal (USize 7), true)]. vm_compute. auto. Qed.
Example C81_sort_ex :
  sort_agg (P := nat_prov) true false 1
    [(TTup [TVal (USize 1); TVal (USize 5)], 4); (TTup [TVal (USize 2); TVal (USize 8)], 6); (TTup [TVal (USize 3); TVal (USize 5)], 1)] =
  [(TTup [usize 0; TVal (USize 2)], 6); (TTup [usize 1; TVal (USize 1)], 4); (TTup [usize 2; TVal (USize 3)], 1)].
Proof. vm_compute. auto. Qed.

(** *** top-k *)
Lemma NoDup_app_disj : forall A (l m : list A), NoDup l -> NoDup m -> (forall a, In a l -> ~ In a m) -> NoDup (l ++ m).
Proof.
  induction l as [|a l IH]; simpl; intros m N M D; auto. inversion N; subst. constructor; auto.
  intros I. apply in_app_or in I as [I|I]; auto. apply (D a); auto.
Qed.
Lemma NoDup_app_fst : forall A (l m : list A), NoDup (l ++ m) -> NoDup l.
Proof.
  induction l as [|a l IH]; simpl; intros m N; [constructor|]. inversion N; subst. constructor; eauto.
  intros I. apply H1. apply in_or_app; auto.
Qed.
Section TopKFacts.
  Variable least : list (nat * Qc) -> nat * Qc.
  Hypothesis L : forall h, h <> [] -> In (least h) h /\ forall e, In e h -> (snd (least h) <= snd e)%Qc.

  Lemma NoDup_filter_map : forall (p : nat * Qc -> bool) h, NoDup (map fst h) -> NoDup (map fst (filter p h)).
  Proof.
    induction h as [|e h IH]; simpl; intros N; auto. inversion N; subst. destruct (p e); simpl; auto.
    constructor; auto. intros I. apply H1. apply in_map_iff in I as (x & <- & I). apply filter_In in I as [I _]. apply in_map; auto.
  Qed.
  Lemma without_absent : forall i h, ~ In i (map fst h) -> without i h = h.
  Proof.
    unfold without. induction h as [|e h IH]; simpl; intros N; auto.
    destruct (Nat.eqb_spec (fst e) i); simpl; [tauto|]. rewrite IH; auto.
  Qed.
  Lemma without_length : forall m h, NoDup (map fst h) -> In m h -> S (length (without (fst m) h)) = length h.
  Proof.
    induction h as [|e h IH]; intros N I; [easy|]. inversion N; subst. unfold without. simpl.
    destruct (Nat.eqb_spec (fst e) (fst m)) as [E|E]; simpl.
    - f_equal. fold (without (fst m) h). rewrite without_absent; auto. rewrite <- E; auto.
    - f_equal. apply IH; auto. destruct I as [->|I]; congruence.
  Qed.
  Definition top_inv (m : nat) (done h : list (nat * Qc)) : Prop :=
    NoDup (map fst h) /\ incl h done /\ length h = m /\
    forall d x, In d done -> ~ In d h -> In x h -> (snd d <= snd x)%Qc.
  Lemma same_id : forall (l : list (nat * Qc)) x y, NoDup (map fst l) -> In x l -> In y l -> fst x = fst y -> x = y.
  Proof.
    induction l as [|a l IH]; simpl; intros x y N X Y E; [easy|]. inversion N as [|? ? N1 N2]; subst.
    destruct X as [->|X], Y as [->|Y]; auto; exfalso; apply N1.
    - rewrite E. apply in_map; auto.
    - rewrite <- E. apply in_map; auto.
  Qed.
  Lemma top_step_inv : forall m done h e, 0 < m -> NoDup (map fst (done ++ [e])) -> top_inv m done h -> top_inv m (done ++ [e]) (top_step least h e).
  Proof.
    intros m done h e M N (H1 & H2 & H3 & H4).
    assert (Hh : h <> []) by (destruct h; simpl in *; [lia|discriminate]).
    destruct (L Hh) as [Lin Lle]. unfold top_step. set (x := least h) in *.
    assert (Nd : NoDup (map fst done)) by (rewrite map_app in N; apply NoDup_app_fst in N; auto).
    assert (Fr : ~ In (fst e) (map fst done)).
    { rewrite map_app in N. simpl in N. apply NoDup_remove_2 in N. rewrite app_nil_r in N. auto. }
    assert (Fh : ~ In (fst e) (map fst h)).
    { intros I. apply Fr. apply in_map_iff in I as (y & E & I). apply in_map_iff. eauto. }
    destruct (snd x ?= snd e)%Qc eqn:C.
    2:{ apply Qclt_alt in C. split; [|split; [|split]].
        - simpl. constructor; [|apply NoDup_filter_map; auto]. intros I. apply Fh. apply in_map_iff in I as (y & E & I).
          apply filter_In in I as [I _]. apply in_map_iff. eauto.
        - intros y [<-|I]; [apply in_or_app; simpl; auto|]. apply filter_In in I as [I _]. apply in_or_app; auto.
        - simpl. rewrite without_length; auto.
        - intros d y D Nh Y.
          assert (Dx : (snd d <= snd x)%Qc).
          { apply in_app_or in D as [D|[<-|[]]]; [|exfalso; apply Nh; simpl; auto].
            destruct (Nat.eq_dec (fst d) (fst x)) as [E|E].
            - rewrite (@same_id done d x Nd D (H2 _ Lin) E). apply Qcle_refl.
            - apply H4; auto. intros I. apply Nh. right. apply filter_In. split; auto. destruct (Nat.eqb_spec (fst d) (fst x)); auto. }
          destruct Y as [<-|Y]; [apply Qclt_le_weak; eapply Qcle_lt_trans; eauto|].
          apply filter_In in Y as [Y _]. eapply Qcle_trans; eauto. }
    all: split; [auto|split; [intros y I; apply in_or_app; auto|split; [auto|]]]; intros d y D Nh Y;
      apply in_app_or in D as [D|[<-|[]]]; auto; apply Qcle_trans with (snd x); auto; apply Qcle_alt; rewrite (to_opp Qc_TOrder (snd x)), C; discriminate.
  Qed.
  Lemma top_fold_inv : forall m todo done h, 0 < m -> NoDup (map fst (done ++ todo)) -> top_inv m done h ->
    top_inv m (done ++ todo) (fold_left (top_step least) todo h).
  Proof.
    intros m. induction todo as [|e todo IH]; intros done h M N I; simpl; [rewrite app_nil_r; auto|].
    replace (done ++ e :: todo) with ((done ++ [e]) ++ todo) in * by (rewrite <- app_assoc; auto).
    apply IH; auto. apply top_step_inv; auto. rewrite map_app in N. apply NoDup_app_fst in N. auto.
  Qed.
  Lemma enum_fst : forall A (l : list A) s, map fst (combine (seq s (length l)) l) = seq s (length l).
  Proof. induction l; intros; simpl; auto. rewrite IHl; auto. Qed.

  (** The [k] selected positions are different and none that is not selected has a greater
      weight. *)
  Theorem C81_top_k : forall k ws, let r := top_k least k ws in
    NoDup r /\ length r = Nat.min k (length ws) /\ (forall i, In i r -> i < length ws) /\
    forall i j, In i r -> j < length ws -> ~ In j r -> (nth j ws 0 <= nth i ws 0)%Qc.
  Proof.
    intros k ws. unfold top_k. set (m := Nat.min k (length ws)). set (es := enum ws). cbn zeta.
    assert (Nes : NoDup (map fst es)) by (unfold es, enum; rewrite enum_fst; apply seq_NoDup).
    assert (Les : length es = length ws) by (unfold es, enum; rewrite combine_length, seq_length; lia).
    assert (Nth : forall i w, In (i, w) es -> i < length ws /\ nth i ws 0%Qc = w).
    { intros i w I. apply In_nth_error in I as (p & I). unfold es, enum in I. rewrite nth_error_enum_from in I.
      destruct (nth_error ws p) as [w'|] eqn:E; inversion I; subst. split; [apply nth_error_Some; congruence|].
      eapply nth_error_nth in E. eauto. }
    assert (Has : forall j, j < length ws -> In (j, nth j ws 0%Qc) es).
    { intros j J. apply nth_error_In with j. unfold es, enum. rewrite nth_error_enum_from. rewrite (nth_error_nth' ws 0%Qc) by auto. auto. }
    destruct (firstn m es) as [|a h] eqn:F.
    { assert (m = 0). { assert (length (firstn m es) = 0) by (rewrite F; auto). rewrite firstn_length in H. lia. }
      simpl. repeat split; auto; try constructor; easy. }
    rewrite <- F. set (r := fold_left (top_step least) (skipn m es) (firstn m es)).
    assert (I : top_inv m (firstn m es ++ skipn m es) r).
    { apply top_fold_inv.
      - assert (length (firstn m es) = S (length h)) by (rewrite F; auto). rewrite firstn_length in H. lia.
      - rewrite firstn_skipn. auto.
      - repeat split.
        + rewrite <- (firstn_skipn m es), map_app in Nes. apply NoDup_app_fst in Nes. auto.
        + apply incl_refl.
        + rewrite firstn_length. lia.
        + intros d x D N. easy. }
    rewrite firstn_skipn in I. destruct I as (I1 & I2 & I3 & I4). repeat split; auto.
    - rewrite map_length. auto.
    - intros i J. apply in_map_iff in J as ((i' & w) & <- & J). eapply Nth. eauto.
    - intros i j Hi J Nj. apply in_map_iff in Hi as ((i' & w) & <- & Hi). simpl. destruct (Nth _ _ (I2 _ Hi)) as [_ ->].
      apply (I4 (j, nth j ws 0%Qc) (i', w)); auto. intros X. apply Nj. apply in_map_iff. exists (j, nth j ws 0%Qc). auto.
  Qed.
End TopKFacts.

Section TopAgg.
  Variables (P : Prov) (weight : ptag P -> Qc) (least : list (nat * Qc) -> nat * Qc).
  Hypothesis L : forall h, h <> [] -> In (least h) h /\ forall e, In e h -> (snd (least h) <= snd e)%Qc.
  Lemma sampled_all : forall (pre l : list (elem P)), sampled (seq (length pre) (length l)) (pre ++ l) = l.
  Proof.
    intros pre l. revert pre. induction l as [|e l IH]; intros pre; auto. unfold sampled. cbn [length seq flat_map].
    rewrite nth_error_app2, Nat.sub_diag by auto. cbn [nth_error app]. f_equal.
    specialize (IH (pre ++ [e])). rewrite app_length, <- app_assoc in IH. simpl in IH. rewrite Nat.add_1_r in IH. exact IH.
  Qed.
  Lemma sampled_length : forall (l : list (elem P)) r, (forall i, In i r -> i < length l) -> length (sampled r l) = length r.
  Proof.
    induction r as [|i r IH]; intros H; auto. unfold sampled. cbn [flat_map]. rewrite app_length. fold (sampled r l). rewrite IH by (intros; apply H; right; auto).
    destruct (nth_error l i) eqn:N; auto. apply nth_error_None in N. specialize (H i (or_introl eq_refl)). lia.
  Qed.
  (** top-k keeps [k] of the elements (all, if there are fewer); none of the [rest] has a greater
      weight than one of them. *)
  Theorem C81_top : forall k (batch : list (elem P)), let r := top_agg weight least k batch in
    length r = Nat.min k (length batch) /\ exists rest, Permutation (r ++ rest) batch /\
      forall e x, In e r -> In x rest -> (weight (snd x) <= weight (snd e))%Qc.
  Proof.
    intros k batch. unfold top_agg. set (ws := map (fun e : elem P => weight (snd e)) batch).
    destruct (@C81_top_k least L k ws) as (T1 & T2 & T3 & T4). cbn zeta in *. set (r := top_k least k ws) in *.
    assert (Lw : length ws = length batch) by apply map_length. rewrite Lw in *. split; [rewrite sampled_length; auto|].
    set (o := filter (fun i => negb (mem_nat i r)) (seq 0 (length batch))).
    assert (M : forall i, mem_nat i r = true <-> In i r).
    { intros i. unfold mem_nat. rewrite existsb_exists. split; [intros (x & X & E); apply Nat.eqb_eq in E; subst; auto|]. intros I. exists i. split; auto. apply Nat.eqb_refl. }
    assert (Pm : Permutation (r ++ o) (seq 0 (length batch))).
    { apply NoDup_Permutation.
      - apply NoDup_app_disj; auto; [apply NoDup_filter, seq_NoDup|]. intros i I J. apply filter_In in J as [_ J]. rewrite (proj2 (M i) I) in J. discriminate.
      - apply seq_NoDup.
      - intros i. rewrite in_app_iff, in_seq. unfold o. rewrite filter_In, in_seq. split.
        + intros [I|[I _]]; auto. apply T3 in I. lia.
        + intros I. destruct (mem_nat i r) eqn:X; [left; apply M; auto|right; auto]. }
    exists (sampled o batch). split.
    - assert (X := sampled_all [] batch). simpl in X.
      assert (Y : Permutation (sampled (r ++ o) batch) (sampled (seq 0 (length batch)) batch)) by (apply Permutation_flat_map; auto).
      rewrite X in Y. unfold sampled at 1 in Y. rewrite flat_map_app in Y. exact Y.
    - assert (W : forall i e, nth_error batch i = Some e -> nth i ws 0%Qc = weight (snd e)).
      { intros i e N. apply nth_error_nth. unfold ws. rewrite nth_error_map, N. auto. }
      intros e x E X. apply in_flat_map in E as (i & Ii & E), X as (j & Ij & X).
      destruct (nth_error batch i) eqn:Ni; [|easy]. destruct (nth_error batch j) eqn:Nj; [|easy]. destruct E as [->|[]], X as [->|[]].
      apply filter_In in Ij as [J1 J2]. rewrite <- (W _ _ Ni), <- (W _ _ Nj). apply T4; auto; [apply in_seq in J1; lia|].
      intros I. apply M in I. rewrite I in J2. discriminate.
  Qed.
End TopAgg.
Fixpoint least_of (h : list (nat * Qc)) : nat * Qc :=
  match h with
  | [] => (0, 0%Qc)
  | [e] => e
  | e :: r => let m := least_of r in match (snd m ?= snd e)%Qc with Lt => m | _ => e end
  end.
Lemma least_of_ok : forall h, h <> [] -> In (least_of h) h /\ forall e, In e h -> (snd (least_of h) <= snd e)%Qc.
Proof.
  induction h as [|e h IH]; [congruence|]. intros _. destruct h as [|x h].
  - simpl. split; auto. intros y [<-|[]]. apply Qcle_refl.
  - destruct IH as [I Le]; [discriminate|].
    replace (least_of (e :: x :: h)) with (match (snd (least_of (x :: h)) ?= snd e)%Qc with Lt => least_of (x :: h) | _ => e end) by reflexivity.
    set (m := least_of (x :: h)) in *. destruct (snd m ?= snd e)%Qc eqn:C.
    2:{ split; [right; auto|]. intros y [<-|Y]; auto. apply Qclt_le_weak, Qclt_alt; auto. }
    all: split; [left; auto|]; intros y [<-|Y]; [apply Qcle_refl|]; apply Qcle_trans with (snd m); auto;
      apply Qcle_alt; rewrite (to_opp Qc_TOrder (snd m)), C; discriminate.
Qed.
Example C81_top_k_ex : forall (q : nat -> Qc), q = (fun n => Q2Qc (Z.of_nat n # 10)) ->
  top_k least_of 2 [q 3; q 9; q 1; q 5; q 9] = [4; 1].
Proof. intros q ->. vm_compute. auto. Qed.
(** Samples are different elements, all if there are at most [k], and at most [k]. *)
Theorem C81_draw : forall draw k len, (forall i, draw i < len) -> let r := draw_k draw k len in
  NoDup r /\ (forall i, In i r -> i < len) /\ length r <= k /\ (len <= k -> r = seq 0 len).
Proof.
  intros draw k len D. unfold draw_k. destruct (Nat.leb_spec len k); cbn zeta; repeat split; auto.
  - apply seq_NoDup.
  - intros i I. apply in_seq in I. lia.
  - rewrite seq_length. auto.
  - apply NoDup_nodup.
  - intros i I. apply nodup_In, in_map_iff in I as (j & <- & _). auto.
  - etransitivity; [apply NoDup_incl_length; [apply NoDup_nodup|]; intros x X; apply nodup_In in X; exact X|]. rewrite map_length, seq_length. auto.
  - lia.
Qed.

(** ** C82 *)
(** The elements that hold in a world. *)
Definition live (P : Prov) (ev : ptag P -> bool) (batch : list (elem P)) : list (elem P) := filter (fun e => ev (snd e)) batch.
(** The string of an element: its value, or the value after the arguments. *)
Definition has_text (n : nat) (t : tuple) (s : string) : Prop :=
  match n, t with
  | 0, TVal (VString x) => x = s
  | S _, TTup l => nth_error l n = Some (TVal (VString s))
  | _, _ => False
  end.
Fixpoint joined (sep : string) (ss : list string) : string :=
  match ss with [] => EmptyString | [s] => s | s :: r => s ++ sep ++ joined sep r end%string.
Definition quotient (a n : Z) (q : Z) : Prop := exists r, (a = n * q + r /\ Z.abs r < Z.abs n /\ 0 <= r * Z.sgn a)%Z.
Definition zsum (zs : list Z) : Z := fold_right Z.add 0%Z zs.

Section C82.
  Variables (P : Prov) (ev : ptag P -> bool).
  Notation elem := (elem P).

  Lemma holders_elems_from : forall l pre,
    flat_map (fun i => match nth_error (pre ++ l) i with Some e => [e] | None => [] end) (holders ev (length pre) l) = live ev l.
  Proof.
    induction l as [|e l IH]; intros pre; auto. unfold holders, live. simpl.
    assert (X := IH (pre ++ [e])). rewrite app_length, <- app_assoc in X. simpl in X. rewrite Nat.add_1_r in X.
    unfold holders, live in X. destruct (ev (snd e)); simpl; auto.
    rewrite nth_error_app2, Nat.sub_diag by auto. simpl. f_equal. auto.
  Qed.
  Lemma holders_elems : forall l, sampled (holders ev 0 l) l = live ev l.
  Proof. intros. apply (holders_elems_from l []). Qed.

  Definition one_world (f : list elem -> option tuple) (batch : list elem) (S : list nat) : option (list elem) :=
    match f (sampled S batch) with
    | None => None
    | Some r => Some (match choose_tag batch S with Some t => [(r, t)] | None => [] end)
    end.
  Lemma worlds_split : forall f batch res, worlds_agg f batch = Some res ->
    res = flat_map (fun S => match one_world f batch S with Some r => r | None => [] end) (powerset (seq 0 (length batch))) /\
    forall S, In S (powerset (seq 0 (length batch))) -> one_world f batch S <> None.
  Proof.
    intros f batch res H.
    change (option_map (@concat _) (opt_all (map (one_world f batch) (powerset (seq 0 (length batch))))) = Some res) in H.
    destruct (opt_all (map (one_world f batch) (powerset (seq 0 (length batch))))) as [rs|] eqn:O; [|discriminate].
    inversion H; subst. apply opt_all_map in O. split.
    - eapply concat_of; [|exact O]. intros a b Hb. rewrite Hb. auto.
    - intros S I. clear - O I. induction O; [easy|]. destruct I as [->|I]; auto. congruence.
  Qed.
  Lemma opt_all_total : forall A B (f : A -> option B) l, (forall a, In a l -> f a <> None) -> opt_all (map f l) <> None.
  Proof.
    induction l as [|a l IH]; simpl; intros H; [discriminate|]. unfold opt_all. simpl. fold (opt_all (map f l)).
    destruct (f a) eqn:E; [|exfalso; eapply H; eauto]. destruct (opt_all (map f l)); [discriminate|]. exfalso. apply IH; auto.
  Qed.

  (** In every world exactly one result holds, that of the elements that hold. *)
  Theorem C82_worlds : exact_events P ev -> forall f batch res, worlds_agg f batch = Some res ->
    exists r, f (live ev batch) = Some r /\ true_results ev res = [r].
  Proof.
    intros E f batch res H. apply worlds_split in H as [-> T].
    assert (H0 := T _ (holders_powerset ev batch)). unfold one_world in H0. rewrite holders_elems in H0.
    destruct (f (live ev batch)) as [r|] eqn:F; [|congruence]. exists r. split; auto.
    unfold true_results. rewrite held_flat_map. rewrite flat_map_one with (x := holders ev 0 batch).
    - unfold one_world. rewrite holders_elems, F. destruct (choose_unique E batch _ (holders_powerset ev batch)) as (t & -> & Ht).
      unfold held. simpl. replace (ev t) with true by (symmetry; apply Ht; auto). auto.
    - apply powerset_NoDup, seq_NoDup.
    - apply holders_powerset.
    - intros S I D. unfold one_world. destruct (f (sampled S batch)) as [r'|]; auto.
      destruct (choose_unique E batch _ I) as (t & -> & Ht). unfold held. simpl. destruct (ev t); auto. exfalso. apply D, Ht. auto.
  Qed.
  (** If tags may lose proofs no result holds in a world of another. *)
  Theorem C82_worlds_sound : sound_events P ev -> forall f batch res x t, worlds_agg f batch = Some res ->
    In (x, t) res -> ev t = true -> f (live ev batch) = Some x.
  Proof.
    intros E f batch res x t H I Ht. apply worlds_split in H as [-> T]. apply in_flat_map in I as (S & IS & I).
    unfold one_world in I. destruct (f (sampled S batch)) as [r|] eqn:F; [|easy].
    destruct (choose_tag batch S) as [t'|] eqn:C; [|easy]. destruct I as [I|[]]. inversion I; subst.
    rewrite (choose_tag_sound E batch _ IS C Ht), holders_elems in F. auto.
  Qed.

  Lemma text_of_spec : forall n t s, has_text n t s -> text_of n t = Some s.
  Proof.
    intros n t s H. unfold text_of, operand. destruct n as [|n]; [simpl in H|unfold has_text in H].
    - destruct t as [[]|]; simpl in H; try easy. subst. auto.
    - destruct t as [|l]; [easy|]. unfold tnth. rewrite H. auto.
  Qed.
  Lemma concat_joined : forall sep ss, String.concat sep ss = joined sep ss.
  Proof. induction ss as [|s [|x r] IH]; auto. Qed.
  Lemma join_spec : forall n sep l ss, Forall2 (has_text n) l ss -> join_tuples n sep l = Some (TVal (VString (joined sep ss))).
  Proof.
    intros n sep l ss F. unfold join_tuples. replace (opt_all (map (text_of n) l)) with (Some ss); [simpl; rewrite concat_joined; auto|].
    induction F as [|t s l ss H F IH]; auto. unfold opt_all. simpl. fold (opt_all (map (text_of n) l)). rewrite (@text_of_spec n t s H), <- IH. auto.
  Qed.
  Definition texts (n : nat) (batch : list elem) : Prop := forall e, In e batch -> exists s, has_text n (fst e) s.
  Lemma texts_list : forall n l, texts n l -> exists ss, Forall2 (has_text n) (map fst l) ss.
  Proof.
    induction l as [|e l IH]; intros T; [exists []; constructor|]. destruct (T e) as (s & Hs); [left; auto|].
    destruct IH as (ss & F); [intros x I; apply T; right; auto|]. exists (s :: ss). constructor; auto.
  Qed.
  Lemma sampled_In : forall S (l : list elem) e, In e (sampled S l) -> In e l.
  Proof.
    intros S l e I. apply in_flat_map in I as (i & _ & I). destruct (nth_error l i) eqn:N; [|easy].
    destruct I as [->|[]]. eapply nth_error_In; eauto.
  Qed.

  (** string_join of strings does not fail, and in every world gives exactly the strings of
      the elements that hold, joined in their order. *)
  Theorem C82_join : exact_events P ev -> forall n sep batch, texts n batch ->
    exists res ss, string_join_agg false false n sep batch = Some res /\
      Forall2 (has_text n) (held ev batch) ss /\ true_results ev res = [TVal (VString (joined sep ss))].
  Proof.
    intros E n sep batch T. unfold string_join_agg. set (f := fun l : list elem => join_tuples n sep (map fst l)).
    destruct (worlds_agg f batch) as [res|] eqn:W.
    - destruct (C82_worlds E f batch W) as (r & F & R).
      destruct (@texts_list n (live ev batch)) as (ss & Fs); [intros e I; apply filter_In in I as [I _]; auto|].
      exists res, ss. repeat split; auto. unfold f in F. rewrite (@join_spec n sep _ ss Fs) in F. inversion F; subst. auto.
    - exfalso. unfold worlds_agg in W.
      destruct (opt_all _) eqn:O; [discriminate|]. revert O. apply opt_all_total.
      intros S _. destruct (@texts_list n (sampled S batch)) as (ss & Fs); [intros e I; apply T; eapply sampled_In; eauto|].
      unfold f. rewrite (@join_spec n sep _ ss Fs). discriminate.
  Qed.
  (** With the exclamation mark: the strings of all elements. *)
  Theorem C82_join_single_world : forall n sep batch ss, Forall2 (has_text n) (map fst batch) ss ->
    string_join_agg true false n sep batch = Some [(TVal (VString (joined sep ss)), pone P)].
  Proof. intros n sep batch ss F. unfold string_join_agg. rewrite (@join_spec _ sep _ ss F). auto. Qed.

  Lemma all_tag_ev : exact_events P ev -> forall l, ev (all_tag l) = forallb (fun e => ev (snd e)) l.
  Proof.
    intros E l. unfold all_tag. rewrite <- (andb_true_l (forallb _ l)), <- (ee_one E). generalize (pone P).
    induction l as [|e l IH]; intros a; simpl; [rewrite andb_true_r; auto|]. rewrite IH, (ee_mult E), andb_assoc. auto.
  Qed.
  (** With "all" and no arguments the only result is that of all strings, and it holds if
      all elements do. *)
  Theorem C82_join_all : exact_events P ev -> forall sep batch ss, Forall2 (has_text 0) (map fst batch) ss ->
    exists t, string_join_agg false true 0 sep batch = Some [(TVal (VString (joined sep ss)), t)] /\
      (ev t = true <-> forall e, In e batch -> ev (snd e) = true).
  Proof.
    intros E sep batch ss F. unfold string_join_agg. rewrite (@join_spec _ sep _ ss F). simpl. eexists. split; [reflexivity|].
    rewrite (all_tag_ev E), forallb_forall. reflexivity.
  Qed.

  (** *** Runs of elements with the same arguments *)
  Notation args n := (fun e : elem => tupto n (fst e)).
  (** No element comes after one with later arguments; sorted batches are such. *)
  Definition in_order (n : nat) (l : list elem) : Prop := StronglySorted (fun a b => scmp (tupto n (fst a)) (tupto n (fst b)) <> Gt) l.
  Lemma lex_firstn : forall n l m, lex tcmp l m <> Gt -> lex tcmp (firstn n l) (firstn n m) <> Gt.
  Proof.
    induction n as [|n IH]; simpl; intros l m H; [discriminate|]. destruct l as [|a l], m as [|b m]; simpl in *; try congruence.
    destruct (tcmp a b); auto.
  Qed.
  Theorem C83_order : forall n (l : list elem), (forall e, In e l -> exists ts, fst e = TTup ts) ->
    StronglySorted (fun a b => tcmp (fst a) (fst b) <> Gt) l -> in_order n l.
  Proof.
    intros n l H S. induction S as [|a l S IH F]; constructor; auto.
    - apply IH. intros; apply H; right; auto.
    - rewrite Forall_forall in *. intros b B. destruct (H a (or_introl eq_refl)) as (ts & Ea), (H b (or_intror B)) as (us & Eb).
      assert (X := F b B). rewrite Ea, Eb in *. rewrite tcmp_tup in X. apply lex_firstn; auto.
  Qed.

  (** Exactly one element with each of the arguments holds. *)
  Definition one_each (n : nat) (batch : list elem) : Prop := forall e, In e batch ->
    exists x, filter (fun y => ev (snd y) && cmp_eqb (cmp := scmp) (args n y) (args n e)) batch = [x].

  Lemma runs_cons : forall n (e : elem) r, runs n (e :: r) =
    match runs n r with
    | (x :: g) :: gs => match scmp (args n e) (args n x) with Eq => (e :: x :: g) :: gs | _ => [e] :: (x :: g) :: gs end
    | gs => [e] :: gs
    end.
  Proof. reflexivity. Qed.
  Lemma runs_concat : forall n (l : list elem), concat (runs n l) = l.
  Proof.
    induction l as [|e l IH]; auto. rewrite runs_cons. destruct (runs n l) as [|[|x g] gs]; simpl in *; [congruence| congruence |].
    destruct (scmp _ _); simpl; congruence.
  Qed.
  Lemma runs_same : forall n (l : list elem) g, In g (runs n l) -> g <> [] /\ forall a b, In a g -> In b g -> args n a = args n b.
  Proof.
    induction l as [|e l IH]; [easy|]. rewrite runs_cons. intros g I.
    assert (One : [e] <> [] /\ forall a b, In a [e] -> In b [e] -> args n a = args n b).
    { split; [discriminate|]. intros a b [<-|[]] [<-|[]]. auto. }
    destruct (runs n l) as [|[|x h] gs].
    - destruct I as [<-|[]]. auto.
    - exfalso. destruct (IH [] (or_introl eq_refl)). auto.
    - destruct (scmp (args n e) (args n x)) eqn:C; try (destruct I as [<-|I]; auto; fail).
      apply (to_eq scmp_TOrder) in C. destruct I as [<-|I]; [|apply IH; right; auto].
      destruct (IH _ (or_introl eq_refl)) as [_ S]. split; [discriminate|].
      assert (X : forall b, In b (e :: x :: h) -> args n b = args n x).
      { intros b [<-|B]; auto. apply S; simpl; auto. }
      intros a b A B. rewrite (X a A), (X b B). auto.
  Qed.
  Lemma runs_apart : forall n (l : list elem), in_order n l -> forall g gs, runs n l = g :: gs ->
    forall a b, In a g -> In b (concat gs) -> args n a <> args n b.
  Proof.
    induction l as [|e l IH]; intros S g gs R a b A B; [discriminate|]. inversion S as [|? ? S' F]; subst.
    rewrite runs_cons in R. assert (Cn := runs_concat n l). assert (Sm := @runs_same n l).
    destruct (runs n l) as [|[|x h] hs] eqn:Rl.
    - inversion R; subst. easy.
    - exfalso. destruct (Sm [] (or_introl eq_refl)). auto.
    - destruct (scmp (args n e) (args n x)) eqn:C.
      + apply (to_eq scmp_TOrder) in C. inversion R; subst. destruct A as [<-|A].
        * rewrite C. apply (IH S' (x :: h) gs eq_refl); simpl; auto.
        * apply (IH S' (x :: h) gs eq_refl); auto.
      + inversion R; subst. destruct A as [<-|[]]. intros Eq.
        (* the first of [b]'s run is not before [x] *)
        simpl in B. destruct B as [<-|B]; [rewrite Eq, (to_refl scmp_TOrder) in C; discriminate|].
        assert (Le : scmp (args n x) (args n b) <> Gt).
        { inversion S' as [|? ? _ F']; subst. rewrite Forall_forall in F'. apply F'. auto. }
        cbv beta in *. rewrite <- Eq, (to_opp scmp_TOrder (args n e)), C in Le. simpl in Le. congruence.
      + exfalso. rewrite Forall_forall in F. apply (F x); auto. rewrite <- Cn. simpl. auto.
  Qed.
  Lemma runs_pairs : forall n (l : list elem), in_order n l -> forall pre g post, runs n l = pre ++ g :: post ->
    forall a b, In a g -> In b (concat post) -> args n a <> args n b.
  Proof.
    induction l as [|e l IH]; intros S pre g post R; [destruct pre; discriminate|]. destruct pre as [|p pre].
    { eapply runs_apart; eauto. }
    inversion S as [|? ? S' F]; subst. rewrite runs_cons in R. destruct (runs n l) as [|[|x h] hs] eqn:Rl.
    - destruct pre; discriminate.
    - exfalso. destruct (@runs_same n l []) as [X _]; [rewrite Rl; left; auto|]. auto.
    - destruct (scmp (args n e) (args n x)); inversion R; subst; eauto. apply (IH S' ((x :: h) :: pre)). auto.
  Qed.
  Lemma filter_all : forall A (p : A -> bool) l, (forall a, In a l -> p a = true) -> filter p l = l.
  Proof. induction l as [|a l IH]; simpl; intros H; auto. rewrite H, IH; auto. Qed.
  Lemma filter_none : forall A (p : A -> bool) l, (forall a, In a l -> p a = false) -> filter p l = [].
  Proof. induction l as [|a l IH]; simpl; intros H; auto. rewrite H, IH; auto. Qed.
  Lemma runs_filter : forall n (l : list elem), in_order n l -> forall g e, In g (runs n l) -> In e g ->
    filter (fun y => cmp_eqb (cmp := scmp) (args n y) (args n e)) l = g.
  Proof.
    intros n l S g e G E. rewrite <- (runs_concat n l) at 1. apply in_split in G as (pre & post & R). rewrite R.
    rewrite concat_app. cbn [concat]. rewrite !filter_app.
    rewrite (filter_none _ (concat pre)), (filter_all _ g), (filter_none _ (concat post)); [rewrite app_nil_r; auto| | |].
    - intros a A. apply (cmp_eqb_false scmp_TOrder). intros X. eapply (runs_pairs S); eauto.
    - intros a A. apply (cmp_eqb_true scmp_TOrder). apply (@runs_same n l g); auto. rewrite R. apply in_or_app. simpl. auto.
    - intros a A. apply (cmp_eqb_false scmp_TOrder). intros X.
      apply in_concat in A as (h & H & A). apply in_split in H as (p1 & p2 & ->). rewrite <- app_assoc in R. simpl in R.
      eapply (runs_pairs S) with (a := a) (b := e); eauto. apply in_concat. exists g. split; auto. apply in_or_app. simpl. auto.
  Qed.
  Lemma filter_choices : forall gs, Forall (fun g => exists x, live ev g = [x]) gs ->
    filter (forallb (fun e => ev (snd e))) (choices gs) = [concat (map (live ev) gs)].
  Proof.
    induction gs as [|g gs IH]; intros F; auto. inversion F as [|? ? (x & X) F']; subst. cbn [choices]. rewrite filter_flat_map.
    transitivity (flat_map (fun y => map (cons y) (filter (forallb (fun e => ev (snd e))) (choices gs))) (live ev g)).
    - clear. induction g as [|y g IH]; auto. cbn [flat_map]. unfold live in *. cbn [filter]. rewrite IH. clear IH.
      assert (X : filter (forallb (fun e => ev (snd e))) (map (cons y) (choices gs)) =
                  if ev (snd y) then map (cons y) (filter (forallb (fun e => ev (snd e))) (choices gs)) else []).
      { induction (choices gs) as [|c cs IHc]; simpl; [destruct (ev (snd y)); auto|]. rewrite IHc. destruct (ev (snd y)) eqn:V; simpl; auto.
        destruct (forallb (fun e => ev (snd e)) c); auto. }
      cbv beta. match goal with |- ?a ++ _ = _ => replace a with (if ev (snd y) then map (cons y) (filter (forallb (fun e : elem => ev (snd e))) (choices gs)) else []) by (symmetry; exact X) end. destruct (ev (snd y)); auto.
    - rewrite X, IH by auto. cbn [map concat flat_map]. rewrite X. auto.
  Qed.
  Lemma live_concat : forall gs, live ev (concat gs) = concat (map (live ev) gs).
  Proof. induction gs as [|g gs IH]; auto. cbn [concat map]. rewrite <- IH. unfold live. apply filter_app. Qed.
  Lemma choices_In : forall (gs : list (list elem)) c e, In c (choices gs) -> In e c -> In e (concat gs).
  Proof.
    induction gs as [|g gs IH]; simpl; intros c e C E; [destruct C as [<-|[]]; easy|].
    apply in_flat_map in C as (x & X & C). apply in_map_iff in C as (c' & <- & C). apply in_or_app. destruct E as [<-|E]; eauto.
  Qed.
  Lemma live_run : forall n batch, in_order n batch -> one_each n batch -> Forall (fun g => exists x, live ev g = [x]) (runs n batch).
  Proof.
    intros n batch S O. apply Forall_forall. intros g G. destruct (@runs_same n batch g G) as [Ne _].
    destruct g as [|e g]; [congruence|]. assert (E : In e batch).
    { rewrite <- (runs_concat n batch). apply in_concat. exists (e :: g). simpl. auto. }
    destruct (O e E) as (x & X). exists x. etransitivity; [|exact X].
    etransitivity; [apply f_equal; symmetry; exact (@runs_filter n batch S (e :: g) e G (or_introl eq_refl))|]. unfold live.
    clear. induction batch as [|y batch IH]; auto. cbn [filter].
    destruct (cmp_eqb (cmp := scmp) (args n y) (args n e)) eqn:C; cbn [filter]; destruct (ev (snd y)) eqn:V; cbn [andb]; rewrite ?IH; auto.
  Qed.

  (** With "all" and arguments: in the worlds in which exactly one element with each of the
      arguments holds, exactly one result holds, that of the elements that hold. *)
  Theorem C82_join_args : exact_events P ev -> forall n sep batch, 0 < n -> texts n batch -> in_order n batch -> one_each n batch ->
    exists res ss, string_join_agg false true n sep batch = Some res /\
      Forall2 (has_text n) (held ev batch) ss /\ true_results ev res = [TVal (VString (joined sep ss))].
  Proof.
    intros E n sep batch N T S O. unfold string_join_agg. destruct n as [|n']; [lia|]. set (n := Datatypes.S n') in *.
    set (f := fun l : list elem => option_map (fun r => (r, all_tag l)) (join_tuples n sep (map fst l))).
    assert (Tot : forall c, In c (choices (runs n batch)) -> exists ss, Forall2 (has_text n) (map fst c) ss).
    { intros c C. apply texts_list. intros e I. apply T. rewrite <- (runs_concat n batch). eapply choices_In; eauto. }
    assert (Fil := filter_choices (live_run S O)). rewrite <- live_concat, runs_concat in Fil.
    destruct (@texts_list n (live ev batch)) as (ss & Fs); [intros e I; apply filter_In in I as [I _]; auto|].
    change (exists res ss, opt_all (map f (choices (runs n batch))) = Some res /\ Forall2 (has_text n) (held ev batch) ss /\
      true_results ev res = [TVal (VString (joined sep ss))]).
    assert (Res : forall cs, (forall c, In c cs -> In c (choices (runs n batch))) -> exists res, opt_all (map f cs) = Some res /\
      exists ts, Forall2 (fun c t => join_tuples n sep (map fst c) = Some t) (filter (forallb (fun e => ev (snd e))) cs) ts /\ true_results ev res = ts).
    { induction cs as [|c cs IH]; intros H; [exists []; split; [reflexivity|exists []; split; [constructor|reflexivity]]|].
      destruct IH as (res & R & ts & F2 & Tr); [intros; apply H; right; auto|]. destruct (Tot c) as (cs' & Fc); [apply H; left; auto|].
      unfold opt_all. cbn [map fold_right]. fold (opt_all (map f cs)). rewrite R. unfold f at 1. rewrite (@join_spec n sep _ _ Fc). cbn [option_map].
      eexists. split; [reflexivity|]. cbn [filter]. rewrite <- (all_tag_ev E). unfold true_results, held. cbn [filter snd]. destruct (ev (all_tag c)).
      - eexists. split; [|reflexivity]. cbn [map fst]. constructor; [apply join_spec; auto|]. unfold true_results, held in Tr. rewrite Tr. auto.
      - exists ts. auto. }
    destruct (Res (choices (runs n batch))) as (res & R & ts & F2 & Tr); auto. rewrite Fil in F2.
    inversion F2 as [|? t ? ? J F3]; subst. inversion F3; subst. exists res, ss. repeat split; auto.
    rewrite (@join_spec n sep _ ss Fs) in J. inversion J; subst. auto.
  Qed.
End C82.

(** *** Averages *)
Lemma avg_fold : forall ty n l a k x, fold_left (fun acc t => match operand n t with Some v => avg_step ty acc v | None => None end) l (Some (a, k)) = Some x ->
  exists zs, map (value_of ty n) l = map Some zs /\ x = (a + zsum zs, k + Z.of_nat (length zs))%Z.
Proof.
  induction l as [|t l IH]; intros a k x H.
  - inversion H; subst. exists []. simpl. split; auto. f_equal; lia.
  - cbn [fold_left] in H. assert (No : fold_left (fun acc t => match operand n t with Some v => avg_step ty acc v | None => None end) l None = None).
    { clear. induction l as [|t l IH]; auto. simpl. destruct (operand n t); auto. }
    destruct (operand n t) as [v|] eqn:Op; [|rewrite No in H; discriminate]. unfold avg_step in H at 2.
    destruct (as_int ty v) as [z|] eqn:As; [|rewrite No in H; discriminate].
    destruct (_ && _); [|rewrite No in H; discriminate].
    apply IH in H as (zs & E & ->). exists (z :: zs). simpl. rewrite E. unfold value_of. rewrite Op, As. split; auto. f_equal; lia.
Qed.
(** In one world the average is the quotient, towards zero, of the sum and the number. *)
Theorem C82_avg_single_world : forall P ty n (batch : list (elem P)) res, avg_agg ty n true batch = Some res ->
  exists zs q, map (value_of ty n) (map fst batch) = map Some zs /\ zs <> [] /\ quotient (zsum zs) (Z.of_nat (length zs)) q /\
    res = [(of_int ty q, pone P)].
Proof.
  intros P ty n batch res H. unfold avg_agg in H. destruct (avg_of ty n (map fst batch)) as [r|] eqn:A; [|discriminate]. inversion H; subst. clear H.
  unfold avg_of in A. destruct (fold_left _ _ _) as [(a & k)|] eqn:F; [|discriminate]. apply avg_fold in F as (zs & E & X). inversion X; subst. clear X.
  destruct (Z.eqb_spec (Z.of_nat (length zs)) 0) as [Z0|Z0]; [discriminate|]. inversion A; subst.
  exists zs, (Z.quot (zsum zs) (Z.of_nat (length zs))). repeat split; auto.
  - intros ->. apply Z0. auto.
  - exists (Z.rem (zsum zs) (Z.of_nat (length zs))). repeat split.
    + apply Z.quot_rem'.
    + apply Z.rem_bound_abs. auto.
    + assert (Sg := Z.rem_sign_nz (zsum zs) (Z.of_nat (length zs)) Z0). destruct (Z.eq_dec (Z.rem (zsum zs) (Z.of_nat (length zs))) 0) as [R|R].
      * rewrite R. lia.
      * rewrite <- Sg by auto. nia.
Qed.
(** Otherwise the average of integers always divides by zero, as one of the sets of elements
    is empty. *)
Theorem C82_avg_refuted : forall P ty n (batch : list (elem P)), avg_agg ty n false batch = None.
Proof.
  intros P ty n batch. unfold avg_agg, worlds_agg, powerset. rewrite seq_length. cbn [seq flat_map].
  replace (combos 0 (seq 0 (length batch))) with [@nil nat] by (destruct (seq 0 (length batch)); auto). reflexivity.
Qed.
Example C82_avg_ex : avg_agg (P := bool_prov) TI8 0 true [(TVal (I8 (-3)), true); (TVal (I8 (-4)), true)] = Some [(TVal (I8 (-3)), true)].
Proof. vm_compute. auto. Qed.
Open Scope string_scope.
Example C82_join_ex :
  let b := [(TTup [TVal (USize 0); TVal (VString "a")], true); (TTup [TVal (USize 0); TVal (VString "b")], false); (TTup [TVal (USize 1); TVal (VString "c")], true)] in
  string_join_agg (P := bool_prov) false true 1 "-" b = Some [(TVal (VString "a-c"), true); (TVal (VString "b-c"), false)] /\
  one_each (P := bool_prov) (fun x => x) 1 b.
Proof. split; [vm_compute; auto|]. intros e [<-|[<-|[<-|[]]]]; vm_compute; eexists; reflexivity. Qed.
Close Scope string_scope.

(** ** C83 *)
Section C83.
  Variable P : Prov.
  Notation elem := (elem P).
  Notation args n := (fun e : elem => tupto n (fst e)).

  Lemma disjunct_loop_spec : forall n (l : list elem) curr id out nx, in_order n l -> (forall e, In e l -> scmp curr (args n e) <> Gt) ->
    disjunct_loop n curr id l = (out, nx) ->
    map fst out = l /\ (forall e x, In (e, x) out -> id <= x < nx /\ (x = id <-> args n e = curr)) /\ id < nx /\
    forall e x e' x', In (e, x) out -> In (e', x') out -> (x = x' <-> args n e = args n e').
  Proof.
    intros n. induction l as [|e l IH]; intros curr id out nx S Lo H; simpl in H.
    - inversion H; subst. repeat split; auto; try lia; easy.
    - inversion S as [|? ? S' F]; subst. rewrite Forall_forall in F.
      assert (C0 := Lo e (or_introl eq_refl)). cbv beta in C0. rewrite (to_opp scmp_TOrder) in C0.
      destruct (scmp (tupto n (fst e)) curr) eqn:C.
      + apply (to_eq scmp_TOrder) in C. destruct (disjunct_loop n curr id l) as [o n'] eqn:D. inversion H; subst.
        apply IH in D as (D1 & D2 & D3 & D4); auto; try (intros; apply Lo; right; auto). split; [simpl; congruence|]. split; [|split; auto].
        * intros e1 x [I|I]; [inversion I; subst; split; [lia|tauto]|apply D2; auto].
        * intros e1 x e2 x' [I|I] [J|J]; try (inversion I; subst); try (inversion J; subst).
          -- tauto.
          -- destruct (D2 _ _ J) as [_ X]. cbv beta in *. split; [intros Y; symmetry; apply X; auto|intros Y; symmetry; apply X; auto].
          -- destruct (D2 _ _ I) as [_ X]. cbv beta in *. apply X.
          -- eauto.
      + simpl in C0. congruence.
      + destruct (disjunct_loop n (tupto n (fst e)) (Datatypes.S id) l) as [o n'] eqn:D. inversion H; subst.
        apply IH in D as (D1 & D2 & D3 & D4); auto. split; [simpl; congruence|].
        assert (Gr : forall e', In e' l -> args n e' <> curr).
        { intros e' I Eq. cbv beta in Eq. apply (F e' I). cbv beta. rewrite Eq. auto. }
        split; [|split; [lia|]].
        * intros e1 x [I|I].
          -- inversion I; subst. split; [lia|]. split; [lia|]. intros Eq. cbv beta in Eq. rewrite Eq, (to_refl scmp_TOrder) in C. discriminate.
          -- destruct (D2 _ _ I) as [X _]. split; [lia|]. split; [lia|]. intros Eq. exfalso. eapply Gr; [|exact Eq].
             rewrite <- D1. apply in_map_iff. exists (e1, x). auto.
        * intros e1 x e2 x' [I|I] [J|J]; try (inversion I; subst); try (inversion J; subst).
          -- tauto.
          -- destruct (D2 _ _ J) as [_ X]. cbv beta in *. split; [intros Y; symmetry; apply X; auto|intros Y; symmetry; apply X; auto].
          -- destruct (D2 _ _ I) as [_ X]. cbv beta in *. apply X.
          -- eauto.
  Qed.

  (** The elements stay, the exclusions are new, and two elements exclude each other exactly if
      they have the same arguments. *)
  Theorem C83_disjunct : forall n next (batch : list elem) out nx, in_order n batch -> disjunct_agg n next batch = (out, nx) ->
    map fst out = batch /\ (forall e x, In (e, x) out -> next <= x < nx) /\ next <= nx /\
    forall e x e' x', In (e, x) out -> In (e', x') out -> (x = x' <-> n = 0 \/ tupto n (fst e) = tupto n (fst e')).
  Proof.
    intros n next batch out nx S H. unfold disjunct_agg in H. destruct batch as [|b batch].
    { inversion H; subst. repeat split; auto; easy. }
    set (l := b :: batch) in *. destruct n as [|n'].
    - injection H as <- <-. assert (X : forall e x, In (e, x) (map (fun e : elem => (e, next)) l) -> x = next).
      { intros e x I. apply in_map_iff in I as (? & I & _). inversion I. auto. }
      split; [clear; change (map fst (map (fun e : elem => (e, next)) l) = l); generalize l; intros m; induction m as [|a m IH]; simpl; congruence|]. split; [intros e x I; apply X in I; lia|]. split; [lia|].
      intros e x e' x' I J. apply X in I, J. subst. split; auto.
    - set (n := Datatypes.S n') in *. apply disjunct_loop_spec in H as (H1 & H2 & H3 & H4); auto.
      + split; auto. split; [intros e x I; apply H2 in I; lia|]. split; [lia|]. intros e x e' x' I J. rewrite (H4 _ _ _ _ I J). split; auto. intros [X|X]; [discriminate|auto].
      + inversion S as [|? ? _ F]; subst. rewrite Forall_forall in F. intros e [<-|I]; [cbv beta; rewrite (to_refl scmp_TOrder); discriminate|]. apply F; auto.
  Qed.
End C83.
(** Batches that are not in the order of their arguments get several exclusions for the same
    arguments. *)
Theorem C83_disjunct_needs_order : exists (batch : list (elem bool_prov)) e x e' x',
  In (e, x) (fst (disjunct_agg 1 0 batch)) /\ In (e', x') (fst (disjunct_agg 1 0 batch)) /\ tupto 1 (fst e) = tupto 1 (fst e') /\ x <> x'.
Proof.
  exists [(TTup [usize 1; usize 5], true); (TTup [usize 2; usize 5], true); (TTup [usize 1; usize 6], true)].
  eexists _, 0, _, 2. split; [left; reflexivity|]. split; [right; right; left; reflexivity|]. split; [reflexivity|lia].
Qed.
Example C83_disjunct_ex :
  snd (disjunct_agg (P := bool_prov) 1 4 [(TTup [usize 1; usize 5], true); (TTup [usize 1; usize 6], true); (TTup [usize 2; usize 5], true)]) = 6 /\
  map snd (fst (disjunct_agg (P := bool_prov) 1 4 [(TTup [usize 1; usize 5], true); (TTup [usize 1; usize 6], true); (TTup [usize 2; usize 5], true)])) = [4; 4; 5].
Proof. vm_compute. auto. Qed.
Print Assumptions C81_sort.
Print Assumptions C81_rank.
Print Assumptions C81_enumerate.
Print Assumptions C81_world_refuted.
Print Assumptions C81_top_k.
Print Assumptions C81_top.
Print Assumptions C81_draw.
Print Assumptions C82_worlds.
Print Assumptions C82_worlds_sound.
Print Assumptions C82_join.
Print Assumptions C82_join_single_world.
Print Assumptions C82_join_all.
Print Assumptions C83_order.
Print Assumptions C82_join_args.
Print Assumptions C82_avg_single_world.
Print Assumptions C82_avg_refuted.
Print Assumptions C83_disjunct.
Print Assumptions C83_disjunct_needs_order.
