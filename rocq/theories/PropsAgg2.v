(** C46: the specialised count of the min-max-prob provenance is the best
    subset of each size.  C47: the grouping dataflows aggregate each group. *)
From Coq Require Import List Arith Bool ZArith QArith Qcanon Lia Permutation Sorted.
From Verif Require Import Order Value Prov ProvInst SortedCol SortedColFacts Dataflow Views PropsProv Aggregate AggregateFacts PropsAgg.
Import ListNotations.
Local Open Scope nat_scope.
Set Implicit Arguments.

(** ** C46 *)
Definition qmins (l : list Qc) : Qc := fold_left qc_min l 1%Qc.
Lemma qmins_from : forall l a x, (x <= fold_left qc_min l a)%Qc <-> (x <= a)%Qc /\ forall y, In y l -> (x <= y)%Qc.
Proof.
  induction l as [|z l IH]; simpl; intros a x; [tauto|]. rewrite IH. split.
  - intros [A B]. split; [eapply Qcle_trans; [exact A|apply qc_min_l]|]. intros y [<-|Y]; auto.
    eapply Qcle_trans; [exact A|apply qc_min_r].
  - intros [A B]. split; auto. apply qc_min_glb; auto.
Qed.
Lemma qmins_le : forall l x, (x <= qmins l)%Qc <-> (x <= 1)%Qc /\ forall y, In y l -> (x <= y)%Qc.
Proof. intros. apply qmins_from. Qed.
Lemma qmins_perm : forall l m, Permutation l m -> qmins l = qmins m.
Proof.
  assert (X : forall l m, Permutation l m -> (qmins l <= qmins m)%Qc).
  { intros l m H. destruct (proj1 (qmins_le l (qmins l)) (Qcle_refl _)) as [A B]. apply qmins_le. split; auto.
    intros y Y. apply B. eapply Permutation_in; [symmetry; exact H|auto]. }
  intros l m H. apply Qcle_antisym; apply X; [auto|symmetry; auto].
Qed.

Notation melem := (elem minmax_prov).
Definition vval (x : melem * bool) : Qc := if snd x then snd (fst x) else (1 - snd (fst x))%Qc.

Lemma choose_minmax_from : forall (l : list melem) S s a,
  fold_left (choose_step S) (combine (seq s (length l)) l) (Some a : option (ptag minmax_prov)) =
  Some (fold_left qc_min (map vval (combine l (map (fun i => mem_nat i S) (seq s (length l))))) a).
Proof.
  induction l as [|e l IH]; intros S s a; auto. cbn [length seq combine fold_left map].
  replace (choose_step S (Some a) (s, e)) with (Some (qc_min a (vval (e, mem_nat s S))) : option (ptag minmax_prov)).
  - apply IH.
  - unfold choose_step, vval. simpl. destruct (mem_nat s S); auto.
Qed.
Lemma choose_minmax : forall (l : list melem) S,
  choose_tag l S = Some (qmins (map vval (combine l (map (fun i => mem_nat i S) (seq 0 (length l)))))).
Proof. intros. apply choose_minmax_from. Qed.

(** a selection given by its membership list *)
Definition sel_of (s : nat) (bs : list bool) : list nat := map fst (filter snd (combine (seq s (length bs)) bs)).
Lemma sel_of_ge : forall bs s i, In i (sel_of s bs) -> s <= i.
Proof.
  intros bs s i I. unfold sel_of in I. apply in_map_iff in I as ((j & e) & <- & I). apply filter_In in I as [I _].
  apply in_combine_l in I. apply in_seq in I. simpl. lia.
Qed.
Lemma sel_of_mem : forall bs s, map (fun i => mem_nat i (sel_of s bs)) (seq s (length bs)) = bs.
Proof.
  assert (X : forall bs s c, (forall i, s <= i -> mem_nat i c = mem_nat i (sel_of s bs)) ->
    map (fun i => mem_nat i c) (seq s (length bs)) = bs).
  { induction bs as [|b bs IH]; intros s c H; auto. cbn [length seq map]. f_equal.
    - rewrite H by lia. unfold sel_of. simpl. destruct b; simpl.
      + unfold mem_nat. simpl. rewrite Nat.eqb_refl. auto.
      + destruct (mem_nat s _) eqn:M; auto. apply mem_nat_In in M. apply (sel_of_ge bs (S s)) in M. lia.
    - apply IH. intros i Hi. rewrite H by lia. unfold sel_of. simpl. destruct b; auto. unfold mem_nat. simpl.
      replace (i =? s) with false; auto. symmetry. apply Nat.eqb_neq. lia. }
  intros. apply X. auto.
Qed.
Lemma sel_of_length : forall bs s, length (sel_of s bs) = count_occ Bool.bool_dec bs true.
Proof.
  induction bs as [|b bs IH]; intros s; auto. unfold sel_of. simpl. destruct b; simpl; rewrite <- (IH (S s)); auto.
Qed.
Lemma map_filter_self : forall (p : nat -> bool) l, filter p l = map fst (filter snd (combine l (map p l))).
Proof. induction l; simpl; auto. destruct (p a); simpl; congruence. Qed.
Lemma sel_of_powerset : forall bs, In (sel_of 0 bs) (powerset (seq 0 (length bs))).
Proof.
  intros. replace (sel_of 0 bs) with (filter (fun i => mem_nat i (sel_of 0 bs)) (seq 0 (length bs))).
  - apply powerset_filter.
  - rewrite map_filter_self, sel_of_mem. auto.
Qed.
Lemma powerset_count : forall n S, In S (powerset (seq 0 n)) ->
  count_occ Bool.bool_dec (map (fun i => mem_nat i S) (seq 0 n)) true = length S.
Proof.
  intros n S I. apply powerset_is_filter in I; [|apply seq_NoDup].
  transitivity (length (filter (fun i => mem_nat i S) (seq 0 n))); [|rewrite <- I; auto]. clear I.
  generalize (seq 0 n). induction l; simpl; auto. destruct (mem_nat a S); simpl; auto.
Qed.

(** sorting *)
Definition tge (a b : melem) : Prop := (snd b <= snd a)%Qc.
Lemma dinsert_perm : forall e l, Permutation (dinsert e l) (e :: l).
Proof. induction l as [|x l IH]; simpl; auto. destruct (qc_ltb _ _); auto. rewrite IH. apply perm_swap. Qed.
Lemma dsort_perm : forall l, Permutation (dsort l) l.
Proof. induction l; simpl; auto. rewrite dinsert_perm. auto. Qed.
Lemma dinsert_sorted : forall e l, StronglySorted tge l -> StronglySorted tge (dinsert e l).
Proof.
  induction l as [|x l IH]; simpl; intros H; [repeat constructor|]. inversion H; subst.
  destruct (qc_ltb _ _) eqn:C; [apply qc_ltb_lt, Qclt_le_weak in C|apply qc_ltb_ge in C].
  - constructor; auto. eapply Permutation_Forall; [symmetry; apply dinsert_perm|]. constructor; auto.
  - constructor; auto. constructor; auto. eapply Forall_impl; [|exact H3]. intros a A. unfold tge in *.
    eapply Qcle_trans; eauto.
Qed.
Lemma dsort_sorted : forall l, StronglySorted tge (dsort l).
Proof. induction l; simpl; [constructor|]. apply dinsert_sorted; auto. Qed.
Lemma tge_nth : forall l i j a b, StronglySorted tge l -> i <= j -> nth_error l i = Some a -> nth_error l j = Some b -> (snd b <= snd a)%Qc.
Proof.
  induction l as [|x l IH]; intros [|i] [|j] a b S L A B; simpl in *; try discriminate; try lia.
  - assert (a = b) by congruence. subst. apply Qcle_refl.
  - inversion A; subst. inversion S; subst. rewrite Forall_forall in H2. apply H2. eapply nth_error_In; eauto.
  - inversion S; subst. eapply (IH i j); eauto. lia.
Qed.

Definition firstk (k n : nat) : list bool := map (fun i => i <? k) (seq 0 n).
Lemma firstk_count : forall k n s, s <= k <= s + n -> count_occ Bool.bool_dec (map (fun i => i <? k) (seq s n)) true = k - s.
Proof.
  induction n as [|n IH]; intros s L; simpl; [lia|]. destruct (Nat.ltb_spec s k); destruct (Bool.bool_dec _ true); try congruence.
  - rewrite IH; lia.
  - assert (s = k) by lia. subst. clear. replace (k - k) with 0 by lia.
    assert (X : forall m t, k <= t -> count_occ Bool.bool_dec (map (fun i => i <? k) (seq t m)) true = 0).
    { induction m as [|m IH]; intros t L; simpl; auto. destruct (Nat.ltb_spec t k); try lia. destruct (Bool.bool_dec false true); try discriminate. auto. }
    apply X. lia.
Qed.

Lemma omin_fold : forall (l : list Qc) a, fold_left omin l (Some a) = Some (fold_left qc_min l a).
Proof. induction l; intros; [auto|]. simpl. unfold omin at 2. apply IHl. Qed.
Lemma max_min_from : forall (l : list melem) k s o,
  fold_left (fun a ie => omin a (if fst ie <? k then snd (snd ie) else (1 - snd (snd ie))%Qc)) (combine (seq s (length l)) l) o =
  fold_left omin (map vval (combine l (map (fun i => i <? k) (seq s (length l))))) o.
Proof. induction l as [|e l IH]; intros k s o; auto. cbn [length seq combine fold_left map]. rewrite IH. auto. Qed.
Lemma omin_qmins : forall l, l <> [] -> (forall x, In x l -> (x <= 1)%Qc) -> fold_left omin l None = Some (qmins l).
Proof.
  intros [|x l] N H; [congruence|]. change (fold_left omin l (Some x) = Some (qmins (x :: l))). rewrite omin_fold. f_equal. unfold qmins. simpl.
  rewrite qmin_r; auto. apply H. simpl; auto.
Qed.
Lemma vval_le1 : forall e b, prob01 (snd e) -> (vval (e, b) <= 1)%Qc.
Proof.
  intros e b [H0 H1]. unfold vval. destruct b; simpl; auto.
  rewrite <- (Qcplus_0_r 1) at 2. unfold Qcminus. apply Qcplus_le_compat; [apply Qcle_refl|].
  replace 0%Qc with (- 0)%Qc by ring. apply Qcopp_le_compat. auto.
Qed.
Lemma max_min_eq : forall (l : list melem) k, l <> [] -> (forall e, In e l -> prob01 (snd e)) ->
  max_min_prob l k = Some (qmins (map vval (combine l (firstk k (length l))))).
Proof.
  intros l k N H. unfold max_min_prob, enum. rewrite max_min_from. apply omin_qmins.
  - destruct l; [congruence|]. simpl. discriminate.
  - intros x X. apply in_map_iff in X as ((e & b) & <- & I). apply vval_le1, H. eapply in_combine_l; eauto.
Qed.

Lemma count_split : forall (bs : list bool) j, count_occ Bool.bool_dec bs true =
  count_occ Bool.bool_dec (firstn j bs) true + count_occ Bool.bool_dec (skipn j bs) true.
Proof. intros. rewrite <- count_occ_app, firstn_skipn. auto. Qed.
Lemma count_le : forall (bs : list bool), count_occ Bool.bool_dec bs true <= length bs.
Proof. induction bs as [|[] bs IH]; simpl; lia. Qed.
Lemma late_true : forall bs j k, count_occ Bool.bool_dec bs true = k -> j < k -> exists i, j <= i /\ nth_error bs i = Some true.
Proof.
  intros bs j k C L. rewrite (count_split bs j) in C. pose proof (count_le (firstn j bs)) as F. rewrite firstn_length in F.
  assert (I : In true (skipn j bs)) by (apply (count_occ_In Bool.bool_dec); lia).
  apply In_nth_error in I as (i & I). rewrite nth_error_skipn in I. exists (j + i). split; [lia|auto].
Qed.
Lemma early_false : forall bs j k, count_occ Bool.bool_dec bs true = k -> k <= j -> j < length bs -> exists i, i <= j /\ nth_error bs i = Some false.
Proof.
  intros bs j k C L J.
  assert (D : count_occ Bool.bool_dec (firstn (S j) bs) true < S j) by (rewrite (count_split bs (S j)) in C; lia).
  assert (I : In false (firstn (S j) bs)).
  { assert (X : forall l : list bool, count_occ Bool.bool_dec l true < length l -> In false l).
    { induction l as [|[] l IH]; simpl; auto; [lia|]. intros. right. apply IH. lia. }
    apply X. rewrite firstn_length. lia. }
  apply In_nth_error in I as (i & I). rewrite nth_error_firstn in I. destruct (Nat.ltb_spec i (S j)); [|discriminate].
  exists i. split; [lia|auto].
Qed.

Lemma combine_split' : forall A B (l : list (A * B)), combine (map fst l) (map snd l) = l.
Proof. induction l as [|[] l IH]; simpl; congruence. Qed.
Lemma nth_error_combine : forall A B (l : list A) (m : list B) i a b,
  nth_error (combine l m) i = Some (a, b) <-> nth_error l i = Some a /\ nth_error m i = Some b.
Proof.
  induction l as [|x l IH]; intros [|y m] [|i] a b; simpl; try (split; [discriminate|intros [? ?]; discriminate]).
  - split; [intros E; inversion E; auto|intros [E1 E2]; inversion E1; inversion E2; auto].
  - apply IH.
Qed.
Lemma map_fst_combine' : forall A B (l : list A) (m : list B), length l = length m -> map fst (combine l m) = l /\ map snd (combine l m) = m.
Proof. induction l as [|x l IH]; intros [|y m] H; simpl in *; try discriminate; auto. destruct (IH m) as [-> ->]; auto. Qed.

(** the best choice of k elements on a sorted list *)
Lemma best_choice : forall (l : list melem) bs, StronglySorted tge l -> length bs = length l ->
  (qmins (map vval (combine l bs)) <= qmins (map vval (combine l (firstk (count_occ Bool.bool_dec bs true) (length l)))))%Qc.
Proof.
  intros l bs S L. set (k := count_occ Bool.bool_dec bs true). set (q := qmins (map vval (combine l bs))).
  destruct (proj1 (qmins_le (map vval (combine l bs)) q) (Qcle_refl _)) as [Q1 Q2].
  apply qmins_le. split; auto. intros y Y. apply in_map_iff in Y as ((e & b) & <- & I).
  apply In_nth_error in I as (j & I). apply nth_error_combine in I as [Ie Ib].
  assert (Lj : j < length l) by (apply nth_error_Some; congruence).
  assert (Sj : nth_error (seq 0 (length l)) j = Some j).
  { rewrite (nth_error_nth' _ 0) by (rewrite seq_length; auto). rewrite seq_nth by auto. auto. }
  unfold firstk in Ib. rewrite (map_nth_error (fun i => i <? k) _ _ Sj) in Ib.
  inversion Ib; subst b. unfold vval. simpl. destruct (Nat.ltb_spec j k) as [H|H].
  - destruct (late_true bs eq_refl H) as (i & Hi & Ii).
    assert (Li : i < length l) by (rewrite <- L; apply nth_error_Some; congruence).
    destruct (nth_error l i) as [e'|] eqn:Ei; [|apply nth_error_None in Ei; lia].
    eapply Qcle_trans; [|eapply tge_nth; [exact S|exact Hi|exact Ie|exact Ei]].
    apply Q2. apply in_map_iff. exists (e', true). split; auto. apply nth_error_In with (n := i). apply nth_error_combine; auto.
  - destruct (early_false bs eq_refl H) as (i & Hi & Ii); [lia|].
    assert (Li : i < length l) by (rewrite <- L; apply nth_error_Some; congruence).
    destruct (nth_error l i) as [e'|] eqn:Ei; [|apply nth_error_None in Ei; lia].
    apply Qcle_trans with (1 - snd e')%Qc.
    + apply Q2. apply in_map_iff. exists (e', false). split; auto. apply nth_error_In with (n := i). apply nth_error_combine; auto.
    + apply Qcplus_le_compat; [apply Qcle_refl|]. apply Qcopp_le_compat. eapply tge_nth; [exact S|exact Hi|exact Ei|exact Ie].
Qed.

Lemma count_perm : forall l m : list bool, Permutation l m -> count_occ Bool.bool_dec l true = count_occ Bool.bool_dec m true.
Proof. intros l m H. apply (Permutation_count_occ Bool.bool_dec). auto. Qed.

(** moving a selection along a permutation *)
Lemma move_choice : forall (l m : list melem) bs, Permutation l m -> length bs = length l ->
  exists cs, length cs = length m /\ count_occ Bool.bool_dec cs true = count_occ Bool.bool_dec bs true /\
    qmins (map vval (combine l bs)) = qmins (map vval (combine m cs)).
Proof.
  intros l m bs Pm L. destruct (map_fst_combine' l bs) as [E1 E2]; auto.
  destruct (Permutation_map_inv fst (combine l bs) (l1 := m)) as (x & -> & Px).
  { rewrite E1. symmetry. auto. }
  exists (map snd x). split; [rewrite !map_length; auto|]. split.
  - apply count_perm. rewrite <- E2. apply Permutation_map. symmetry. auto.
  - rewrite combine_split'. apply qmins_perm, Permutation_map. auto.
Qed.

Theorem C46_minmax_count : forall batch : list melem, (forall e, In e batch -> prob01 (snd e)) ->
  (forall k p, In (usize k, p) (minmax_count false batch) ->
     In (usize k, p) (count_agg false batch) /\ forall t, In (usize k, t) (count_agg false batch) -> (t <= p)%Qc) /\
  (forall k t, In (usize k, t) (count_agg false batch) -> exists p, In (usize k, p) (minmax_count false batch)) /\
  NoDup (map fst (minmax_count false batch)).
Proof.
  intros batch H01. unfold minmax_count, count_agg. destruct batch as [|b batch].
  { simpl. split; [|split].
    - intros k p [E|[]]. inversion E; subst. split; auto. intros t [E'|[]]. inversion E'; subst. apply Qcle_refl.
    - intros k t I. eauto.
    - repeat constructor; simpl; tauto. }
  set (l := b :: batch) in *. assert (Ne : l <> []) by discriminate. clearbody l. set (n := length l).
  assert (NE : dsort l <> []).
  { intros E. pose proof (Permutation_length (dsort_perm l)) as X. rewrite E in X. destruct l; [congruence|discriminate]. }
  assert (Ln : length (dsort l) = n) by (apply Permutation_length, dsort_perm).
  assert (D01 : forall e, In e (dsort l) -> prob01 (snd e)).
  { intros e I. apply H01. eapply Permutation_in; [apply dsort_perm|auto]. }
  assert (M : forall k, max_min_prob (dsort l) k = Some (qmins (map vval (combine (dsort l) (firstk k n))))).
  { intros. rewrite max_min_eq, Ln; auto. }
  assert (US : forall a c, usize a = usize c -> a = c).
  { unfold usize. intros a c E. inversion E. lia. }
  split; [|split].
  - intros k p I. apply in_flat_map in I as (k' & Ik & I). rewrite M in I. destruct I as [E|[]]. inversion E as [[E1 E2]].
    assert (k' = k) by lia. subst k'. clear E E1. apply in_seq in Ik. split.
    + destruct (@move_choice (dsort l) l (firstk k n)) as (cs & Lc & Cc & Q); [apply dsort_perm|unfold firstk; rewrite map_length, seq_length; auto|].
      apply in_flat_map. exists (sel_of 0 cs). split; [fold n; unfold n; rewrite <- Lc; apply sel_of_powerset|].
      rewrite choose_minmax, <- Lc, sel_of_mem, <- Q, sel_of_length, Cc. unfold firstk. rewrite firstk_count, Nat.sub_0_r by lia. simpl. auto.
    + intros t It. apply in_flat_map in It as (S & IS & It). rewrite choose_minmax in It. destruct It as [E|[]]. inversion E as [[E1 E3]].
      assert (length S = k) by lia. clear E E1.
      set (bs := map (fun i => mem_nat i S) (seq 0 (length l))).
      destruct (@move_choice l (dsort l) bs) as (cs & Lc & Cc & Q); [symmetry; apply dsort_perm|unfold bs; rewrite map_length, seq_length; auto|].
      rewrite Q. pose proof (@best_choice (dsort l) cs (dsort_sorted l) Lc) as B. rewrite Cc in B. unfold bs in B. rewrite powerset_count in B by auto.
      rewrite H, Ln in B. auto.
  - intros k t It. apply in_flat_map in It as (S & IS & It). rewrite choose_minmax in It. destruct It as [E|[]]. inversion E as [[E1 E3]].
    assert (length S = k) by lia. exists (qmins (map vval (combine (dsort l) (firstk k n)))).
    apply in_flat_map. exists k. split; [|rewrite M; simpl; auto]. apply in_seq. split; [lia|].
    unfold powerset in IS. apply in_flat_map in IS as (k' & Ik & IS). apply in_seq in Ik. rewrite seq_length in Ik. apply combos_spec in IS as [IS _]. unfold n. lia.
  - assert (X : forall L, map fst (flat_map (fun k => match max_min_prob (dsort l) k with Some p => [(usize k, p)] | None => [] end) L) = map usize L).
    { induction L as [|k L IH]; auto. simpl. rewrite M. simpl. f_equal. auto. }
    rewrite X. apply FinFun.Injective_map_NoDup; [|apply seq_NoDup]. intros a c E. auto.
Qed.

Example C46_example : (forall e, In e [(usize 0, Q2Qc (1 # 2)); (usize 1, Q2Qc (9 # 10)); (usize 2, Q2Qc (1 # 5))] -> prob01 (snd e)) /\
  map fst (minmax_count false [(usize 0, Q2Qc (1 # 2)); (usize 1, Q2Qc (9 # 10)); (usize 2, Q2Qc (1 # 5))]) = map usize [0; 1; 2; 3].
Proof.
  split; [|vm_compute; auto]. intros e [<-|[<-|[<-|[]]]]; split; simpl; unfold Qcle; vm_compute; discriminate.
Qed.

(** ** C47 *)

(** the elements with key [k] *)
Definition group_of (P : Prov) (k : tuple) (l : list (keyed P)) : list (elem P) :=
  map snd (filter (fun x => teqb (fst x) k) l).
Definition keys_sorted (P : Prov) (l : list (keyed P)) : Prop := StronglySorted (fun a b : keyed P => tcmp (fst a) (fst b) <> Gt) l.

Section C47.
  Variables (P : Prov) (agg : list (elem P) -> list (elem P)).
  Notation keyed := (keyed P).

  Lemma key_eqb_teqb : forall k (x : keyed), key_eqb k x = teqb (fst x) k.
  Proof. intros. unfold key_eqb, teqb, cmp_eqb. auto. Qed.
  Lemma key_eqb_eq : forall k (x : keyed), key_eqb k x = true <-> fst x = k.
  Proof. intros. rewrite key_eqb_teqb. apply teqb_true. Qed.
  Lemma key_eqb_neq : forall k (x : keyed), key_eqb k x = false <-> fst x <> k.
  Proof. intros. rewrite key_eqb_teqb. apply teqb_false. Qed.
  Lemma keys_cons : forall x (l : list keyed), keys_sorted (x :: l) -> keys_sorted l /\ forall y, In y l -> tcmp (fst x) (fst y) <> Gt.
  Proof. intros x l S. inversion S; subst. split; auto. apply Forall_forall. auto. Qed.
  Lemma group_absent : forall k (l : list keyed), (forall y, In y l -> fst y <> k) -> group_of k l = [].
  Proof.
    induction l as [|x l IH]; intros H; auto. unfold group_of. simpl. rewrite (proj2 (teqb_false _ _)) by (apply H; simpl; auto).
    apply IH. intros y Y. apply H. simpl; auto.
  Qed.

  (** The loop of implicit_group.rs: on a list sorted by key, each key once
      with exactly its elements. *)
  Lemma igroup_In : forall l k g e, (forall y, In y l -> tcmp k (fst y) <> Gt) -> keys_sorted l ->
    (In e (igroup_loop agg k g l) <->
     In e (consolidate agg k (g ++ group_of k l)) \/
     exists k', k' <> k /\ In k' (map fst l) /\ In e (consolidate agg k' (group_of k' l))).
  Proof.
    induction l as [|x l IH]; intros k g e B S; cbn [igroup_loop].
    - unfold group_of. simpl. rewrite app_nil_r. split; auto. intros [H|(k' & _ & [] & _)]; auto.
    - apply keys_cons in S as [S L]. destruct (key_eqb k x) eqn:K.
      + apply key_eqb_eq in K. subst k. rewrite IH by (auto; intros y Y; apply B; simpl; auto).
        unfold group_of at 3. simpl. rewrite (proj2 (teqb_true _ _)) by auto. rewrite <- app_assoc. simpl.
        fold (group_of (fst x) l). split; intros [H|(k' & N & I & H)]; auto; right; exists k'; split; auto.
        * split; auto. unfold group_of. simpl. rewrite (proj2 (teqb_false _ _)) by auto. auto.
        * destruct I as [I|I]; [congruence|]. split; auto. unfold group_of in H. simpl in H.
          rewrite (proj2 (teqb_false _ _)) in H by auto. auto.
      + apply key_eqb_neq in K. assert (LT : tcmp k (fst x) = Lt).
        { pose proof (B x (or_introl eq_refl)). destruct (tcmp k (fst x)) eqn:C; auto; [apply (to_eq tcmp_TOrder) in C; congruence|congruence]. }
        assert (AB : forall y, In y l -> fst y <> k).
        { intros y Y E. specialize (L y Y). rewrite E in L. apply L, (to_gt_lt tcmp_TOrder). auto. }
        rewrite in_app_iff, IH; auto.
        rewrite (@group_absent k (x :: l)) by (intros y [<-|Y]; auto). rewrite app_nil_r.
        assert (GX : group_of (fst x) (x :: l) = [snd x] ++ group_of (fst x) l).
        { unfold group_of. simpl. rewrite (proj2 (teqb_true _ _)) by auto. auto. }
        split.
        * intros [H|[H|(k' & N & I & H)]]; auto; right.
          -- exists (fst x). split; auto. split; [simpl; auto|]. rewrite GX. auto.
          -- exists k'. split; [|split; [simpl; auto|]].
             ++ intros ->. apply in_map_iff in I as (y & E & Y). apply (AB y); auto.
             ++ unfold group_of. simpl. rewrite (proj2 (teqb_false _ _)) by auto. auto.
        * intros [H|(k' & N & I & H)]; auto. right. simpl in I. destruct (to_eq_dec tcmp_TOrder k' (fst x)) as [->|D].
          -- left. rewrite <- GX. auto.
          -- right. exists k'. split; auto. split; [destruct I; congruence || auto|].
             unfold group_of in H. simpl in H. rewrite (proj2 (teqb_false _ _)) in H by auto. auto.
  Qed.

  (** The result of grouping by key: for each key that occurs, the results of
      aggregating exactly the elements with this key. *)
  Theorem C47_implicit_group : forall batch l, opt_all (map (@keyed_of P) batch) = Some l -> keys_sorted l ->
    forall e, (exists res, implicit_group agg batch = Some res /\ In e res) <->
      exists k r, In k (map fst l) /\ In r (agg (group_of k l)) /\ e = (TTup [k; fst r], snd r).
  Proof.
    intros batch l O S e. unfold implicit_group. rewrite O. cbn [option_map].
    assert (C : forall k g, In e (consolidate agg k g) <-> exists r, In r (agg g) /\ e = (TTup [k; fst r], snd r)).
    { intros. unfold consolidate. rewrite in_map_iff. split; intros (r & A & B); eauto. }
    destruct l as [|x l].
    { split; [intros (res & E & I); inversion E; subst; easy|intros (k & r & [] & _)]. }
    apply keys_cons in S as [S L].
    assert (GX : group_of (fst x) (x :: l) = [snd x] ++ group_of (fst x) l).
    { unfold group_of. simpl. rewrite (proj2 (teqb_true _ _)) by auto. auto. }
    split.
    - intros (res & E & I). inversion E; subst. apply igroup_In in I; auto. destruct I as [I|(k & N & K & I)]; apply C in I as (r & R & ->).
      + exists (fst x), r. split; [simpl; auto|]. rewrite GX. auto.
      + exists k, r. split; [simpl; auto|]. split; auto. unfold group_of. simpl. rewrite (proj2 (teqb_false _ _)) by auto. auto.
    - intros (k & r & K & R & ->). eexists. split; [reflexivity|]. apply igroup_In; auto.
      destruct (to_eq_dec tcmp_TOrder k (fst x)) as [->|D].
      + left. apply C. exists r. rewrite <- GX. auto.
      + right. exists k. split; auto. split; [destruct K; [congruence|auto]|]. apply C. exists r. split; auto.
        unfold group_of in R. simpl in R. rewrite (proj2 (teqb_false _ _)) in R by auto. auto.
  Qed.

  (** join_group.rs *)
  Lemma drop_keyed_spec : forall k (l : list keyed), keys_sorted l -> (forall y, In y l -> tcmp k (fst y) <> Gt) ->
    drop_keyed k l = filter (fun x => negb (teqb (fst x) k)) l /\ take_keyed k l = filter (fun x => teqb (fst x) k) l.
  Proof.
    induction l as [|x l IH]; intros S B; auto. apply keys_cons in S as [S L]. cbn [drop_keyed take_keyed filter].
    rewrite key_eqb_teqb. destruct (teqb (fst x) k) eqn:K.
    - destruct IH as [H1 H2]; auto; [intros y Y; apply B; simpl; auto|]. rewrite H1, H2. auto.
    - apply teqb_false in K.
      assert (AB : forall y, In y l -> teqb (fst y) k = false).
      { intros y Y. apply teqb_false. intros E. specialize (L y Y). rewrite E in L. pose proof (B x (or_introl eq_refl)) as Bx.
        apply K. destruct (tcmp k (fst x)) eqn:C; [apply (to_eq tcmp_TOrder) in C; auto| |congruence].
        exfalso. apply L, (to_gt_lt tcmp_TOrder). auto. }
      split.
      + simpl. f_equal. clear - AB. induction l; simpl; auto. rewrite AB by (simpl; auto). simpl. f_equal. apply IHl. intros; apply AB; simpl; auto.
      + clear - AB. induction l; simpl; auto. rewrite AB by (simpl; auto). apply IHl. intros; apply AB; simpl; auto.
  Qed.
  Lemma filter_sorted : forall p (l : list keyed), keys_sorted l -> keys_sorted (filter p l).
  Proof.
    induction l as [|x l IH]; intros S; simpl; auto. apply keys_cons in S as [S L]. destruct (p x); auto.
    constructor; [apply IH; auto|]. apply Forall_forall. intros y Y. apply filter_In in Y as [Y _]. auto.
  Qed.

  Definition joined (x : keyed) (r : elem P) : elem P := (TTup [fst x; fst (snd x); fst r], pmult P (snd (snd x)) (snd r)).
  Lemma jgroup_In : forall fuel i j e, length i + length j <= fuel -> keys_sorted i -> keys_sorted j ->
    (In e (flat_map (join_result agg) (jgroup_loop fuel i j)) <->
     exists x r, In x i /\ In r (agg (group_of (fst x) j)) /\ e = joined x r).
  Proof.
    assert (JR : forall k by_ to_ e, (forall x : keyed, In x by_ -> fst x = k) ->
      (In e (join_result agg (k, by_, to_)) <-> exists x r, In x by_ /\ In r (agg (map snd to_)) /\ e = joined x r)).
    { intros k by_ to_ e H. unfold join_result. rewrite in_flat_map. split.
      - intros (x & X & I). apply in_map_iff in I as (r & <- & R). exists x, r. unfold joined. rewrite (H x X). auto.
      - intros (x & r & X & R & ->). exists x. split; auto. apply in_map_iff. exists r. unfold joined. rewrite (H x X). auto. }
    induction fuel as [|f IH]; intros i j e Fu Si Sj.
    { destruct i; simpl in Fu; [|lia]. simpl. split; [easy|intros (x & r & [] & _)]. }
    destruct i as [|x i]; [simpl; split; [easy|intros (x & r & [] & _)]|].
    destruct (keys_cons Si) as [Si' Li].
    destruct j as [|y j].
    - cbn [jgroup_loop flat_map]. rewrite in_app_iff, JR, IH; auto; [|simpl in *; lia|intros z [<-|[]]; auto]. split.
      + intros [(z & r & [<-|[]] & R & ->)|(z & r & Z & R & ->)]; exists z || exists x; exists r; simpl; auto.
      + intros (z & r & [<-|Z] & R & ->); [left; exists x, r|right; exists z, r]; simpl; auto.
    - destruct (keys_cons Sj) as [Sj' Lj]. cbn [jgroup_loop]. destruct (tcmp (fst x) (fst y)) eqn:C.
      + apply (to_eq tcmp_TOrder) in C. set (k := fst x) in *.
        assert (Bi : forall z, In z i -> tcmp k (fst z) <> Gt) by auto.
        assert (Bj : forall z, In z j -> tcmp k (fst z) <> Gt) by (rewrite C; auto).
        destruct (drop_keyed_spec k Si' Bi) as [Di Ti]. destruct (drop_keyed_spec k Sj' Bj) as [Dj Tj].
        rewrite Di, Ti, Dj, Tj. cbn [flat_map].
        assert (LF : forall p (l : list keyed), length (filter p l) <= length l).
        { induction l as [|a l IHl]; simpl; auto. destruct (p a); simpl; lia. }
        rewrite in_app_iff, JR, IH; try (apply filter_sorted; auto).
        2:{ simpl in Fu. eapply Nat.le_trans; [apply Nat.add_le_mono; apply LF|lia]. }
        2:{ intros z [<-|Z]; auto. apply filter_In in Z as [_ Z]. apply teqb_true. auto. }
        assert (G1 : map snd (y :: filter (fun z => teqb (fst z) k) j) = group_of k (y :: j)).
        { unfold group_of. simpl. rewrite (proj2 (teqb_true _ _)) by auto. auto. }
        assert (G2 : forall k', k' <> k -> group_of k' (filter (fun z => negb (teqb (fst z) k)) j) = group_of k' (y :: j)).
        { intros k' N. unfold group_of. simpl. rewrite (proj2 (teqb_false (fst y) k')) by congruence.
          clear - N. induction j as [|a j IHj]; simpl; auto. destruct (teqb (fst a) k) eqn:A; simpl.
          - apply teqb_true in A. rewrite (proj2 (teqb_false (fst a) k')) by congruence. auto.
          - destruct (teqb (fst a) k'); simpl; auto. f_equal. auto. }
        rewrite G1. split.
        * intros [(z & r & Z & R & ->)|(z & r & Z & R & ->)].
          -- exists z, r. assert (fst z = k). { destruct Z as [<-|Z]; auto. apply filter_In in Z as [_ Z]. apply teqb_true; auto. }
             rewrite H. split; auto. destruct Z as [<-|Z]; simpl; auto. apply filter_In in Z. tauto.
          -- exists z, r. apply filter_In in Z as [Z N]. apply negb_true_iff, teqb_false in N. rewrite G2 in R by auto. simpl; auto.
        * intros (z & r & Z & R & ->). destruct (teqb (fst z) k) eqn:K.
          -- left. exists z, r. pose proof (proj1 (teqb_true _ _) K) as K'. rewrite K' in R. split; auto.
             destruct Z as [<-|Z]; simpl; auto. right. apply filter_In. auto.
          -- right. exists z, r. pose proof (proj1 (teqb_false _ _) K) as K'. rewrite G2 by auto. split; auto.
             destruct Z as [<-|Z]; [exfalso; apply K'; auto|]. apply filter_In. rewrite K. auto.
      + cbn [flat_map]. rewrite in_app_iff, JR, IH; auto; [|simpl in *; lia|intros z [<-|[]]; auto].
        assert (GE : group_of (fst x) (y :: j) = []).
        { apply group_absent. intros z Z E. assert (tcmp (fst x) (fst z) = Lt).
          { destruct Z as [<-|Z]; auto. eapply (to_lt_le_trans tcmp_TOrder); eauto. }
          rewrite E, (to_refl tcmp_TOrder) in H. discriminate. }
        split.
        * intros [(z & r & [<-|[]] & R & ->)|(z & r & Z & R & ->)].
          -- exists x, r. rewrite GE. simpl in *. auto.
          -- exists z, r. simpl. auto.
        * intros (z & r & [<-|Z] & R & ->); [left; exists x, r; rewrite GE in R|right; exists z, r]; simpl; auto.
      + rewrite IH; auto; [|simpl in *; lia]. apply (to_gt_lt tcmp_TOrder) in C.
        assert (GE : forall z, In z (x :: i) -> group_of (fst z) (y :: j) = group_of (fst z) j).
        { intros z Z. unfold group_of. simpl. rewrite (proj2 (teqb_false (fst y) (fst z))); auto. intros E.
          assert (tcmp (fst y) (fst z) = Lt).
          { destruct Z as [<-|Z]; auto. eapply (to_lt_le_trans tcmp_TOrder); eauto. }
          rewrite E, (to_refl tcmp_TOrder) in H. discriminate. }
        split; intros (z & r & Z & R & ->); exists z, r; rewrite ?GE in *; auto.
  Qed.

  (** Grouping by a relation: for each element of the group-by relation (also
      those without any element to aggregate), the results of aggregating
      exactly the elements with its key, with the conjunction of the tags. *)
  Theorem C47_join_group : forall group_by main i j,
    opt_all (map (@keyed_of P) group_by) = Some i -> opt_all (map (@keyed_of P) main) = Some j ->
    keys_sorted i -> keys_sorted j ->
    forall e, (exists res, join_group agg group_by main = Some res /\ In e res) <->
      exists x r, In x i /\ In r (agg (group_of (fst x) j)) /\
        e = (TTup [fst x; fst (snd x); fst r], pmult P (snd (snd x)) (snd r)).
  Proof.
    intros group_by main i j Oi Oj Si Sj e. unfold join_group. rewrite Oi, Oj. split.
    - intros (res & E & I). inversion E; subst. apply jgroup_In in I; auto.
    - intros H. eexists. split; [reflexivity|]. apply jgroup_In; auto.
  Qed.
End C47.

Definition gk (k v : Z) : elem nat_prov := (TTup [TVal (I32 k); TVal (I32 v)], 2).
Example C47_example : exists l, opt_all (map (@keyed_of nat_prov) [gk 1 5; gk 1 6; gk 3 7]) = Some l /\ keys_sorted l /\
  implicit_group (count_agg true) [gk 1 5; gk 1 6; gk 3 7] =
    Some [(TTup [TVal (I32 1); usize 2], 1); (TTup [TVal (I32 3); usize 1], 1)] /\
  join_group (count_agg true) [gk 1 9; gk 2 9] [gk 1 5; gk 1 6; gk 3 7] =
    Some [(TTup [TVal (I32 1); TVal (I32 9); usize 2], 2); (TTup [TVal (I32 2); TVal (I32 9); usize 0], 2)].
Proof.
  eexists. split; [vm_compute; reflexivity|]. split; [|split; vm_compute; reflexivity].
  repeat constructor; vm_compute; discriminate.
Qed.

Print Assumptions C46_minmax_count.
Print Assumptions C47_implicit_group.
Print Assumptions C47_join_group.
