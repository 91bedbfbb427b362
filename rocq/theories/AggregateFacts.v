(** Facts about the aggregators: subsets, the tag of a chosen subset, sorting
    and strata. *)
From Coq Require Import List Arith Bool ZArith QArith Qcanon Lia Permutation Sorted.
From Verif Require Import Order Value Prov ProvInst SortedCol Dataflow Aggregate.
Import ListNotations.
Local Open Scope nat_scope.
Set Implicit Arguments.

(** ** subsets *)
Lemma nth_error_skipn : forall A (l : list A) s i, nth_error (skipn s l) i = nth_error l (s + i).
Proof. induction l; intros [|s] i; simpl; auto. destruct i; auto. Qed.
Lemma nth_error_firstn : forall A (l : list A) e i, nth_error (firstn e l) i = if i <? e then nth_error l i else None.
Proof.
  induction l; intros [|e] [|i]; simpl; auto.
  - destruct (_ <? _); auto.
  - rewrite IHl. auto.
Qed.
Lemma mem_nat_In : forall i l, mem_nat i l = true <-> In i l.
Proof.
  intros. unfold mem_nat. rewrite existsb_exists. split.
  - intros (x & I & E). apply Nat.eqb_eq in E. subst. auto.
  - intros I. exists i. split; auto. apply Nat.eqb_refl.
Qed.

Lemma combos_spec : forall A (l : list A) k S, In S (combos k l) -> length S = k /\ incl S l.
Proof.
  induction l as [|x l IH]; intros [|k] S I; cbn [combos] in I; try (destruct I as [<-|[]]; split; auto; intros y []); try easy.
  apply in_app_or in I as [I|I].
  - apply in_map_iff in I as (S' & <- & I). apply IH in I as [L N]. simpl. split; auto.
    intros y [->|Y]; simpl; auto.
  - apply IH in I as [L N]. split; auto. intros y Y. right. auto.
Qed.

Lemma combos_filter : forall A (p : A -> bool) l, In (filter p l) (combos (length (filter p l)) l).
Proof.
  induction l as [|x l IH]; simpl; auto. destruct (p x); simpl.
  - apply in_or_app. left. apply in_map. auto.
  - destruct (filter p l) as [|y f] eqn:E.
    + simpl. auto.
    + cbn [length combos] in *. apply in_or_app. right. auto.
Qed.

Lemma NoDup_app_intro : forall A (l m : list A), NoDup l -> NoDup m -> (forall x, In x l -> In x m -> False) -> NoDup (l ++ m).
Proof.
  induction l as [|x l IH]; simpl; auto. intros m N M D. inversion N; subst. constructor.
  - intros I. apply in_app_or in I as [I|I]; auto. apply (D x); auto.
  - apply IH; auto. intros y Y Z. apply (D y); auto.
Qed.

Lemma combos_NoDup : forall A (l : list A) k, NoDup l -> NoDup (combos k l).
Proof.
  induction l as [|x l IH]; intros [|k] N; cbn [combos]; try (repeat constructor; simpl; tauto).
  inversion N; subst. apply NoDup_app_intro.
  - apply FinFun.Injective_map_NoDup; auto. intros a b E. congruence.
  - apply IH; auto.
  - intros S I J. apply in_map_iff in I as (S' & <- & I). apply combos_spec in J as [_ J].
    apply H1, J. simpl; auto.
Qed.

Lemma flat_map_NoDup : forall A B (f : A -> list B) l, NoDup l -> (forall a, In a l -> NoDup (f a)) ->
  (forall a b x, In a l -> In b l -> In x (f a) -> In x (f b) -> a = b) -> NoDup (flat_map f l).
Proof.
  induction l as [|a l IH]; simpl; intros N F D; [constructor|]. inversion N; subst. apply NoDup_app_intro; auto.
  - apply IH; auto. intros; eapply D; eauto.
  - intros x I J. apply in_flat_map in J as (b & B1 & B2). assert (a = b) by (eapply D; eauto). subst. auto.
Qed.

Lemma powerset_NoDup : forall A (l : list A), NoDup l -> NoDup (powerset l).
Proof.
  intros. apply flat_map_NoDup; [apply seq_NoDup|intros; apply combos_NoDup; auto|].
  intros a b S _ _ I J. apply combos_spec in I as [I _]. apply combos_spec in J as [J _]. congruence.
Qed.
Lemma powerset_filter : forall A (p : A -> bool) l, In (filter p l) (powerset l).
Proof.
  intros. unfold powerset. apply in_flat_map. exists (length (filter p l)). split.
  - apply in_seq. split; [lia|]. simpl. apply -> Nat.lt_succ_r. clear. induction l; simpl; auto. destruct (p a); simpl; lia.
  - apply combos_filter.
Qed.

(** a chosen subset is determined by its membership test *)
Lemma combos_is_filter : forall l k S, NoDup l -> In S (combos k l) -> S = filter (fun i => mem_nat i S) l.
Proof.
  assert (X : forall (l : list nat) k S T, NoDup l -> In S (combos k l) -> (forall i, In i l -> mem_nat i T = mem_nat i S) ->
    S = filter (fun i => mem_nat i T) l).
  { induction l as [|x l IH]; intros [|k] S T N I E; cbn [combos] in I; try (destruct I as [<-|[]]); try easy.
    - symmetry. simpl. assert (F : forall m : list nat, (forall i, In i m -> mem_nat i T = false) -> filter (fun i => mem_nat i T) m = []).
      { induction m as [|y m IHm]; simpl; auto. intros H. rewrite (H y); auto. }
      rewrite (E x) by (simpl; auto). simpl. apply F. intros i Hi. rewrite E; auto. simpl; auto.
    - inversion N; subst. apply in_app_or in I as [I|I].
      + apply in_map_iff in I as (S' & <- & I). simpl. rewrite (E x) by (simpl; auto).
        unfold mem_nat at 1. simpl. rewrite Nat.eqb_refl. simpl. f_equal. eapply IH; eauto.
        intros i Hi. rewrite E by (simpl; auto). unfold mem_nat. simpl.
        replace (i =? x) with false; auto. symmetry. apply Nat.eqb_neq. intros ->. auto.
      + simpl. rewrite (E x) by (simpl; auto). pose proof (combos_spec _ _ _ I) as [_ J].
        assert (M : mem_nat x S = false).
        { destruct (mem_nat x S) eqn:M; auto. apply mem_nat_In in M. exfalso. auto. }
        rewrite M. eapply IH; eauto. intros i Hi. apply E. simpl; auto. }
  intros. eapply X; eauto.
Qed.
Lemma powerset_is_filter : forall l S, NoDup l -> In S (powerset l) -> S = filter (fun i => mem_nat i S) l.
Proof. intros l S N I. unfold powerset in I. apply in_flat_map in I as (k & _ & I). eapply combos_is_filter; eauto. Qed.

Lemma flat_map_one : forall A B (g : A -> list B) (x : A) l, NoDup l -> In x l ->
  (forall y, In y l -> y <> x -> g y = []) -> flat_map g l = g x.
Proof.
  induction l as [|a l IH]; simpl; intros N I H; [easy|]. inversion N; subst. destruct I as [->|I].
  - replace (flat_map g l) with (@nil B); [apply app_nil_r|]. symmetry.
    assert (K : forall y, In y l -> g y = []) by (intros y Y; apply H; auto; intros ->; auto).
    clear - K. induction l; simpl; auto. rewrite K; simpl; auto. apply IHl. intros. apply K. simpl; auto.
  - rewrite (H a); [simpl; apply IH; auto|auto|intros ->; auto].
Qed.
Lemma filter_flat_map : forall A B (p : B -> bool) (g : A -> list B) l,
  filter p (flat_map g l) = flat_map (fun a => filter p (g a)) l.
Proof. induction l; simpl; auto. rewrite filter_app. congruence. Qed.

(** ** events

    A world fixes for each tag whether it holds.  In an exact interpretation
    the operations are the Boolean ones; in a sound one they never hold in too
    many worlds. *)
Record sound_events (P : Prov) (ev : ptag P -> bool) : Prop := {
  se_add : forall a b, ev (padd P a b) = true -> ev a = true \/ ev b = true;
  se_mult : forall a b, ev (pmult P a b) = true -> ev a = true /\ ev b = true;
  se_neg : forall a n, pneg P a = Some n -> ev n = true -> ev a = false
}.
Record exact_events (P : Prov) (ev : ptag P -> bool) : Prop := {
  ee_one : ev (pone P) = true;
  ee_add : forall a b, ev (padd P a b) = ev a || ev b;
  ee_mult : forall a b, ev (pmult P a b) = ev a && ev b;
  ee_neg : forall a, exists n, pneg P a = Some n /\ ev n = negb (ev a)
}.
Lemma exact_sound : forall P (ev : ptag P -> bool), exact_events P ev -> sound_events P ev.
Proof.
  intros P ev E. split.
  - intros a b. rewrite (ee_add E), orb_true_iff. auto.
  - intros a b. rewrite (ee_mult E), andb_true_iff. auto.
  - intros a n N H. destruct (ee_neg E a) as (m & M & Hm). rewrite M in N. inversion N; subst.
    rewrite Hm in H. apply negb_true_iff; auto.
Qed.

Section Choose.
  Variable P : Prov.
  Variable ev : ptag P -> bool.
  Notation elem := (elem P).

  Definition matches (s : nat) (chosen : list nat) (l : list elem) : bool :=
    forallb (fun ie => Bool.eqb (mem_nat (fst ie) chosen) (ev (snd (snd ie)))) (combine (seq s (length l)) l).

  Lemma choose_none : forall c l, fold_left (@choose_step P c) l None = None.
  Proof. induction l; simpl; auto. Qed.

  Lemma choose_sound : sound_events P ev -> forall c l s a t,
    fold_left (choose_step c) (combine (seq s (length l)) l) (Some a) = Some t -> ev t = true ->
    ev a = true /\ matches s c l = true.
  Proof.
    intros E c. induction l as [|e l IH]; intros s a t H Ht; simpl in H.
    - inversion H; subst. auto.
    - unfold matches. simpl. destruct (mem_nat s c) eqn:M.
      + apply IH in H as [H1 H2]; auto. apply (se_mult E) in H1 as [H1 H3]. rewrite H3. auto.
      + destruct (pneg P (snd e)) as [n|] eqn:N; simpl in H; [|rewrite choose_none in H; discriminate].
        apply IH in H as [H1 H2]; auto. apply (se_mult E) in H1 as [H1 H3]. rewrite (se_neg E _ N H3). auto.
  Qed.
  Lemma choose_exact : exact_events P ev -> forall c l s a, exists t,
    fold_left (choose_step c) (combine (seq s (length l)) l) (Some a) = Some t /\ ev t = ev a && matches s c l.
  Proof.
    intros E c. induction l as [|e l IH]; intros s a; simpl.
    - exists a. split; auto. rewrite andb_true_r; auto.
    - unfold matches. simpl. destruct (mem_nat s c) eqn:M.
      + destruct (IH (S s) (pmult P a (snd e))) as (t & -> & Ht). exists t. split; auto.
        rewrite Ht, (ee_mult E). unfold matches. destruct (ev (snd e)); simpl; rewrite <- ?andb_assoc; auto.
      + destruct (ee_neg E (snd e)) as (n & -> & Hn). simpl.
        destruct (IH (S s) (pmult P a n)) as (t & -> & Ht). exists t. split; auto.
        rewrite Ht, (ee_mult E), Hn. unfold matches. destruct (ev (snd e)); simpl; rewrite <- ?andb_assoc; auto.
  Qed.

  (** the positions whose elements hold *)
  Definition holders (s : nat) (l : list elem) : list nat :=
    map fst (filter (fun ie => ev (snd (snd ie))) (combine (seq s (length l)) l)).

  Lemma holders_ge : forall l s i, In i (holders s l) -> s <= i.
  Proof.
    intros l s i I. unfold holders in I. apply in_map_iff in I as ((j & e) & <- & I). apply filter_In in I as [I _].
    apply in_combine_l in I. apply in_seq in I. simpl. lia.
  Qed.
  Lemma matches_holders : forall c l s, matches s c l = true -> filter (fun i => mem_nat i c) (seq s (length l)) = holders s l.
  Proof.
    intros c. induction l as [|e l IH]; intros s M; auto. unfold matches in M. simpl in M. apply andb_true_iff in M as [M1 M2].
    apply Bool.eqb_prop in M1. unfold holders. simpl. rewrite M1. fold (matches (S s) c l) in M2. apply IH in M2.
    destruct (ev (snd e)); simpl; rewrite M2; auto.
  Qed.
  Lemma holders_matches : forall l s, matches s (holders s l) l = true.
  Proof.
    assert (X : forall l s c, (forall i, s <= i -> mem_nat i c = mem_nat i (holders s l)) -> matches s c l = true).
    { induction l as [|e l IH]; intros s c H; auto. unfold matches. simpl. apply andb_true_iff. split.
      - rewrite H by lia. unfold holders. simpl. destruct (ev (snd e)) eqn:E; simpl.
        + unfold mem_nat. simpl. rewrite Nat.eqb_refl. auto.
        + destruct (mem_nat s _) eqn:M; auto. apply mem_nat_In in M. apply (holders_ge l (S s)) in M. lia.
      - fold (matches (S s) c l). apply IH. intros i Hi. rewrite H by lia. unfold holders. simpl.
        destruct (ev (snd e)); auto. unfold mem_nat. simpl. replace (i =? s) with false; auto.
        symmetry. apply Nat.eqb_neq. lia. }
    intros. apply X. auto.
  Qed.
  Lemma holders_length : forall l s, length (holders s l) = length (filter (fun e => ev (snd e)) l).
  Proof.
    induction l as [|e l IH]; intros s; auto. unfold holders. simpl. destruct (ev (snd e)); simpl; rewrite <- (IH (S s)); auto.
  Qed.
  Lemma holders_filter : forall l s, exists p, holders s l = filter p (seq s (length l)).
  Proof. intros. exists (fun i => mem_nat i (holders s l)). symmetry. apply matches_holders, holders_matches. Qed.
  Lemma holders_powerset : forall l, In (holders 0 l) (powerset (seq 0 (length l))).
  Proof. intros. destruct (holders_filter l 0) as (p & ->). apply powerset_filter. Qed.

  Lemma holders_tuples_from : forall l pre,
    flat_map (fun i => match nth_error (pre ++ l) i with Some e => [fst e] | None => [] end) (holders (length pre) l) =
    map fst (filter (fun e => ev (snd e)) l).
  Proof.
    induction l as [|e l IH]; intros pre; auto. unfold holders. simpl.
    specialize (IH (pre ++ [e])). rewrite <- app_assoc, app_length in IH. simpl in IH. rewrite Nat.add_1_r in IH.
    unfold holders in IH. destruct (ev (snd e)); simpl; [|apply IH].
    rewrite nth_error_app2, Nat.sub_diag by lia. simpl. f_equal. apply IH.
  Qed.
  Lemma holders_tuples : forall l,
    flat_map (fun i => match nth_error l i with Some e => [fst e] | None => [] end) (holders 0 l) =
    map fst (filter (fun e => ev (snd e)) l).
  Proof. intros. apply (holders_tuples_from l []). Qed.

  Lemma matches_eq_holders : forall l S, In S (powerset (seq 0 (length l))) -> matches 0 S l = true -> S = holders 0 l.
  Proof. intros l S I M. rewrite <- (matches_holders _ _ _ M). apply powerset_is_filter; auto. apply seq_NoDup. Qed.

  (** The tags of the subsets: in an exact interpretation exactly one of them
      holds, that of the set of holding elements. *)
  Lemma choose_unique : exact_events P ev -> forall l S, In S (powerset (seq 0 (length l))) ->
    exists t, choose_tag l S = Some t /\ (ev t = true <-> S = holders 0 l).
  Proof.
    intros E l S I. destruct (choose_exact E S l 0 (pone P)) as (t & H & Ht). exists t. split; auto.
    rewrite Ht, (ee_one E). simpl. split.
    - apply matches_eq_holders; auto.
    - intros ->. apply holders_matches.
  Qed.
  Lemma choose_tag_sound : sound_events P ev -> forall l S t, In S (powerset (seq 0 (length l))) ->
    choose_tag l S = Some t -> ev t = true -> S = holders 0 l.
  Proof. intros E l S t I H Ht. eapply choose_sound in H as [_ M]; eauto. apply matches_eq_holders; auto. Qed.
End Choose.

(** ** exists and minimum/maximum *)
Section MinMaxFacts.
  Variable P : Prov.
  Variable ev : ptag P -> bool.
  Notation elem := (elem P).
  Notation held := (fun e : elem => ev (snd e)).

  Lemma false_tag_fold_none : forall l, fold_left (fun acc (e : elem) =>
    match acc with Some a => option_map (pmult P a) (pneg P (snd e)) | None => None end) l None = None.
  Proof. induction l; simpl; auto. Qed.
  Lemma false_fold_sound : sound_events P ev -> forall l a t, fold_left (fun acc (e : elem) =>
    match acc with Some a => option_map (pmult P a) (pneg P (snd e)) | None => None end) l (Some a) = Some t ->
    ev t = true -> ev a = true /\ existsb held l = false.
  Proof.
    intros E. induction l as [|e l IH]; simpl; intros a t H Ht.
    - inversion H; subst; auto.
    - destruct (pneg P (snd e)) as [n|] eqn:N; simpl in H; [|rewrite false_tag_fold_none in H; discriminate].
      apply IH in H as [H1 H2]; auto. apply (se_mult E) in H1 as [H1 H3]. rewrite (se_neg E _ N H3), H2. auto.
  Qed.
  Lemma false_fold_exact : exact_events P ev -> forall l a, exists t, fold_left (fun acc (e : elem) =>
    match acc with Some a => option_map (pmult P a) (pneg P (snd e)) | None => None end) l (Some a) = Some t /\
    ev t = ev a && negb (existsb held l).
  Proof.
    intros E. induction l as [|e l IH]; simpl; intros a.
    - exists a. rewrite andb_true_r; auto.
    - destruct (ee_neg E (snd e)) as (n & -> & Hn). simpl. destruct (IH (pmult P a n)) as (t & -> & Ht). exists t. split; auto.
      rewrite Ht, (ee_mult E), Hn, <- andb_assoc, <- negb_orb. auto.
  Qed.
  Lemma false_tag_sound : sound_events P ev -> forall l t, false_tag l = Some t -> ev t = true -> existsb held l = false.
  Proof. intros E l t H Ht. eapply false_fold_sound in H; eauto. tauto. Qed.
  Lemma false_tag_exact : exact_events P ev -> forall l, exists t, false_tag l = Some t /\ ev t = negb (existsb held l).
  Proof. intros E l. destruct (false_fold_exact E l (pone P)) as (t & H & Ht). exists t. rewrite Ht, (ee_one E). auto. Qed.

  Lemma exists_fold : forall l o n, fold_left (@exists_step P) l (o, n) =
    (fold_left (fun acc (e : elem) => match acc with Some t => Some (padd P t (snd e)) | None => Some (snd e) end) l o,
     fold_left (fun acc (e : elem) => match acc with Some a => option_map (pmult P a) (pneg P (snd e)) | None => None end) l n).
  Proof. induction l as [|e l IH]; intros o n; auto. cbn [fold_left]. unfold exists_step at 2. cbn [fst snd]. rewrite IH. auto. Qed.
  Definition otag (o : option (ptag P)) : bool := match o with Some t => ev t | None => false end.
  Lemma or_fold_sound : sound_events P ev -> forall l o,
    otag (fold_left (fun acc (e : elem) => match acc with Some t => Some (padd P t (snd e)) | None => Some (snd e) end) l o) = true ->
    otag o = true \/ existsb held l = true.
  Proof.
    intros E. induction l as [|e l IH]; simpl; auto. intros o H. apply IH in H as [H|H]; [|rewrite H, orb_true_r; auto].
    destruct o; simpl in H.
    - apply (se_add E) in H as [H|H]; auto. rewrite H; auto.
    - rewrite H; auto.
  Qed.
  Lemma or_fold_exact : exact_events P ev -> forall l o,
    otag (fold_left (fun acc (e : elem) => match acc with Some t => Some (padd P t (snd e)) | None => Some (snd e) end) l o) =
    otag o || existsb held l.
  Proof.
    intros E. induction l as [|e l IH]; simpl; intros o; [rewrite orb_false_r; auto|]. rewrite IH. destruct o; simpl; auto.
    rewrite (ee_add E), orb_assoc. auto.
  Qed.

  (** the loop without arguments *)
  Lemma minmax_loop_fst : forall l a, map fst (@minmax_loop P a l) = map fst l.
  Proof. induction l as [|(x, t) l IH]; simpl; auto. intros. f_equal. auto. Qed.
  Lemma minmax_loop_exact : exact_events P ev -> forall l a pre, ev a = negb (existsb held pre) ->
    forall i x t, nth_error (@minmax_loop P a l) i = Some (x, t) ->
    exists g, nth_error l i = Some (x, g) /\ ev t = ev g && negb (existsb held (pre ++ firstn i l)).
  Proof.
    intros E. induction l as [|(x0, g0) l IH]; intros a pre A i x t H; [destruct i; discriminate|].
    destruct i as [|i]; simpl in H.
    - inversion H; subst. exists g0. split; auto. rewrite (ee_mult E), A, app_nil_r. apply andb_comm.
    - destruct (ee_neg E g0) as (n & Hn & En). rewrite Hn in H.
      apply IH with (pre := pre ++ [(x0, g0)]) in H.
      + destruct H as (g & G & Hg). exists g. split; auto. rewrite Hg, <- app_assoc. auto.
      + rewrite (ee_mult E), A, En, existsb_app. simpl. rewrite orb_false_r, negb_orb. auto.
  Qed.

  (** ** keys and strata *)
  Variable n : nat.
  Notation key e := (tfrom n (fst e)).
  Lemma scmp_TOrder : TOrder scmp.
  Proof. apply lex_TOrder, tcmp_TOrder. Qed.
  Definition kle (a b : elem) : Prop := scmp (key a) (key b) <> Gt.
  Lemma kinsert_perm : forall (e : elem) l, Permutation (kinsert n e l) (e :: l).
  Proof.
    induction l as [|x l IH]; simpl; auto. destruct (scmp _ _); auto.
    rewrite perm_swap. constructor. auto.
  Qed.
  Lemma ksort_perm : forall l : list elem, Permutation (ksort n l) l.
  Proof. induction l; simpl; auto. rewrite kinsert_perm. auto. Qed.
  Lemma kle_trans : forall a b c, kle a b -> kle b c -> kle a c.
  Proof. intros a b c. apply (to_le_trans scmp_TOrder). Qed.
  Lemma kinsert_sorted : forall (e : elem) l, StronglySorted kle l -> StronglySorted kle (kinsert n e l).
  Proof.
    induction l as [|x l IH]; simpl; intros H; [repeat constructor|]. inversion H; subst.
    destruct (scmp (key e) (key x)) eqn:C.
    - constructor; auto. constructor; [unfold kle; congruence|].
      eapply Forall_impl; [|apply H3]. intros a Ha. eapply kle_trans; eauto. unfold kle; congruence.
    - constructor; auto. constructor; [unfold kle; congruence|].
      eapply Forall_impl; [|apply H3]. intros a Ha. eapply kle_trans; eauto. unfold kle; congruence.
    - constructor; auto. eapply Permutation_Forall; [symmetry; apply kinsert_perm|]. constructor; auto.
      unfold kle. apply (to_gt_lt scmp_TOrder) in C. congruence.
  Qed.
  Lemma ksort_sorted : forall l : list elem, StronglySorted kle (ksort n l).
  Proof. induction l; simpl; [constructor|]. apply kinsert_sorted; auto. Qed.

  Lemma sorted_nth : forall l i j a b, StronglySorted kle l -> i < j -> nth_error l i = Some a -> nth_error l j = Some b -> kle a b.
  Proof.
    induction l as [|x l IH]; intros [|i] [|j] a b S L A B; simpl in *; try discriminate; try lia.
    - inversion A; subst. inversion S; subst. rewrite Forall_forall in H2. apply H2. eapply nth_error_In; eauto.
    - inversion S; subst. eapply (IH i j); eauto. lia.
  Qed.

  (** the strata of a sorted list: the first tie class, then single elements *)
  Definition eqk (c : list tuple) (e : elem) : bool := match scmp (key e) c with Gt => false | _ => true end.
  Fixpoint run (c : list tuple) (l : list elem) : nat := match l with e :: r => if eqk c e then S (run c r) else 0 | [] => 0 end.
  Lemma run_le : forall c l, run c l <= length l.
  Proof. induction l; simpl; auto. destruct (eqk c a); simpl; lia. Qed.
  Lemma strata_all : forall c l i, Forall (fun e => scmp (key e) c = Gt) l -> @strata_loop P n i (Some c) l = seq i (length l).
  Proof. induction l; simpl; auto. intros i F. inversion F; subst. rewrite H1. f_equal. auto. Qed.
  Lemma strata_loop_run : forall c l i, StronglySorted kle l ->
    @strata_loop P n i (Some c) l = seq (i + run c l) (length l - run c l).
  Proof.
    intros c. induction l as [|e l IH]; intros i S; simpl; auto. unfold eqk. inversion S; subst.
    destruct (scmp (key e) c) eqn:C; simpl; try (rewrite IH by auto; f_equal; lia).
    rewrite strata_all; [rewrite Nat.add_0_r; auto|]. eapply Forall_impl; [|apply H2]. intros a A. unfold kle in A.
    apply (to_gt_lt scmp_TOrder). eapply (to_lt_le_trans scmp_TOrder); [|apply A]. apply (to_gt_lt scmp_TOrder); auto.
  Qed.
  Definition width (l : list elem) : nat := match l with [] => 0 | e :: r => S (run (key e) r) end.
  Lemma strata_sorted : forall l, StronglySorted kle l -> @strata P n l = 0 :: seq (width l) (length l - width l).
  Proof.
    intros [|e l] S; auto. unfold strata. simpl. inversion S; subst. rewrite strata_loop_run by auto. auto.
  Qed.
  Lemma width_le : forall l, width l <= length l.
  Proof. destruct l; simpl; auto. pose proof (run_le (key e) l). lia. Qed.
  Lemma run_lt : forall c l i e, i < run c l -> nth_error l i = Some e -> eqk c e = true.
  Proof.
    induction l as [|x l IH]; intros i e L N; simpl in L; [lia|]. destruct (eqk c x) eqn:E; [|lia].
    destruct i; simpl in N; [inversion N; subst; auto|]. eapply IH; eauto. lia.
  Qed.
  Lemma width_eq : forall l i j a b, StronglySorted kle l -> i < width l -> j < width l ->
    nth_error l i = Some a -> nth_error l j = Some b -> key a = key b.
  Proof.
    intros [|e l] i j a b S I J A B; simpl in I; [lia|]. inversion S; subst. rewrite Forall_forall in H2.
    assert (K : forall i a, i < Datatypes.S (run (key e) l) -> nth_error (e :: l) i = Some a -> key a = key e).
    { clear - H2. intros [|i] a L N; simpl in N; [congruence|]. pose proof (H2 a (nth_error_In _ _ N)) as K.
      apply run_lt with (c := key e) in N; [|lia]. unfold eqk in N. unfold kle in K.
      destruct (scmp (key a) (key e)) eqn:C; try discriminate.
      - apply (to_eq scmp_TOrder) in C. auto.
      - exfalso. apply (to_gt_lt scmp_TOrder) in C. auto. }
    rewrite (K i a), (K j b); auto.
  Qed.

  (** which elements have to be false for the element at position [j] *)
  Definition false_range (is_min : bool) (l : list elem) (j : nat) : list elem :=
    if is_min then firstn (if j <? width l then 0 else j) l
    else skipn (if j <? width l then width l else S j) l.
  Lemma skipn_firstn_In : forall (l : list elem) s e x, In x (skipn s (firstn e l)) <->
    exists j, s <= j < e /\ nth_error l j = Some x.
  Proof.
    intros l s e x. split.
    - intros I. apply In_nth_error in I as (i & I). rewrite nth_error_skipn in I.
      destruct (lt_dec (s + i) e) as [L|L].
      + rewrite nth_error_firstn in I. destruct (Nat.ltb_spec (s + i) e); try lia. exists (s + i). split; auto. lia.
      + rewrite nth_error_firstn in I. destruct (Nat.ltb_spec (s + i) e); try lia. discriminate.
    - intros (j & L & N). apply nth_error_In with (n := j - s). rewrite nth_error_skipn.
      replace (s + (j - s)) with j by lia. rewrite nth_error_firstn. destruct (Nat.ltb_spec j e); auto. lia.
  Qed.
  Lemma tail_tags_In : forall is_min l m s x t, s + m = length l -> width l <= s ->
    (In (x, t) (@strata_tags P is_min l (seq s m)) <->
     exists j e f, s <= j /\ nth_error l j = Some e /\ x = fst e /\ @false_tag P (false_range is_min l j) = Some f /\ t = pmult P f (snd e)).
  Proof.
    intros is_min l. induction m as [|m IH]; intros s x t L W.
    - simpl. split; [easy|]. intros (j & e & f & J & N & _). exfalso.
      assert (j < length l) by (apply nth_error_Some; congruence). lia.
    - cbn [seq strata_tags]. rewrite in_app_iff, IH by lia.
      assert (En : match seq (S s) m with [] => length l | e :: _ => e end = S s) by (destruct m; simpl; lia).
      rewrite En. assert (FR : (if is_min then firstn s l else skipn (S s) l) = false_range is_min l s).
      { unfold false_range. destruct (Nat.ltb_spec s (width l)); auto; lia. }
      rewrite FR. split.
      + intros [I|(j & e & f & J & R)].
        * destruct (false_tag (false_range is_min l s)) as [f|] eqn:F; [|easy]. apply in_map_iff in I as (e & E1 & I).
          apply skipn_firstn_In in I as (j & J & N). inversion E1; subst. assert (j = s) by lia. subst.
          exists s, e, f. auto.
        * exists j, e, f. split; [lia|auto].
      + intros (j & e & f & J & N & X & F & T). destruct (Nat.eq_dec j s) as [->|D].
        * left. rewrite F. apply in_map_iff. exists e. subst. split; auto. apply skipn_firstn_In. exists s. split; auto; lia.
        * right. exists j, e, f. split; [lia|auto].
  Qed.
  Lemma arg_tags_In : forall is_min l x t, StronglySorted kle l ->
    (In (x, t) (@strata_tags P is_min l (@strata P n l)) <->
     exists j e f, nth_error l j = Some e /\ x = fst e /\ @false_tag P (false_range is_min l j) = Some f /\ t = pmult P f (snd e)).
  Proof.
    intros is_min l x t S. rewrite strata_sorted by auto. pose proof (width_le l) as W.
    cbn [strata_tags]. rewrite in_app_iff, tail_tags_In by lia.
    assert (En : match seq (width l) (length l - width l) with [] => length l | e :: _ => e end = width l).
    { destruct (length l - width l) eqn:D; simpl; lia. }
    rewrite En.
    assert (FR : forall j, j < width l -> (if is_min then firstn 0 l else skipn (width l) l) = false_range is_min l j).
    { intros j J. unfold false_range. destruct (Nat.ltb_spec j (width l)); auto; lia. }
    split.
    - intros [I|(j & e & f & J & R)].
      + destruct (false_tag (if is_min then firstn 0 l else skipn (width l) l)) as [f|] eqn:F; [|easy].
        apply in_map_iff in I as (e & E1 & I). apply skipn_firstn_In in I as (j & J & N). inversion E1; subst.
        exists j, e, f. rewrite <- FR by lia. auto.
      + exists j, e, f. auto.
    - intros (j & e & f & N & X & F & T). destruct (le_lt_dec (width l) j) as [L|L].
      + right. exists j, e, f. auto.
      + left. rewrite FR with (j := j) by auto. rewrite F. apply in_map_iff. exists e. subst. split; auto.
        apply skipn_firstn_In. exists j. split; auto; lia.
  Qed.

  (** strictly better elements are in the false range; the false range only
      has elements that are at least as good *)
  Lemma false_range_better : forall is_min l i j a b, StronglySorted kle l -> nth_error l i = Some a -> nth_error l j = Some b ->
    better is_min (scmp (key a) (key b)) = true -> In a (false_range is_min l j).
  Proof.
    intros is_min l i j a b S A B H. unfold false_range. destruct (scmp (key a) (key b)) eqn:C; simpl in H; try discriminate.
    - subst is_min. assert (i < j).
      { destruct (lt_eq_lt_dec i j) as [[L|L]|L]; auto; exfalso.
        - subst. assert (a = b) by congruence. subst. apply (to_lt_irrefl scmp_TOrder _ C).
        - apply (sorted_nth S L B A). apply (to_gt_lt scmp_TOrder). auto. }
      destruct (Nat.ltb_spec j (width l)).
      + exfalso. assert (key a = key b) by (eapply (@width_eq l i j); eauto; lia).
        rewrite H1 in C. apply (to_lt_irrefl scmp_TOrder _ C).
      + apply nth_error_In with (n := i). rewrite nth_error_firstn. destruct (Nat.ltb_spec i j); auto. lia.
    - apply negb_true_iff in H. subst is_min. assert (j < i).
      { destruct (lt_eq_lt_dec i j) as [[L|L]|L]; auto; exfalso.
        - apply (sorted_nth S L A B). auto.
        - subst. assert (a = b) by congruence. subst. rewrite (to_refl scmp_TOrder) in C. discriminate. }
      destruct (Nat.ltb_spec j (width l)).
      + assert (width l <= i).
        { destruct (le_lt_dec (width l) i); auto. exfalso. assert (key a = key b) by (eapply (@width_eq l i j); eauto).
          rewrite H1, (to_refl scmp_TOrder) in C. discriminate. }
        apply nth_error_In with (n := i - width l). rewrite nth_error_skipn. replace (width l + (i - width l)) with i by lia. auto.
      + apply nth_error_In with (n := i - Datatypes.S j). rewrite nth_error_skipn.
        replace (Datatypes.S j + (i - Datatypes.S j)) with i by lia. auto.
  Qed.
  Lemma false_range_only : forall is_min l j b a, StronglySorted kle l -> nth_error l j = Some b ->
    In a (false_range is_min l j) -> exists i, i <> j /\ nth_error l i = Some a /\
      (key a = key b \/ better is_min (scmp (key a) (key b)) = true).
  Proof.
    intros is_min l j b a S B I. apply In_nth_error in I as (i & I). unfold false_range in I. destruct is_min.
    - rewrite nth_error_firstn in I. destruct (Nat.ltb_spec i (if j <? width l then 0 else j)); [|discriminate].
      assert (i < j) by (destruct (j <? width l); lia). exists i. split; [lia|]. split; auto.
      pose proof (sorted_nth S H0 I B) as K. unfold kle in K. simpl.
      destruct (scmp (key a) (key b)) eqn:C; try congruence; auto. left. apply (to_eq scmp_TOrder); auto.
    - rewrite nth_error_skipn in I. set (s := if j <? width l then width l else Datatypes.S j) in *.
      assert (j < s) by (unfold s; destruct (Nat.ltb_spec j (width l)); lia).
      exists (s + i). split; [lia|]. split; auto. assert (L : j < s + i) by lia.
      pose proof (sorted_nth S L B I) as K. unfold kle in K. simpl.
      destruct (scmp (key a) (key b)) eqn:C; auto.
      + left. apply (to_eq scmp_TOrder); auto.
      + exfalso. apply K. apply (to_gt_lt scmp_TOrder). auto.
  Qed.
End MinMaxFacts.
