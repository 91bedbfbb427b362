(** C31-C33: aggregates describe the possible worlds. *)
From Coq Require Import List Arith Bool ZArith QArith Qcanon Lia Permutation Sorted.
From Verif Require Import Order Value Prov ProvInst SortedCol SortedColFacts Dataflow Formula FormulaFacts PropsFormula Aggregate AggregateFacts.
Import ListNotations.
Local Open Scope nat_scope.
Set Implicit Arguments.

(** ** Specification

    A world decides for each tag whether it holds ([ev]); the tuples of a
    batch that hold in a world are an ordinary relation. *)
Definition held (P : Prov) (ev : ptag P -> bool) (batch : list (elem P)) : list tuple :=
  map fst (filter (fun e => ev (snd e)) batch).
(** the results that hold in a world *)
Definition true_results (P : Prov) (ev : ptag P -> bool) (res : list (elem P)) : list tuple := held ev res.

(** ** C31 *)
Section C31.
  Variables (P : Prov) (ev : ptag P -> bool).

  Lemma held_flat_map : forall A (g : A -> list (elem P)) l, held ev (flat_map g l) = flat_map (fun a => held ev (g a)) l.
  Proof.
    intros. unfold held. rewrite filter_flat_map. induction l; simpl; auto. rewrite map_app. f_equal. auto.
  Qed.

  (** In every world exactly one count holds, and it is the number of
      elements that hold. *)
  Theorem C31_count : exact_events P ev -> forall batch,
    true_results ev (count_agg false batch) = [usize (length (held ev batch))].
  Proof.
    intros E batch. unfold true_results, count_agg. destruct batch as [|b batch].
    { unfold held. simpl. rewrite (ee_one E). auto. }
    set (l := b :: batch). rewrite held_flat_map.
    rewrite flat_map_one with (x := holders ev 0 l).
    - destruct (choose_unique E l _ (holders_powerset ev l)) as (t & -> & Ht). unfold held at 1. simpl.
      replace (ev t) with true by (symmetry; apply Ht; auto). simpl. rewrite holders_length. unfold held. rewrite map_length. auto.
    - apply powerset_NoDup, seq_NoDup.
    - apply holders_powerset.
    - intros S I N. destruct (choose_unique E l _ I) as (t & -> & Ht). unfold held. simpl.
      destruct (ev t); auto. exfalso. apply N, Ht. auto.
  Qed.

  (** Without exactness (tags that lose proofs): a count never holds in a
      world with another number of holding elements. *)
  Theorem C31_count_sound : sound_events P ev -> forall batch x t,
    In (x, t) (count_agg false batch) -> ev t = true -> x = usize (length (held ev batch)).
  Proof.
    intros E batch x t I H. unfold count_agg in I. destruct batch as [|b batch]; [destruct I as [I|[]]; inversion I; auto|].
    set (l := b :: batch) in *. apply in_flat_map in I as (S & IS & I).
    destruct (choose_tag l S) as [t'|] eqn:C; [|easy]. destruct I as [I|[]]. inversion I; subst.
    rewrite (choose_tag_sound E l _ IS C H), holders_length. unfold held. rewrite map_length. auto.
  Qed.

  (** Existence: in every world exactly one of true and false holds, and it is
      the right one. *)
  Theorem C31_exists : exact_events P ev -> forall batch,
    true_results ev (exists_agg false batch) = [TVal (VBool (negb (length (held ev batch) =? 0)))].
  Proof.
    intros E batch. unfold true_results, exists_agg. rewrite exists_fold. cbn [fst snd].
    destruct (false_fold_exact E batch (pone P)) as (t & -> & Ht). rewrite (ee_one E) in Ht.
    assert (X : negb (length (held ev batch) =? 0) = existsb (fun e : elem P => ev (snd e)) batch).
    { unfold held. rewrite map_length. clear. induction batch; simpl; auto. destruct (ev (snd a)); simpl; auto. }
    rewrite X. simpl in Ht. pose proof (or_fold_exact E batch None) as O. simpl in O.
    destruct (fold_left _ batch None) as [u|]; simpl in O |- *; unfold held; simpl.
    - rewrite O, Ht. destruct (existsb (fun e : elem P => ev (snd e)) batch); auto.
    - rewrite Ht, <- O. auto.
  Qed.
  Theorem C31_exists_sound : sound_events P ev -> forall batch x t,
    In (x, t) (exists_agg false batch) -> ev t = true -> x = TVal (VBool (negb (length (held ev batch) =? 0))).
  Proof.
    intros E batch x t I H. unfold exists_agg in I. rewrite exists_fold in I. cbn [fst snd] in I.
    assert (X : negb (length (held ev batch) =? 0) = existsb (fun e : elem P => ev (snd e)) batch).
    { unfold held. rewrite map_length. clear. induction batch; simpl; auto. destruct (ev (snd a)); simpl; auto. }
    rewrite X. apply in_app_or in I as [I|I].
    - pose proof (or_fold_sound E batch None) as O. destruct (fold_left _ batch None) as [u|]; [|easy].
      destruct I as [I|[]]. inversion I; subst. destruct (O H) as [D|D]; [discriminate D|]. rewrite D. auto.
    - destruct (fold_left _ batch (Some (pone P))) as [u|] eqn:F; [|easy].
      destruct I as [I|[]]. inversion I; subst. apply (false_fold_sound E) in F as [_ F]; auto. rewrite F. auto.
  Qed.

  (** With [non_multi_world] the tags are ignored: all elements count. *)
  Theorem C31_single_world : forall batch, count_agg true batch = [(usize (length batch), pone P)] /\
    exists_agg true batch = [(TVal (VBool (negb (length batch =? 0))), pone P)].
  Proof. intros. split; auto. destruct batch; auto. Qed.
End C31.

(** the specialised versions give the only true result *)
Theorem C31_boolean : forall batch,
  bool_count batch = [(usize (length (held (fun b : ptag bool_prov => b) batch)), true)] /\
  bool_exists batch = [(TVal (VBool (negb (length (held (fun b : ptag bool_prov => b) batch) =? 0))), true)].
Proof.
  intros. split; auto. unfold bool_exists.
  replace (existsb (fun e => snd e) batch) with (negb (length (held (fun b : ptag bool_prov => b) batch) =? 0)); auto.
  unfold held. rewrite map_length. induction batch; simpl; auto. destruct a as [x []]; simpl; auto.
Qed.
Theorem C31_unit : forall batch, unit_count batch = count_agg true batch /\ unit_exists batch = exists_agg true batch.
Proof. intros. split; auto. Qed.

(** ** C33 *)

(** the value an element contributes *)
Definition value_of (ty : ity) (num_args : nat) (t : tuple) : option Z :=
  match operand num_args t with Some v => as_int ty v | None => None end.
Definition total (is_sum : bool) (l : list Z) : Z := if is_sum then fold_right Z.add 0%Z l else fold_right Z.mul 1%Z l.

Lemma sum_fold_none : forall is_sum ty n l,
  fold_left (fun acc t => match operand n t with Some v => arith_step is_sum ty acc v | None => None end) l None = None.
Proof. induction l; simpl; auto. destruct (operand n a); auto. Qed.
Lemma sum_fold : forall is_sum ty n l a r,
  fold_left (fun acc t => match operand n t with Some v => arith_step is_sum ty acc v | None => None end) l (Some a) = Some r ->
  exists zs, map (value_of ty n) l = map Some zs /\ r = (if is_sum then a + total is_sum zs else a * total is_sum zs)%Z.
Proof.
  induction l as [|t l IH]; intros a r H.
  - inversion H; subst. exists []. split; auto. destruct is_sum; simpl; lia.
  - cbn [map fold_left] in *. unfold value_of at 1. destruct (operand n t) as [v|]; [|rewrite sum_fold_none in H; discriminate].
    unfold arith_step at 2 in H. destruct (as_int ty v) as [z|]; [|rewrite sum_fold_none in H; discriminate].
    destruct (in_range ty _); [|rewrite sum_fold_none in H; discriminate].
    apply IH in H as (zs & E & ->). exists (z :: zs). split; [simpl; congruence|]. destruct is_sum; simpl; lia.
Qed.
Lemma sum_prod_spec : forall is_sum ty n l r, sum_prod is_sum ty n l = Some r ->
  exists zs, map (value_of ty n) l = map Some zs /\ r = of_int ty (total is_sum zs).
Proof.
  intros is_sum ty n l r H. unfold sum_prod in H.
  destruct (fold_left _ l _) as [z|] eqn:F; [|discriminate]. inversion H; subst.
  apply sum_fold in F as (zs & E & ->). exists zs. split; auto. f_equal. destruct is_sum; lia.
Qed.
Lemma opt_all_map : forall A B (f : A -> option B) l r, opt_all (map f l) = Some r -> Forall2 (fun a b => f a = Some b) l r.
Proof.
  induction l as [|a l IH]; simpl; intros r H; [inversion H; constructor|].
  destruct (f a) as [b|] eqn:Fa; [|discriminate]. unfold opt_all in H. simpl in H. fold (opt_all (map f l)) in H.
  destruct (opt_all (map f l)) as [r'|]; [|discriminate]. inversion H; subst. constructor; auto.
Qed.
Lemma concat_of : forall A B (f : A -> option (list B)) (g : A -> list B) l r, (forall a b, f a = Some b -> g a = b) ->
  Forall2 (fun a b => f a = Some b) l r -> concat r = flat_map g l.
Proof. intros A B f g l r H F. induction F; simpl; auto. rewrite (H _ _ H0), IHF. auto. Qed.

Section C33.
  Variables (P : Prov) (ev : ptag P -> bool).
  Variables (is_sum : bool) (ty : ity) (n : nat).

  Definition one_sum (batch : list (elem P)) (S : list nat) : option (list (elem P)) :=
    match sum_prod is_sum ty n (flat_map (fun i => match nth_error batch i with Some e => [fst e] | None => [] end) S) with
    | None => None
    | Some r => Some (match choose_tag batch S with Some t => [(r, t)] | None => [] end)
    end.
  Lemma sum_agg_split : forall batch res, sum_prod_agg is_sum ty n false batch = Some res ->
    res = flat_map (fun S => match one_sum batch S with Some r => r | None => [] end) (powerset (seq 0 (length batch))) /\
    forall S, In S (powerset (seq 0 (length batch))) -> one_sum batch S <> None.
  Proof.
    intros batch res H.
    change (option_map (@concat _) (opt_all (map (one_sum batch) (powerset (seq 0 (length batch))))) = Some res) in H.
    destruct (opt_all (map (one_sum batch) (powerset (seq 0 (length batch))))) as [rs|] eqn:O; [|discriminate].
    inversion H; subst. apply opt_all_map in O. split.
    - eapply concat_of; [|exact O]. intros a b Hb. rewrite Hb. auto.
    - intros S I. clear - O I. induction O; [easy|]. destruct I as [->|I]; auto. congruence.
  Qed.

  (** In every world exactly one sum (product) holds: that of the elements
      that hold.  [zs] are the integers these elements contribute. *)
  Theorem C33_sum_prod : exact_events P ev -> forall batch res, sum_prod_agg is_sum ty n false batch = Some res ->
    exists zs, map (value_of ty n) (held ev batch) = map Some zs /\ true_results ev res = [of_int ty (total is_sum zs)].
  Proof.
    intros E batch res H. apply sum_agg_split in H as [-> N]. unfold true_results. rewrite held_flat_map.
    pose proof (holders_powerset ev batch) as HP.
    destruct (choose_unique E batch _ HP) as (t & Ct & Ht).
    rewrite flat_map_one with (x := holders ev 0 batch); auto.
    - specialize (N _ HP). unfold one_sum in *.
      destruct (sum_prod _ _ _ _) as [r|] eqn:Sp; [|congruence]. rewrite Ct.
      assert (Sp' : sum_prod is_sum ty n (held ev batch) = Some r) by (rewrite <- Sp; f_equal; symmetry; apply holders_tuples).
      apply sum_prod_spec in Sp' as (zs & Z & ->). exists zs. split; auto. unfold held. simpl.
      replace (ev t) with true by (symmetry; apply Ht; auto). auto.
    - apply powerset_NoDup, seq_NoDup.
    - intros S I D. unfold one_sum. destruct (sum_prod _ _ _ _) as [r|]; auto.
      destruct (choose_unique E batch _ I) as (t' & -> & Ht'). unfold held. simpl.
      destruct (ev t'); auto. exfalso. apply D, Ht'. auto.
  Qed.
  Theorem C33_sum_prod_sound : sound_events P ev -> forall batch res x t, sum_prod_agg is_sum ty n false batch = Some res ->
    In (x, t) res -> ev t = true ->
    exists zs, map (value_of ty n) (held ev batch) = map Some zs /\ x = of_int ty (total is_sum zs).
  Proof.
    intros E batch res x t H I Ht. apply sum_agg_split in H as [-> _]. apply in_flat_map in I as (S & IS & I).
    unfold one_sum in I. destruct (sum_prod _ _ _ _) as [r|] eqn:Sp; [|easy].
    destruct (choose_tag batch S) as [t'|] eqn:C; [|easy]. destruct I as [I|[]]. inversion I; subst.
    rewrite (choose_tag_sound E batch _ IS C Ht) in Sp.
    assert (Sp' : sum_prod is_sum ty n (held ev batch) = Some x) by (rewrite <- Sp; f_equal; symmetry; apply holders_tuples).
    apply sum_prod_spec in Sp'. auto.
  Qed.
  (** one world: the sum of all elements *)
  Theorem C33_single_world : forall batch res, sum_prod_agg is_sum ty n true batch = Some res ->
    exists zs, map (value_of ty n) (map fst batch) = map Some zs /\ res = [(of_int ty (total is_sum zs), pone P)].
  Proof.
    intros batch res H. unfold sum_prod_agg in H. destruct (sum_prod _ _ _ _) as [r|] eqn:Sp; [|discriminate].
    inversion H; subst. apply sum_prod_spec in Sp as (zs & Z & ->). eauto.
  Qed.
End C33.
Theorem C33_boolean : forall is_sum ty n batch res, bool_sum_prod is_sum ty n batch = Some res ->
  exists zs, map (value_of ty n) (held (fun b : ptag bool_prov => b) batch) = map Some zs /\ res = [(of_int ty (total is_sum zs), true)].
Proof.
  intros is_sum ty n batch res H. unfold bool_sum_prod in H. destruct (sum_prod _ _ _ _) as [r|] eqn:Sp; [|discriminate].
  inversion H; subst. apply sum_prod_spec in Sp as (zs & Z & ->). eauto.
Qed.

(** When nothing overflows, all sums are computed: it is enough that the
    absolute values together stay below the type's positive bound (and the
    values are in range of an unsigned type). *)
Definition bound (ty : ity) : Z := (if signed ty then 2 ^ (bits ty - 1) else 2 ^ bits ty)%Z.
Definition fits (ty : ity) (z : Z) : Prop := signed ty = true \/ (0 <= z)%Z.
Lemma sum_no_overflow_fold : forall ty n l zs a, map (value_of ty n) l = map Some zs -> Forall (fits ty) zs -> fits ty a ->
  (Z.abs a + fold_right Z.add 0 (map Z.abs zs) < bound ty)%Z ->
  fold_left (fun acc t => match operand n t with Some v => arith_step true ty acc v | None => None end) l (Some a) <> None.
Proof.
  induction l as [|t l IH]; intros zs a M F Fa B; [discriminate|].
  destruct zs as [|z zs]; [discriminate|]. simpl in M. inversion M as [[M1 M2]]. clear M. inversion F; subst. cbn [fold_left].
  unfold value_of in M1. destruct (operand n t) as [v|]; [|discriminate]. unfold arith_step at 2. rewrite M1.
  assert (NN : forall l, (0 <= fold_right Z.add 0 (map Z.abs l))%Z) by (clear; induction l; simpl; lia).
  pose proof (NN zs). simpl in B.
  assert (R : in_range ty (a + z) = true).
  { unfold in_range, bound, fits in *. destruct (signed ty).
    - apply andb_true_iff. rewrite Z.leb_le, Z.ltb_lt. lia.
    - apply andb_true_iff. rewrite Z.leb_le, Z.ltb_lt. destruct Fa; [discriminate|]. destruct H1; [discriminate|]. lia. }
  rewrite R. eapply IH; eauto; [|lia]. unfold fits in *. destruct Fa; auto. destruct H1; auto. right; lia.
Qed.
Lemma sub_values : forall P (batch : list (elem P)) ty n S zs, map (value_of ty n) (map fst batch) = map Some zs -> Forall (fits ty) zs ->
  In S (powerset (seq 0 (length batch))) ->
  exists ys, map (value_of ty n) (flat_map (fun i => match nth_error batch i with Some e => [fst e] | None => [] end) S) = map Some ys /\
    Forall (fits ty) ys /\ (fold_right Z.add 0 (map Z.abs ys) <= fold_right Z.add 0 (map Z.abs zs))%Z.
Proof.
  intros P batch ty n S zs M F I. apply powerset_is_filter in I; [|apply seq_NoDup]. rewrite I. clear I.
  generalize (fun i => mem_nat i S). intros p.
  assert (X : forall (l pre : list (elem P)) zs, map (value_of ty n) (map fst l) = map Some zs -> Forall (fits ty) zs ->
    exists ys, map (value_of ty n) (flat_map (fun i => match nth_error (pre ++ l) i with Some e => [fst e] | None => [] end)
       (filter p (seq (length pre) (length l)))) = map Some ys /\
    Forall (fits ty) ys /\ (fold_right Z.add 0 (map Z.abs ys) <= fold_right Z.add 0 (map Z.abs zs))%Z).
  { clear. induction l as [|e l IH]; intros pre zs M F.
    - exists []. destruct zs; [|discriminate]. simpl. split; auto. split; auto. lia.
    - destruct zs as [|z zs]; [discriminate|]. inversion M as [[M1 M2]]. inversion F; subst.
      destruct (IH (pre ++ [e]) zs M2 H2) as (ys & E & Fy & L). rewrite <- app_assoc, app_length in E. simpl in E.
      rewrite Nat.add_1_r in E. simpl. destruct (p (length pre)); simpl.
      + rewrite nth_error_app2, Nat.sub_diag by lia. simpl. exists (z :: ys). rewrite E, M1. split; auto. split; auto.
        simpl. lia.
      + exists ys. split; auto. split; auto. lia. }
  apply (X batch []); auto.
Qed.
Theorem C33_no_overflow : forall P (batch : list (elem P)) ty n zs,
  map (value_of ty n) (map fst batch) = map Some zs -> Forall (fits ty) zs ->
  (fold_right Z.add 0 (map Z.abs zs) < bound ty)%Z ->
  sum_prod_agg true ty n false batch <> None.
Proof.
  intros P batch ty n zs M F B.
  change (option_map (@concat _) (opt_all (map (one_sum true ty n batch) (powerset (seq 0 (length batch))))) <> None).
  assert (X : forall L, (forall S, In S L -> In S (powerset (seq 0 (length batch)))) -> opt_all (map (one_sum true ty n batch) L) <> None).
  { induction L as [|S L IH]; [discriminate|]. intros I. unfold opt_all. simpl. fold (opt_all (map (one_sum true ty n batch) L)).
    destruct (@sub_values _ _ _ _ _ _ M F (I S (or_introl eq_refl))) as (ys & E & Fy & Ly).
    assert (O : one_sum true ty n batch S <> None).
    { unfold one_sum, sum_prod. pose proof (@sum_no_overflow_fold ty n _ ys 0%Z E Fy) as K.
      destruct (fold_left _ _ _); [discriminate|]. exfalso. apply K; auto. right; lia. lia. }
    destruct (one_sum true ty n batch S); [|congruence].
    destruct (opt_all _) eqn:Q; [discriminate|]. exfalso. apply IH; auto. intros; apply I; simpl; auto. }
  specialize (X _ (fun S H => H)). destruct (opt_all _); [discriminate|congruence].
Qed.

(** ** C32 *)

(** [x] is an extremum of the tuples that hold: it holds and none that holds
    is better.  [key] is what the elements are compared by. *)
Definition is_extremum (is_min : bool) (key : tuple -> list tuple) (l : list tuple) (x : tuple) : Prop :=
  In x l /\ forall y, In y l -> scmp (key y) (key x) <> (if is_min then Lt else Gt).

Lemma better_spec : forall is_min c, better is_min c = true <-> c = if is_min then Lt else Gt.
Proof. intros [|] []; simpl; split; congruence. Qed.
Lemma held_In : forall P (ev : ptag P -> bool) batch x, In x (held ev batch) <-> exists t, In (x, t) batch /\ ev t = true.
Proof.
  intros. unfold held. rewrite in_map_iff. split.
  - intros ((y & t) & <- & I). apply filter_In in I. eauto.
  - intros (t & I & E). exists (x, t). split; auto. apply filter_In. auto.
Qed.
Lemma existsb_false : forall A (f : A -> bool) l, existsb f l = false <-> forall x, In x l -> f x = false.
Proof.
  induction l; simpl; [split; [intros _ x []|auto]|]. rewrite orb_false_iff, IHl. split.
  - intros [A1 A2] x [<-|I]; auto.
  - intros H. split; intros; apply H; auto.
Qed.

Section C32.
  Variables (P : Prov) (ev : ptag P -> bool).
  Notation elem := (elem P).

  Lemma scmp_single : forall a b, scmp [a] [b] = tcmp a b.
  Proof. intros. unfold scmp. simpl. destruct (tcmp a b); auto. Qed.

  Lemma sorted_pos : forall (l : list elem) i j a b, ssorted l -> nth_error l i = Some a -> nth_error l j = Some b ->
    (i < j <-> tcmp (fst a) (fst b) = Lt).
  Proof.
    assert (X : forall (l : list elem) i j a b, ssorted l -> i < j -> nth_error l i = Some a -> nth_error l j = Some b -> tcmp (fst a) (fst b) = Lt).
    { induction l as [|x l IH]; intros [|i] [|j] a b S L A B; simpl in *; try discriminate; try lia.
      - inversion A; subst. inversion S; subst. rewrite Forall_forall in H2. apply H2. eapply nth_error_In; eauto.
      - inversion S; subst. eapply (IH i j); eauto. lia. }
    intros l i j a b S A B. split; [intros; eapply X; eauto|]. intros C.
    destruct (lt_eq_lt_dec i j) as [[L|L]|L]; auto; exfalso.
    - subst. assert (a = b) by congruence. subst. apply (to_lt_irrefl tcmp_TOrder _ C).
    - apply (to_lt_asym tcmp_TOrder _ _ C). eapply X; eauto.
  Qed.

  (** Without arguments, on a sorted batch (the batches are collections,
      C01): the result has each tuple once, and its tag holds exactly in the
      worlds in which the tuple is the minimum (maximum). *)
  Theorem C32_min_max : exact_events P ev -> forall is_min arg batch, ssorted batch -> arg = false ->
    Permutation (map fst (minmax_agg is_min arg false 0 batch)) (map fst batch) /\
    forall x t, In (x, t) (minmax_agg is_min arg false 0 batch) ->
      (ev t = true <-> is_extremum is_min (fun y => [y]) (held ev batch) x).
  Proof.
    intros E is_min arg batch S ->. unfold minmax_agg, multi_min_max. cbn [post_arg].
    set (l := if is_min then batch else rev batch).
    assert (MS : forall m : list elem, map (fun e => (fst e, snd e)) m = m) by (induction m as [|[] m IH]; simpl; rewrite ?IH; auto).
    rewrite MS.
    split.
    { rewrite minmax_loop_fst. unfold l. destruct is_min; auto. apply Permutation_map. symmetry. apply Permutation_rev. }
    intros x t I. apply In_nth_error in I as (i & I).
    apply (minmax_loop_exact E l) with (pre := []) in I; [|rewrite (ee_one E); auto]. destruct I as (g & G & ->). simpl.
    rewrite andb_true_iff, negb_true_iff, existsb_false.
    assert (IL : forall e, In e l <-> In e batch).
    { intros e. unfold l. destruct is_min; [tauto|]. rewrite <- in_rev. tauto. }
    assert (PL : forall j e, nth_error l j = Some e -> forall k f, nth_error l k = Some f -> (j < k <-> tcmp (fst e) (fst f) = if is_min then Lt else Gt)).
    { intros j e J k f K. unfold l in J, K. destruct is_min; [eapply sorted_pos; eauto|].
      assert (Lj : j < length batch) by (rewrite <- rev_length; apply nth_error_Some; congruence).
      assert (Lk : k < length batch) by (rewrite <- rev_length; apply nth_error_Some; congruence).
      assert (RV : forall j e, j < length batch -> nth_error (rev batch) j = Some e -> nth_error batch (length batch - Datatypes.S j) = Some e).
      { clear. intros j e L H. rewrite (nth_error_nth' batch e) by lia. rewrite (nth_error_nth' _ e) in H by (rewrite rev_length; auto).
        rewrite rev_nth in H by auto. auto. }
      apply RV in J, K; auto. rewrite (to_gt_lt tcmp_TOrder). rewrite <- (sorted_pos _ _ S K J). lia. }
    unfold is_extremum. rewrite held_In. split.
    - intros [Hg Hp]. split.
      + exists g. split; auto. apply IL. eapply nth_error_In; eauto.
      + intros y Y. apply held_In in Y as (u & Iu & Hu). rewrite scmp_single. intros C. apply IL in Iu.
        apply In_nth_error in Iu as (j & J). pose proof (proj2 (PL _ _ J _ _ G) C) as L.
        enough (ev u = false) by congruence. apply (Hp (y, u)). apply nth_error_In with (n := j).
        rewrite nth_error_firstn. destruct (Nat.ltb_spec j i); auto. lia.
    - intros [(g' & Ig & Hg) M].
      assert (g' = g).
      { apply IL in Ig. apply In_nth_error in Ig as (j & J). destruct (lt_eq_lt_dec i j) as [[L|L]|L].
        - apply (PL _ _ G _ _ J) in L. simpl in L. rewrite (to_refl tcmp_TOrder) in L. destruct is_min; discriminate.
        - subst. congruence.
        - apply (PL _ _ J _ _ G) in L. simpl in L. rewrite (to_refl tcmp_TOrder) in L. destruct is_min; discriminate. }
      subst g'. split; auto. intros (y, u) Iu. simpl. destruct (ev u) eqn:Hu; auto. exfalso.
      apply In_nth_error in Iu as (j & J). rewrite nth_error_firstn in J. destruct (Nat.ltb_spec j i); [|discriminate].
      apply (M y).
      + apply held_In. exists u. split; auto. apply IL. eapply nth_error_In; eauto.
      + rewrite scmp_single. apply (PL _ _ J _ _ G). auto.
  Qed.

  (** With arguments: every result that holds in a world is a correct argument
      of the extremum... *)
  Variable n : nat.
  Hypothesis N : 0 < n.
  Notation key := (tfrom n).

  Lemma multi_In : forall is_min arg batch x t, In (x, t) (minmax_agg is_min arg false n batch) <->
    exists j e f, nth_error (ksort n batch) j = Some e /\ x = post_arg arg n (fst e) /\
      false_tag (false_range n is_min (ksort n batch) j) = Some f /\ t = pmult P f (snd e).
  Proof.
    intros. unfold minmax_agg, multi_min_max. rewrite in_map_iff.
    assert (Q : forall A (a b : A), match n with 0 => a | Datatypes.S _ => b end = b) by (intros; destruct n; [lia|auto]).
    rewrite Q. cbn zeta. split.
    - intros ((y & u) & Eq & I). apply (arg_tags_In is_min y u (ksort_sorted n batch)) in I as (j & e & f & J & X & F & T).
      simpl in Eq. inversion Eq; subst. exists j, e, f. auto.
    - intros (j & e & f & J & -> & F & ->). exists (fst e, pmult P f (snd e)). split; auto.
      apply (arg_tags_In is_min _ _ (ksort_sorted n batch)). exists j, e, f. auto.
  Qed.
  Lemma sort_In : forall (batch : list elem) e, In e batch <-> exists j, nth_error (ksort n batch) j = Some e.
  Proof.
    intros. split.
    - intros I. apply In_nth_error. eapply Permutation_in; [symmetry; apply ksort_perm|auto].
    - intros (j & J). apply nth_error_In in J. eapply Permutation_in; [apply ksort_perm|eauto].
  Qed.

  Theorem C32_arg_sound : sound_events P ev -> forall is_min arg batch x t,
    In (x, t) (minmax_agg is_min arg false n batch) -> ev t = true ->
    exists y, x = post_arg arg n y /\ is_extremum is_min key (held ev batch) y.
  Proof.
    intros E is_min arg batch x t I H. apply multi_In in I as (j & (y, g) & f & J & -> & F & ->).
    apply (se_mult E) in H as [Hf Hg]. simpl in *. exists y. split; auto. split.
    - apply held_In. exists g. split; auto. apply sort_In. eauto.
    - intros z Z C. apply held_In in Z as (u & Iu & Hu). apply sort_In in Iu as (i & Iu).
      assert (B : In (z, u) (false_range n is_min (ksort n batch) j)).
      { eapply false_range_better; eauto; [apply ksort_sorted|]. apply better_spec. auto. }
      apply (false_tag_sound E) in F; auto. rewrite existsb_false in F. apply F in B. simpl in B. congruence.
  Qed.

  (** ... if something holds, at least one argument is found ... *)
  Lemma first_index : forall (p : elem -> bool) l, existsb p l = true ->
    exists i e, nth_error l i = Some e /\ p e = true /\ forall a, In a (firstn i l) -> p a = false.
  Proof.
    induction l as [|a l IH]; simpl; [discriminate|]. destruct (p a) eqn:A.
    - intros _. exists 0, a. simpl. split; auto. split; auto. intros b [].
    - intros H. apply IH in H as (i & e & H1 & H2 & H3). exists (S i), e. simpl. split; auto. split; auto.
      intros b [<-|B]; auto.
  Qed.
  Lemma last_index : forall (p : elem -> bool) l, existsb p l = true ->
    exists i e, nth_error l i = Some e /\ p e = true /\ forall a, In a (skipn (S i) l) -> p a = false.
  Proof.
    induction l as [|a l IH]; simpl; [discriminate|]. destruct (existsb p l) eqn:A.
    - intros _. destruct (IH eq_refl) as (i & e & H1 & H2 & H3). exists (S i), e. simpl. split; auto.
    - rewrite orb_false_r. intros H. exists 0, a. simpl. split; auto. split; auto. apply existsb_false. auto.
  Qed.
  Lemma In_skipn_le : forall (l : list elem) i j a, i <= j -> In a (skipn j l) -> In a (skipn i l).
  Proof.
    intros l i j a L I. apply In_nth_error in I as (k & K). rewrite nth_error_skipn in K.
    apply nth_error_In with (n := j + k - i). rewrite nth_error_skipn. replace (i + (j + k - i)) with (j + k) by lia. auto.
  Qed.
  Theorem C32_arg_some : exact_events P ev -> forall is_min arg batch, held ev batch <> [] ->
    exists x t, In (x, t) (minmax_agg is_min arg false n batch) /\ ev t = true.
  Proof.
    intros E is_min arg batch H. set (l := ksort n batch).
    assert (X : existsb (fun e : elem => ev (snd e)) l = true).
    { destruct (held ev batch) as [|x r] eqn:Q; [congruence|]. assert (I : In x (held ev batch)) by (rewrite Q; simpl; auto).
      apply held_In in I as (t & I & Ht). apply existsb_exists. exists (x, t). split; auto.
      eapply Permutation_in; [symmetry; apply ksort_perm|auto]. }
    assert (G : exists i e, nth_error l i = Some e /\ ev (snd e) = true /\ forall a, In a (false_range n is_min l i) -> ev (snd a) = false).
    { unfold false_range. destruct is_min.
      - destruct (first_index _ _ X) as (i & e & H1 & H2 & H3). exists i, e. split; auto. split; auto.
        intros a A. apply H3. destruct (i <? width n l); auto. simpl in A. easy.
      - destruct (last_index _ _ X) as (i & e & H1 & H2 & H3). exists i, e. split; auto. split; auto.
        intros a A. apply H3. eapply In_skipn_le; [|exact A]. destruct (Nat.ltb_spec i (width n l)); lia. }
    destruct G as (i & e & H1 & H2 & H3). destruct (false_tag_exact E (false_range n is_min l i)) as (f & F & Ef).
    exists (post_arg arg n (fst e)), (pmult P f (snd e)). split.
    - apply multi_In. exists i, e, f. auto.
    - rewrite (ee_mult E), Ef, H2, andb_true_r. apply negb_true_iff, existsb_false. auto.
  Qed.

  (** ... and if no two elements have the same key, all are found. *)
  Theorem C32_arg_exact : exact_events P ev -> forall is_min arg batch, NoDup (map (fun e : elem => key (fst e)) batch) ->
    forall y, is_extremum is_min key (held ev batch) y ->
    exists t, In (post_arg arg n y, t) (minmax_agg is_min arg false n batch) /\ ev t = true.
  Proof.
    intros E is_min arg batch D y [I M]. apply held_In in I as (g & I & Hg). apply sort_In in I as (j & J).
    destruct (false_tag_exact E (false_range n is_min (ksort n batch) j)) as (f & F & Ef).
    exists (pmult P f g). split.
    - apply multi_In. exists j, (y, g), f. auto.
    - rewrite (ee_mult E), Ef, Hg, andb_true_r. apply negb_true_iff, existsb_false. intros a A.
      destruct (false_range_only is_min _ _ (ksort_sorted n batch) J A) as (i & Ne & Ia & [K|K]).
      + exfalso. apply Ne.
        assert (D' : NoDup (map (fun e : elem => key (fst e)) (ksort n batch))).
        { eapply Permutation_NoDup; [|exact D]. apply Permutation_map. symmetry. apply ksort_perm. }
        rewrite NoDup_nth_error in D'. apply D'.
        * rewrite map_length. apply nth_error_Some. congruence.
        * rewrite (map_nth_error _ _ _ Ia), (map_nth_error _ _ _ J). simpl in *. congruence.
      + apply better_spec in K. destruct (ev (snd a)) eqn:Ha; auto. exfalso. apply (M (fst a)); auto.
        apply held_In. exists (snd a). split; [|auto]. apply sort_In. exists i. destruct a; auto.
  Qed.
End C32.

(** One world: all extrema, with or without arguments. *)
Lemma extremum_spec : forall is_min n l best res seen,
  (forall m, best = Some m -> (forall y, In y seen -> better is_min (scmp (mkey n y) m) = false) /\ (exists y, In y seen /\ mkey n y = m) /\
     forall x, In x res <-> In x seen /\ mkey n x = m) ->
  (best = None -> seen = [] /\ res = []) ->
  forall x, In x (extremum is_min n best res l) <-> is_extremum is_min (mkey n) (seen ++ l) x.
Proof.
  intros is_min n. induction l as [|v l IH]; intros best res seen B0 B1 x.
  - rewrite app_nil_r. simpl. destruct best as [m|].
    + destruct (B0 m eq_refl) as (H1 & (y0 & Y0 & K0) & H2). rewrite H2. unfold is_extremum. split.
      * intros [I K]. split; auto. intros y Y. rewrite K. specialize (H1 y Y). intros C. apply better_spec in C. congruence.
      * intros [I M]. split; auto. specialize (M y0 Y0). rewrite K0 in M. specialize (H1 x I).
        destruct (scmp (mkey n x) m) eqn:C; [apply (to_eq scmp_TOrder) in C; auto| |];
          destruct is_min; simpl in H1; try discriminate; exfalso; apply M.
        -- apply (to_gt_lt scmp_TOrder). auto.
        -- apply (to_gt_lt scmp_TOrder) in C || apply (to_gt_lt scmp_TOrder). auto.
    + destruct (B1 eq_refl) as [-> ->]. unfold is_extremum. simpl. tauto.
  - replace (seen ++ v :: l) with ((seen ++ [v]) ++ l) by (rewrite <- app_assoc; auto). cbn [extremum]. destruct best as [m|].
    + destruct (B0 m eq_refl) as (H1 & (y0 & Y0 & K0) & H2). destruct (scmp (mkey n v) m) eqn:C.
      * apply (to_eq scmp_TOrder) in C. apply IH; [|discriminate]. intros m' Q. inversion Q; subst m'. split.
        { intros y Y. apply in_app_or in Y as [Y|[<-|[]]]; auto. rewrite C, (to_refl scmp_TOrder). auto. }
        split; [exists y0; split; auto; apply in_or_app; auto|].
        intros z. rewrite !in_app_iff, H2. simpl. intuition (subst; auto).
      * destruct (better is_min Lt) eqn:Bt.
        -- apply IH; [|discriminate]. intros m' Q. inversion Q; subst m'. simpl in Bt. subst is_min. split.
           { intros y Y. apply in_app_or in Y as [Y|[<-|[]]]; [|rewrite (to_refl scmp_TOrder); auto].
             specialize (H1 y Y). destruct (scmp (mkey n y) (mkey n v)) eqn:C2; auto. simpl. exfalso.
             rewrite (to_trans scmp_TOrder _ _ _ C2 C) in H1. discriminate. }
           split; [exists v; split; auto; apply in_or_app; simpl; auto|].
           intros z. rewrite in_app_iff. simpl. split.
           ++ intros [<-|[]]. auto.
           ++ intros [[Z|[<-|[]]] K]; auto. exfalso. specialize (H1 z Z). rewrite K, C in H1. discriminate.
        -- apply IH; [|discriminate]. intros m' Q. inversion Q; subst m'. split.
           { intros y Y. apply in_app_or in Y as [Y|[<-|[]]]; auto. rewrite C. auto. }
           split; [exists y0; split; auto; apply in_or_app; auto|].
           intros z. rewrite in_app_iff, H2. simpl. split; [tauto|]. intros [[Z|[<-|[]]] K]; auto.
           exfalso. rewrite K, (to_refl scmp_TOrder) in C. discriminate.
      * destruct (better is_min Gt) eqn:Bt.
        -- apply IH; [|discriminate]. intros m' Q. inversion Q; subst m'. simpl in Bt. apply negb_true_iff in Bt. subst is_min. split.
           { intros y Y. apply in_app_or in Y as [Y|[<-|[]]]; [|rewrite (to_refl scmp_TOrder); auto].
             specialize (H1 y Y). destruct (scmp (mkey n y) (mkey n v)) eqn:C2; auto. simpl. exfalso.
             apply (to_gt_lt scmp_TOrder) in C, C2.
             pose proof (to_trans scmp_TOrder _ _ _ C C2) as C3. apply (to_gt_lt scmp_TOrder) in C3. rewrite C3 in H1. discriminate. }
           split; [exists v; split; auto; apply in_or_app; simpl; auto|].
           intros z. rewrite in_app_iff. simpl. split.
           ++ intros [<-|[]]. auto.
           ++ intros [[Z|[<-|[]]] K]; auto. exfalso. specialize (H1 z Z). rewrite K, C in H1. discriminate.
        -- apply IH; [|discriminate]. intros m' Q. inversion Q; subst m'. split.
           { intros y Y. apply in_app_or in Y as [Y|[<-|[]]]; auto. rewrite C. auto. }
           split; [exists y0; split; auto; apply in_or_app; auto|].
           intros z. rewrite in_app_iff, H2. simpl. split; [tauto|]. intros [[Z|[<-|[]]] K]; auto.
           exfalso. rewrite K, (to_refl scmp_TOrder) in C. discriminate.
    + destruct (B1 eq_refl) as [-> ->]. simpl. apply (IH (Some (mkey n v)) [v] [v]); [|discriminate].
      intros m Q. inversion Q; subst. split.
      { intros y [<-|[]]. rewrite (to_refl scmp_TOrder). auto. }
      split; [exists v; simpl; auto|]. intros z. simpl. intuition (subst; auto).
Qed.
Theorem C32_single_world : forall P is_min arg n (batch : list (elem P)) x t,
  In (x, t) (minmax_agg is_min arg true n batch) <->
  t = pone P /\ exists y, x = post_arg arg n y /\ is_extremum is_min (mkey n) (map fst batch) y.
Proof.
  intros. unfold minmax_agg, discrete_min_max. rewrite in_map_iff. split.
  - intros (y & E & I). inversion E; subst. split; auto. exists y. split; auto.
    apply (@extremum_spec is_min n _ None [] []) in I; auto. discriminate.
  - intros (-> & y & -> & I). exists y. split; auto. apply (@extremum_spec is_min n _ None [] []); auto. discriminate.
Qed.
(** What is compared and what is reported of a row: the values after the
    arguments, and the arguments (alone if one) or the whole row. *)
Theorem C32_row : forall args vals, args <> [] ->
  mkey (length args) (TTup (args ++ vals)) = vals /\
  post_arg true (length args) (TTup (args ++ vals)) = match args with [a] => a | _ => TTup args end /\
  post_arg false (length args) (TTup (args ++ vals)) = TTup (args ++ vals).
Proof.
  intros args vals NE.
  assert (F : firstn (length args) (args ++ vals) = args).
  { rewrite firstn_app, Nat.sub_diag, firstn_all. simpl. apply app_nil_r. }
  split; [|split; [|reflexivity]].
  - destruct args as [|a l]; [congruence|]. unfold mkey, tfrom. cbn [length]. change (S (length l)) with (length (a :: l)).
    rewrite skipn_app, Nat.sub_diag, skipn_all. reflexivity.
  - destruct args as [|a [|b l]]; [congruence|reflexivity|]. unfold post_arg, tupto. cbn [length] in *.
    change (S (S (length l))) with (length (a :: b :: l)) in *. cbn [length]. f_equal. exact F.
Qed.
Example C32_row_ex : post_arg true 1 (TTup [TVal (I32 3); TVal (I32 4)]) = TVal (I32 3) /\ mkey 1 (TTup [TVal (I32 3); TVal (I32 4)]) = [TVal (I32 4)].
Proof. split; reflexivity. Qed.
Theorem C32_boolean : forall is_min arg n batch x t, In (x, t) (bool_min_max is_min arg n batch) <->
  t = true /\ exists y, x = post_arg arg n y /\ is_extremum is_min (mkey n) (held (fun b : ptag bool_prov => b) batch) y.
Proof.
  intros. unfold bool_min_max, discrete_min_max. rewrite in_map_iff. split.
  - intros (y & E & I). inversion E; subst. split; auto. exists y. split; auto.
    apply (@extremum_spec is_min n _ None [] []) in I; auto. discriminate.
  - intros (-> & y & -> & I). exists y. split; auto. apply (@extremum_spec is_min n _ None [] []); auto. discriminate.
Qed.

(** ** Instances: proof tags

    [topk_prov]: the operations of the top-k proofs provenances
    (dnf_context.rs) with a limit; the second argument of the operations is
    computed from the formulas, so that the limit can be large enough for
    each operation ([exact_k]) or constant. *)
Section TopK.
  Variables (prob : nat -> Qc) (conflict : list nat -> bool) (pop : popper).
  Definition dnf_prov (ka km : dnf -> dnf -> nat) (kn : dnf -> nat) : Prov := {|
    ptag := dnf; pzero := dnf_zero; pone := dnf_one;
    padd := fun a b => top_k_add prob a b (ka a b);
    pmult := fun a b => top_k_mult prob conflict a b (km a b);
    pneg := fun a => top_k_negate prob conflict pop (cfuel a) a (kn a);
    pminus := default_minus (fun a b => top_k_mult prob conflict a b (km a b)) (fun a => top_k_negate prob conflict pop (cfuel a) a (kn a));
    psat := fun _ _ => true; pdiscard := fun f => match f with [] => true | _ => false end; pwlt := fun _ _ => false |}.
  Definition topk_prov (k : nat) : Prov := dnf_prov (fun _ _ => k) (fun _ _ => k) (fun _ => k).
  Definition all_proofs_prov : Prov :=
    dnf_prov (fun a b => length a + length b) (fun a b => length a * length b) (fun a => S (cprod a)).

  Theorem topk_sound : pop_perm pop -> forall k w, 0 < k -> sound_events (topk_prov k) (dnf_sem w).
  Proof.
    intros PP k w K. split; simpl.
    - intros a b H. apply (proj1 (C17_pruned_sound prob conflict w a b k)) in H. apply orb_true_iff in H. auto.
    - intros a b H. apply (proj2 (C17_pruned_sound prob conflict w a b k)) in H. apply andb_true_iff in H. auto.
    - intros a m H Hm. destruct (@C17_negate prob conflict pop PP a k (cfuel a) (le_n _) K) as (r & E & S & _).
      assert (r = m) by congruence. subst. auto.
  Qed.
  Theorem all_proofs_exact : pop_perm pop -> forall w, consistent conflict w -> exact_events all_proofs_prov (dnf_sem w).
  Proof.
    intros PP w C. split; simpl.
    - auto.
    - intros a b. apply C17_add. auto.
    - intros a b. apply C17_mult; auto.
    - intros a. destruct (@C17_negate prob conflict pop PP a (S (cprod a)) (cfuel a)) as (r & E & _ & X); auto with arith.
      exists r. auto.
  Qed.
End TopK.

(** ** Examples and refutation *)
Definition half (_ : nat) : Qc := Q2Qc (1 # 2).
Definition no_conflict (_ : list nat) : bool := false.
Definition ex_prov : Prov := all_proofs_prov half no_conflict pop_first.
Definition world_of (l : list nat) (i : nat) : bool := existsb (Nat.eqb i) l.
Definition ex_ev (l : list nat) : ptag ex_prov -> bool := dnf_sem (world_of l).
Lemma ex_exact : forall l, exact_events ex_prov (ex_ev l).
Proof. intros. apply all_proofs_exact; [apply pop_first_ok|]. intros facts _ _. auto. Qed.

Definition pair_of (a b : Z) : tuple := TTup [TVal (I32 a); TVal (I32 b)].
Definition ex_batch : list (elem ex_prov) :=
  [(pair_of 10 0, dnf_singleton 0); (pair_of 11 1, dnf_singleton 1); (pair_of 12 1, dnf_singleton 2)].
Example C31_example : forall l, true_results (ex_ev l) (count_agg false ex_batch) =
  [usize (length (held (ex_ev l) ex_batch))].
Proof. intros. apply C31_count, ex_exact. Qed.
Example C31_example_computed :
  true_results (ex_ev [0; 2]) (count_agg false ex_batch) = [usize 2] /\
  true_results (ex_ev [0; 2]) (exists_agg false ex_batch) = [TVal (VBool true)] /\
  true_results (ex_ev []) (exists_agg false ex_batch) = [TVal (VBool false)].
Proof. vm_compute. auto. Qed.
Example C33_example : exists res, sum_prod_agg true TI32 1 false ex_batch = Some res /\
  true_results (ex_ev [1; 2]) res = [TVal (I32 2)] /\
  true_results (ex_ev [0]) res = [TVal (I32 0)].
Proof. eexists. split; [vm_compute; reflexivity|]. vm_compute. auto. Qed.
Example C32_example : ssorted ex_batch /\
  true_results (ex_ev [1; 2]) (minmax_agg true false false 0 ex_batch) = [pair_of 11 1] /\
  true_results (ex_ev [1; 2]) (minmax_agg false false false 0 ex_batch) = [pair_of 12 1].
Proof. split; [repeat constructor|]. vm_compute. auto. Qed.

(** The argument form loses tied arguments: with the keys 0, 1, 1 and the
    first element false, the third one is not reported. *)
Theorem C32_arg_ties_refuted : exists (batch : list (elem ex_prov)) l y,
  exact_events ex_prov (ex_ev l) /\ is_extremum true (tfrom 1) (held (ex_ev l) batch) y /\
  ~ exists t, In (y, t) (minmax_agg true false false 1 batch) /\ ex_ev l t = true.
Proof.
  exists ex_batch, [1; 2], (pair_of 12 1). split; [apply ex_exact|]. split.
  - split; [vm_compute; auto|]. intros y Y. vm_compute in Y. destruct Y as [<-|[<-|[]]]; vm_compute; discriminate.
  - intros (t & I & H). assert (R : In (pair_of 12 1) (true_results (ex_ev [1; 2]) (minmax_agg true false false 1 ex_batch))).
    { unfold true_results. apply held_In. eauto. }
    vm_compute in R. destruct R as [R|[]]. discriminate R.
Qed.
(** also for the maximum, where the elements in later strata have to be false *)
Theorem C32_argmax_ties_refuted : exists (batch : list (elem ex_prov)) l y,
  exact_events ex_prov (ex_ev l) /\ is_extremum false (tfrom 1) (held (ex_ev l) batch) y /\
  ~ exists t, In (y, t) (minmax_agg false false false 1 batch) /\ ex_ev l t = true.
Proof.
  exists ex_batch, [0; 1; 2], (pair_of 11 1). split; [apply ex_exact|]. split.
  - split; [vm_compute; auto|]. intros y Y. vm_compute in Y. destruct Y as [<-|[<-|[<-|[]]]]; vm_compute; discriminate.
  - intros (t & I & H). assert (R : In (pair_of 11 1) (true_results (ex_ev [0; 1; 2]) (minmax_agg false false false 1 ex_batch))).
    { unfold true_results. apply held_In. eauto. }
    vm_compute in R. destruct R as [R|[]]. discriminate R.
Qed.

Print Assumptions C31_count.
Print Assumptions C31_count_sound.
Print Assumptions C31_exists.
Print Assumptions C31_exists_sound.
Print Assumptions C31_single_world.
Print Assumptions C31_boolean.
Print Assumptions C31_unit.
Print Assumptions C33_sum_prod.
Print Assumptions C33_sum_prod_sound.
Print Assumptions C33_single_world.
Print Assumptions C33_boolean.
Print Assumptions C33_no_overflow.
Print Assumptions C32_min_max.
Print Assumptions C32_arg_sound.
Print Assumptions C32_arg_some.
Print Assumptions C32_arg_exact.
Print Assumptions C32_single_world.
Print Assumptions C32_boolean.
Print Assumptions C32_row.
Print Assumptions topk_sound.
Print Assumptions all_proofs_exact.
Print Assumptions C32_arg_ties_refuted.
Print Assumptions C32_argmax_ties_refuted.
