(** C66: operators, casts and constants give values of the types that inference gives
    them. *)
From Coq Require Import List ZArith Bool String Ascii Lia DecimalString DecimalZ Decimal.
From Verif Require Import Value Back Eval TypeSet PropsTypeSet Infer TypeSpec Cast ValSpec.
Import ListNotations.
Local Open Scope Z_scope.

Lemma ints_kind : forall t mk lo hi, In (t, mk, lo, hi) ints ->
  exists k, kind_of t = Some k /\ (forall z, mk z = of_int k z) /\ lo = imin k /\ hi = imax k.
Proof.
  intros t mk lo hi H. cbn [In ints] in H. repeat (destruct H as [H|H]; [injection H as <- <- <- <-; eexists; repeat split; vm_compute; reflexivity|]). destruct H.
Qed.
Lemma kind_ints : forall t k, kind_of t = Some k -> In (t, of_int k, imin k, imax k) ints.
Proof. intros t k H. destruct t; try discriminate H; injection H as <-; vm_compute; tauto. Qed.
Lemma kind_val k z : val_type (of_int k z) = val_type (of_int k 0).
Proof. destruct k; reflexivity. Qed.
Lemma as_of k z : as_int (of_int k z) = Some (k, z).
Proof. destruct k; reflexivity. Qed.
Lemma kind_refl k : ikind_eqb k k = true.
Proof. destruct k; reflexivity. Qed.
Lemma kind_eq k k' : ikind_eqb k k' = true -> k = k'.
Proof. destruct k, k'; (reflexivity || discriminate). Qed.
Lemma of_inj k a b : of_int k a = of_int k b -> a = b.
Proof. destruct k; intros [= H]; exact H. Qed.
Lemma range_facts k : imin k <= 0 /\ 0 < imax k /\ (isigned k = true -> imin k = - (imax k + 1)) /\ (isigned k = false -> imin k = 0) /\
  (isigned k = (imin k <? 0)) /\ imax k - imin k + 1 = 2 ^ ibits k.
Proof. destruct k; vm_compute; repeat split; congruence. Qed.
Lemma is_int t k v : kind_of t = Some k -> is_a v t <-> exists z, v = of_int k z /\ imin k <= z <= imax k.
Proof.
  intros K. assert (D : is_a v t <-> exists mk lo hi z, In (t, mk, lo, hi) ints /\ v = mk z /\ lo <= z <= hi) by (destruct t; try discriminate K; reflexivity).
  rewrite D. split.
  - intros (mk & lo & hi & z & I & -> & R). destruct (ints_kind _ _ _ _ I) as (k' & K' & M & -> & ->). rewrite K in K'. injection K' as <-. rewrite M. eauto.
  - intros (z & -> & R). exists (of_int k), (imin k), (imax k), z. split; [apply kind_ints; exact K|]. auto.
Qed.
Lemma arith_int E op k a b : arith E op (of_int k a) (of_int k b) = int_arith op k a b.
Proof. unfold arith. rewrite !as_of, kind_refl. reflexivity. Qed.
Lemma bin_int E op k a b : is_arith op = true -> bin_value E op (of_int k a) (of_int k b) = int_arith op k a b.
Proof. destruct op; try discriminate; intros _; apply arith_int. Qed.

Lemma quot_spec a b : b <> 0 -> divides_to a b (Z.quot a b) (Z.rem a b).
Proof.
  intros B. pose proof (Z.quot_rem' a b). pose proof (Z.rem_bound_abs a b B). unfold divides_to. repeat split; auto.
  - intros A. destruct (Z.eq_dec (Z.rem a b) 0); [lia|]. pose proof (Z.rem_nonneg a b B A). lia.
  - intros A. pose proof (Z.rem_nonpos a b B A). lia.
Qed.
Lemma quot_unique a b q r q' r' : divides_to a b q r -> divides_to a b q' r' -> q = q' /\ r = r'.
Proof. unfold divides_to. intros (A1 & A2 & A3 & A4) (B1 & B2 & B3 & B4). assert (b * (q - q') = r' - r) by lia.
  assert (q = q'). { destruct (Z.eq_dec q q'); auto. assert (Z.abs b <= Z.abs (b * (q - q'))) by (rewrite Z.abs_mul; nia).
    assert (Z.abs (r' - r) < Z.abs b); [|lia]. destruct (Z.le_ge_cases 0 a); [specialize (A3 H1); specialize (B3 H1)|specialize (A4 H1); specialize (B4 H1)]; lia. }
  split; auto. subst. lia.
Qed.
Lemma quot_range k a b : b <> 0 -> imin k <= a <= imax k -> imin k <= b <= imax k -> ~ (a = imin k /\ b = -1 /\ imin k < 0) ->
  imin k <= Z.quot a b <= imax k.
Proof.
  intros B RA RB N. assert (Q : Z.abs (Z.quot a b) = Z.abs a / Z.abs b) by (rewrite <- Z.quot_abs, Z.quot_div_nonneg by lia; reflexivity).
  assert (Q1 : Z.abs a / Z.abs b <= Z.abs a) by (apply Z.div_le_upper_bound; [lia|]; nia).
  destruct (range_facts k) as (F1 & F2 & F3 & F4 & F5 & _). destruct (isigned k) eqn:S.
  - specialize (F3 eq_refl). destruct (Z.eq_dec b (-1)) as [->|].
    { change (-1) with (- (1)). rewrite Z.quot_opp_r, Z.quot_1_r by lia. lia. }
    destruct (Z.eq_dec b 1) as [->|]; [rewrite Z.quot_1_r; lia|].
    assert (Z.abs a / Z.abs b <= Z.abs a / 2) by (apply Z.div_le_compat_l; lia). pose proof (Z.div_le_upper_bound (Z.abs a) 2 (imax k)). lia.
  - specialize (F4 eq_refl). assert (0 <= Z.quot a b) by (apply Z.quot_pos; lia). lia.
Qed.
Lemma rem_range k a b : b <> 0 -> imin k <= a <= imax k -> imin k <= b <= imax k -> imin k <= Z.rem a b <= imax k.
Proof.
  intros B RA RB. destruct (quot_spec a b B) as (E & D & P & M). set (q := Z.quot a b) in *. set (r := Z.rem a b) in *. clearbody q r.
  destruct (range_facts k) as (F1 & F2 & F3 & F4 & F5 & _). destruct (isigned k) eqn:S; [specialize (F3 eq_refl)|specialize (F4 eq_refl)]; lia.
Qed.

(** ** Integers *)
(** An operation on two integers of a type panics exactly if it has no result that fits;
    otherwise its result is the exact one or, for sums and differences, the nearest one. *)
Theorem C66_integers : forall E op t mk lo hi a b, In (t, mk, lo, hi) ints -> In op [OAdd; OSub; OMul; ODiv; OMod] ->
  lo <= a <= hi -> lo <= b <= hi ->
  (bin_value E op (mk a) (mk b) = EPanic <-> int_fault op lo hi a b) /\
  (bin_value E op (mk a) (mk b) <> EPanic -> exists r, bin_value E op (mk a) (mk b) = EOk (mk r) /\ int_result op lo hi a b r /\ lo <= r <= hi).
Proof.
  intros E op t mk lo hi a b I O RA RB. destruct (ints_kind _ _ _ _ I) as (k & K & M & -> & ->). rewrite !M.
  assert (A : is_arith op = true) by (cbn in O; intuition (subst; reflexivity)). rewrite bin_int by exact A. clear I K.
  destruct (range_facts k) as (F1 & F2 & F3 & F4 & F5 & _).
  assert (SAT : forall z, exists r, saturating k z = EOk (mk r) /\ nearest (imin k) (imax k) z r /\ imin k <= r <= imax k).
  { intros z. eexists. unfold saturating. rewrite <- M. split; [reflexivity|]. unfold nearest. lia. }
  assert (CH : forall z, (checked k z = EPanic <-> z < imin k \/ imax k < z) /\ (imin k <= z <= imax k -> checked k z = EOk (mk z))).
  { intros z. unfold checked. rewrite M. destruct (Z.leb_spec (imin k) z), (Z.leb_spec z (imax k)); cbn [andb]; (split; [split; (discriminate || lia || reflexivity)|intros; try lia; reflexivity]). }
  cbn [In] in O. destruct O as [<-|[<-|[<-|[<-|[<-|[]]]]]]; cbn [int_arith int_fault int_result].
  - destruct (SAT (a + b)) as (r & -> & H). split; [split; [discriminate|intros []]|]. eauto.
  - destruct (SAT (a - b)) as (r & -> & H). split; [split; [discriminate|intros []]|]. eauto.
  - destruct (CH (a * b)) as [C1 C2]. split; [exact C1|]. intros N. assert (imin k <= a * b <= imax k). { destruct (Z.lt_ge_cases (a * b) (imin k)), (Z.lt_ge_cases (imax k) (a * b)); try lia; exfalso; apply N, C1; auto. }
    eexists; split; [apply C2; auto|]. auto.
  - destruct (Z.eqb_spec b 0) as [->|B]; [split; [split; [auto|reflexivity]|congruence]|].
    destruct (CH (Z.quot a b)) as [C1 C2].
    assert (D : (a = imin k /\ b = -1 /\ imin k < 0) \/ ~ (a = imin k /\ b = -1 /\ imin k < 0)) by lia.
    destruct D as [D|D].
    + assert (P : checked k (Z.quot a b) = EPanic). { apply C1. destruct D as (-> & -> & S). change (-1) with (- (1)). rewrite Z.quot_opp_r, Z.quot_1_r by lia. right. destruct (isigned k) eqn:SG; [rewrite (F3 eq_refl) in *; lia|]. rewrite (F4 eq_refl) in *; lia. }
      rewrite P. split; [split; auto|congruence].
    + pose proof (quot_range k a b B RA RB D) as Q. rewrite (C2 Q). split; [split; [discriminate|intros [?|?]; tauto]|]. intros _. eexists. split; [reflexivity|]. split; [|exact Q].
      exists (Z.rem a b). apply quot_spec; auto.
  - destruct (Z.eqb_spec b 0) as [->|B]; [split; [split; [auto|reflexivity]|congruence]|].
    destruct ((a =? imin k) && (b =? -1) && isigned k) eqn:G.
    + rewrite !andb_true_iff in G. destruct G as [[G1 G2] G3]. apply Z.eqb_eq in G1, G2. rewrite G3 in F5. symmetry in F5. apply Z.ltb_lt in F5. split; [split; auto|congruence].
    + assert (D : ~ (a = imin k /\ b = -1 /\ imin k < 0)). { intros (-> & -> & S). rewrite Z.eqb_refl in G. rewrite F5 in G. apply Z.ltb_lt in S. rewrite S in G. discriminate G. }
      destruct (CH (Z.rem a b)) as [C1 C2]. pose proof (rem_range k a b B RA RB) as Q. rewrite (C2 Q). split; [split; [discriminate|intros [?|?]; tauto]|]. intros _. eexists. split; [reflexivity|]. split; [|exact Q].
      exists (Z.quot a b). apply quot_spec; auto.
Qed.
Print Assumptions C66_integers.
(** The specification determines the result. *)
Lemma int_result_unique : forall op lo hi a b r r', lo <= hi -> int_result op lo hi a b r -> int_result op lo hi a b r' -> r = r'.
Proof.
  intros op lo hi a b r r' L H H'. destruct op; try (destruct H; fail); cbn in H, H'.
  - unfold nearest in *. lia.
  - unfold nearest in *. lia.
  - congruence.
  - destruct H as [m H], H' as [m' H']. destruct (quot_unique _ _ _ _ _ _ H H'); auto.
  - destruct H as [m H], H' as [m' H']. destruct (quot_unique _ _ _ _ _ _ H H'); auto.
Qed.
Example ex_integers : forall E, bin_value E ODiv (I32 (-7)) (I32 2) = EOk (I32 (-3)) /\ bin_value E OMod (I32 (-7)) (I32 2) = EOk (I32 (-1)) /\
  bin_value E OAdd (U8 200) (U8 100) = EOk (U8 255) /\ bin_value E ODiv (I8 (-128)) (I8 (-1)) = EPanic /\ bin_value E OSub (U8 3) (U8 5) = EOk (U8 0).
Proof. intros E. vm_compute. auto. Qed.

(** Boolean operators and comparisons. *)
Theorem C66_booleans : forall E op a b, In op [OAnd; OOr; OXor] ->
  exists r, bin_value E op (VBool a) (VBool b) = EOk (VBool r) /\
    (r = true <-> match op with OAnd => a = true /\ b = true | OOr => a = true \/ b = true | _ => a <> b end).
Proof. intros E op a b O. cbn in O. destruct O as [<-|[<-|[<-|[]]]]; destruct a, b; eexists; (split; [reflexivity|]); cbn; intuition congruence. Qed.
Print Assumptions C66_booleans.
Theorem C66_compare : forall E op t mk lo hi a b, In (t, mk, lo, hi) ints -> In op [OEq; ONeq; OLt; OLeq; OGt; OGeq] ->
  exists r, bin_value E op (mk a) (mk b) = EOk (VBool r) /\
    (r = true <-> match op with OEq => a = b | ONeq => a <> b | OLt => a < b | OLeq => a <= b | OGt => b < a | _ => b <= a end).
Proof.
  intros E op t mk lo hi a b I O. destruct (ints_kind _ _ _ _ I) as (k & K & M & -> & ->). rewrite !M.
  assert (C : vcmp (of_int k a) (of_int k b) = Z.compare a b) by (destruct k; reflexivity).
  assert (S : same_variant (of_int k a) (of_int k b) = true) by (destruct k; reflexivity).
  assert (Q : eq_able (of_int k a) = true) by (destruct k; reflexivity). assert (L : lt_able (of_int k a) = true) by (destruct k; reflexivity).
  cbn [In] in O. destruct O as [<-|[<-|[<-|[<-|[<-|[<-|[]]]]]]]; cbn [bin_value cmp_op]; unfold veqb; rewrite S, ?Q, ?L, C; cbn [andb]; eexists; (split; [reflexivity|]);
    destruct (Z.compare_spec a b); cbn; split; intros; (lia || congruence || reflexivity || discriminate).
Qed.
Print Assumptions C66_compare.

(** ** Typed operators *)
Lemma number_kind a : number_type a <-> (exists k, kind_of a = Some k) \/ In a float_types.
Proof. unfold number_type. destruct a; cbn; intuition (try discriminate; eauto); destruct H0; discriminate. Qed.
Lemma is_a_type v t : is_a v t -> val_type v = t.
Proof.
  intros H. destruct (kind_of t) as [k|] eqn:K; [apply (is_int _ k) in H; auto; destruct H as (z & -> & _); destruct t; try discriminate K; injection K as <-; reflexivity|].
  destruct t; try discriminate K; cbn in H; try (destruct H as [x ->]; reflexivity). destruct H.
Qed.
Lemma same_type v w t : is_a v t -> is_a w t -> same_variant v w = true /\ eq_able v = true.
Proof.
  intros H H'. destruct (kind_of t) as [k|] eqn:K.
  - apply (is_int _ k) in H, H'; auto. destruct H as (z & -> & _), H' as (z' & -> & _). destruct k; auto.
  - destruct t; try discriminate K; cbn in H, H'; try (destruct H as [x ->], H' as [y ->]; auto). destruct H.
Qed.
Lemma ordered_type v t : is_a v t -> number_type t \/ t = TDuration \/ t = TDateTime -> lt_able v = true.
Proof.
  intros H D. destruct (kind_of t) as [k|] eqn:K.
  - apply (is_int _ k) in H; auto. destruct H as (z & -> & _). destruct k; auto.
  - rewrite number_kind, K in D. destruct t; try discriminate K; cbn in H; try (destruct H as [x ->]); auto; try (destruct H); exfalso; cbn in D; repeat (destruct D as [D|D]); try discriminate D; try destruct D; discriminate.
Qed.

(** An operator applied to values of accepted types gives a value of the type of the
    result, or nothing (floats: not a number), or panics on operands that have no
    result.  Not covered: the remainder of floats. *)
Theorem C66_binary_partial : forall E op a b e v w, time_typed E -> bin_typed op a b e -> ~ mod_float op a -> is_a v a -> is_a w b ->
  match bin_value E op v w with
  | EOk r => is_a r e
  | ENone => In a float_types \/ a = TDateTime \/ a = TDuration \/ b = TDuration
  | EPanic => faults E op v w
  end.
Proof.
  intros E op a b e v w TT B NM V W.
  assert (CMP : b = a /\ e = TBool -> In op [OEq; ONeq] \/ (number_type a \/ a = TDuration \/ a = TDateTime) /\ In op [OLt; OLeq; OGt; OGeq] ->
     match cmp_op op v w with EOk r => is_a r e | ENone => In a float_types \/ a = TDateTime \/ a = TDuration \/ b = TDuration | EPanic => faults E op v w end).
  { intros [-> ->] O. destruct (same_type _ _ _ V W) as [S Q]. destruct O as [O|[D O]].
    - destruct O as [<-|[<-|[]]]; cbn [cmp_op]; rewrite S, Q; cbn; eauto.
    - pose proof (ordered_type _ _ V D) as L. destruct O as [<-|[<-|[<-|[<-|[]]]]]; cbn [cmp_op]; rewrite S, L; cbn; eauto. }
  assert (TIME : is_arith op = true -> (a = TDateTime \/ a = TDuration) \/ b = TDuration -> arith E op v w = e_time E op v w ->
     match arith E op v w with EOk r => is_a r e | ENone => In a float_types \/ a = TDateTime \/ a = TDuration \/ b = TDuration | EPanic => faults E op v w end).
  { intros O D ->. destruct (e_time E op v w) eqn:R; [eapply TT; eauto; tauto|tauto|]. right. split; auto.
    destruct D as [[D|D]|D]; subst; auto. }
  assert (NUM : is_arith op = true -> number_type a /\ b = a /\ e = a -> match arith E op v w with EOk r => is_a r e | ENone => In a float_types \/ a = TDateTime \/ a = TDuration \/ b = TDuration | EPanic => faults E op v w end).
  { intros O (N & -> & ->). apply number_kind in N. destruct N as [[k K]|F].
    - pose proof (kind_ints _ _ K) as I. apply (is_int _ _ _ K) in V, W. destruct V as (x & -> & RX), W as (y & -> & RY).
      destruct (C66_integers E op a (of_int k) (imin k) (imax k) x y I) as [P R]; auto; [destruct op; try discriminate O; cbn; tauto|].
      rewrite bin_int in P, R by exact O. rewrite arith_int. destruct (int_arith op k x y) as [r| |] eqn:Q.
      + destruct R as (r' & R1 & _ & R2); [discriminate|]. injection R1 as ->. apply (is_int _ _ _ K). eauto.
      + destruct R as (r' & R1 & _ & R2); [discriminate|]. discriminate R1.
      + left. exists a, (of_int k), (imin k), (imax k), x, y. repeat split; auto. apply P; auto.
    - assert (NO : op <> OMod) by (intros ->; apply NM; split; auto).
      destruct F as [<-|[<-|[]]]; cbn in V, W; destruct V as [x ->], W as [y ->]; cbn [arith as_int]; destruct op; try discriminate O; try congruence;
        destruct (e_float E _ x y); cbn; eauto. }
  destruct op; cbn [bin_typed] in B; cbn [bin_value].
  - destruct B as [B|B]; [apply NUM; auto|]. cbn [In] in B.
    repeat (destruct B as [B|B]; [injection B as <- <- <-; cbn in V, W; try (destruct V; fail); try (destruct W; fail); destruct V as [x ->], W as [y ->]; ((cbn; eauto; fail) || (apply TIME; auto))|]). destruct B.
  - destruct B as [B|B]; [apply NUM; auto|]. cbn [In] in B.
    repeat (destruct B as [B|B]; [injection B as <- <- <-; cbn in V, W; try (destruct V; fail); try (destruct W; fail); destruct V as [x ->], W as [y ->]; apply TIME; auto|]). destruct B.
  - destruct B as [B|B]; [apply NUM; auto|]. cbn [In] in B.
    destruct B as [B|[B|B]]; [injection B as <- <- <-; destruct V as [x ->]; apply (is_int TI32 KI32) in W; auto; destruct W as (y & -> & R); apply TIME; auto
      |injection B as <- <- <-; destruct W as [x ->]; apply (is_int TI32 KI32) in V; auto; destruct V as (y & -> & R); apply TIME; auto|].
    repeat (destruct B as [B|B]; [injection B as <- <- <-; cbn in V, W; try (destruct V; fail); try (destruct W; fail)|]). destruct B.
  - destruct B as [B|B]; [apply NUM; auto|]. injection B as -> -> ->. destruct V as [x ->]; apply (is_int TI32 KI32) in W; auto; destruct W as (y & -> & R); apply TIME; auto.
  - apply NUM; auto.
  - destruct B as (-> & -> & ->). destruct V as [x ->], W as [y ->]. cbn; eauto.
  - destruct B as (-> & -> & ->). destruct V as [x ->], W as [y ->]. cbn; eauto.
  - destruct B as (-> & -> & ->). destruct V as [x ->], W as [y ->]. cbn; eauto.
  - apply CMP; [tauto|]. cbn; tauto.
  - apply CMP; [tauto|]. cbn; tauto.
  - apply CMP; [tauto|]. cbn; tauto.
  - apply CMP; [tauto|]. cbn; tauto.
  - apply CMP; [tauto|]. cbn; tauto.
  - apply CMP; [tauto|]. cbn; tauto.
Qed.
Print Assumptions C66_binary_partial.
(** The remainder of two floats is accepted, and panics. *)
Theorem C66_mod_refuted : exists a b e v w, bin_typed OMod a b e /\ is_a v a /\ is_a w b /\
  forall E, bin_value E OMod v w = EPanic /\ ~ faults E OMod v w.
Proof.
  exists TF64, TF64, TF64, (F64 7), (F64 2). split; [cbn; unfold number_type; cbn; tauto|]. split; [cbn; eauto|]. split; [cbn; eauto|].
  intros E. split; [reflexivity|]. intros [(t & mk & lo & hi & a & b & I & H & _)|[_ [[[? H]|[? H]]|[? H]]]]; try discriminate H.
  destruct (ints_kind _ _ _ _ I) as (k & _ & M & _). rewrite M in H. destruct k; discriminate H.
Qed.
Print Assumptions C66_mod_refuted.

(** ** Casts *)
Lemma wrap_congruent k z : congruent (imin k) (imax k) z (wrap k z).
Proof.
  destruct (range_facts k) as (F1 & F2 & F3 & F4 & F5 & F6). unfold congruent, wrap. rewrite F6.
  assert (P : 0 < 2 ^ ibits k) by lia.
  pose proof (Z.mod_pos_bound z (2 ^ ibits k) P) as MB. pose proof (Z.div_mod z (2 ^ ibits k)) as DM.
  assert (HALF : isigned k = true -> 2 ^ (ibits k - 1) = imax k + 1) by (destruct k; intros S; try discriminate S; reflexivity).
  destruct (isigned k) eqn:S; cbn [andb].
  - specialize (HALF eq_refl). specialize (F3 eq_refl). rewrite HALF. destruct (Z.leb_spec (imax k + 1) (z mod 2 ^ ibits k)).
    + split; [lia|]. exists (z / 2 ^ ibits k + 1). lia.
    + split; [lia|]. exists (z / 2 ^ ibits k). lia.
  - specialize (F4 eq_refl). split; [lia|]. exists (z / 2 ^ ibits k). lia.
Qed.
Lemma congruent_unique lo hi z r r' : lo <= hi -> congruent lo hi z r -> congruent lo hi z r' -> r = r'.
Proof. intros L (R & k & E) (R' & k' & E'). assert (k = k') by nia. subst. lia. Qed.
Lemma wrap_in k z : imin k <= z <= imax k -> wrap k z = z.
Proof. intros R. apply (congruent_unique (imin k) (imax k) z); [lia|apply wrap_congruent|]. split; auto. exists 0. lia. Qed.
Lemma parse_in k s z : parse_int k s = Some z -> imin k <= z <= imax k.
Proof.
  unfold parse_int. set (r := match s with EmptyString => _ | String _ _ => _ end). clearbody r. intros H. destruct r as [y|]; [|discriminate H].
  destruct (Z.leb_spec (imin k) y), (Z.leb_spec y (imax k)); cbn [andb] in H; try discriminate H. injection H as <-. lia.
Qed.

Definition digit_of (a : value) : Prop := exists c, a = VChar c /\ 48 <= c <= 57.
(** A cast gives a value of its target; it panics exactly if it is not implemented (or if
    a symbol is not registered); casts between integers keep the number modulo the size
    of the target. *)
Theorem C66_cast : forall c a t v, is_a v a ->
  (forall w, cast c t v = EOk w -> is_a w t) /\
  (cast c t v = EPanic <-> ~ castable a t \/ t = TString /\ exists i, v = VSymbol i /\ cv_symbol c i = None) /\
  (forall ta mk lo hi ta' mk' lo' hi' z, In (ta, mk, lo, hi) ints -> v = mk z -> In (ta', mk', lo', hi') ints -> t = ta' -> castable a t ->
     exists r, cast c t v = EOk (mk' r) /\ congruent lo' hi' z r).
Proof.
  intros c a t v V.
  assert (NUM : forall (i : ikind -> ev Z) f, (forall k z, i k = EOk z -> imin k <= z <= imax k) ->
     (forall k, i k <> EPanic) -> (forall b, f b <> EPanic) ->
     (forall w, to_number c t i f = EOk w -> is_a w t) /\ (to_number c t i f = EPanic <-> ~ number_type t)).
  { intros i f R NI NF. unfold to_number. rewrite number_kind. destruct (kind_of t) as [k|] eqn:K.
    - destruct (i k) as [z| |] eqn:I; cbn [ebind]; [|split; [discriminate|split; [discriminate|intros H; destruct H; eauto]]|destruct (NI _ I)].
      split; [intros w [= <-]; apply (is_int _ _ _ K); eauto|]. split; [discriminate|intros H; destruct H; eauto].
    - destruct t; try discriminate K;
        try (split; [discriminate|split; [intros _ [[? H]|H]; [discriminate H|cbn in H; intuition discriminate]|reflexivity]]).
      + specialize (NF false). destruct (f false); cbn; (split; [intros w H; try discriminate H; injection H as <-; eauto|]); split; try discriminate; try congruence; intros H; destruct H; cbn; auto.
      + specialize (NF true). destruct (f true); cbn; (split; [intros w H; try discriminate H; injection H as <-; eauto|]); split; try discriminate; try congruence; intros H; destruct H; cbn; auto. }
  assert (N0 : forall (A B : Type) (o : option A) (g : A -> B), some_or o g <> EPanic) by (intros A B [x|] g; discriminate).
  assert (TS : forall b, In b signed_types \/ In b unsigned_types \/ In b float_types -> b <> TString) by (intros b H ->; cbn in H; intuition discriminate).
  assert (C3 : forall ta mk lo hi ta' mk' lo' hi' z, In (ta, mk, lo, hi) ints -> v = mk z -> In (ta', mk', lo', hi') ints -> t = ta' -> castable a t ->
     exists r, cast c t v = EOk (mk' r) /\ congruent lo' hi' z r).
  { intros ta mk lo hi ta' mk' lo' hi' z I -> I' -> CA. destruct (ints_kind _ _ _ _ I) as (k & K & M & -> & ->). destruct (ints_kind _ _ _ _ I') as (k' & K' & M' & -> & ->).
    rewrite M in V |- *. pose proof (is_a_type _ _ V) as T. assert (NT : ta' <> TString) by (intros ->; discriminate K').
    assert (A : a = TI8 \/ a = TI32 \/ a = TUSize). { destruct CA as [[CA _]|[[-> _]|[[-> _]|[? _]]]]; [|destruct k; discriminate T|destruct k; discriminate T|contradiction]. cbn in CA. destruct CA as [<-|[<-|[<-|[<-|[<-|[]]]]]]; auto; destruct k; discriminate T. }
    exists (wrap k' z). rewrite M'. split; [|apply wrap_congruent].
    assert (CT : cast c ta' (of_int k z) = to_number c ta' (fun k => EOk (wrap k z)) (fun w => EOk (cv_float c w z))) by (destruct A as [-> | [-> | -> ]]; destruct k; try discriminate T; destruct ta'; try reflexivity; congruence).
    rewrite CT. unfold to_number. rewrite K'. reflexivity. }
  split; [|split; [|exact C3]]; clear C3.
  - intros w H. destruct (vtype_eq_dec t TString) as [->|NT].
    + cbn [cast] in H. destruct v; cbn [as_int] in H; try discriminate H; try (injection H as <-; cbn; eauto; fail). destruct (cv_symbol c z); [|discriminate H]. injection H as <-. cbn; eauto.
    + destruct v; cbn [cast] in H; try (destruct t; try congruence; discriminate H);
        try (assert (H' : to_number c t (fun k => EOk (wrap k z)) (fun w => EOk (cv_float c w z)) = EOk w) by (destruct t; auto; congruence); clear H;
             refine (proj1 (NUM _ _ _ _ _) w H'); [intros k y [= <-]; apply wrap_congruent|discriminate|discriminate]).
      * destruct t; try discriminate H; try congruence. injection H as <-. cbn; eauto.
      * destruct t; try discriminate H; try congruence. injection H as <-. cbn; eauto.
      * assert (H' : to_number c t (fun k => some_or (to_digit c0) (wrap k)) (fun w => some_or (cv_parse c w (cv_char c c0)) (fun f => f)) = EOk w) by (destruct t; auto; congruence). clear H.
        refine (proj1 (NUM _ _ _ _ _) w H'); [intros k y; cbn beta|intros; apply N0|intros; apply N0]. destruct (to_digit c0); cbn [some_or]; intros HH; [|discriminate HH]. injection HH as <-. apply wrap_congruent.
      * assert (H' : to_number c t (fun k => some_or (parse_int k s) (fun z => z)) (fun w => some_or (cv_parse c w s) (fun f => f)) = EOk w) by (destruct t; auto; congruence). clear H.
        refine (proj1 (NUM _ _ _ _ _) w H'); [intros k y; cbn beta|intros; apply N0|intros; apply N0]. destruct (parse_int k s) eqn:P; cbn [some_or]; intros HH; [|discriminate HH]. injection HH as <-. eapply parse_in; eauto.
  - pose proof (is_a_type _ _ V) as T. destruct (vtype_eq_dec t TString) as [->|NT].
    + assert (CS : castable a TString <-> a <> TDateTime /\ a <> TDuration /\ a <> TEntity /\ a <> TTensor).
      { unfold castable. split.
        - intros [[_ H]|[[_ H]|[[_ H]|[_ H]]]]; try discriminate H; [destruct (TS _ H); reflexivity|]. unfold number_type in H. cbn in H. repeat split; intros ->; intuition discriminate.
        - intros H. right; right; right. split; auto. unfold number_type. cbn. destruct a; try tauto; exfalso; intuition congruence. }
      rewrite CS. clear CS TS NUM. cbn [val_type] in T. destruct v; cbn in T; subst a; cbn [cast as_int];
        try (split; [discriminate|intros [H|(_ & i & H & _)]; [destruct H; repeat split; discriminate|discriminate H]]);
        try (split; [intros _; left; intros H; repeat (destruct H as [? H]; try congruence); congruence|reflexivity]).
      * destruct (cv_symbol c z) eqn:SY; (split; [intros H|intros [H|(_ & i & H & H')]]); try discriminate H; try reflexivity; try (destruct H; repeat split; discriminate); eauto. injection H as <-. congruence.
      * destruct V as [? V]; discriminate V.
    + assert (CS : castable a t <-> In a [TI8; TI32; TUSize; TChar; TString] /\ number_type t \/ a = TF32 /\ t = TF64 \/ a = TF64 /\ t = TF32) by (unfold castable; tauto).
      assert (Q : ~ castable a t \/ t = TString /\ (exists i, v = VSymbol i /\ cv_symbol c i = None) <-> ~ castable a t) by tauto. rewrite Q, CS. clear Q CS.
      assert (NC : ~ In a [TI8; TI32; TUSize; TChar; TString] -> a <> TF32 -> a <> TF64 ->
                   (EPanic = EPanic :> ev value <-> ~ (In a [TI8; TI32; TUSize; TChar; TString] /\ number_type t \/ a = TF32 /\ t = TF64 \/ a = TF64 /\ t = TF32))) by tauto.
      assert (YC : forall x, In a [TI8; TI32; TUSize; TChar; TString] -> (x = EPanic :> ev value <-> ~ number_type t) ->
                   (x = EPanic <-> ~ (In a [TI8; TI32; TUSize; TChar; TString] /\ number_type t \/ a = TF32 /\ t = TF64 \/ a = TF64 /\ t = TF32))).
      { intros x I ->. split; [|tauto]. intros N [[_ H]|[[-> _] | [-> _]]]; [auto|cbn in I; intuition discriminate|cbn in I; intuition discriminate]. }
      assert (CT : cast c t v = match v with
        | I8 z | I32 z | USize z => to_number c t (fun k => EOk (wrap k z)) (fun w => EOk (cv_float c w z))
        | VChar x => to_number c t (fun k => some_or (to_digit x) (wrap k)) (fun w => some_or (cv_parse c w (cv_char c x)) (fun f => f))
        | VString s => to_number c t (fun k => some_or (parse_int k s) (fun z => z)) (fun w => some_or (cv_parse c w s) (fun f => f))
        | F32 f => match t with TF64 => EOk (F64 (cv_round c true f)) | _ => EPanic end
        | F64 f => match t with TF32 => EOk (F32 (cv_round c false f)) | _ => EPanic end
        | _ => EPanic end) by (destruct t; auto; congruence). rewrite CT. clear CT.
      destruct v; cbn in T; subst a;
        try (apply NC; [cbn; intuition discriminate|discriminate|discriminate]);
        try (apply YC; [cbn; tauto|]; apply NUM; [intros k y [= <-]; apply wrap_congruent|discriminate|discriminate]).
      * clear. destruct t; (split; [try discriminate; intros _|try reflexivity; intros H]); [..|cbn in *]; try (intros [[H _]|[[_ H]|[H _]]]; [cbn in H; intuition discriminate|discriminate H|discriminate H]). destruct H. auto.
      * clear. destruct t; (split; [try discriminate; intros _|try reflexivity; intros H]); try (intros [[H _]|[[H _]|[_ H]]]; [cbn in H; intuition discriminate|discriminate H|discriminate H]). destruct H. auto.
      * apply YC; [cbn; tauto|]; apply NUM; [intros k y; cbn beta|intros; apply N0|intros; apply N0]. destruct (to_digit c0); cbn [some_or]; intros HH; [|discriminate HH]. injection HH as <-. apply wrap_congruent.
      * apply YC; [cbn; tauto|]; apply NUM; [intros k y; cbn beta|intros; apply N0|intros; apply N0]. destruct (parse_int k s) eqn:P; cbn [some_or]; intros HH; [|discriminate HH]. injection HH as <-. eapply parse_in; eauto.
Qed.
Print Assumptions C66_cast.
Example ex_cast : forall c, cast c TU8 (I32 300) = EOk (U8 44) /\ cast c TI8 (I32 200) = EOk (I8 (-56)) /\ cast c TI16 (VString "-12") = EOk (I16 (-12)) /\
  cast c TU16 (VString "-12") = ENone /\ cast c TU8 (VString "256") = ENone /\ cast c TU8 (VString "+7") = EOk (U8 7) /\ cast c TU8 (VString "") = ENone /\ cast c TU8 (VString "+-7") = ENone /\
  cast c TString (I64 (-90)) = EOk (VString "-90") /\ cast c TI32 (I16 5) = EPanic.
Proof. intros c. vm_compute. repeat split. Qed.

(** The text of an integer is parsed back to the integer. *)
Lemma digits_show u : u <> Nil -> digits (NilZero.string_of_uint u) = Some (Z.of_uint u).
Proof. intros N. unfold digits. rewrite NilZero.usu by exact N. reflexivity. Qed.
Lemma to_int_shape z : match Z.to_int z with Pos u => u <> Nil /\ z = Z.of_uint u | Neg u => u <> Nil /\ z < 0 /\ z = - Z.of_uint u end.
Proof.
  pose proof (DecimalZ.of_to z) as O. destruct z as [|p|p]; cbn [Z.to_int] in *.
  - split; [discriminate|]. reflexivity.
  - split; [apply DecimalPos.Unsigned.to_uint_nonnil|]. symmetry; exact O.
  - split; [apply DecimalPos.Unsigned.to_uint_nonnil|]. split; [reflexivity|]. symmetry; exact O.
Qed.
Lemma first_digit u : u <> Nil -> match NilZero.string_of_uint u with String "+"%char _ | String "-"%char _ | EmptyString => False | _ => True end.
Proof. destruct u; intros N; try congruence; exact I. Qed.
Lemma parse_show k z : imin k <= z <= imax k -> parse_int k (show_int z) = Some z.
Proof.
  intros R. unfold parse_int, show_int. pose proof (to_int_shape z) as S. destruct (Z.to_int z) as [u|u]; [destruct S as [N ->]|destruct S as (N & NEG & ->)]; cbn [NilZero.string_of_int].
  - pose proof (first_digit u N) as F. pose proof (digits_show u N) as D.
    assert (E : (match NilZero.string_of_uint u with String "+"%char r => digits r | String "-"%char r => if isigned k then option_map Z.opp (digits r) else None | _ => digits (NilZero.string_of_uint u) end) = Some (Z.of_uint u)).
    { rewrite <- D. destruct (NilZero.string_of_uint u) as [|x r]; [destruct F|]. destruct x as [[] [] [] [] [] [] [] []]; try reflexivity; destruct F. }
    rewrite E. destruct (Z.leb_spec (imin k) (Z.of_uint u)), (Z.leb_spec (Z.of_uint u) (imax k)); try lia. reflexivity.
  - cbn [isigned]. rewrite (digits_show u N). cbn [option_map]. destruct (range_facts k) as (_ & _ & _ & F4 & _). destruct (isigned k) eqn:S.
    + destruct (Z.leb_spec (imin k) (- Z.of_uint u)), (Z.leb_spec (- Z.of_uint u) (imax k)); try lia. reflexivity.
    + exfalso. specialize (F4 eq_refl). lia.
Qed.
Theorem C66_text_roundtrip : forall c t mk lo hi z, In (t, mk, lo, hi) ints -> lo <= z <= hi ->
  exists s, cast c TString (mk z) = EOk (VString s) /\ cast c t (VString s) = EOk (mk z).
Proof.
  intros c t mk lo hi z I R. destruct (ints_kind _ _ _ _ I) as (k & K & M & -> & ->). exists (show_int z). rewrite M. split; [destruct k; reflexivity|].
  assert (C : cast c t (VString (show_int z)) = to_number c t (fun k => some_or (parse_int k (show_int z)) (fun z => z)) (fun w => some_or (cv_parse c w (show_int z)) (fun f => f))) by (destruct t; try reflexivity; discriminate K).
  rewrite C. unfold to_number. rewrite K, parse_show by auto. reflexivity.
Qed.
Print Assumptions C66_text_roundtrip.

(** The texts of booleans; characters that are digits are cast to these digits. *)
Theorem C66_texts : forall c, cast c TString (VBool true) = EOk (VString "true") /\ cast c TString (VBool false) = EOk (VString "false") /\
  forall t mk lo hi, In (t, mk, lo, hi) ints -> (forall d, 0 <= d <= 9 -> cast c t (VChar (48 + d)) = EOk (mk d)) /\
    (forall a, ~ 48 <= a <= 57 -> cast c t (VChar a) = ENone).
Proof.
  intros c. split; [reflexivity|]. split; [reflexivity|]. intros t mk lo hi I. destruct (ints_kind _ _ _ _ I) as (k & K & M & _).
  assert (C : forall a, cast c t (VChar a) = to_number c t (fun k => some_or (to_digit a) (wrap k)) (fun w => some_or (cv_parse c w (cv_char c a)) (fun f => f))) by (intros a; destruct t; try reflexivity; discriminate K).
  split; intros d R; rewrite C; unfold to_number; rewrite K; unfold to_digit.
  - destruct (Z.leb_spec 48 (48 + d)); [|lia]. destruct (Z.leb_spec (48 + d) 57); [|lia]. cbn [andb some_or ebind]. replace (48 + d - 48) with d by lia. rewrite <- M. do 2 f_equal.
    assert (D : d = 0 \/ d = 1 \/ d = 2 \/ d = 3 \/ d = 4 \/ d = 5 \/ d = 6 \/ d = 7 \/ d = 8 \/ d = 9) by lia. destruct k; repeat (destruct D as [-> | D]; [reflexivity|]); subst; reflexivity.
  - destruct (Z.leb_spec 48 d), (Z.leb_spec d 57); try reflexivity. lia.
Qed.
Print Assumptions C66_texts.

(** ** Unary operators *)
Definition casts (E : renv) (c : conv) : Prop := forall t v, e_cast E (vt_code t) v = cast c t v.
(** Negation gives the opposite number, except of the least one, where it panics. *)
Theorem C66_negate : forall E t mk lo hi z, In (t, mk, lo, hi) ints -> In t signed_types -> lo <= z <= hi ->
  (z <> lo -> un_value E UNeg (mk z) = EOk (mk (- z)) /\ lo <= - z <= hi) /\ (z = lo -> un_value E UNeg (mk z) = EPanic).
Proof.
  intros E t mk lo hi z I ST R. destruct (ints_kind _ _ _ _ I) as (k & K & M & -> & ->). rewrite !M.
  assert (S : isigned k = true) by (destruct t; try discriminate K; injection K as <-; auto; cbn in ST; intuition discriminate).
  destruct (range_facts k) as (F1 & F2 & F3 & F4 & F5 & _). specialize (F3 S).
  assert (U : un_value E UNeg (of_int k z) = checked k (- z)) by (destruct k; try discriminate S; reflexivity). rewrite U. unfold checked.
  split.
  - intros N. destruct (Z.leb_spec (imin k) (- z)), (Z.leb_spec (- z) (imax k)); try lia. split; [reflexivity|lia].
  - intros ->. destruct (Z.leb_spec (- imin k) (imax k)); [lia|]. rewrite andb_false_r. reflexivity.
Qed.
Print Assumptions C66_negate.
(** A unary operator applied to a value of an accepted type.  Not covered: the negation
    of unsigned integers, and casts that are not implemented. *)
Theorem C66_unary_partial : forall E c op a e v, casts E c -> un_typed op a e -> is_a v a ->
  (op = YNeg -> ~ In a unsigned_types) -> (forall t, op = YCast t -> castable a t) ->
  match un_value E (unop_of op) v with
  | EOk r => is_a r e
  | ENone => exists t, op = YCast t
  | EPanic => op = YNeg /\ (exists mk lo hi, In (a, mk, lo, hi) ints /\ v = mk lo) \/
              exists t i, op = YCast t /\ v = VSymbol i /\ cv_symbol c i = None
  end.
Proof.
  intros E c op a e v CE U V NU CA. destruct op as [| | |t]; cbn [un_typed] in U; cbn [unop_of].
  - destruct U as [N ->]. apply number_kind in N. destruct N as [[k K]|F].
    + assert (ST : In a signed_types). { specialize (NU eq_refl). destruct a; try discriminate K; cbn; cbn in NU; tauto. }
      pose proof (kind_ints _ _ K) as I. pose proof V as V0. apply (is_int _ _ _ K) in V. destruct V as (z & -> & R).
      destruct (C66_negate E a _ _ _ z I ST R) as [H1 H2]. destruct (Z.eq_dec z (imin k)) as [->|NE].
      * rewrite (H2 eq_refl). left. split; auto. exists (of_int k), (imin k), (imax k). auto.
      * destruct (H1 NE) as [-> Q]. apply (is_int _ _ _ K). eauto.
    + destruct F as [<-|[<-|[]]]; destruct V as [f ->]; cbn; eauto.
  - destruct U as [_ ->]. exact V.
  - destruct U as [-> ->]. destruct V as [b ->]. cbn; eauto.
  - destruct U as [-> _]. cbn [un_value]. rewrite CE. destruct (C66_cast c a t v V) as (C1 & C2 & _). destruct (cast c t v) eqn:Q; eauto.
    right. destruct C2 as [C2 _]. destruct (C2 eq_refl) as [H|(-> & i & -> & H)]; [destruct (H (CA _ eq_refl))|]. eauto.
Qed.
Print Assumptions C66_unary_partial.
(** The negation of an unsigned integer is accepted, and panics. *)
Theorem C66_negate_refuted : un_typed YNeg TU8 TU8 /\ is_a (U8 5) TU8 /\ forall E, un_value E UNeg (U8 5) = EPanic.
Proof.
  split; [cbn; unfold number_type; cbn; tauto|]. split; [|reflexivity]. apply (is_int TU8 KU8); [reflexivity|]. exists 5. split; [reflexivity|]. vm_compute. split; discriminate.
Qed.
Print Assumptions C66_negate_refuted.
(** Casts that are accepted and panic: from [i16] to [i32], and from a float to its own
    type. *)
Theorem C66_cast_refuted : cast_typed TI16 TI32 /\ cast_typed TF32 TF32 /\ cast_typed TBool TBool /\ cast_typed TDateTime TString /\
  forall c, cast c TI32 (I16 5) = EPanic /\ (forall f, cast c TF32 (F32 f) = EPanic) /\ (forall b, cast c TBool (VBool b) = EPanic) /\ (forall d, cast c TString (VDateTime d) = EPanic).
Proof. unfold cast_typed, number_type. cbn. repeat split; try tauto. Qed.
Print Assumptions C66_cast_refuted.

(** ** Constants *)
(** A constant whose type was inferred becomes a value of that type; an integer that fits
    becomes itself. *)
Theorem C66_constant : forall c k t, literal_type (content_kind k) t -> t <> TStr ->
  exists v, const_value c k t = Some v /\ is_a v t /\
    (forall z mk lo hi, k = CInt z -> In (t, mk, lo, hi) ints -> (lo <= z <= hi -> v = mk z) /\ exists r, v = mk r /\ congruent lo hi z r).
Proof.
  intros c k t L NS. destruct k as [z|f|x|b|s|s|z|z|z]; cbn [content_kind literal_type] in L.
  - destruct (kind_of t) as [k|] eqn:K.
    + exists (of_int k (wrap k z)). cbn [const_value]. rewrite K. split; [reflexivity|]. split; [apply (is_int _ _ _ K); exists (wrap k z); split; auto; apply wrap_congruent|].
      intros z' mk lo hi [= <-] I. destruct (ints_kind _ _ _ _ I) as (k' & K' & M & -> & ->). rewrite K in K'. injection K' as <-. rewrite M. split; [intros R; rewrite wrap_in by auto; reflexivity|].
      exists (wrap k z). split; [auto|apply wrap_congruent].
    + assert (F : In t float_types) by (destruct L as [L|[_ [L|L]]]; auto; destruct t; try discriminate K; cbn in L; intuition discriminate).
      destruct F as [<-|[<-|[]]]; cbn [const_value kind_of]; eexists; (split; [reflexivity|]); (split; [cbn; eauto|]); intros z' mk lo hi _ I; destruct (ints_kind _ _ _ _ I) as (k' & K' & _); discriminate K'.
  - destruct L as [<-|[<-|[]]]; cbn [const_value]; eexists; (split; [reflexivity|]); (split; [cbn; eauto|]); discriminate.
  - subst. eexists; (split; [reflexivity|]); (split; [cbn; eauto|]); discriminate.
  - subst. eexists; (split; [reflexivity|]); (split; [cbn; eauto|]); discriminate.
  - destruct L as [->| ->]; [|congruence]. eexists; (split; [reflexivity|]); (split; [cbn; eauto|]); discriminate.
  - subst. eexists; (split; [reflexivity|]); (split; [cbn; eauto|]); discriminate.
  - subst. eexists; (split; [reflexivity|]); (split; [cbn; eauto|]); discriminate.
  - subst. eexists; (split; [reflexivity|]); (split; [cbn; eauto|]); discriminate.
  - subst. eexists; (split; [reflexivity|]); (split; [cbn; eauto|]); discriminate.
Qed.
Print Assumptions C66_constant.
(** An accepted constant may become another number, and a string constant of type [&str]
    panics. *)
Theorem C66_constant_refuted : literal_type (content_kind (CInt 300)) TI8 /\ literal_type (content_kind (CString "a")) TStr /\
  forall c, const_value c (CInt 300) TI8 = Some (I8 44) /\ const_value c (CString "a") TStr = None.
Proof. cbn. repeat split; tauto. Qed.
Print Assumptions C66_constant_refuted.
