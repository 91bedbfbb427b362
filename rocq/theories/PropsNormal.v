(** C83: normalized elements are one distribution. *)
From Coq Require Import Reals List Lra.
From Verif Require Import Normal.
Import ListNotations.
Local Open Scope R_scope.
Set Implicit Arguments.

(** ** Specification *)
Definition rsum (l : list R) : R := fold_right Rplus 0 l.
(** The results: the tuples in their order with the probabilities [ps] and one exclusion. *)
Definition distributed (T : Type) (ts : list T) (ps : list R) (x : nat) (res : list (T * R * nat)) : Prop :=
  map (fun r => fst (fst r)) res = ts /\ map (fun r => snd (fst r)) res = ps /\ forall r, In r res -> snd r = x.

Lemma fold_rsum : forall (f : R -> R) l a, fold_left (fun acc v => acc + f v) l a = a + rsum (map f l).
Proof. induction l as [|v l IH]; simpl; intros a; [lra|]. rewrite IH. lra. Qed.
Lemma rsum_div : forall (f : R -> R) s l, rsum (map (fun v => f v / s) l) = rsum (map f l) / s.
Proof. induction l as [|v l IH]; simpl; [unfold Rdiv; ring|]. rewrite IH. unfold Rdiv. ring. Qed.
Lemma rsum_nonneg : forall l, (forall v, In v l -> 0 <= v) -> 0 <= rsum l /\ forall v, In v l -> v <= rsum l.
Proof.
  induction l as [|v l IH]; simpl; intros H; [split; [lra|easy]|]. destruct IH as [I1 I2]; auto. assert (Hv := H v (or_introl eq_refl)).
  split; [lra|]. intros w [<-|W]; [lra|]. specialize (I2 w W). lra.
Qed.
Lemma combine_dist : forall T (batch : list (T * R)) ps x, length ps = length batch ->
  distributed (map fst batch) ps x (map (fun ep => (fst (fst ep), snd ep, x)) (combine batch ps)).
Proof.
  unfold distributed. induction batch as [|b batch IH]; intros [|p ps] x L; simpl in *; try discriminate; auto.
  - repeat split; auto. easy.
  - injection L as L. destruct (IH ps x L) as (A & B & C). rewrite A, B. repeat split; auto. intros r [<-|I]; auto.
Qed.

Section C83.
  Variable T : Type.
  (** Every weight is divided by their sum: the new probabilities are one distribution and have
      the proportions of the weights. *)
  Theorem C83_normalize : forall next (batch : list (T * R)), (forall e, In e batch -> 0 <= snd e) -> 0 < rsum (map snd batch) ->
    exists ps, distributed (map fst batch) ps next (fst (normalize_agg false next batch)) /\
      snd (normalize_agg false next batch) = S next /\ rsum ps = 1 /\ (forall p, In p ps -> 0 <= p <= 1) /\
      exists c, 0 < c /\ ps = map (fun e => c * snd e) batch.
  Proof.
    intros next batch H Pos. unfold normalize_agg, normalize. rewrite (fold_rsum (fun v => v)), Rplus_0_l, map_id.
    set (s := rsum (map snd batch)) in *. exists (map (fun v => v / s) (map snd batch)). split; [|split; [auto|split; [|split]]].
    - apply combine_dist. rewrite !map_length. auto.
    - rewrite (rsum_div (fun v => v)), map_id. fold s. field. lra.
    - intros p I. apply in_map_iff in I as (v & <- & I). destruct (@rsum_nonneg (map snd batch)) as [_ X].
      { intros w W. apply in_map_iff in W as (e & <- & W). auto. }
      assert (0 <= v) by (apply in_map_iff in I as (e & <- & I); auto). specialize (X v I). fold s in X. split.
      + apply Rmult_le_pos; auto. left. apply Rinv_0_lt_compat. auto.
      + apply Rmult_le_reg_r with s; auto. unfold Rdiv. rewrite Rmult_assoc, Rinv_l; lra.
    - exists (/ s). split; [apply Rinv_0_lt_compat; auto|]. rewrite map_map. apply map_ext. intros e. unfold Rdiv. ring.
  Qed.
  (** Softmax: one distribution of positive probabilities in the order of the weights. *)
  Theorem C83_softmax : forall next (batch : list (T * R)), batch <> [] ->
    exists ps, distributed (map fst batch) ps next (fst (normalize_agg true next batch)) /\
      snd (normalize_agg true next batch) = S next /\ rsum ps = 1 /\ (forall p, In p ps -> 0 < p <= 1) /\
      exists f : R -> R, ps = map (fun e => f (snd e)) batch /\ (forall v w, v < w -> f v < f w) /\ forall v w, f v / f w = exp (v - w).
  Proof.
    intros next batch Ne. unfold normalize_agg, softmax. rewrite (fold_rsum exp), Rplus_0_l.
    set (s := rsum (map exp (map snd batch))).
    destruct (@rsum_nonneg (map exp (map snd batch))) as [_ X].
    { intros w W. apply in_map_iff in W as (e & <- & W). left. apply exp_pos. }
    fold s in X. assert (Pos : 0 < s).
    { destruct batch as [|b batch]; [congruence|]. specialize (X (exp (snd b)) (or_introl eq_refl)). assert (0 < exp (snd b)) by apply exp_pos. lra. }
    assert (Inv : 0 < / s) by (apply Rinv_0_lt_compat; auto).
    exists (map (fun v => exp v / s) (map snd batch)). split; [|split; [auto|split; [|split]]].
    - apply combine_dist. rewrite !map_length. auto.
    - rewrite (rsum_div exp). fold s. field. lra.
    - intros p I. apply in_map_iff in I as (v & <- & I). assert (0 < exp v) by apply exp_pos. split.
      + apply Rmult_lt_0_compat; auto.
      + apply Rmult_le_reg_r with s; auto. unfold Rdiv. rewrite Rmult_assoc, Rinv_l by lra. rewrite Rmult_1_r, Rmult_1_l. apply X. apply in_map; auto.
    - exists (fun v => exp v / s). split; [apply map_map|]. split.
      + intros v w L. apply Rmult_lt_compat_r; auto. apply exp_increasing. auto.
      + intros v w. unfold Rminus. rewrite exp_plus, exp_Ropp. assert (0 < exp w) by apply exp_pos. field. split; lra.
  Qed.
End C83.
Example C83_normalize_ex : fst (normalize_agg false 5 [(1%nat, 1); (2%nat, 3)]) = [(1%nat, 1 / (0 + 1 + 3), 5%nat); (2%nat, 3 / (0 + 1 + 3), 5%nat)] /\
  rsum (map snd [(1%nat, 1); (2%nat, 3)]) = 4.
Proof. split; [reflexivity|]. simpl. lra. Qed.
Print Assumptions C83_normalize.
Print Assumptions C83_softmax.
