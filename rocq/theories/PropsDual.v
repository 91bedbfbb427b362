(** Properties C39 and C51: gradients. *)
From Coq Require Import List Arith Bool Lia Reals Lra Sorting.Sorted.
From Verif Require Import ListAux VTree VTreeFacts Formula Sdd SddFacts SddBuild SddWmc PropsSdd Dual.
Import ListNotations.
Set Implicit Arguments.

(** The real numbers. *)
Definition Rnum : num := mkNum 0%R 1%R Rplus Rminus Rmult Ropp (fun a b => if Rlt_dec a b then true else false).

(** * Specification *)
Local Open Scope R_scope.
Definition setv (x : nat -> R) (i : nat) (y : R) : nat -> R := fun j => if Nat.eqb j i then y else x j.
(** [l] is the partial derivative of [F] in variable [i] at [x]. *)
Definition partial (F : (nat -> R) -> R) (x : nat -> R) (i : nat) (l : R) : Prop :=
  derivable_pt_lim (fun y => F (setv x i y)) (x i) l.
(** What a reported gradient says about variable [i]. *)
Definition coef (i : nat) (g : gradient Rnum) : R :=
  fold_right (fun p s => (if Nat.eqb (fst p) i then snd p else 0) + s) 0 g.
(** Indices in strictly increasing order: every variable is reported at most once. *)
Definition increasing (g : gradient Rnum) : Prop := StronglySorted lt (map fst g).
(** Value and gradient are those of [F]. *)
Definition exact_dual (F : (nat -> R) -> R) (x : nat -> R) (d : dn Rnum) : Prop :=
  d_real d = F x /\ increasing (d_grad d) /\ forall i, partial F x i (coef i (d_grad d)).

(** * Gradients *)
Lemma coef_add : forall i a b, coef i (g_add a b) = coef i a + coef i b.
Proof.
  intros i. induction a as [|[j v] a IH]; intros b.
  - destruct b as [|[k w] b]; cbn; lra.
  - induction b as [|[k w] b IHb]; [cbn; lra|]. cbn [g_add].
    destruct (Nat.eqb_spec j k) as [->|N].
    + cbn [coef fold_right fst snd] in *. fold (coef i (g_add a b)). rewrite IH. unfold coef. destruct (Nat.eqb k i); cbn; lra.
    + destruct (Nat.ltb j k).
      * cbn [coef fold_right fst snd] in *. fold (coef i (g_add a ((k, w) :: b))). rewrite IH.
        unfold coef. cbn. lra.
      * change ((fix inner (b : gradient Rnum) : gradient Rnum := match b with
                | [] => (j, v) :: a
                | (j0, w0) :: b' => if Nat.eqb j j0 then (j, k_add Rnum v w0) :: g_add a b'
                    else if Nat.ltb j j0 then (j, v) :: g_add a b else (j0, w0) :: inner b' end) b) with (g_add ((j, v) :: a) b).
        cbn [coef fold_right fst snd] in *. fold (coef i (g_add ((j, v) :: a) b)). fold (coef i a) in *. fold (coef i b) in *.
        unfold coef in IHb at 1. fold (coef i (g_add ((j, v) :: a) b)) in IHb. rewrite IHb. lra.
Qed.
Lemma coef_cons : forall i j v g, coef i ((j, v) :: g) = (if Nat.eqb j i then v else 0) + coef i g.
Proof. reflexivity. Qed.
Lemma coef_scale : forall i g c, coef i (g_scale g c) = coef i g * c.
Proof.
  intros i g c. unfold g_scale. induction g as [|[j v] g IH]; cbn [map fst snd]; [cbn; lra|].
  rewrite !coef_cons, IH. cbn. destruct (Nat.eqb j i); lra.
Qed.
Lemma coef_neg : forall i g, coef i (g_neg g) = - coef i g.
Proof.
  intros i g. unfold g_neg. induction g as [|[j v] g IH]; cbn [map fst snd]; [cbn; lra|].
  rewrite !coef_cons, IH. cbn. destruct (Nat.eqb j i); lra.
Qed.
Lemma scale_fst : forall (g : gradient Rnum) c, map fst (g_scale g c) = map fst g.
Proof. intros. unfold g_scale. rewrite map_map. auto. Qed.
Lemma neg_fst : forall (g : gradient Rnum), map fst (g_neg g) = map fst g.
Proof. intros. unfold g_neg. rewrite map_map. auto. Qed.
Lemma add_nil : forall b : gradient Rnum, g_add [] b = b.
Proof. destruct b as [|[j w] b]; auto. Qed.
Lemma add_nil_r : forall a : gradient Rnum, g_add a [] = a.
Proof. destruct a as [|[j w] a]; auto. Qed.
Lemma add_cons : forall i v a j w b, g_add ((i, v) :: a) ((j, w) :: b) =
  if Nat.eqb i j then (i, k_add Rnum v w) :: g_add a b
  else if Nat.ltb i j then (i, v) :: g_add a ((j, w) :: b) else (j, w) :: g_add ((i, v) :: a) b.
Proof. reflexivity. Qed.
Lemma add_in : forall (a b : gradient Rnum) i, In i (map fst (g_add a b)) -> In i (map fst a) \/ In i (map fst b).
Proof.
  induction a as [|[j v] a IH]; intros b i; [rewrite add_nil; auto|].
  induction b as [|[k w] b IHb]; [rewrite add_nil_r; auto|]. rewrite add_cons.
  destruct (Nat.eqb j k); [|destruct (Nat.ltb j k)]; cbn [map fst In]; intros [E|I]; auto.
  - destruct (IH _ _ I); auto.
  - destruct (IH _ _ I) as [A|[A|A]]; auto.
  - destruct (IHb I) as [[A|A]|A]; auto.
Qed.
Lemma add_increasing : forall a b, increasing a -> increasing b -> increasing (g_add a b).
Proof.
  unfold increasing. induction a as [|[j v] a IH]; intros b SA SB; [rewrite add_nil; auto|].
  induction b as [|[k w] b IHb]; [rewrite add_nil_r; auto|]. rewrite add_cons.
  cbn [map fst] in SA, SB. inversion SA as [|? ? SA' FA]; subst. inversion SB as [|? ? SB' FB]; subst.
  rewrite Forall_forall in FA, FB.
  destruct (Nat.eqb_spec j k) as [->|N]; [|destruct (Nat.ltb_spec j k)]; cbn [map fst]; constructor; auto.
  - apply Forall_forall. intros i I. apply add_in in I as [I|I]; auto.
  - apply Forall_forall. intros i I. apply add_in in I as [I|[<-|I]]; auto. apply FB in I. lia.
  - apply Forall_forall. intros i I. apply add_in in I as [[<-|I]|I]; auto; cbn; [lia|]. apply FA in I. lia.
Qed.

(** * Derivatives *)
Lemma lim_near : forall (f g : R -> R) x l d, 0 < d -> (forall y, Rabs (y - x) < d -> f y = g y) ->
  derivable_pt_lim f x l -> derivable_pt_lim g x l.
Proof.
  intros f g x l d D E H eps EP. destruct (H eps EP) as [e He].
  assert (P : 0 < Rmin e d) by (apply Rmin_pos; [apply cond_pos|auto]).
  exists (mkposreal _ P). intros h HN HS. cbn in HS.
  rewrite <- !E.
  - apply He; auto. eapply Rlt_le_trans; [exact HS|apply Rmin_l].
  - rewrite Rminus_diag_eq by auto. rewrite Rabs_R0. auto.
  - replace (x + h - x) with h by lra. eapply Rlt_le_trans; [exact HS|apply Rmin_r].
Qed.
Lemma lim_ext : forall (f g : R -> R) x l, (forall y, f y = g y) -> derivable_pt_lim f x l -> derivable_pt_lim g x l.
Proof. intros f g x l E. apply lim_near with (d := 1); [lra|auto]. Qed.
(** A differentiable function that is positive at a point is positive near it. *)
Lemma pos_near : forall f x l, derivable_pt_lim f x l -> 0 < f x -> exists d, 0 < d /\ forall y, Rabs (y - x) < d -> 0 < f y.
Proof.
  intros f x l H P. assert (C : continuity_pt f x).
  { apply derivable_continuous_pt. exists l. exact H. }
  destruct (C (f x) P) as (d & D & N). exists d. split; [exact D|]. intros y Y.
  destruct (Req_dec x y) as [->|NE]; [auto|].
  specialize (N y). assert (K : dist R_met (f y) (f x) < f x).
  { apply N. split; [split; [exact I|auto]|exact Y]. }
  cbn in K. unfold R_dist in K. apply Rabs_def2 in K. lra.
Qed.
Lemma setv_same : forall F x i, (forall y z : nat -> R, (forall j, y j = z j) -> F y = F z) -> F (setv x i (x i)) = (F x : R).
Proof. intros F x i E. apply E. intros j. unfold setv. destruct (Nat.eqb_spec j i); subst; auto. Qed.

(** Functions of the values of the variables, pointwise. *)
Definition pointwise (F : (nat -> R) -> R) : Prop := forall y z, (forall j, y j = z j) -> F y = F z.
Lemma exact_const : forall x c, exact_dual (fun _ => c) x (dn_const Rnum c).
Proof.
  intros x c. split; [auto|]. split; [constructor|]. intros i. unfold partial. cbn. apply derivable_pt_lim_const.
Qed.
Lemma exact_var : forall x v, exact_dual (fun y => y v) x (dn_new Rnum v (x v)).
Proof.
  intros x v. split; [auto|]. split; [repeat constructor|]. intros i. unfold partial, setv. cbn.
  destruct (Nat.eqb_spec v i) as [->|N].
  - replace (1 + 0) with 1 by lra. apply derivable_pt_lim_id.
  - replace (0 + 0) with 0 by lra. apply derivable_pt_lim_const.
Qed.
Lemma exact_add : forall F G x a b, exact_dual F x a -> exact_dual G x b -> exact_dual (fun y => F y + G y) x (dn_add a b).
Proof.
  intros F G x a b (A1 & A2 & A3) (B1 & B2 & B3). split; [cbn; congruence|]. split; [apply add_increasing; auto|].
  intros i. cbn [dn_add d_grad]. rewrite coef_add. unfold partial.
  apply (derivable_pt_lim_plus (fun y => F (setv x i y)) (fun y => G (setv x i y))); [apply A3|apply B3].
Qed.
Lemma exact_mul : forall F G x a b, pointwise F -> pointwise G -> exact_dual F x a -> exact_dual G x b ->
  exact_dual (fun y => F y * G y) x (dn_mul a b).
Proof.
  intros F G x a b EF EG (A1 & A2 & A3) (B1 & B2 & B3). split; [cbn; congruence|].
  split; [apply add_increasing; unfold increasing; rewrite scale_fst; auto|].
  intros i. cbn [dn_mul d_grad]. rewrite coef_add, !coef_scale. unfold partial.
  pose proof (derivable_pt_lim_mult (fun y => F (setv x i y)) (fun y => G (setv x i y)) (x i) _ _ (A3 i) (B3 i)) as M. cbn beta in M.
  rewrite (setv_same F x i EF), (setv_same G x i EG) in M. rewrite A1, B1, (Rmult_comm (coef i (d_grad b))). exact M.
Qed.
Lemma exact_neg : forall F x a, exact_dual F x a -> exact_dual (fun y => 1 - F y) x (dn_neg a).
Proof.
  intros F x a (A1 & A2 & A3). split; [cbn; congruence|]. split; [unfold increasing; cbn; rewrite neg_fst; auto|].
  intros i. cbn [dn_neg d_grad]. rewrite coef_neg. unfold partial.
  replace (- coef i (d_grad a)) with (0 - coef i (d_grad a)) by lra.
  apply (derivable_pt_lim_minus (fun _ => 1) (fun y => F (setv x i y))); [apply derivable_pt_lim_const|apply A3].
Qed.
(** Near a point, the larger of two different values stays the larger. *)
Lemma exact_near : forall F G x a, pointwise F -> exact_dual F x a ->
  (forall i l, partial F x i l -> exists d, 0 < d /\ forall y, Rabs (y - x i) < d -> G (setv x i y) = F (setv x i y)) ->
  G x = F x -> exact_dual G x a.
Proof.
  intros F G x a EF (A1 & A2 & A3) N E. split; [congruence|]. split; [auto|]. intros i.
  destruct (N i _ (A3 i)) as (d & D & Q). unfold partial. eapply lim_near; [exact D| |apply A3].
  intros y Y. cbn. rewrite Q; auto.
Qed.
Lemma above_near : forall F G x a b i, pointwise F -> pointwise G -> exact_dual F x a -> exact_dual G x b -> G x < F x ->
  exists d, 0 < d /\ forall y, Rabs (y - x i) < d -> G (setv x i y) < F (setv x i y).
Proof.
  intros F G x a b i EF EG (_ & _ & A) (_ & _ & B) L.
  pose proof (derivable_pt_lim_minus (fun y => F (setv x i y)) (fun y => G (setv x i y)) (x i) _ _ (A i) (B i)) as M.
  apply pos_near in M; [|unfold minus_fct; rewrite (setv_same F x i EF), (setv_same G x i EG); lra].
  destruct M as (d & D & Q). exists d. split; auto. intros y Y. specialize (Q y Y). unfold minus_fct in Q. lra.
Qed.
Lemma exact_max : forall F G x a b, pointwise F -> pointwise G -> exact_dual F x a -> exact_dual G x b -> F x <> G x ->
  exact_dual (fun y => Rmax (F y) (G y)) x (dn_max a b).
Proof.
  intros F G x a b EF EG A B N. unfold dn_max. cbn. destruct A as [A1 A'] eqn:QA, B as [B1 B'] eqn:QB. rewrite A1, B1.
  destruct (Rlt_dec (G x) (F x)) as [L|L].
  - apply exact_near with F; [auto|split; auto| |apply Rmax_left; lra]. intros i l _.
    destruct (@above_near F G x a b i) as (d & D & Q); [auto|auto|split; auto|split; auto|auto|].
    exists d. split; auto. intros y Y. apply Rmax_left. specialize (Q y Y). lra.
  - assert (L' : F x < G x) by lra. apply exact_near with G; [auto|split; auto| |apply Rmax_right; lra]. intros i l _.
    destruct (@above_near G F x b a i) as (d & D & Q); [auto|auto|split; auto|split; auto|auto|].
    exists d. split; auto. intros y Y. apply Rmax_right. specialize (Q y Y). lra.
Qed.
Lemma exact_min : forall F G x a b, pointwise F -> pointwise G -> exact_dual F x a -> exact_dual G x b -> F x <> G x ->
  exact_dual (fun y => Rmin (F y) (G y)) x (dn_min a b).
Proof.
  intros F G x a b EF EG A B N. unfold dn_min. cbn. destruct A as [A1 A'] eqn:QA, B as [B1 B'] eqn:QB. rewrite A1, B1.
  destruct (Rlt_dec (F x) (G x)) as [L|L].
  - apply exact_near with F; [auto|split; auto| |apply Rmin_left; lra]. intros i l _.
    destruct (@above_near G F x b a i) as (d & D & Q); [auto|auto|split; auto|split; auto|auto|].
    exists d. split; auto. intros y Y. apply Rmin_left. specialize (Q y Y). lra.
  - assert (L' : G x < F x) by lra. apply exact_near with G; [auto|split; auto| |apply Rmin_right; lra]. intros i l _.
    destruct (@above_near F G x a b i) as (d & D & Q); [auto|auto|split; auto|split; auto|auto|].
    exists d. split; auto. intros y Y. apply Rmin_right. specialize (Q y Y). lra.
Qed.
Definition clamp01 (r : R) : R := Rmax 0 (Rmin 1 r).
Lemma exact_clamp : forall F x a, pointwise F -> exact_dual F x a -> 0 < F x < 1 ->
  exact_dual (fun y => clamp01 (F y)) x (dn_clamp a).
Proof.
  intros F x a EF A L. assert (Q : dn_clamp a = a).
  { destruct A as [A1 _]. unfold dn_clamp, k_clamp. cbn. rewrite A1.
    destruct (Rlt_dec (F x) 0); [lra|]. destruct (Rlt_dec 1 (F x)); [lra|]. destruct a; cbn in *; congruence. }
  rewrite Q. apply exact_near with F; auto.
  - intros i l _.
    destruct (@above_near F (fun _ => 0) x a (dn_const Rnum 0) i) as (d & D & H); [auto|intros ? ? ?; auto|auto|apply exact_const|lra|].
    destruct (@above_near (fun _ => 1) F x (dn_const Rnum 1) a i) as (e & E & J); [intros ? ? ?; auto|auto|apply exact_const|auto|lra|].
    exists (Rmin d e). split; [apply Rmin_pos; auto|]. intros y Y.
    assert (Y1 : Rabs (y - x i) < d) by (eapply Rlt_le_trans; [exact Y|apply Rmin_l]).
    assert (Y2 : Rabs (y - x i) < e) by (eapply Rlt_le_trans; [exact Y|apply Rmin_r]).
    specialize (H y Y1). specialize (J y Y2). unfold clamp01. rewrite Rmin_right, Rmax_right; lra.
  - unfold clamp01. rewrite Rmin_right, Rmax_right; lra.
Qed.

(** * Tags of the differentiable provenances *)
(** A tag is built from the tags of input facts with the operations of the
    provenance.  Fact [v] has probability [x v] and an external tag; other input
    facts are constants. *)
Inductive texp := TFact (v : nat) | TConst (c : R) | TOne | TZero | TAdd (a b : texp) | TMult (a b : texp) | TNeg (a : texp).
Fixpoint dtag (D : dprov Rnum) (x : nat -> R) (e : texp) : dn Rnum :=
  match e with
  | TFact v => dn_new Rnum v (x v)
  | TConst c => dn_const Rnum c
  | TOne => dn_one Rnum
  | TZero => dn_zero Rnum
  | TAdd a b => dp_add D (dtag D x a) (dtag D x b)
  | TMult a b => dp_mult D (dtag D x a) (dtag D x b)
  | TNeg a => dp_neg D (dtag D x a)
  end.
(** The same computation on plain probabilities. *)
Fixpoint pval (add mult : R -> R -> R) (e : texp) (x : nat -> R) : R :=
  match e with
  | TFact v => x v
  | TConst c => c
  | TOne => 1
  | TZero => 0
  | TAdd a b => add (pval add mult a x) (pval add mult b x)
  | TMult a b => mult (pval add mult a x) (pval add mult b x)
  | TNeg a => 1 - pval add mult a x
  end.
Definition nand_add (a b : R) : R := 1 - (1 - a) * (1 - b).
Lemma pval_pointwise : forall add mult e, pointwise (pval add mult e).
Proof. intros add mult e y z E. induction e; cbn; congruence. Qed.
(** All sums, and all products, of [e] satisfy a condition on the two values. *)
Fixpoint every (add mult : R -> R -> R) (ca cm : R -> R -> Prop) (e : texp) (x : nat -> R) : Prop :=
  match e with
  | TAdd a b => every add mult ca cm a x /\ every add mult ca cm b x /\ ca (pval add mult a x) (pval add mult b x)
  | TMult a b => every add mult ca cm a x /\ every add mult ca cm b x /\ cm (pval add mult a x) (pval add mult b x)
  | TNeg a => every add mult ca cm a x
  | _ => True
  end.
Section Tags.
  Variables (D : dprov Rnum) (add mult : R -> R -> R) (ca cm : R -> R -> Prop) (x : nat -> R).
  Hypothesis NEG : forall a, dp_neg D a = dn_neg a.
  Hypothesis ADD : forall F G a b, pointwise F -> pointwise G -> exact_dual F x a -> exact_dual G x b -> ca (F x) (G x) ->
    exact_dual (fun y => add (F y) (G y)) x (dp_add D a b).
  Hypothesis MULT : forall F G a b, pointwise F -> pointwise G -> exact_dual F x a -> exact_dual G x b -> cm (F x) (G x) ->
    exact_dual (fun y => mult (F y) (G y)) x (dp_mult D a b).
  Lemma tags_exact : forall e, every add mult ca cm e x -> exact_dual (pval add mult e) x (dtag D x e).
  Proof.
    induction e; cbn [every pval dtag]; intros H.
    - apply exact_var.
    - apply exact_const.
    - apply exact_const.
    - apply exact_const.
    - apply ADD; try apply pval_pointwise; tauto.
    - apply MULT; try apply pval_pointwise; tauto.
    - rewrite NEG. apply exact_neg. tauto.
  Qed.
End Tags.
Lemma exact_nand : forall F G x a b, pointwise F -> pointwise G -> exact_dual F x a -> exact_dual G x b ->
  exact_dual (fun y => nand_add (F y) (G y)) x (dn_neg (dn_mul (dn_neg a) (dn_neg b))).
Proof.
  intros F G x a b EF EG A B. unfold nand_add. apply exact_neg with (F := fun y => (1 - F y) * (1 - G y)).
  apply exact_mul; try apply exact_neg; auto; intros y z E; [rewrite (EF y z)|rewrite (EG y z)]; auto.
Qed.

(** ** C39 *)
(** diff-nand-mult-prob: every tag carries the value and the exact gradient of the
    polynomial it stands for, at every point. *)
Theorem C39_nand_mult : forall x e, exact_dual (pval nand_add Rmult e) x (dtag (diff_nand_mult Rnum) x e).
Proof.
  intros x e. apply tags_exact with (ca := fun _ _ => True) (cm := fun _ _ => True); auto.
  - intros F G a b EF EG A B _. apply exact_nand; auto.
  - intros F G a b EF EG A B _. apply exact_mul; auto.
  - induction e; cbn; auto.
Qed.
(** diff-max-mult-prob and diff-nand-min-prob: wherever no maximum (minimum) is
    taken of two equal values. *)
Theorem C39_max_mult_partial : forall x e, every Rmax Rmult (fun a b => a <> b) (fun _ _ => True) e x ->
  exact_dual (pval Rmax Rmult e) x (dtag (diff_max_mult Rnum) x e).
Proof.
  intros x e. apply tags_exact; auto.
  - intros F G a b EF EG A B N. apply exact_max; auto.
  - intros F G a b EF EG A B _. apply exact_mul; auto.
Qed.
Theorem C39_nand_min_partial : forall x e, every nand_add Rmin (fun _ _ => True) (fun a b => a <> b) e x ->
  exact_dual (pval nand_add Rmin e) x (dtag (diff_nand_min Rnum) x e).
Proof.
  intros x e. apply tags_exact; auto.
  - intros F G a b EF EG A B _. apply exact_nand; auto.
  - intros F G a b EF EG A B N. apply exact_min; auto.
Qed.
(** diff-add-mult-prob: wherever no sum has to be clamped. *)
Theorem C39_add_mult_partial : forall x e,
  every (fun a b => clamp01 (a + b)) Rmult (fun a b => 0 < a + b < 1) (fun _ _ => True) e x ->
  exact_dual (pval (fun a b => clamp01 (a + b)) Rmult e) x (dtag (diff_add_mult Rnum) x e).
Proof.
  intros x e. apply tags_exact; auto.
  - intros F G a b EF EG A B N. apply (@exact_clamp (fun y => F y + G y)); auto.
    + intros y z E. rewrite (EF y z), (EG y z); auto.
    + apply exact_add; auto.
  - intros F G a b EF EG A B _. apply exact_mul; auto.
Qed.
(** Where a sum is clamped the tag keeps the gradient of the unclamped sum. *)
Theorem C39_add_mult_refuted : exists x e,
  d_real (dtag (diff_add_mult Rnum) x e) = pval (fun a b => clamp01 (a + b)) Rmult e x /\
  partial (pval (fun a b => clamp01 (a + b)) Rmult e) x 0 0 /\
  coef 0 (d_grad (dtag (diff_add_mult Rnum) x e)) = 1.
Proof.
  exists (fun _ => 3/4), (TAdd (TFact 0) (TFact 1)). split; [|split].
  - cbn. unfold k_clamp, clamp01. cbn. destruct (Rlt_dec (3/4 + 3/4) 0); [lra|]. destruct (Rlt_dec 1 (3/4 + 3/4)); [|lra].
    rewrite Rmin_left, Rmax_right; lra.
  - unfold partial. apply lim_near with (f := fct_cte 1) (d := 1/4); [lra| |apply derivable_pt_lim_const].
    intros y Y. unfold fct_cte, setv, pval, clamp01. cbn. apply Rabs_def2 in Y. rewrite Rmin_left, Rmax_right; lra.
  - cbn. lra.
Qed.
(** At ties the gradient can be wrong although the function is differentiable:
    [max(p, 1-p) * (1 - max(1-p, p))] is [p (1-p)]. *)
Theorem C39_max_mult_refuted : exists x e,
  partial (pval Rmax Rmult e) x 0 0 /\ coef 0 (d_grad (dtag (diff_max_mult Rnum) x e)) = -1.
Proof.
  exists (fun _ => 1/2),
    (TMult (TAdd (TFact 0) (TNeg (TFact 0))) (TNeg (TAdd (TNeg (TFact 0)) (TFact 0)))). split.
  - unfold partial. apply lim_ext with (f := fun y => y * (1 - y)).
    + intros y. cbn. unfold Rmax. destruct (Rle_dec y (1 - y)), (Rle_dec (1 - y) y); nra.
    + replace 0 with (1 * (1 - 1/2) + 1/2 * (0 - 1)) by lra.
      apply (derivable_pt_lim_mult id (fun y => 1 - y)); [apply derivable_pt_lim_id|].
      apply (derivable_pt_lim_minus (fct_cte 1) id); [apply derivable_pt_lim_const|apply derivable_pt_lim_id].
  - cbn. unfold dn_max. cbn. destruct (Rlt_dec (1 - 1/2) (1/2)); [lra|]. destruct (Rlt_dec (1/2) (1 - 1/2)); [lra|].
    cbn. lra.
Qed.
Example C39_max_mult_ex : let x := fun v : nat => match v with O => 1/2 | _ => 1/4 end in
  let e := TAdd (TMult (TFact 0) (TFact 1)) (TNeg (TFact 0)) in
  every Rmax Rmult (fun a b => a <> b) (fun _ _ => True) e x /\ coef 0 (d_grad (dtag (diff_max_mult Rnum) x e)) = -1.
Proof.
  cbn. split; [repeat split; auto; lra|]. unfold dn_max. cbn. destruct (Rlt_dec (1 - 1/2) (1/2 * (1/4))); [lra|]. cbn. lra.
Qed.
Example C39_nand_min_ex : let x := fun v : nat => match v with O => 1/2 | _ => 1/4 end in
  let e := TAdd (TMult (TFact 0) (TFact 1)) (TFact 0) in
  every nand_add Rmin (fun _ _ => True) (fun a b => a <> b) e x /\ coef 0 (d_grad (dtag (diff_nand_min Rnum) x e)) = 3/4.
Proof.
  cbn. split; [repeat split; auto; lra|]. unfold dn_min. cbn. destruct (Rlt_dec (1/2) (1/4)); [lra|]. cbn. lra.
Qed.
Example C39_add_mult_ex : let x := fun v : nat => match v with O => 1/2 | _ => 1/4 end in
  let e := TAdd (TMult (TFact 0) (TFact 0)) (TFact 1) in
  every (fun a b => clamp01 (a + b)) Rmult (fun a b => 0 < a + b < 1) (fun _ _ => True) e x /\
  coef 0 (d_grad (dtag (diff_add_mult Rnum) x e)) = 1 /\ coef 1 (d_grad (dtag (diff_add_mult Rnum) x e)) = 1.
Proof. cbn. repeat split; auto; lra. Qed.

(** ** diff-min-max-prob *)
Definition mcoef (i : nat) (d : mder) : R :=
  match d with MPos j => if Nat.eqb j i then 1 else 0 | MZero => 0 | MNeg j => if Nat.eqb j i then -1 else 0 end.
Fixpoint mtagv (x : nat -> R) (e : texp) : mtag Rnum :=
  match e with
  | TFact v => @mkM Rnum (x v) (MPos v)
  | TConst c => @mkM Rnum c MZero
  | TOne => m_one Rnum
  | TZero => m_zero Rnum
  | TAdd a b => m_add (mtagv x a) (mtagv x b)
  | TMult a b => m_mult (mtagv x a) (mtagv x b)
  | TNeg a => m_neg (mtagv x a)
  end.
(** As a dual number. *)
Definition mder_grad (d : mder) : gradient Rnum :=
  match d with MPos j => [(j, 1)] | MZero => [] | MNeg j => [(j, -1)] end.
Definition as_dn (t : mtag Rnum) : dn Rnum := @mkDn Rnum (m_real t) (mder_grad (m_der t)).
Lemma mcoef_coef : forall i d, mcoef i d = coef i (mder_grad d).
Proof. intros i [j| |j]; cbn; try (destruct (Nat.eqb j i)); cbn; lra. Qed.
Lemma as_dn_neg : forall t, as_dn (m_neg t) = dn_neg (as_dn t).
Proof.
  intros [r [j| |j]]; unfold as_dn, m_neg, dn_neg; cbn; f_equal; f_equal; f_equal; lra.
Qed.
Theorem C39_min_max_partial : forall x e, every Rmax Rmin (fun a b => a <> b) (fun a b => a <> b) e x ->
  m_real (mtagv x e) = pval Rmax Rmin e x /\ forall i, partial (pval Rmax Rmin e) x i (mcoef i (m_der (mtagv x e))).
Proof.
  intros x e H.
  assert (G : exact_dual (pval Rmax Rmin e) x (as_dn (mtagv x e))).
  { assert (Q : as_dn (mtagv x e) = dtag (mkDP (@dn_max Rnum) (fun a b => if Rlt_dec (d_real b) (d_real a) then b else a) (@dn_neg Rnum)) x e).
    { clear H. induction e as [v|c| | |a IHa b IHb|a IHa b IHb|a IHa]; cbn [mtagv dtag dp_add dp_mult dp_neg]; auto.
      - rewrite <- IHa, <- IHb. unfold m_add, dn_max. cbn. destruct (Rlt_dec _ _); auto.
      - rewrite <- IHa, <- IHb. unfold m_mult. cbn. destruct (Rlt_dec _ _); auto.
      - rewrite as_dn_neg, IHa. auto. }
    rewrite Q. revert H. apply tags_exact; auto.
    - intros F G a b EF EG A B N. apply exact_max; auto.
    - intros F G a b EF EG A B N. cbn [dp_mult].
      assert (K : exact_dual (fun y => Rmin (F y) (G y)) x (dn_min a b)) by (apply exact_min; auto).
      destruct A as [A1 _], B as [B1 _]. unfold dn_min in K. cbn in K.
      destruct (Rlt_dec (d_real a) (d_real b)), (Rlt_dec (d_real b) (d_real a)); auto; exfalso.
      + change (k_t Rnum) with R in *. lra.
      + apply N. change (k_t Rnum) with R in *. lra. }
  destruct G as (A & _ & C). split; [exact A|]. intros i. rewrite mcoef_coef. apply C.
Qed.
Example C39_min_max_ex : let x := fun v : nat => match v with O => 1/2 | _ => 1/4 end in
  let e := TAdd (TMult (TFact 0) (TFact 1)) (TNeg (TFact 1)) in
  every Rmax Rmin (fun a b => a <> b) (fun a b => a <> b) e x /\ m_der (mtagv x e) = MNeg 1.
Proof.
  cbn. split.
  - repeat split; auto; try lra. rewrite Rmin_right; lra.
  - unfold m_add, m_mult. cbn. destruct (Rlt_dec (1/4) (1/2)); [|lra]. cbn. destruct (Rlt_dec (1 - 1/4) (1/4)); [lra|]. auto.
Qed.

(** * Weighted model counts *)
(** Evaluating a diagram in two semirings whose operations are related. *)
Section Param.
  Variables (S1 S2 : semiring) (Rel : sr_t S1 -> sr_t S2 -> Prop).
  Hypothesis R0 : Rel (sr_zero S1) (sr_zero S2).
  Hypothesis R1 : Rel (sr_one S1) (sr_one S2).
  Hypothesis RA : forall a b c d, Rel a b -> Rel c d -> Rel (sr_add S1 a c) (sr_add S2 b d).
  Hypothesis RM : forall a b c d, Rel a b -> Rel c d -> Rel (sr_mult S1 a c) (sr_mult S2 b d).
  Hypothesis RN : forall a b, Rel a b -> Rel (sr_negate S1 a) (sr_negate S2 b).
  Variables (ns : snodes) (v1 : nat -> sr_t S1) (v2 : nat -> sr_t S2) (vars : list nat).
  Hypothesis RV : forall v, In v vars -> Rel (v1 v) (v2 v).
  Hypothesis LITS : forall i v, get_node ns i = Some (SLit (SPos v)) \/ get_node ns i = Some (SLit (SNeg v)) -> In v vars.
  Definition orel (a : option (sr_t S1)) (b : option (sr_t S2)) : Prop :=
    match a, b with Some a, Some b => Rel a b | None, None => True | _, _ => False end.
  Lemma eval_param : forall fuel i, orel (eval_node_t S1 ns v1 fuel i) (eval_node_t S2 ns v2 fuel i).
  Proof.
    induction fuel as [|f IH]; intros i; cbn [eval_node_t]; [exact I|].
    destruct (get_node ns i) as [[cs|l]|] eqn:N; [| |exact I].
    - assert (G : forall cs a b, Rel a b -> orel (eval_children_t S1 (eval_node_t S1 ns v1 f) a cs) (eval_children_t S2 (eval_node_t S2 ns v2 f) b cs)).
      { induction cs0 as [|(p & s) cs0 IHc]; intros a b AB; cbn [eval_children_t]; [exact AB|].
        pose proof (IH p) as P. pose proof (IH s) as Q.
        destruct (eval_node_t S1 ns v1 f p), (eval_node_t S2 ns v2 f p); try destruct P; cbn [VTree.obind]; [|exact I].
        destruct (eval_node_t S1 ns v1 f s), (eval_node_t S2 ns v2 f s); try destruct Q; cbn [VTree.obind]; [|exact I].
        apply IHc. apply RA; auto. }
      apply G. exact R0.
    - destruct l as [v|v| |]; cbn; auto; [|apply RN]; apply RV; apply (LITS i); auto.
  Qed.
End Param.

Lemma avars_sub : forall t k u, sub t k u -> incl (avars u) (avars t).
Proof.
  induction 1; intros v I; auto; cbn [avars]; apply in_or_app; auto.
Qed.
(** What [wmc] evaluates. *)
Lemma wmc_nodes : forall f fuel, (length (collect_vars f) < fuel)%nat -> exists ns fu r,
  (forall S v, wmc_bf fuel S f v = eval_node_t S ns v fu r) /\
  forall i v, get_node ns i = Some (SLit (SPos v)) \/ get_node ns i = Some (SLit (SNeg v)) -> In v (collect_vars f).
Proof.
  intros f fuel F. destruct (collect_vars_spec f) as [N C].
  destruct (@arena_ok (collect_vars f) VTBalanced true fuel [f] N (or_intror eq_refl) F)
    as (vt & T & B & st & rs & ns & E1 & E2 & E3 & OK & I & E4 & L & FA & K & _).
  { intros g [<-|[]]. intros v V. apply C; auto. }
  inversion FA as [|? r ? rs' [Lr W] FA']; subst. inversion FA'; subst.
  exists (s_nodes st), (Datatypes.S (length ns)), r. split.
  - intros S v. unfold wmc_bf. rewrite E1. cbn [VTree.obind]. rewrite build_one, E4. cbn [VTree.obind].
    unfold sdd_eval_t. cbn [fst snd]. apply eval_t_gc. intros j R. apply (K r j); simpl; auto.
  - intros i v H. pose proof (ok_vars OK) as EV.
    assert (G : exists l, get_node (s_nodes st) i = Some (SLit l) /\ (l = SPos v \/ l = SNeg v)) by (destruct H; eauto).
    destruct G as (l & G & Q). destruct (Nat.le_gt_cases 2 i) as [G2|G2].
    + destruct (I_lit I G2 G) as (id & v' & k & S & _ & D).
      assert (v' = v) by (destruct D as [[D _]|[D _]], Q; congruence). subst v'.
      unfold sT in S. destruct T as [t|]; [|destruct S]. rewrite <- E3, <- EV.
      apply (avars_sub S). cbn. auto.
    + exfalso. destruct i as [|[|i]]; [| |lia].
      * rewrite (I_false I) in G. destruct Q; congruence.
      * rewrite (I_true I) in G. destruct Q; congruence.
Qed.

Definition Rsr : semiring := mkSR 0 1 Rplus Rmult (fun a => 1 - a).
Definition Rsr_ring : ring_like Rsr.
Proof. refine (@Build_ring_like Rsr Rminus Ropp RTheory _). reflexivity. Defined.
Definition Fsr : semiring :=
  mkSR (fun _ : nat -> R => 0) (fun _ => 1) (fun F G y => F y + G y) (fun F G y => F y * G y) (fun F y => 1 - F y).

Section Recover.
  Variable T : Type.
  Notation storage := (storage Rnum T).
  (** The external tag of a fact. *)
  Definition tag_of (st : storage) (i : nat) : option T := match nth_error st i with Some (_, t) => t | None => None end.
  (** The probabilities of the facts, those with an external tag being variables. *)
  Definition probs (st : storage) (i : nat) : R := match nth_error st i with Some (p, _) => p | None => 0 end.
  Definition weight_at (st : storage) (y : nat -> R) (i : nat) : R :=
    match tag_of st i with Some _ => y i | None => probs st i end.
  (** The probability of a formula, as a function of these variables. *)
  Definition prob_of (st : storage) (f : bform) (y : nat -> R) : R :=
    count Rsr (weight_at st y) (collect_vars f) (fun w => bf_sem w f).
  (** No fact with an external tag comes after one without. *)
  Definition aligned (st : storage) : Prop := forall i j, (i < j)%nat -> tag_of st j <> None -> tag_of st i <> None.

  Lemma tag_of_cons : forall a (st : storage) i, tag_of (a :: st) (S i) = tag_of st i.
  Proof. reflexivity. Qed.
  Lemma aligned_tail : forall a (st : storage), aligned (a :: st) -> aligned st.
  Proof. intros a st A i j L N. apply (A (S i) (S j)); [lia|exact N]. Qed.
  Lemma aligned_index : forall (st : storage) i t, aligned st -> tag_of st i = Some t ->
    (i < num_input_tags st)%nat /\ nth_error (input_tags st) i = Some t.
  Proof.
    induction st as [|[p o] st IH]; intros i t A H; [destruct i; discriminate|].
    destruct i as [|i].
    - cbn in H. subst o. cbn. split; [lia|auto].
    - destruct o as [u|].
      + destruct (IH i t (aligned_tail A) H) as [B C]. split; [|exact C].
        unfold num_input_tags in *. cbn. apply -> Nat.succ_lt_mono. exact B.
      + exfalso. apply (A 0%nat (S i)); [lia| |reflexivity]. rewrite H. discriminate.
  Qed.

  Lemma recover_exact : forall (st : storage) f fuel, aligned st -> (length (collect_vars f) < fuel)%nat ->
    (forall v, In v (collect_vars f) -> (v < length st)%nat) ->
    exists d, recover fuel st f = Some d /\ exact_dual (prob_of st f) (probs st) d.
  Proof.
    intros st f fuel A F VS. destruct (wmc_nodes f F) as (ns & fu & r & E & LITS).
    set (wF := fun (i : nat) (y : nat -> R) => weight_at st y i).
    assert (Q : orel (dual_sr Rnum) Fsr (fun (o : option (dn Rnum)) (G : (nat -> R) -> R) =>
                 exists d, o = Some d /\ pointwise G /\ exact_dual G (probs st) d)
                 (eval_node_t (dual_sr Rnum) ns (grad_weight st) fu r) (eval_node_t Fsr ns wF fu r)).
    { apply eval_param with (vars := collect_vars f); auto.
      - exists (dn_zero Rnum). split; auto. split; [intros ? ? ?; auto|exact (exact_const _ 0)].
      - exists (dn_one Rnum). split; auto. split; [intros ? ? ?; auto|exact (exact_const _ 1)].
      - intros a G b H (d1 & -> & P1 & X1) (d2 & -> & P2 & X2). exists (dn_add d1 d2). split; auto.
        split; [intros y z Y; cbn; rewrite (P1 y z), (P2 y z); auto|apply exact_add; auto].
      - intros a G b H (d1 & -> & P1 & X1) (d2 & -> & P2 & X2). exists (dn_mul d1 d2). split; auto.
        split; [intros y z Y; cbn; rewrite (P1 y z), (P2 y z); auto|apply exact_mul; auto].
      - intros a G (d1 & -> & P1 & X1). exists (dn_neg d1). split; auto.
        split; [intros y z Y; cbn; rewrite (P1 y z); auto|apply exact_neg; auto].
      - intros v V. specialize (VS v V). unfold grad_weight, wF, weight_at.
        destruct (nth_error st v) as [[p o]|] eqn:N; [|apply nth_error_None in N; lia].
        assert (PV : probs st v = p) by (unfold probs; rewrite N; auto).
        assert (TV : tag_of st v = o) by (unfold tag_of; rewrite N; auto).
        rewrite TV. destruct o as [t|].
        + destruct (@aligned_index st v t A TV) as [L _]. unfold cs_single. apply Nat.ltb_lt in L. rewrite L.
          exists (dn_new Rnum v p). split; auto. split; [intros y z Y; auto|]. rewrite <- PV. apply exact_var.
        + exists (dn_const Rnum p). split; auto. split; [intros y z Y; auto|]. rewrite PV. apply exact_const. }
    unfold recover. rewrite E.
    assert (W : forall y, exists G, eval_node_t Fsr ns wF fu r = Some G /\ G y = prob_of st f y).
    { intros y. pose proof (C22_wmc Rsr_ring f (weight_at st y) F) as WR. rewrite E in WR.
      assert (QR : orel Fsr Rsr (fun (G : (nat -> R) -> R) v => G y = v) (eval_node_t Fsr ns wF fu r) (eval_node_t Rsr ns (weight_at st y) fu r)).
      { apply eval_param with (vars := collect_vars f); auto; cbn; intros; subst; auto. }
      rewrite WR in QR. unfold orel in QR. destruct (eval_node_t Fsr ns wF fu r) as [G|]; [|destruct QR]. exists G. auto. }
    destruct (W (probs st)) as (G & EG & GP). rewrite EG in Q.
    destruct (eval_node_t (dual_sr Rnum) ns (grad_weight st) fu r) as [o|]; [|destruct Q].
    destruct Q as (d & -> & PG & X). exists d. split; auto.
    assert (GQ : forall y, G y = prob_of st f y).
    { intros y. destruct (W y) as (G' & EG' & GP'). congruence. }
    destruct X as (X1 & X2 & X3). split; [rewrite X1; auto|]. split; [auto|].
    intros i. unfold partial. eapply lim_ext; [|apply X3]. intros y. cbn. apply GQ.
  Qed.
End Recover.

(** The proof-based provenances (diff-top-k-proofs, diff-sample-k-proofs,
    diff-top-bottom-k-clauses): the reported number is the probability of the
    formula of the tag, and the reported gradient its gradient, when all facts with
    an external tag come first. *)
Theorem C39_wmc_partial : forall T (st : storage Rnum T) f fuel, aligned st -> (length (collect_vars f) < fuel)%nat ->
  (forall v, In v (collect_vars f) -> (v < length st)%nat) ->
  exists d, recover fuel st f = Some d /\ exact_dual (prob_of st f) (probs st) d.
Proof. intros. apply recover_exact; auto. Qed.

(** * C51: gradients refer to the input tags *)
(** A gradient index is a position in the list of external tags handed back to the
    caller ([input_tags]). *)
(** Provenances whose tags are dual numbers: always. *)
Theorem C51_dual_numbers : forall T (st st' : list T) fs ds, dn_tag_all Rnum st fs = (ds, st') ->
  forall j p o, nth_error fs j = Some (p, o) ->
  exists d, nth_error ds j = Some d /\ d_real d = p /\
    match o with
    | Some t => exists i, d_grad d = [(i, 1)] /\ nth_error st' i = Some t
    | None => d_grad d = []
    end.
Proof.
  intros T st st' fs ds H. 
  assert (EXT : forall fs st ds st', dn_tag_all Rnum st fs = (ds, st') -> exists m : list T, st' = st ++ m).
  { clear. induction fs as [|[p o] fs IH]; intros st ds st' H; cbn [dn_tag_all] in H.
    - injection H as <- <-. exists []. rewrite app_nil_r. auto.
    - unfold dn_tagging in H. destruct o as [t|].
      + destruct (dn_tag_all Rnum (st ++ [t]) fs) as [ds1 st1] eqn:E. injection H as <- <-.
        destruct (IH _ _ _ E) as [m ->]. exists (t :: m). rewrite <- app_assoc. auto.
      + destruct (dn_tag_all Rnum st fs) as [ds1 st1] eqn:E. injection H as <- <-. eauto. }
  revert st ds H. induction fs as [|[q u] fs IH]; intros st ds H j p o N; [destruct j; discriminate|].
  cbn [dn_tag_all] in H. unfold dn_tagging in H. destruct u as [t|].
  - destruct (dn_tag_all Rnum (st ++ [t]) fs) as [ds1 st1] eqn:E. injection H as <- <-. destruct j as [|j].
    + injection N as <- <-. eexists. split; [reflexivity|]. split; [reflexivity|]. exists (length st). split; [reflexivity|].
      destruct (EXT _ _ _ _ E) as [m ->]. rewrite <- app_assoc, nth_error_app2, Nat.sub_diag; auto.
    + cbn [nth_error] in *. eapply IH; eauto.
  - destruct (dn_tag_all Rnum st fs) as [ds1 st1] eqn:E. injection H as <- <-. destruct j as [|j].
    + injection N as <- <-. eexists. split; [reflexivity|]. split; reflexivity.
    + cbn [nth_error] in *. eapply IH; eauto.
Qed.
(** Proof-based provenances, when all facts with an external tag come first. *)
Theorem C51_proofs_partial : forall T (st : storage Rnum T), aligned st -> forall i t, tag_of st i = Some t ->
  nth_error (input_tags st) i = Some t.
Proof. intros T st A i t H. apply (@aligned_index T st i t A H). Qed.
(** Otherwise the gradient is attributed to another input, or reporting panics.
    Fact 0 has no external tag, facts 1 and 2 have the tags [false] and [true]: the
    gradient of fact 1 has the index of the external tag of fact 2, and the
    probability of fact 2 cannot be reported. *)
Definition bad_store : storage Rnum bool := [(1/2, None); (1/2, Some false); (1/2, Some true)].
Theorem C51_proofs_refuted : exists st : storage Rnum bool,
  (exists d, recover 5 st (BPos 1) = Some d /\ d_grad d = [(1%nat, 1)] /\ tag_of st 1 = Some false /\
             nth_error (input_tags st) 1 = Some true) /\
  (forall fuel, recover fuel st (BPos 2) = None) /\ recover 5 st (BPos 0) <> None.
Proof.
  exists bad_store. split; [|split].
  - eexists. split; [vm_compute; reflexivity|]. auto.
  - intros fuel. unfold recover.
    destruct (wmc_bf fuel (dual_sr Rnum) (BPos 2) (grad_weight bad_store)) as [o|] eqn:E; auto.
    destruct fuel as [|fuel]; vm_compute in E; injection E as <-; reflexivity.
  - vm_compute. discriminate.
Qed.
(** The order of [storage] is the order in which facts are added. *)
Definition add3 (st : storage Rnum bool) (x : R * option bool) : storage Rnum bool :=
  snd (@add_prob Rnum bool st (fst x) (snd x)).
Lemma storage_order : fold_left add3 [(1/2, None); (1/2, Some false); (1/2, Some true)] [] = bad_store.
Proof. reflexivity. Qed.
Example C39_wmc_ex : let st : storage Rnum bool := [(1/2, Some false); (1/4, Some true); (1/8, None)] in
  let f := BOr (BAnd (BPos 0) (BPos 1)) (BNeg 2) in
  aligned st /\ (length (collect_vars f) < 10)%nat /\ (forall v, In v (collect_vars f) -> (v < length st)%nat) /\
  prob_of st f (probs st) = 57/64 /\ exists d, recover 10 st f = Some d /\ coef 0 (d_grad d) = 1/32.
Proof.
  cbn zeta. split; [|split; [|split; [|split]]].
  - intros i j L N. destruct j as [|[|[|j]]]; try lia; try (exfalso; apply N; reflexivity).
    + destruct i; [discriminate|lia].
    + exfalso. apply N. unfold tag_of. cbn. destruct j; auto.
  - vm_compute. lia.
  - intros v V. vm_compute in V. destruct V as [<-|[<-|[<-|[]]]]; cbn; lia.
  - unfold prob_of, count. cbn. unfold weight_at, tag_of, probs. cbn. lra.
  - eexists. split; [vm_compute; reflexivity|]. vm_compute. lra.
Qed.
Print Assumptions C39_nand_mult.
Print Assumptions C39_max_mult_partial.
Print Assumptions C39_nand_min_partial.
Print Assumptions C39_add_mult_partial.
Print Assumptions C39_min_max_partial.
Print Assumptions C39_wmc_partial.
Print Assumptions C39_add_mult_refuted.
Print Assumptions C39_max_mult_refuted.
Print Assumptions C51_dual_numbers.
Print Assumptions C51_proofs_partial.
Print Assumptions C51_proofs_refuted.
