(** Soundness of type inference (C65): if a second look at the result changes no reported
    type, then the rules are well typed. *)
From Coq Require Import List ZArith Bool Arith Lia.
From Verif Require Import Back TypeSet Infer PropsTypeSet InferFacts InferRun InferSound TypeSpec.
Import ListNotations.

(** ** Typing rules *)
Lemma number_numeric t : is_numeric t = true <-> number_type t.
Proof. unfold number_type. destruct t; cbn; intuition discriminate. Qed.
Lemma member_arith s : sle s SArith -> number_type (ts_default s).
Proof. intros H. change (member SArith (ts_default s)). eapply sle_member; [exact H|apply C64_default]. Qed.
Definition fits_op (op : pop) (r : vtype * vtype * vtype) : Prop :=
  bin_typed (match op with PAdd => OAdd | PSub => OSub | PMul => OMul | PDiv => ODiv end) (fst (fst r)) (snd (fst r)) (snd r).
Lemma numeric_types_number t : In t numeric_types -> number_type t.
Proof.
  intros H. apply number_numeric. revert t H.
  assert (A : forallb is_numeric numeric_types = true) by reflexivity. rewrite forallb_forall in A. exact A.
Qed.
Lemma rules_typed op r : In r (rules_of op) -> fits_op op r.
Proof.
  unfold fits_op.
  destruct op; cbn [rules_of]; unfold add_rules, sub_rules, mult_rules, div_rules; intros H; apply in_app_iff in H;
    (destruct H as [H|H];
     [left; apply in_map_iff in H; destruct H as (t & <- & H); apply numeric_types_number in H; unfold same3; cbn [fst snd]; auto
     |right; destruct r as ((a & b) & e); exact H || (destruct H as [<-|[]]; reflexivity)]).
Qed.
Lemma compare_typed r : In r compare_rules -> (number_type (fst r) \/ fst r = TDuration \/ fst r = TDateTime) /\ snd r = fst r.
Proof.
  unfold compare_rules. intros H. apply in_app_iff in H. destruct H as [H|H].
  - apply in_map_iff in H. destruct H as (t & <- & H). apply numeric_types_number in H. cbn [fst snd]. auto.
  - cbn in H. destruct H as [<-|[<-|[]]]; cbn [fst snd]; auto.
Qed.
Definition castb (a t : vtype) : bool :=
  vt_eqb t TString || is_numeric a && is_numeric t || vt_eqb a TBool && vt_eqb t TBool ||
  vt_eqb a TChar && (vt_eqb t TChar || vt_eqb t TStr || is_numeric t) ||
  (vt_eqb a TString || vt_eqb a TStr) && (is_numeric t || vt_eqb t TStr).
Lemma castb_typed a t : castb a t = true -> cast_typed a t.
Proof.
  unfold castb, cast_typed. rewrite !orb_true_iff, !andb_true_iff, !orb_true_iff, !vt_eqb_eq, !number_numeric. tauto.
Qed.
Lemma cast_default s t : ts_can_cast s t = true -> cast_typed (ts_default s) t.
Proof.
  intros H. apply castb_typed.
  assert (A : implb (ts_can_cast s t) (castb (ts_default s) t) = true).
  { revert s t H. intros s t _. revert s t. refine (by_st (fun s t => implb (ts_can_cast s t) (castb (ts_default s) t)) _). vm_compute. reflexivity. }
  rewrite H in A. exact A.
Qed.
Lemma param_arg f k : arg_type f k = param f k.
Proof.
  unfold arg_type, param. destruct (Nat.ltb_spec k (length (fn_static f))) as [L|L].
  - rewrite nth_error_app1 by exact L. destruct (nth_error (fn_static f) k) eqn:E; [reflexivity|]. apply nth_error_None in E. lia.
  - rewrite nth_error_app2 by exact L. destruct (Nat.ltb_spec (k - length (fn_static f)) (length (fn_optional f))) as [L'|L'].
    + destruct (nth_error (fn_optional f) (k - length (fn_static f))) eqn:E; [reflexivity|]. apply nth_error_None in E. lia.
    + apply nth_error_None in L'. rewrite L'. reflexivity.
Qed.
(** The generic parameters that a function type mentions exist. *)
Definition fun_ok (f : funty) : Prop :=
  (forall i, In (AGeneric i) (fn_static f ++ fn_optional f) \/ fn_variable f = Some (AGeneric i) \/ fn_return f = RGeneric i ->
    i < length (fn_generics f)).
Lemma choose_types n (P : nat -> vtype -> Prop) : (forall i, i < n -> exists t, P i t) -> exists g : nat -> vtype, forall i, i < n -> P i (g i).
Proof.
  induction n as [|n IH]; intros H; [exists (fun _ => TBool); lia|].
  destruct IH as (g & G); [intros i L; apply H; lia|]. destruct (H n) as (t & Q); [lia|].
  exists (fun i => if Nat.eqb i n then t else g i). intros i L. destruct (Nat.eqb_spec i n) as [->|N]; [exact Q|apply G; lia].
Qed.

(** ** What holds of one unification after a settled round *)
Definition judged (T : tenv) (tau : loc -> option vtype) (rho : pred -> option (list vtype)) (gamma : nat -> option vtype) (u : unif) : Prop :=
  match u with
  | UArg e p i => exists ts t, pred_types T rho p = Some ts /\ nth_error ts i = Some t /\ tau e = Some t
  | UVar e v => exists t, tau e = Some t /\ gamma v = Some t
  | UConst e s d => exists t, tau e = Some t /\ member s t /\ forall t', d = Some t' -> t = t'
  | UPoly op a b e => exists r, tau a = Some (fst (fst r)) /\ tau b = Some (snd (fst r)) /\ tau e = Some (snd r) /\ fits_op op r
  | UMod a b e => exists t, tau a = Some t /\ tau b = Some t /\ tau e = Some t /\ number_type t
  | UEq a b e => exists t, tau a = Some t /\ tau b = Some t /\ tau e = Some TBool
  | ULogic a b e => tau a = Some TBool /\ tau b = Some TBool /\ tau e = Some TBool
  | UCmp a b e => exists t, tau a = Some t /\ tau b = Some t /\ tau e = Some TBool /\ (number_type t \/ t = TDuration \/ t = TDateTime)
  | UPosNeg a e => exists t, tau a = Some t /\ tau e = Some t /\ number_type t
  | UNott a e => tau a = Some TBool /\ tau e = Some TBool
  | UIte e c a b => exists t, tau c = Some TBool /\ tau e = Some t /\ tau a = Some t /\ tau b = Some t
  | UCastt a e t => exists ta, tau a = Some ta /\ tau e = Some t /\ cast_typed ta t
  | UCall f args e => exists ft ts t, t_fun T f = Some ft /\ Forall2 (fun a t => tau a = Some t) args ts /\ tau e = Some t /\ call_typed ft ts t
  | UAgg _ _ _ _ _ _ _ => True
  | UEntity p args e => tau e = Some TEntity /\ exists t0 ts, rho p = Some (t0 :: ts) /\ Forall2 (fun a t => tau a = Some t) args ts
  end.
Definition rho_of (R : rels) (p : pred) : option (list vtype) := option_map (map ts_default) (get R p).
Lemma rho_nth R p ts : get R p = Some ts -> rho_of R p = Some (map ts_default ts).
Proof. unfold rho_of. intros ->. reflexivity. Qed.
Lemma rho_rget R p i s : rget R p i = Some s -> exists ts, rho_of R p = Some ts /\ nth_error ts i = Some (ts_default s).
Proof.
  unfold rget, rho_of. destruct (get R p) as [ts|]; [|discriminate]. intros H. exists (map ts_default ts). split; [reflexivity|].
  apply map_nth_error, H.
Qed.
(** The variants of algebraic data types have types with one value type each. *)
Definition variants_ok (R : rels) (us : list unif) : Prop :=
  forall p args e, In (UEntity p args e) us -> forall i s, rget R p i = Some s -> exists t, s = SBase t.
Section Settled.
Context (T : tenv) (HF : forall f ft, t_fun T f = Some ft -> fun_ok ft).
Context (re : list ((pred * nat) * list loc)) (Nre : NoDup (map fst re)) (C : list (loc * vtype)).
Context (X0 Xn : exprs) (R0 Rn : rels).
Hypothesis SX : forall e, odef (get X0 e) = odef (get Xn e).
Hypothesis SR : forall p i, odef (rget R0 p i) = odef (rget Rn p i).
Let tau (e : loc) : option vtype := odef (get X0 e).
Lemma tau_at Y e s : nar X0 Y -> nar Y Xn -> get Y e = Some s -> tau e = Some (ts_default s).
Proof. intros A B G. unfold tau. rewrite <- (nar_between _ _ _ A B SX). rewrite G. reflexivity. Qed.
Lemma rho_at R p i s : rnar R0 R -> rnar R Rn -> rget R p i = Some s -> exists s0, rget R0 p i = Some s0 /\ ts_default s0 = ts_default s /\ sle s s0.
Proof.
  intros [A _] [B _] G. pose proof (odef_between _ _ _ (A p i) (B p i) (SR p i)) as E. specialize (A p i). rewrite G in E, A.
  destruct (rget R0 p i) as [s0|]; [|discriminate]. injection E as E. exists s0. auto.
Qed.
Lemma judged_in c X R X' R' u gamma : ctx_step T true re c (X, R) = TOk (X', R') -> fixed C X -> incl (tcs (cx_unifs c)) C ->
  nar X0 X -> nar X X' -> nar X' Xn -> rnar R0 R -> rnar R R' -> rnar R' Rn -> closed_rels re X' R' ->
  (forall e p i, In (UArg e p i) (cx_unifs c) -> has re (p, i) e) ->
  (forall u, In u (cx_unifs c) -> check_cast X' u = TOk tt) ->
  (forall e v, In (UVar e v) (cx_unifs c) -> exists t, tau e = Some t /\ gamma v = Some t) ->
  variants_ok R0 (cx_unifs c) ->
  (forall a e, operand u = Some (a, e) -> tyat X0 e SArith) ->
  In u (cx_unifs c) -> judged T tau (rho_of R0) gamma u.
Proof.
  intros ST F I N1 N2 N3 M1 M2 M3 CR HR CC HV VO OA J.
  pose proof (ctx_step_parts _ _ _ _ _ _ _ _ ST) as (Y & A & B & _).
  destruct (unifs_dec_fixed C _ _ _ _ _ _ A F I) as (DY & P). destruct (P u J) as (Z0 & Z & D0 & M & DZ & D1). clear P.
  apply propagate_vars_ok in B. destruct B as (B & _).
  pose proof (nar_trans _ _ _ N1 (dec_nar _ _ _ D0)) as K0. (* X0 Z0 *)
  pose proof (nar_trans _ _ _ K0 (dec_nar _ _ _ DZ)) as KZ.
  pose proof (nar_trans _ _ _ (nar_trans _ _ _ (dec_nar _ _ _ D1) (dec_nar _ _ _ B)) N3) as KN. (* Z Xn *)
  assert (TA : forall e s, get Z e = Some s -> tau e = Some (ts_default s)) by (intros; eapply tau_at; eauto).
  assert (AR : forall e s, tyat X0 e SArith -> get Z e = Some s -> number_type (ts_default s)).
  { intros e s (n & G & L) G'. destruct (nar_get _ _ _ _ KZ G) as (m & G2 & L2). rewrite G' in G2. injection G2 as <-.
    apply member_arith. exact (sle_trans _ _ _ L2 L). }
  destruct u; cbn [means judged] in M |- *.
  - (* UArg *) unfold pred_types. destruct (t_pred T p) as [ts|] eqn:TP.
    + destruct M as (t & Q & G). exists ts, t. rewrite (TA _ _ G). auto.
    + destruct M as (ts & s & G & Q & n & G' & L).
      assert (RG : rget R p i = Some s) by (unfold rget; rewrite G; exact Q).
      destruct (rho_at _ _ _ _ M1 (rnar_trans _ _ _ M2 M3) RG) as (s0 & RG0 & E0 & L0).
      destruct (rho_rget _ _ _ _ RG0) as (ts0 & E1 & E2). exists ts0, (ts_default s0). split; [exact E1|]. split; [exact E2|].
      rewrite (TA _ _ G'). f_equal. rewrite E0.
      destruct (HR _ _ _ J) as (es & I1 & I2).
      destruct (nar_get _ _ _ _ (nar_trans _ _ _ (dec_nar _ _ _ D1) (dec_nar _ _ _ B)) G') as (m & G2 & L2).
      assert (NE : types_at X' es <> []). { intros Q'. assert (K : In m (types_at X' es)) by (apply types_at_In; eauto). rewrite Q' in K. destruct K. }
      destruct M2 as [M2 M2']. pose proof (M2 p i) as O. rewrite RG in O. apply ole_some in O. destruct O as (s' & RG' & L').
      pose proof (CR _ _ _ I1 NE _ RG') as US.
      assert (L3 : sle s' m) by (apply (unify_sets_le _ _ US), types_at_In; eauto).
      destruct (rho_at _ _ _ _ (rnar_trans _ _ _ M1 (conj M2 M2')) M3 RG') as (s0' & RG0' & E0' & _).
      assert (s0' = s0) by congruence. subst s0'. rewrite <- E0, E0'. apply (default_between s' n s); [exact (sle_trans _ _ _ L3 L2)|exact L|congruence].
  - exact (HV _ _ J).
  - (* UConst *) destruct decl as [t|].
    + destruct M as (MB & G). exists t. rewrite (TA _ _ G). split; [reflexivity|]. split; [exact MB|]. intros t' Q. injection Q as ->. reflexivity.
    + destruct M as (n & G & L). exists (ts_default n). rewrite (TA _ _ G). split; [reflexivity|]. split; [|discriminate].
      eapply sle_member; [exact L|apply C64_default].
  - (* UPoly *) destruct (M eq_refl) as (r & IR & G1 & G2 & G3). exists r. rewrite (TA _ _ G1), (TA _ _ G2), (TA _ _ G3).
    repeat split; auto. apply rules_typed, IR.
  - (* UMod *) destruct M as ((n & G1 & G2) & (m & G3 & G4)). rewrite G1 in G3. injection G3 as <-. exists (ts_default n).
    rewrite (TA _ _ G1), (TA _ _ G2), (TA _ _ G4). repeat split; auto. eapply AR; [eapply OA; reflexivity|exact G4].
  - (* UEq *) destruct M as ((n & G1 & G2) & G3). exists (ts_default n). rewrite (TA _ _ G1), (TA _ _ G2), (TA _ _ G3). auto.
  - (* ULogic *) destruct M as (G1 & G2 & G3). rewrite (TA _ _ G1), (TA _ _ G2), (TA _ _ G3). auto.
  - (* UCmp *) destruct M as (G & M). destruct (M eq_refl) as (r & IR & G1 & G2). apply compare_typed in IR. destruct IR as (IR & Q).
    exists (fst r). rewrite (TA _ _ G1), (TA _ _ G2), (TA _ _ G). rewrite Q in *. auto.
  - (* UPosNeg *) destruct M as (n & G1 & G2). exists (ts_default n). rewrite (TA _ _ G1), (TA _ _ G2). repeat split; auto.
    eapply AR; [eapply OA; reflexivity|exact G2].
  - (* UNott *) destruct M as (G1 & G2). rewrite (TA _ _ G1), (TA _ _ G2). auto.
  - (* UIte *) destruct M as (G & (n & G1 & G2) & (m & G3 & G4)). rewrite G1 in G3. injection G3 as <-. exists (ts_default n).
    rewrite (TA _ _ G), (TA _ _ G1), (TA _ _ G2), (TA _ _ G4). auto.
  - (* UCastt *) destruct M as (G & n & G1 & _). specialize (CC _ J). cbn in CC. tb CC. apply unwrap_ok in E.
    destruct (ts_can_cast r t) eqn:CT; [|discriminate]. exists (ts_default r).
    rewrite (tau_at X' a r (nar_trans _ _ _ N1 N2) N3 E), (TA _ _ G). split; [reflexivity|]. split; [reflexivity|]. apply cast_default, CT.
  - (* UCall *) destruct M as (ft & TF & VN & MA & MR & MG). specialize (HF _ _ TF).
    assert (TAY : forall Y0, dec (ulocs (UCall f args e)) Z0 Y0 -> dec (ulocs (UCall f args e)) Y0 Z -> forall x s, get Y0 x = Some s -> tau x = Some (ts_default s)).
    { intros Y0 E1 E2 x s G. apply (tau_at Y0); [exact (nar_trans _ _ _ K0 (dec_nar _ _ _ E1))|exact (nar_trans _ _ _ (dec_nar _ _ _ E2) KN)|exact G]. }
    assert (GG : forall g, g < length (fn_generics ft) -> exists t, forall fam, nth_error (fn_generics ft) g = Some fam -> member fam t /\
        (forall k a, nth_error args k = Some a -> arg_type ft k = Some (AGeneric g) -> tau a = Some t) /\ (fn_return ft = RGeneric g -> tau e = Some t)).
    { intros g L. apply nth_error_Some in L. destruct (nth_error (fn_generics ft) g) as [fam|] eqn:NG; [|congruence].
      destruct (MG g fam NG) as (Y0 & E1 & E2 & s & LS & PA & PR). exists (ts_default s). intros fam' Q. injection Q as <-.
      split; [eapply sle_member; [exact LS|apply C64_default]|]. split; [intros k a Q1 Q2|intros Q1]; eapply TAY; eauto. }
    destruct (choose_types _ _ GG) as (g & Hg). clear GG.
    assert (TY : forall k a, nth_error args k = Some a -> exists t, tau a = Some t /\ match param ft k with Some (AGeneric i) => t = g i | Some (ASet s) => member s t | None => False end).
    { intros k a Q. destruct (MA k a Q) as (ty & QT & QS). rewrite <- param_arg, QT. destruct ty as [i|s].
      - assert (L : i < length (fn_generics ft)).
        { apply HF. rewrite param_arg in QT. unfold param in QT. destruct (nth_error (fn_static ft ++ fn_optional ft) k) eqn:NE.
          - injection QT as ->. left. eapply nth_error_In; eauto.
          - auto. }
        destruct (nth_error (fn_generics ft) i) as [fam|] eqn:NG; [|apply nth_error_None in NG; lia].
        exists (g i). split; [eapply (Hg i L fam NG); eauto|reflexivity].
      - destruct (QS s eq_refl) as (n & G & L). exists (ts_default n). rewrite (TA _ _ G). split; [reflexivity|]. eapply sle_member; [exact L|apply C64_default]. }
    assert (TS : exists ts, Forall2 (fun a t => tau a = Some t) args ts /\ forall k t, nth_error ts k = Some t ->
        match param ft k with Some (AGeneric i) => t = g i | Some (ASet s) => member s t | None => False end).
    { clear - TY. assert (H : forall l off, (forall k a, nth_error l k = Some a -> exists t, tau a = Some t /\
          match param ft (off + k) with Some (AGeneric i) => t = g i | Some (ASet s) => member s t | None => False end) ->
        exists ts, Forall2 (fun a t => tau a = Some t) l ts /\ forall k t, nth_error ts k = Some t ->
          match param ft (off + k) with Some (AGeneric i) => t = g i | Some (ASet s) => member s t | None => False end).
      { induction l as [|a l IH]; intros off H.
        - exists []. split; [constructor|]. intros [|k]; discriminate.
        - destruct (H 0 a eq_refl) as (t & Q & W). destruct (IH (S off)) as (ts & Q' & W').
          { intros k b Qk. destruct (H (S k) b Qk) as (t' & A1 & A2). exists t'. rewrite Nat.add_succ_r in A2. auto. }
          exists (t :: ts). split; [constructor; auto|]. intros [|k] t' Qk; cbn in Qk; [injection Qk as <-; exact W|].
          rewrite Nat.add_succ_r. apply (W' k t' Qk). }
      exact (H args 0 TY). }
    destruct TS as (ts & F2 & PT). assert (LE : length args = length ts) by (clear - F2; induction F2; cbn; auto).
    assert (RT : exists t, tau e = Some t /\ match fn_return ft with RGeneric i => t = g i | RBase t' => t = t' end).
    { destruct (fn_return ft) as [i|t] eqn:FR.
      - assert (L : i < length (fn_generics ft)) by (apply HF; auto).
        destruct (nth_error (fn_generics ft) i) as [fam|] eqn:NG; [|apply nth_error_None in NG; lia].
        exists (g i). split; [eapply (Hg i L fam NG); reflexivity|reflexivity].
      - exists t. rewrite (TA _ _ (MR t eq_refl)). auto. }
    destruct RT as (t & QE & QR). exists ft, ts, t. split; [exact TF|]. split; [exact F2|]. split; [exact QE|].
    unfold valid_num_args in VN. destruct (Nat.ltb_spec (length args) (length (fn_static ft))) as [L|L]; [discriminate|].
    split; [lia|]. split.
    + intros QV. rewrite QV in VN. apply Nat.leb_le in VN. lia.
    + exists g. split; [|split; [exact PT|exact QR]].
      intros i s NG. assert (L2 : i < length (fn_generics ft)) by (apply nth_error_Some; congruence). apply (Hg i L2 s NG).
  - exact Logic.I.
  - (* UEntity *) destruct M as (G & t0 & ts & GR & LE & M). split; [rewrite (TA _ _ G); reflexivity|].
    assert (LN : rlen R p = rlen R0 p) by apply M1. unfold rlen in LN. rewrite GR in LN. cbn in LN.
    destruct (get R0 p) as [[|s0 ss]|] eqn:GR0; try discriminate. cbn in LN. injection LN as LN.
    exists (ts_default s0), (map ts_default ss). split; [unfold rho_of; rewrite GR0; reflexivity|].
    assert (Q : forall k a, nth_error args k = Some a -> exists s, nth_error ss k = Some s /\ tau a = Some (ts_default s)).
    { intros k a Q. assert (L : k < length ts) by (rewrite <- LE; apply nth_error_Some; congruence).
      destruct (nth_error ts k) as [t|] eqn:NT; [|apply nth_error_None in NT; lia].
      destruct (M k a t Q NT) as (n & Gn & Ln).
      assert (RG : rget R p (S k) = Some t) by (unfold rget; rewrite GR; exact NT).
      pose proof (proj1 M1 p (S k)) as O. unfold rget in O. rewrite GR, GR0 in O. cbn [nth_error] in O. rewrite NT in O.
      destruct (nth_error ss k) as [s|] eqn:NS.
      2:{ apply nth_error_None in NS. lia. }
      cbn in O. assert (RG0 : rget R0 p (S k) = Some s) by (unfold rget; rewrite GR0; exact NS).
      destruct (VO _ _ _ J _ _ RG0) as (b & ->). apply sle_base in O. subst t. apply sle_base in Ln. subst n.
      exists (SBase b). split; [reflexivity|]. apply (TA _ _ Gn). }
    assert (H : forall (args : list loc) (ss : list tset), length args = length ss ->
      (forall k a, nth_error args k = Some a -> exists s, nth_error ss k = Some s /\ tau a = Some (ts_default s)) ->
      Forall2 (fun a t => tau a = Some t) args (map ts_default ss)).
    { clear. induction args as [|a l IH]; intros [|s ss] L Q; cbn in L; try discriminate; [constructor|]. cbn. constructor.
      - destruct (Q 0 a eq_refl) as (s' & E & G). cbn in E. injection E as <-. exact G.
      - apply IH; [lia|]. intros k b Qk. apply (Q (S k) b Qk). }
    apply H; [lia|exact Q].
Qed.
End Settled.

(** ** Nodes and unifications *)
Definition children (e : yexpr) : list yexpr :=
  match e with
  | YVar _ _ | YWild _ | YConst _ _ _ => []
  | YBin _ _ a b => [a; b]
  | YUn _ _ a => [a]
  | YIte _ c a b => [c; a; b]
  | YCall _ _ args | YEnt _ _ args => args
  end.
Definition node_unif (e : yexpr) : list unif :=
  match e with
  | YVar l v => [UVar l v]
  | YWild _ => []
  | YConst l c d => [UConst l (from_constant c) d]
  | YBin l op a b => [bin_unif op (yloc a) (yloc b) l]
  | YUn l op a => [un_unif op (yloc a) l]
  | YIte l c a b => [UIte l (yloc c) (yloc a) (yloc b)]
  | YCall l f args => [UCall f (map yloc args) l]
  | YEnt l p args => [UEntity p (map yloc args) l]
  end.
Lemma yexpr_children (P : yexpr -> Prop) : (forall e, (forall a, In a (children e) -> P a) -> P e) -> forall e, P e.
Proof.
  intros H. fix IH 1. intros e. apply H. destruct e; cbn [children].
  1-3: intros a [].
  - intros a [<-|[<-|[]]]; apply IH.
  - intros a0 [<-|[]]; apply IH.
  - intros a [<-|[<-|[<-|[]]]]; apply IH.
  - revert args. fix IHl 1. intros [|x args] a J; [destruct J|]. destruct J as [<-|J]; [apply IH|exact (IHl args a J)].
  - revert args. fix IHl 1. intros [|x args] a J; [destruct J|]. destruct J as [<-|J]; [apply IH|exact (IHl args a J)].
Qed.
Lemma walk_children e : walk_expr e = node_unif e ++ flat_map walk_expr (children e).
Proof. destruct e; cbn; rewrite ?app_nil_r; reflexivity. Qed.
Lemma nodes_children e : ynodes e = (yloc e, e) :: flat_map ynodes (children e).
Proof. destruct e; cbn; rewrite ?app_nil_r; reflexivity. Qed.
Lemma node_locs e u x : In u (node_unif e) -> In x (ulocs u) -> x = yloc e \/ In x (map yloc (children e)).
Proof.
  destruct e; cbn [node_unif children yloc]; try (intros []; fail); (intros [<-|[]] || intros []).
  - cbn. intros [<-|[]]. auto.
  - cbn. intros [<-|[]]. auto.
  - destruct op; cbn; intuition.
  - destruct op; cbn; intuition.
  - cbn. intuition.
  - cbn. intros J. apply in_app_iff in J. destruct J as [J|[<-|[]]]; auto.
  - cbn. intros [<-|J]; auto.
Qed.
Definition locs_of (l : list (loc * yexpr)) : list loc := map fst l.
Lemma nodes_own e l n : In (l, n) (ynodes e) -> yloc n = l.
Proof.
  revert e. apply (yexpr_children (fun e => In (l, n) (ynodes e) -> yloc n = l)). intros e IH J. rewrite nodes_children in J.
  destruct J as [Q|J]; [injection Q as <- <-; reflexivity|]. apply in_flat_map in J. destruct J as (a & I & J). eauto.
Qed.
Lemma top_node e : In (yloc e) (locs_of (ynodes e)).
Proof. rewrite nodes_children. left. reflexivity. Qed.
Lemma locs_flat (es : list yexpr) x : In x (locs_of (flat_map ynodes es)) <-> exists a, In a es /\ In x (locs_of (ynodes a)).
Proof.
  unfold locs_of. rewrite in_map_iff. split.
  - intros ((l & n) & <- & J). apply in_flat_map in J. destruct J as (a & I & J). exists a. split; [exact I|]. apply in_map_iff. eauto.
  - intros (a & I & J). apply in_map_iff in J. destruct J as (y & <- & J). exists y. split; [reflexivity|]. apply in_flat_map. eauto.
Qed.
Lemma walk_node e u : In u (walk_expr e) -> exists n, In (yloc n, n) (ynodes e) /\ In u (node_unif n).
Proof.
  revert e. apply (yexpr_children (fun e => In u (walk_expr e) -> exists n, In (yloc n, n) (ynodes e) /\ In u (node_unif n))).
  intros e IH J. rewrite walk_children in J. rewrite nodes_children. apply in_app_iff in J. destruct J as [J|J].
  - exists e. split; [left; reflexivity|exact J].
  - apply in_flat_map in J. destruct J as (a & I & J). destruct (IH a I J) as (n & A & B). exists n. split; [|exact B].
    right. apply in_flat_map. eauto.
Qed.
Lemma walk_locs e x : In x (flat_map ulocs (walk_expr e)) -> In x (locs_of (ynodes e)).
Proof.
  revert e. apply (yexpr_children (fun e => In x (flat_map ulocs (walk_expr e)) -> In x (locs_of (ynodes e)))).
  intros e IH J. rewrite walk_children, flat_map_app in J. rewrite nodes_children. cbn [locs_of map fst]. apply in_app_iff in J. destruct J as [J|J].
  - apply in_flat_map in J. destruct J as (u & I & J). destruct (node_locs _ _ _ I J) as [->|K]; [left; reflexivity|right].
    apply in_map_iff in K. destruct K as (a & <- & K). apply locs_flat. exists a. split; [exact K|apply top_node].
  - right. apply in_flat_map in J. destruct J as (u & I & J). apply in_flat_map in I. destruct I as (a & I & K).
    apply locs_flat. exists a. split; [exact I|]. apply IH; [exact I|]. apply in_flat_map. eauto.
Qed.
Lemma NoDup_app_l {A} (l r : list A) : NoDup (l ++ r) -> NoDup l.
Proof. induction l as [|a l IH]; cbn; intros H; [constructor|]. inversion H; subst. constructor; [rewrite in_app_iff in *; tauto|auto]. Qed.
Lemma NoDup_app_r {A} (l r : list A) : NoDup (l ++ r) -> NoDup r.
Proof. induction l as [|a l IH]; cbn; intros H; [exact H|]. inversion H; auto. Qed.
Lemma NoDup_app_disjoint {A} (l r : list A) x : NoDup (l ++ r) -> In x l -> ~ In x r.
Proof.
  induction l as [|a l IH]; cbn; intros H I; [destruct I|]. inversion H; subst. destruct I as [->|I]; [|auto].
  intros K. apply H2, in_or_app. auto.
Qed.
Lemma locs_app a b : locs_of (a ++ b) = locs_of a ++ locs_of b.
Proof. apply map_app. Qed.

Definition fresh_in (seen : list loc) (e : yexpr) : Prop :=
  NoDup (locs_of (ynodes e)) -> (forall x, In x seen -> In x (locs_of (ynodes e)) -> x = yloc e) -> fresh seen (walk_expr e).
Lemma fresh_list es : (forall a, In a es -> forall seen, fresh_in seen a) -> forall seen, NoDup (locs_of (flat_map ynodes es)) ->
  (forall x, In x seen -> In x (locs_of (flat_map ynodes es)) -> In x (map yloc es)) -> fresh seen (flat_map walk_expr es).
Proof.
  induction es as [|a es IH]; cbn [flat_map map]; intros HF seen N S; [exact Logic.I|]. rewrite locs_app in N, S.
  assert (TOP : forall x, In x (map yloc es) -> In x (locs_of (flat_map ynodes es))).
  { intros x K. apply in_map_iff in K. destruct K as (b & <- & K). apply locs_flat. exists b. split; [exact K|apply top_node]. }
  apply fresh_app.
  - apply HF; [left; reflexivity|exact (NoDup_app_l _ _ N)|]. intros x I J.
    destruct (S x I) as [<-|K]; [apply in_or_app; auto|reflexivity|]. destruct (NoDup_app_disjoint _ _ _ N J). auto.
  - apply IH; [intros b K; apply HF; right; exact K|exact (NoDup_app_r _ _ N)|]. intros x I J. apply in_app_iff in I. destruct I as [I|I].
    + apply walk_locs in I. destruct (NoDup_app_disjoint _ _ _ N I J).
    + destruct (S x I) as [<-|K]; [apply in_or_app; auto| |exact K]. destruct (NoDup_app_disjoint _ _ _ N (top_node a) J).
Qed.
Lemma operand_node e u a l : In u (node_unif e) -> operand u = Some (a, l) -> l = yloc e /\ In a (map yloc (children e)) /\
  forall l' c d, e <> YConst l' c d.
Proof.
  destruct e; cbn [node_unif]; intros J O; try (destruct J as [<-|[]] || destruct J); try discriminate.
  - destruct op; try discriminate. cbn in O. injection O as <- <-. cbn. repeat split; auto. discriminate.
  - destruct op; try discriminate; cbn in O; injection O as <- <-; cbn; repeat split; auto; discriminate.
Qed.
Lemma fresh_expr e : forall seen, fresh_in seen e.
Proof.
  revert e. apply (yexpr_children (fun e => forall seen, fresh_in seen e)). intros e IH seen N S.
  rewrite walk_children. rewrite nodes_children in N, S. cbn [locs_of map fst] in N, S. fold (locs_of (flat_map ynodes (children e))) in N, S.
  inversion N as [|? ? N1 N2]; subst.
  assert (TOP : forall x, In x (map yloc (children e)) -> In x (locs_of (flat_map ynodes (children e)))).
  { intros x K. apply in_map_iff in K. destruct K as (b & <- & K). apply locs_flat. exists b. split; [exact K|apply top_node]. }
  assert (K : fresh (flat_map ulocs (node_unif e) ++ seen) (flat_map walk_expr (children e))).
  { apply fresh_list; [exact IH|exact N2|]. intros x I J. apply in_app_iff in I. destruct I as [I|I].
    - apply in_flat_map in I. destruct I as (u & A & B). destruct (node_locs _ _ _ A B) as [->|K]; [contradiction|exact K].
    - rewrite (S x I) in J; [contradiction|]. right. exact J. }
  apply fresh_app; [|exact K].
  assert (Q : forall u, In u (node_unif e) -> forall a l, operand u = Some (a, l) -> ~ In a seen).
  { intros u J a l O I. destruct (operand_node _ _ _ _ J O) as (_ & A & _). apply TOP in A. rewrite (S a I) in A; [contradiction|right; exact A]. }
  destruct e; cbn [node_unif fresh] in *; try exact Logic.I; (split; [|exact Logic.I]); apply Q; left; reflexivity.
Qed.

(** ** Formulas *)
Lemma yform_nested (P : yform -> Prop) :
  (forall p args, P (YAtom p args)) -> (forall p args, P (YNegAtom p args)) -> (forall e, P (YCons e)) ->
  (forall l, (forall f, In f l -> P f) -> P (YConj l)) -> (forall l, (forall f, In f l -> P f) -> P (YDisj l)) ->
  (forall a b, P a -> P b -> P (YImp a b)) -> (forall r b g, P (YReduce r b g)) -> forall f, P f.
Proof.
  intros H1 H2 H3 H4 H5 H6 H7. fix IH 1. intros [p args|p args|e|l|l|a b|r b g].
  - apply H1.
  - apply H2.
  - apply H3.
  - apply H4. revert l. fix IHl 1. intros [|x l] f J; [destruct J|]. destruct J as [<-|J]; [apply IH|exact (IHl l f J)].
  - apply H5. revert l. fix IHl 1. intros [|x l] f J; [destruct J|]. destruct J as [<-|J]; [apply IH|exact (IHl l f J)].
  - apply H6; apply IH.
  - apply H7.
Qed.
Lemma enumerate_nth {A} (l : list A) k a : In (k, a) (enumerate l) <-> nth_error l k = Some a.
Proof. apply enumerate_In. Qed.
(** The unifications of a rule: those of the nodes, and those of the arguments of atoms. *)
Inductive comes (nodes : list (loc * yexpr)) (u : unif) : Prop :=
| comes_node n : In (yloc n, n) nodes -> In u (node_unif n) -> comes nodes u
| comes_arg a p i : In (yloc a, a) nodes -> u = UArg (yloc a) p i -> comes nodes u.
Lemma comes_incl n n' u : incl n n' -> comes n u -> comes n' u.
Proof. intros I [x A B|a p i A B]; [eapply comes_node|eapply comes_arg]; eauto. Qed.
Lemma atom_comes p args u : In u (walk_atom p args) -> comes (flat_map ynodes args) u.
Proof.
  unfold walk_atom. intros J. apply in_app_iff in J. destruct J as [J|J].
  - apply in_map_iff in J. destruct J as ((k & a) & <- & J). apply enumerate_nth, nth_error_In in J. eapply comes_arg; [|reflexivity].
    cbn. apply in_flat_map. exists a. split; [exact J|]. rewrite nodes_children. left. reflexivity.
  - apply in_flat_map in J. destruct J as (a & I & J). apply walk_node in J. destruct J as (n & A & B). eapply comes_node; [|exact B].
    apply in_flat_map. eauto.
Qed.
Lemma form_comes f u : no_reduce f = true -> In u (walk_form f) -> comes (fnodes f) u.
Proof.
  revert f. apply (yform_nested (fun f => no_reduce f = true -> In u (walk_form f) -> comes (fnodes f) u)); cbn [no_reduce walk_form fnodes].
  - intros p args _. apply atom_comes.
  - intros p args _. apply atom_comes.
  - intros e _ J. apply walk_node in J. destruct J as (n & A & B). eapply comes_node; eauto.
  - intros l IH N J. apply in_flat_map in J. destruct J as (f & I & J). rewrite forallb_forall in N.
    eapply comes_incl; [|exact (IH f I (N f I) J)]. intros x K. apply in_flat_map. eauto.
  - intros l IH N J. apply in_flat_map in J. destruct J as (f & I & J). rewrite forallb_forall in N.
    eapply comes_incl; [|exact (IH f I (N f I) J)]. intros x K. apply in_flat_map. eauto.
  - intros a b IHa IHb N J. apply andb_true_iff in N. destruct N as (N1 & N2). apply in_app_iff in J. destruct J as [J|J].
    + eapply comes_incl; [|exact (IHa N1 J)]. intros x K. apply in_or_app. auto.
    + eapply comes_incl; [|exact (IHb N2 J)]. intros x K. apply in_or_app. auto.
  - discriminate.
Qed.
Lemma rule_comes r u : no_reduce (y_body r) = true -> In u (cx_unifs (ctx_of_rule r)) -> comes (rnodes r) u.
Proof.
  cbn [ctx_of_rule cx_unifs]. unfold rnodes. intros N J. apply in_app_iff in J. destruct J as [J|J].
  - apply in_flat_map in J. destruct J as (a & I & J). apply atom_comes in J. eapply comes_incl; [|exact J].
    intros x K. apply in_or_app. left. apply in_flat_map. eauto.
  - eapply comes_incl; [|exact (form_comes _ _ N J)]. intros x K. apply in_or_app. auto.
Qed.
(** Every unification of a well-located program mentions only locations of its nodes. *)
Definition whole (nodes : list (loc * yexpr)) : Prop :=
  forall n a, In (yloc n, n) nodes -> In a (children n) -> In (yloc a, a) nodes.
Lemma whole_expr e : whole (ynodes e).
Proof.
  revert e. apply (yexpr_children (fun e => whole (ynodes e))). intros e IH n a J K. rewrite nodes_children in *.
  destruct J as [Q|J].
  - injection Q as -> ->. right. apply in_flat_map. exists a. split; [exact K|]. rewrite nodes_children. left. reflexivity.
  - apply in_flat_map in J. destruct J as (b & I & J). right. apply in_flat_map. exists b. split; [exact I|]. exact (IH b I n a J K).
Qed.
Lemma whole_app a b : whole a -> whole b -> whole (a ++ b).
Proof. intros A B n x J K. apply in_app_iff in J. apply in_or_app. destruct J; [left; eapply A|right; eapply B]; eauto. Qed.
Lemma whole_flat {A} (f : A -> list (loc * yexpr)) l : (forall x, In x l -> whole (f x)) -> whole (flat_map f l).
Proof. intros H n x J K. apply in_flat_map in J. destruct J as (y & I & J). apply in_flat_map. exists y. split; [exact I|]. eapply H; eauto. Qed.
Lemma whole_form f : no_reduce f = true -> whole (fnodes f).
Proof.
  revert f. apply (yform_nested (fun f => no_reduce f = true -> whole (fnodes f))); cbn [no_reduce fnodes].
  - intros p args _. apply whole_flat. intros; apply whole_expr.
  - intros p args _. apply whole_flat. intros; apply whole_expr.
  - intros e _. apply whole_expr.
  - intros l IH N. rewrite forallb_forall in N. apply whole_flat. auto.
  - intros l IH N. rewrite forallb_forall in N. apply whole_flat. auto.
  - intros a b IHa IHb N. apply andb_true_iff in N. destruct N. apply whole_app; auto.
  - discriminate.
Qed.
Lemma whole_rule r : no_reduce (y_body r) = true -> whole (rnodes r).
Proof. intros N. apply whole_app; [|apply whole_form, N]. apply whole_flat. intros a _. apply whole_flat. intros; apply whole_expr. Qed.
Lemma comes_locs nodes u x : whole nodes -> comes nodes u -> In x (ulocs u) -> In x (locs_of nodes).
Proof.
  intros W [n A B|a p i A ->] J.
  - destruct (node_locs _ _ _ B J) as [->|K]; [apply in_map_iff; exists (yloc n, n); auto|].
    apply in_map_iff in K. destruct K as (a & <- & K). apply in_map_iff. exists (yloc a, a). split; [reflexivity|exact (W n a A K)].
  - destruct J as [<-|[]]. apply in_map_iff. exists (yloc a, a). auto.
Qed.
Lemma rule_clocs r x : no_reduce (y_body r) = true -> In x (clocs (ctx_of_rule r)) -> In x (locs_of (rnodes r)).
Proof.
  intros N J. apply in_flat_map in J. destruct J as (u & I & J). eapply comes_locs; [apply whole_rule, N|eapply rule_comes; eauto|exact J].
Qed.
(** The nodes come in an order that lets operations meet their operands first. *)
Definition fresh_all (seen : list loc) (nodes : list (loc * yexpr)) (us : list unif) : Prop :=
  NoDup (locs_of nodes) -> (forall x, In x seen -> ~ In x (locs_of nodes)) -> fresh seen us.
Lemma fresh_args p : forall seen (l : list (nat * yexpr)), fresh seen (map (fun x => UArg (yloc (snd x)) p (fst x)) l).
Proof. intros seen l. revert seen. induction l as [|x l IH]; cbn; intros seen; [exact Logic.I|]. split; [discriminate|]. apply (IH (yloc (snd x) :: seen)). Qed.
Lemma fresh_atom p args seen : fresh_all seen (flat_map ynodes args) (walk_atom p args).
Proof.
  intros N S. unfold walk_atom. apply fresh_app; [apply fresh_args|].
  apply fresh_list; [intros a _ s; apply fresh_expr|exact N|]. intros x I J. apply in_app_iff in I. destruct I as [I|I]; [|destruct (S x I J)].
  apply in_flat_map in I. destruct I as (u & I & K). apply in_map_iff in I. destruct I as ((k & a) & <- & I). destruct K as [<-|[]].
  apply enumerate_nth, nth_error_In in I. apply in_map_iff. exists a. auto.
Qed.
Lemma fresh_flat {A} (nodes : A -> list (loc * yexpr)) (us : A -> list unif) l :
  (forall x, In x l -> forall seen, fresh_all seen (nodes x) (us x)) ->
  (forall x y, In x l -> In y (flat_map ulocs (us x)) -> In y (locs_of (nodes x))) ->
  forall seen, fresh_all seen (flat_map nodes l) (flat_map us l).
Proof.
  intros H L. induction l as [|a l IH]; intros seen N S; cbn [flat_map] in *; [exact Logic.I|]. rewrite locs_app in N, S.
  apply fresh_app.
  - apply H; [left; reflexivity|exact (NoDup_app_l _ _ N)|]. intros x I J. apply (S x I). apply in_or_app. auto.
  - apply IH; [intros x I; apply H; right; exact I|intros x y I; apply L; right; exact I|exact (NoDup_app_r _ _ N)|].
    intros x I J. apply in_app_iff in I. destruct I as [I|I].
    + apply (L a x (or_introl eq_refl)) in I. exact (NoDup_app_disjoint _ _ _ N I J).
    + apply (S x I). apply in_or_app. auto.
Qed.
Lemma fresh_two seen n n' us us' : fresh_all seen n us -> (forall s, fresh_all s n' us') ->
  (forall y, In y (flat_map ulocs us) -> In y (locs_of n)) -> fresh_all seen (n ++ n') (us ++ us').
Proof.
  intros A B L N S. rewrite locs_app in N, S. apply fresh_app.
  - apply A; [exact (NoDup_app_l _ _ N)|]. intros x I J. apply (S x I), in_or_app. auto.
  - apply B; [exact (NoDup_app_r _ _ N)|]. intros x I J. apply in_app_iff in I. destruct I as [I|I].
    + exact (NoDup_app_disjoint _ _ _ N (L x I) J).
    + apply (S x I), in_or_app. auto.
Qed.
Lemma form_locs f y : no_reduce f = true -> In y (flat_map ulocs (walk_form f)) -> In y (locs_of (fnodes f)).
Proof.
  intros N J. apply in_flat_map in J. destruct J as (u & I & J). eapply comes_locs; [apply whole_form, N|apply form_comes; eauto|exact J].
Qed.
Lemma fresh_form f : no_reduce f = true -> forall seen, fresh_all seen (fnodes f) (walk_form f).
Proof.
  revert f. apply (yform_nested (fun f => no_reduce f = true -> forall seen, fresh_all seen (fnodes f) (walk_form f))); cbn [no_reduce fnodes walk_form].
  - intros p args _ seen. apply fresh_atom.
  - intros p args _ seen. apply fresh_atom.
  - intros e _ seen N S. apply fresh_expr; [exact N|]. intros x I J. destruct (S x I J).
  - intros l IH N. rewrite forallb_forall in N. apply fresh_flat; [intros x I; apply IH; auto|]. intros x y I. apply form_locs, N, I.
  - intros l IH N. rewrite forallb_forall in N. apply fresh_flat; [intros x I; apply IH; auto|]. intros x y I. apply form_locs, N, I.
  - intros a b IHa IHb N seen. apply andb_true_iff in N. destruct N as (N1 & N2). apply fresh_two; auto. intros y. apply form_locs, N1.
  - discriminate.
Qed.
Lemma atom_locs p args y : In y (flat_map ulocs (walk_atom p args)) -> In y (locs_of (flat_map ynodes args)).
Proof.
  intros J. apply in_flat_map in J. destruct J as (u & I & J). eapply comes_locs; [|exact (atom_comes _ _ _ I)|exact J].
  apply whole_flat. intros; apply whole_expr.
Qed.
Lemma fresh_rule r : no_reduce (y_body r) = true -> NoDup (locs_of (rnodes r)) -> fresh [] (cx_unifs (ctx_of_rule r)).
Proof.
  intros N ND. revert ND. unfold rnodes. cbn [ctx_of_rule cx_unifs].
  intros ND.
  refine (fresh_two [] _ _ _ _ _ _ _ ND _).
  - apply (fresh_flat (fun a => flat_map ynodes (snd a)) (fun a => walk_atom (fst a) (snd a))).
    + intros x _ seen. apply fresh_atom.
    + intros x y _. apply atom_locs.
  - intros s. apply fresh_form, N.
  - intros y J. apply in_flat_map in J. destruct J as (u & I & J). apply in_flat_map in I. destruct I as (a & I & K).
    assert (L : In y (locs_of (flat_map ynodes (snd a)))) by (apply (atom_locs (fst a)), in_flat_map; eauto).
    apply in_map_iff in L. destruct L as (z & <- & L). apply in_map_iff. exists z. split; [reflexivity|]. apply in_flat_map. eauto.
  - intros x [].
Qed.

(** ** From judged unifications to well-typed rules *)
Section Judge.
Context (T : tenv) (tau : loc -> option vtype) (rho : pred -> option (list vtype)) (gamma : nat -> option vtype).
Lemma Forall2_map_l {A B D} (f : A -> B) (P : B -> D -> Prop) l r : Forall2 P (map f l) r -> Forall2 (fun a d => P (f a) d) l r.
Proof. revert r. induction l as [|a l IH]; intros r H; inversion H; subst; constructor; auto. Qed.
Lemma judged_expr e : (forall u, In u (walk_expr e) -> judged T tau rho gamma u) -> typed_expr T tau rho gamma e.
Proof.
  revert e. apply (yexpr_children (fun e => (forall u, In u (walk_expr e) -> judged T tau rho gamma u) -> typed_expr T tau rho gamma e)).
  intros e IH H. rewrite walk_children in H.
  assert (K : forall a, In a (children e) -> typed_expr T tau rho gamma a).
  { intros a I. apply IH; [exact I|]. intros u J. apply H, in_or_app. right. apply in_flat_map. eauto. }
  assert (Q : forall u, In u (node_unif e) -> judged T tau rho gamma u) by (intros u I; apply H, in_or_app; auto).
  clear H IH. destruct e; cbn [node_unif children typed_expr] in *.
  - exact (Q _ (or_introl eq_refl)).
  - exact Logic.I.
  - destruct (Q _ (or_introl eq_refl)) as (t & A & B & D). exists t. split; [exact A|]. split; [apply C64_constant_types, B|exact D].
  - split; [apply K; cbn; auto|]. split; [apply K; cbn; auto|]. specialize (Q _ (or_introl eq_refl)).
    destruct op; cbn [bin_unif judged] in Q;
      try (destruct Q as (((ta & tb) & te) & A & B & D & F); exists ta, tb, te; auto; fail).
    + destruct Q as (t & A & B & D & F). exists t, t, t. cbn [bin_typed]. auto 10.
    + destruct Q as (A & B & D). exists TBool, TBool, TBool. cbn [bin_typed]. auto 10.
    + destruct Q as (A & B & D). exists TBool, TBool, TBool. cbn [bin_typed]. auto 10.
    + destruct Q as (A & B & D). exists TBool, TBool, TBool. cbn [bin_typed]. auto 10.
    + destruct Q as (t & A & B & D). exists t, t, TBool. cbn [bin_typed]. auto 10.
    + destruct Q as (t & A & B & D). exists t, t, TBool. cbn [bin_typed]. auto 10.
    + destruct Q as (t & A & B & D & F). exists t, t, TBool. cbn [bin_typed]. auto 10.
    + destruct Q as (t & A & B & D & F). exists t, t, TBool. cbn [bin_typed]. auto 10.
    + destruct Q as (t & A & B & D & F). exists t, t, TBool. cbn [bin_typed]. auto 10.
    + destruct Q as (t & A & B & D & F). exists t, t, TBool. cbn [bin_typed]. auto 10.
  - split; [apply K; cbn; auto|]. specialize (Q _ (or_introl eq_refl)). destruct op; cbn [un_unif judged] in Q.
    + destruct Q as (t & A & B & D). exists t, t. cbn [un_typed]. auto 10.
    + destruct Q as (t & A & B & D). exists t, t. cbn [un_typed]. auto 10.
    + destruct Q as (A & B). exists TBool, TBool. cbn [un_typed]. auto 10.
    + destruct Q as (ta & A & B & D). exists ta, t. cbn [un_typed]. auto.
  - destruct (Q _ (or_introl eq_refl)) as (t & A & B & D & F). repeat (split; [first [apply K; cbn; auto; fail|exact A]|]). exists t. auto.
  - destruct (Q _ (or_introl eq_refl)) as (ft & ts & t & A & B & D & F). split.
    + clear - K. induction args as [|a l IH]; [exact Logic.I|]. split; [apply K; left; reflexivity|]. apply IH. intros b J. apply K. right. exact J.
    + exists ft, ts, t. split; [exact A|]. split; [exact (Forall2_map_l _ _ _ _ B)|]. auto.
  - destruct (Q _ (or_introl eq_refl)) as (A & t0 & ts & B & D). split.
    + clear - K. induction args as [|a l IH]; [exact Logic.I|]. split; [apply K; left; reflexivity|]. apply IH. intros b J. apply K. right. exact J.
    + split; [exact A|]. exists t0, ts. split; [exact B|exact (Forall2_map_l _ _ _ _ D)].
Qed.
(** The number of arguments is not more than that of the types of the relation. *)
Definition arity_ok (a : yatom) : Prop :=
  t_pred T (fst a) = None -> exists ts, rho (fst a) = Some ts /\ length ts <= length (snd a).
Lemma judged_atom p args : arity_ok (p, args) -> (forall u, In u (walk_atom p args) -> judged T tau rho gamma u) ->
  typed_atom T tau rho gamma p args.
Proof.
  intros AR H. unfold walk_atom in H.
  assert (K : forall k a, nth_error args k = Some a -> exists ts t, pred_types T rho p = Some ts /\ nth_error ts k = Some t /\ tau (yloc a) = Some t).
  { intros k a Q. apply enumerate_nth in Q.
    apply (H (UArg (yloc a) p k)). apply in_or_app. left. apply in_map_iff. exists (k, a). auto. }
  split.
  - intros a I. apply judged_expr. intros u J. apply H, in_or_app. right. apply in_flat_map. eauto.
  - assert (P : exists ts, pred_types T rho p = Some ts /\ (t_pred T p = None -> length ts <= length args)).
    { unfold pred_types, arity_ok in *. cbn in AR. destruct (t_pred T p) as [ts|]; [exists ts; split; [reflexivity|discriminate]|].
      destruct (AR eq_refl) as (ts & A & B). exists ts. auto. }
    destruct P as (ts & P & PL). exists ts. split; [exact P|].
    assert (L : length args <= length ts).
    { destruct args as [|a0 args0] eqn:EA; [cbn; lia|]. rewrite <- EA in *.
      destruct (nth_error args (length args - 1)) as [a|] eqn:NE.
      - destruct (K _ _ NE) as (ts' & t & A & B & _). rewrite P in A. injection A as <-.
        assert (length args - 1 < length ts) by (apply nth_error_Some; congruence). lia.
      - apply nth_error_None in NE. rewrite EA in NE. cbn in NE. lia. }
    split; [exact L|]. split; [intros Q; specialize (PL Q); lia|].
    intros k a Q. destruct (K k a Q) as (ts' & t & A & B & D). rewrite P in A. injection A as <-. congruence.
Qed.
Lemma judged_form f : no_reduce f = true -> (forall a, In a (form_atoms f) -> arity_ok a) ->
  (forall e, In e (form_constraints f) -> tau (yloc e) = Some TBool) ->
  (forall u, In u (walk_form f) -> judged T tau rho gamma u) -> typed_form T tau rho gamma f.
Proof.
  revert f. apply (yform_nested (fun f => no_reduce f = true -> (forall a, In a (form_atoms f) -> arity_ok a) ->
    (forall e, In e (form_constraints f) -> tau (yloc e) = Some TBool) ->
    (forall u, In u (walk_form f) -> judged T tau rho gamma u) -> typed_form T tau rho gamma f));
    cbn [no_reduce form_atoms form_constraints walk_form typed_form].
  - intros p args _ A _ H. apply judged_atom; [apply A; left; reflexivity|exact H].
  - intros p args _ A _ H. apply judged_atom; [apply A; left; reflexivity|exact H].
  - intros e _ _ K H. split; [apply judged_expr, H|apply K; left; reflexivity].
  - intros l IH N A K H. rewrite forallb_forall in N. induction l as [|f l IHl]; [exact Logic.I|]. cbn [flat_map] in *. split.
    + apply IH; [left; reflexivity|apply N; left; reflexivity|intros; apply A, in_or_app; auto|intros; apply K, in_or_app; auto|intros; apply H, in_or_app; auto].
    + apply IHl; [intros g J; apply IH; right; exact J|intros g J; apply N; right; exact J|intros; apply A, in_or_app; auto|intros; apply K, in_or_app; auto|intros; apply H, in_or_app; auto].
  - intros l IH N A K H. rewrite forallb_forall in N. induction l as [|f l IHl]; [exact Logic.I|]. cbn [flat_map] in *. split.
    + apply IH; [left; reflexivity|apply N; left; reflexivity|intros; apply A, in_or_app; auto|intros; apply K, in_or_app; auto|intros; apply H, in_or_app; auto].
    + apply IHl; [intros g J; apply IH; right; exact J|intros g J; apply N; right; exact J|intros; apply A, in_or_app; auto|intros; apply K, in_or_app; auto|intros; apply H, in_or_app; auto].
  - intros a b IHa IHb N A K H. apply andb_true_iff in N. destruct N as (N1 & N2). split.
    + apply IHa; [exact N1|intros; apply A, in_or_app; auto|intros; apply K, in_or_app; auto|intros; apply H, in_or_app; auto].
    + apply IHb; [exact N2|intros; apply A, in_or_app; auto|intros; apply K, in_or_app; auto|intros; apply H, in_or_app; auto].
  - discriminate.
Qed.
Lemma judged_rule r : no_reduce (y_body r) = true -> (forall a, In a (rule_atoms r) -> arity_ok a) ->
  (forall e, In e (form_constraints (y_body r)) -> tau (yloc e) = Some TBool) ->
  (forall u, In u (cx_unifs (ctx_of_rule r)) -> judged T tau rho gamma u) -> typed_rule T tau rho gamma r.
Proof.
  intros N A K H. cbn [ctx_of_rule cx_unifs] in H. split.
  - intros (p & args) I. apply judged_atom; [apply A, in_or_app; auto|]. intros u J. apply H, in_or_app. left. apply in_flat_map. eauto.
  - apply judged_form; [exact N|intros; apply A, in_or_app; auto|exact K|]. intros u J. apply H, in_or_app. auto.
Qed.
End Judge.

(** ** Programs *)
Definition prog_rules (items : list titem) : list yrule :=
  flat_map (fun i => match i with IRule r => [r] | _ => [] end) items.
Definition shorter (R R' : rels) : Prop := forall p n, rlen R p = Some n -> exists m, rlen R' p = Some m /\ m <= n.
Lemma shorter_refl R : shorter R R.
Proof. intros p n H. eauto. Qed.
Lemma shorter_trans A B D : shorter A B -> shorter B D -> shorter A D.
Proof. intros H K p n L. destruct (H _ _ L) as (m & L' & Q). destruct (K _ _ L') as (m' & L'' & Q'). exists m'. split; [exact L''|lia]. Qed.
Lemma zip_length a : forall b l, unify_zip a b = Some l -> length l <= length a.
Proof.
  induction a as [|s a IH]; intros [|t b] l H; cbn in H; try (injection H as <-; cbn; lia).
  destruct (ts_unify s t); [|discriminate]. destruct (unify_zip a b) eqn:E; [|discriminate]. injection H as <-. cbn. specialize (IH _ _ E). lia.
Qed.
Lemma put_shorter R p ts : (forall old, get R p = Some old -> length ts <= length old) -> shorter R (put R p ts).
Proof.
  intros H q n. unfold rlen. rewrite get_put. destruct (Nat.eqb_spec q p) as [->|N]; [|eauto].
  destruct (get R p) as [old|] eqn:E; [|discriminate]. cbn. intros Q. injection Q as <-. eauto.
Qed.
Lemma tuples_length l : forall old ts, tfold unify_tuple l old = TOk ts -> length ts <= length old.
Proof.
  induction l as [|t l IH]; cbn; intros old ts H; [injection H as <-; lia|]. tb H. unfold unify_tuple in E.
  destruct (length t =? length old); [|discriminate]. apply of_opt_ok, zip_length in E. specialize (IH _ _ H). lia.
Qed.
Lemma arities_ok T l : forall R R', tfold (unify_arity T) l R = TOk R' -> shorter R R' /\
  forall a, In a l -> t_pred T (fst a) = None -> exists m, rlen R' (fst a) = Some m /\ m <= snd a.
Proof.
  induction l as [|(p & n) l IH]; cbn; intros R R' H; [injection H as <-; split; [apply shorter_refl|intros a []]|].
  tb H. destruct (IH _ _ H) as (S & K). clear IH.
  assert (Q : shorter R r /\ (t_pred T p = None -> exists m, rlen r p = Some m /\ m <= n)).
  { unfold unify_arity, is_foreign in E. cbn [fst snd] in E. destruct (t_pred T p); [injection E as <-; split; [apply shorter_refl|discriminate]|].
    destruct (get R p) as [ts|] eqn:G.
    - destruct (Nat.eqb_spec n (length ts)) as [->|]; [|discriminate]. injection E as <-. split; [apply shorter_refl|]. intros _.
      exists (length ts). unfold rlen. rewrite G. auto.
    - injection E as <-. split; [apply put_shorter; congruence|]. intros _. exists n. unfold rlen. rewrite get_put_eq. cbn. rewrite repeat_length. auto. }
  destruct Q as (Q1 & Q2). split; [exact (shorter_trans _ _ _ Q1 S)|]. intros a [<-|J] TP; [|apply K; auto].
  destruct (Q2 TP) as (m & A & B). destruct (S _ _ A) as (m' & A' & B'). exists m'. cbn. split; [exact A'|lia].
Qed.
Lemma visit_ok T i P P' : visit T i P = TOk P' -> shorter (tp_rels P) (tp_rels P') /\
  tp_ctxs P' = tp_ctxs P ++ map ctx_of_rule (prog_rules [i]) /\
  forall r a, In r (prog_rules [i]) -> In a (rule_atoms r) -> t_pred T (fst a) = None -> exists m, rlen (tp_rels P') (fst a) = Some m /\ m <= length (snd a).
Proof.
  destruct i as [p ts|p cs|p tuples|r]; cbn [visit prog_rules flat_map map app]; intros H.
  - destruct (is_foreign T p || memn p (tp_decls P)); [discriminate|]. tb H. injection H as <-. cbn. rewrite app_nil_r.
    split; [|split; [reflexivity|intros r' a []]]. apply put_shorter. intros old G. rewrite G in E. apply of_opt_ok, zip_length in E. exact E.
  - destruct (is_foreign T p); [discriminate|]. tb H. injection H as <-. cbn. rewrite app_nil_r.
    split; [|split; [reflexivity|intros r' a []]]. apply put_shorter. intros old G. rewrite G in E.
    destruct (Nat.eqb _ _); [|discriminate]. apply of_opt_ok, zip_length in E. exact E.
  - destruct (is_foreign T p); [discriminate|]. destruct tuples as [|t tuples]; [injection H as <-; rewrite app_nil_r; split; [apply shorter_refl|split; [reflexivity|intros r' a []]]|].
    destruct (forallb _ _); [|discriminate]. tb H. injection H as <-. cbn [tp_rels tp_ctxs]. rewrite app_nil_r.
    split; [|split; [reflexivity|intros r' a []]]. apply put_shorter. intros old G. rewrite G in E. apply tuples_length in E. exact E.
  - destruct (existsb _ _); [discriminate|]. tb H. injection H as <-. cbn [tp_rels tp_ctxs]. apply arities_ok in E. destruct E as (S & K).
    split; [exact S|]. split; [reflexivity|]. intros r' a [<-|[]] J TP.
    apply (K (fst a, length (snd a))); [|exact TP]. cbn. apply in_map_iff. exists a. auto.
Qed.
Lemma visits_ok T items : forall P P', tfold (visit T) items P = TOk P' -> shorter (tp_rels P) (tp_rels P') /\
  tp_ctxs P' = tp_ctxs P ++ map ctx_of_rule (prog_rules items) /\
  forall r a, In r (prog_rules items) -> In a (rule_atoms r) -> t_pred T (fst a) = None -> exists m, rlen (tp_rels P') (fst a) = Some m /\ m <= length (snd a).
Proof.
  induction items as [|i items IH]; intros P P' H; cbn [tfold] in H.
  - injection H as <-. rewrite app_nil_r. split; [apply shorter_refl|]. split; [reflexivity|intros r a []].
  - tb H. apply visit_ok in E. destruct E as (S & C & K). destruct (IH _ _ H) as (S' & C' & K').
    assert (Q : prog_rules (i :: items) = prog_rules [i] ++ prog_rules items) by (unfold prog_rules; cbn [flat_map]; rewrite app_nil_r; reflexivity).
    split; [exact (shorter_trans _ _ _ S S')|]. split; [rewrite C', C, Q, map_app, app_assoc; reflexivity|].
    intros r0 a J A TP. rewrite Q in J. apply in_app_iff in J. destruct J as [J|J]; [|eapply K'; eauto].
    destruct (K _ _ J A TP) as (m & L & B). destruct (S' _ _ L) as (m' & L' & B'). exists m'. split; [exact L'|lia].
Qed.
Lemma round_len T strict re cs : NoDup (map fst re) -> forall s s', tfold (ctx_step T strict re) cs s = TOk s' -> forall p, rlen (snd s') p = rlen (snd s) p.
Proof.
  intros N. induction cs as [|c cs IH]; intros s s' H p; cbn [tfold] in H; [injection H as <-; reflexivity|]. tb H. rewrite (IH _ _ H).
  destruct s, r. exact (ctx_step_len _ _ _ _ _ _ _ _ N E p).
Qed.
Lemma loop_len T re cs fuel : NoDup (map fst re) -> forall s s', infer_loop fuel T re cs s = Some (TOk s') -> forall p, rlen (snd s') p = rlen (snd s) p.
Proof.
  intros N. induction fuel as [|fuel IH]; cbn; intros s s' H p; [discriminate|].
  destruct (tfold (ctx_step T false re) cs s) as [s1| |] eqn:E; try discriminate. pose proof (round_len _ _ _ _ N _ _ E p) as A.
  destruct (exprs_eq (fst s) (fst s1)); [injection H as <-; exact A|]. rewrite (IH _ _ H). exact A.
Qed.

(** ** A second look: the last pass once more, from the result *)
Definition sigs (X : exprs) : list (option vtype) := map (option_map ts_default) X.
Definition rsigs (R : rels) : list (option (list vtype)) := map (option_map (map ts_default)) R.
Lemma get_map {A B} (f : A -> B) (l : list (option A)) k : get (map (option_map f) l) k = option_map f (get l k).
Proof. unfold get. revert k. induction l as [|x l IH]; intros [|k]; cbn; auto. Qed.
Definition settled (T : tenv) (items : list titem) (r : state * list var_types_t) : Prop :=
  let cs := map ctx_of_rule (prog_rules items) in
  match tfold (final_step T (all_rel_exprs cs)) cs (fst r, []) with
  | TOk (s', _) => sigs (fst s') = sigs (fst (fst r)) /\ rsigs (snd s') = rsigs (snd (fst r))
  | _ => False
  end.
Lemma sigs_get X Y : sigs X = sigs Y -> forall e, odef (get X e) = odef (get Y e).
Proof. intros H e. unfold odef. rewrite <- !get_map. unfold sigs in H. rewrite H. reflexivity. Qed.
Lemma rsigs_get R S : rsigs R = rsigs S -> forall p i, odef (rget R p i) = odef (rget S p i).
Proof.
  intros H p i. assert (E : option_map (map ts_default) (get R p) = option_map (map ts_default) (get S p)) by (rewrite <- !get_map; unfold rsigs in H; rewrite H; reflexivity).
  unfold rget, odef. destruct (get R p) as [a|], (get S p) as [b|]; try discriminate; [|reflexivity]. injection E as E.
  rewrite <- !nth_error_map. rewrite E. reflexivity.
Qed.
Lemma run_parts fuel T cs R r : cs <> [] -> infer_types fuel T cs R = Some (TOk r) ->
  exists s1 s2, tfold (ctx_step T false (all_rel_exprs cs)) cs ([], R) = TOk s1 /\
    (infer_loop fuel T (all_rel_exprs cs) cs ([], R) = Some (TOk s2)) /\ tfold (final_step T (all_rel_exprs cs)) cs (s2, []) = TOk r /\
    (forall C e, incl (tcs (flat_map cx_unifs cs)) C -> ~ In e (map fst C) -> ole (get (fst s2) e) (get (fst s1) e)).
Proof.
  intros NE H. unfold infer_types in H. destruct (infer_loop fuel T (all_rel_exprs cs) cs ([], R)) as [[s2| |]|] eqn:L; try discriminate. injection H as H.
  pose proof L as L'. destruct fuel as [|fuel]; [discriminate|]. cbn [infer_loop] in L.
  destruct (tfold (ctx_step T false (all_rel_exprs cs)) cs ([], R)) as [s1| |] eqn:E; try discriminate.
  exists s1, s2. split; [reflexivity|]. split; [reflexivity|]. split; [exact H|]. intros C e I N.
  match type of L with (if ?b then _ else _) = _ => destruct b end; [injection L as <-; apply ole_refl|]. eapply loop_cell; [exact L|].
  intros K. apply N. apply in_map_iff in K. destruct K as (x & <- & K). apply in_map_iff. exists x. auto.
Qed.
Lemma node_unique rs l n m : located rs -> In (l, n) (flat_map rnodes rs) -> In (l, m) (flat_map rnodes rs) -> n = m.
Proof. intros L. apply fst_unique. exact L. Qed.
Lemma tcs_In us e t : In (e, t) (tcs us) <-> exists s, In (UConst e s (Some t)) us.
Proof.
  unfold tcs. rewrite in_flat_map. split.
  - intros (u & I & J). destruct (typed_const u) as [x|] eqn:E; [|destruct J]. destruct J as [->|[]]. apply typed_const_UConst in E.
    destruct E as (s & ->). eauto.
  - intros (s & I). exists (UConst e s (Some t)). split; [exact I|left; reflexivity].
Qed.
Lemma const_node nodes e s t : comes nodes (UConst e s t) -> exists c, In (e, YConst e c t) nodes.
Proof.
  intros [n A B|a p i A B]; [|discriminate]. destruct n; cbn in B; try contradiction; destruct B as [B|[]]; try discriminate; try (destruct op; discriminate).
  injection B as <- <- <-. exists c. exact A.
Qed.
Lemma var_node nodes e v : comes nodes (UVar e v) -> In (e, YVar e v) nodes.
Proof.
  intros [n A B|a p i A B]; [|discriminate]. destruct n; cbn in B; try contradiction; destruct B as [B|[]]; try discriminate; try (destruct op; discriminate).
  injection B as <- <-. exact A.
Qed.
Lemma operand_comes nodes u a e : comes nodes u -> operand u = Some (a, e) -> exists n, In (e, n) nodes /\ forall l c d, n <> YConst l c d.
Proof.
  intros [n A B|x p i A ->] O; [|discriminate]. destruct (operand_node _ _ _ _ B O) as (-> & _ & N). eauto.
Qed.

Theorem C65_sound_partial : forall fuel T items r,
  infer_program fuel T items = Some (TOk r) ->
  located (prog_rules items) ->
  (forall x, In x (prog_rules items) -> no_reduce (y_body x) = true) ->
  (forall f ft, t_fun T f = Some ft -> fun_ok ft) ->
  (forall l p args, In (l, YEnt l p args) (flat_map rnodes (prog_rules items)) -> forall i s, rget (snd (fst r)) p i = Some s -> exists t, s = SBase t) ->
  settled T items r ->
  typed_rules T (expr_type r) (rel_type r) (variable_type r) (prog_rules items).
Proof.
  intros fuel T items r H LOC NR HF HV ST. unfold infer_program in H.
  destruct (tfold (visit T) items (mkTprog [] [] [])) as [P| |] eqn:EV; try discriminate.
  destruct (visits_ok _ _ _ _ EV) as (_ & CX & AR). cbn [tp_ctxs app] in CX. rewrite CX in H. clear EV CX.
  remember (prog_rules items) as rs eqn:Ers. set (cs := map ctx_of_rule rs) in *. unfold settled in ST. rewrite <- Ers in ST. fold cs in ST. cbv zeta in ST.
  destruct (rel_exprs_ok (flat_map cx_unifs cs)) as (Nre & HRE). fold (all_rel_exprs cs) in Nre, HRE.
  destruct (tfold (final_step T (all_rel_exprs cs)) cs (fst r, [])) as [(s' & vs')| |] eqn:EF; try contradiction. destruct ST as (S1 & S2).
  intros k x NX.
  assert (NE : cs <> []). { intros Q. apply nth_error_In in NX. assert (J : In (ctx_of_rule x) cs) by (apply in_map; exact NX). rewrite Q in J. destruct J. }
  destruct (run_parts _ _ _ _ _ NE H) as (s1 & s2 & R1 & L2 & F2 & OL). destruct r as (s3 & vs). destruct s3 as (X0 & R0). destruct s' as (Xn & Rn).
  cbn [fst snd] in *.
  set (C := tcs (flat_map cx_unifs cs)) in *.
  (* where unifications come from *)
  assert (CM : forall c u, In c cs -> In u (cx_unifs c) -> comes (flat_map rnodes rs) u).
  { intros c u J K. unfold cs in J. apply in_map_iff in J. destruct J as (y & <- & J). eapply comes_incl; [|eapply rule_comes; [apply NR, J|exact K]].
    intros z Z. apply in_flat_map. eauto. }
  assert (CM' : forall u, In u (flat_map cx_unifs cs) -> comes (flat_map rnodes rs) u).
  { intros u J. apply in_flat_map in J. destruct J as (c & J & K). eauto. }
  assert (FC : functional C).
  { intros e t t' J K. apply tcs_In in J, K. destruct J as (a & J), K as (b & K). apply CM', const_node in J, K. destruct J as (c1 & J), K as (c2 & K).
    pose proof (node_unique _ _ _ _ LOC J K) as Q. congruence. }
  assert (OPC : forall c u a e, In c cs -> In u (cx_unifs c) -> operand u = Some (a, e) -> ~ In e (map fst C)).
  { intros c u a e J K O I. apply in_map_iff in I. destruct I as ((e' & t) & <- & I). apply tcs_In in I. destruct I as (s & I). cbn [fst] in *.
    apply CM', const_node in I. destruct I as (c1 & I). destruct (operand_comes _ _ _ _ (CM _ _ J K) O) as (n & A & B).
    apply (B e' c1 (Some t)). exact (node_unique _ _ _ _ LOC A I). }
  assert (DIS : forall l1 c l2 y, cs = l1 ++ c :: l2 -> In y (clocs c) -> ~ In y (flat_map clocs l2)).
  { unfold cs. clear - LOC NR. revert LOC NR. induction rs as [|a rs IH]; intros LOC NR l1 c l2 y Q I J; [destruct l1; discriminate|].
    unfold located in LOC. cbn [flat_map] in LOC. rewrite map_app in LOC. destruct l1 as [|b l1]; cbn in Q; injection Q as Q1 Q2.
    - subst c l2. apply rule_clocs in I; [|apply NR; left; reflexivity]. apply (NoDup_app_disjoint _ _ _ LOC I).
      apply in_flat_map in J. destruct J as (c & K & J). apply in_map_iff in K. destruct K as (d & <- & K).
      apply rule_clocs in J; [|apply NR; right; exact K]. apply in_map_iff in J. destruct J as (z & <- & J). apply in_map_iff. exists z.
      split; [reflexivity|]. apply in_flat_map. eauto.
    - refine (IH _ _ l1 c l2 y Q2 I J); [exact (NoDup_app_r _ _ LOC)|]. intros d K. apply NR. right. exact K. }
  (* the result of the run *)
  pose proof (round_fix C T _ _ FC cs [] _ _ R1 (incl_refl _) (incl_nil_l _) (fun e t (K : In (e, t) []) => match K with end)) as FX1.
  cbn [app] in FX1. fold C in FX1.
  assert (FX2 : fixed C (fst s2) /\ (forall p, rlen (snd s2) p = rlen (tp_rels P) p)).
  { split; [|exact (loop_len _ _ _ _ Nre _ _ L2)]. destruct (loop_ends _ _ _ _ _ _ L2) as (s0 & A & _ & [->|(s9 & B)]).
    - rewrite R1 in A. injection A as <-. exact FX1.
    - pose proof (round_fix C T _ _ FC cs [] _ _ A (incl_refl _) (incl_nil_l _) (fun e t (K : In (e, t) []) => match K with end)) as Q. exact Q. }
  destruct FX2 as (FX2 & LN2). pose proof (final_is_round _ _ _ _ _ _ _ F2) as RD3.
  pose proof (round_dec C _ _ _ _ _ _ RD3 (incl_refl _) FX2) as D3. cbn [fst] in D3.
  pose proof (fixed_dec _ _ _ _ D3 FX2) as FX3. pose proof (round_closed _ _ _ _ _ _ Nre NE RD3) as CR3. cbn [fst snd] in CR3.
  pose proof (round_len _ _ _ _ Nre _ _ RD3) as LN3. cbn [snd] in LN3.
  pose proof (sigs_get _ _ S1) as SG. pose proof (rsigs_get _ _ S2) as RG.
  assert (U0 : forall e, get X0 e = None -> get Xn e = None).
  { intros e G. specialize (SG e). rewrite G in SG. destruct (get Xn e); [discriminate|reflexivity]. }
  destruct (recheck_trace T _ C Nre _ _ _ _ _ _ _ EF FX3 (incl_refl _) CR3 U0) as (_ & _ & TR).
  assert (IC : In (ctx_of_rule x) cs) by (apply in_map; eapply nth_error_In; exact NX).
  destruct (TR _ IC) as (X & R & X' & R' & Q1 & Q2 & Q3 & Q4 & Q5 & Q6 & Q7 & Q8 & Q9 & Q10 & Q11).
  assert (SX : forall e, odef (get X0 e) = odef (get Xn e)) by (intros e; symmetry; apply SG).
  assert (SR : forall p i, odef (rget R0 p i) = odef (rget Rn p i)) by (intros p i; symmetry; apply RG).
  (* variables *)
  assert (VT : forall e v, In (UVar e v) (cx_unifs (ctx_of_rule x)) -> exists t, odef (get X0 e) = Some t /\ variable_type (X0, R0, vs) k v = Some t).
  { intros e v UV. destruct (final_vars _ _ _ _ _ _ _ F2 DIS) as (_ & FV).
    assert (NC : nth_error cs k = Some (ctx_of_rule x)) by (apply map_nth_error; exact NX).
    destruct (FV _ _ NC) as (vk & NV & PV). cbn in NV. destruct (PV e v UV) as (e' & s0 & UV' & G & AS). cbn [fst] in G.
    exists (ts_default s0). unfold variable_type. cbn [snd]. rewrite NV, AS. split; [|reflexivity].
    pose proof (ctx_step_parts _ _ _ _ _ _ _ _ Q1) as (Y & _ & B & _). apply propagate_vars_ok in B. destruct B as (_ & B & _).
    destruct (B) with (v := v) as (sv & SV).
    { intros y a b A1 A2. apply (CM _ _ IC) in A1, A2. apply var_node in A1, A2. pose proof (node_unique _ _ _ _ LOC A1 A2) as Q. congruence. }
    rewrite <- (nar_between _ _ _ (nar_trans _ _ _ Q3 Q4) Q5 SX e). rewrite (SV _ UV).
    pose proof (nar_between _ _ _ (nar_trans _ _ _ Q3 Q4) Q5 SX e') as E. rewrite (SV _ UV'), G in E. exact E. }
  apply judged_rule.
  - apply NR. eapply nth_error_In; exact NX.
  - intros (p & args) J TP. cbn [fst snd] in *. destruct (AR x (p, args) (nth_error_In _ _ NX) J TP) as (m & A & B). cbn [fst snd] in *.
    rewrite <- LN2, <- LN3 in A. unfold rel_type. cbn [fst snd]. unfold rlen in A. destruct (get R0 p) as [ts|]; [|discriminate].
    exists (map ts_default ts). split; [reflexivity|]. rewrite map_length. injection A as ->. exact B.
  - intros e J. assert (K : In (yloc e) (cx_constraints (ctx_of_rule x))) by (cbn; apply in_map; exact J).
    specialize (Q11 _ K). unfold check_constraint in Q11. tb Q11. apply unwrap_ok in E. destruct (ts_is_boolean r) eqn:BO; [|discriminate].
    unfold expr_type. cbn [fst]. change (odef (get X0 (yloc e)) = Some TBool). rewrite <- (nar_between _ _ _ (nar_trans _ _ _ Q3 Q4) Q5 SX (yloc e)), E.
    destruct r as [t| | | | | | | |]; try discriminate. destruct t; try discriminate. reflexivity.
  - intros u J.
    apply (judged_in T HF (all_rel_exprs cs) C X0 Xn R0 Rn SX SR (ctx_of_rule x) X R X' R' u); auto.
    + intros y K. unfold C. unfold tcs in *. apply in_flat_map in K. destruct K as (w & K & K'). apply in_flat_map. exists w. split; [|exact K'].
      apply in_flat_map. exists (ctx_of_rule x). auto.
    + intros e p i K. apply HRE. apply in_flat_map. exists (ctx_of_rule x). auto.
    + intros p args e K. apply (CM _ _ IC) in K. destruct K as [n A B|a q i A B]; [|discriminate].
      destruct n; cbn in B; try contradiction; destruct B as [B|[]]; try discriminate; try (destruct op; discriminate).
      injection B as <- <- <-. intros i s G. eapply HV; [exact A|exact G].
    + intros a e O.
      pose proof (first_round_arith _ _ _ _ _ _ R1 (fun y _ => @get_nil _ y)) as FA.
      assert (FRS : forall c, In c cs -> fresh [] (cx_unifs c)).
      { unfold cs. intros c K. apply in_map_iff in K. destruct K as (y & <- & K). apply fresh_rule; [apply NR, K|].
        clear - LOC K. unfold located in LOC. induction rs as [|b rs IH]; [destruct K|]. cbn [flat_map] in LOC. rewrite map_app in LOC.
        destruct K as [->|K]; [exact (NoDup_app_l _ _ LOC)|apply IH; [exact (NoDup_app_r _ _ LOC)|exact K]]. }
      pose proof (OPC _ _ _ _ IC J O) as NC. specialize (FA FRS DIS _ _ _ _ IC J O NC).
      eapply ole_tyat; [apply D3|]. eapply ole_tyat; [exact (OL C e (incl_refl _) NC)|exact FA].
Qed.
Print Assumptions C65_sound_partial.

(** ** Examples and counterexamples *)
(** $abs(T: Number) -> T and a formatting function with optional and further arguments;
    sum(T: Number) -> T. *)
Definition env0 : tenv := mkTenv (fun _ => None)
  (fun f => match f with
    | 0 => Some (mkFun [SNumeric] [AGeneric 0] [] None (RGeneric 0))
    | 1 => Some (mkFun [] [ASet SString] [ASet SNumeric] (Some (ASet SAny)) (RBase TString))
    | _ => None end)
  (fun g => match g with
    | 0 => Some (mkAggty [(0, GFam FamNumber)] [] [] (BTuple []) (BTuple [BGeneric 0]) (BTuple [BGeneric 0]) false)
    | _ => None end).
Lemma env0_ok f ft : t_fun env0 f = Some ft -> fun_ok ft.
Proof.
  destruct f as [|[|f]]; cbn; intros H; try discriminate; injection H as <-; unfold fun_ok; cbn.
  - intros i [[Q|[]]|[Q|Q]]; try discriminate; injection Q as <-; lia.
  - intros i [[Q|[Q|[]]]|[Q|Q]]; discriminate.
Qed.
(** type p(u8, String)
    rel r(x + 1, $format(s, $abs(x))) = p(x, s), ~q(x, _), x % 7 < (3 as u8)
    rel q = {(1, 0.5), (2, 1.5)}
    rel s(if x == y then -x else x) = r(x, _) or r(y, _) *)
Definition ex_good : list titem :=
  [IDecl 0 [TU8; TString];
   IRule (mkYrule [(2, [YBin 0 OAdd (YVar 1 0) (YConst 2 (KInt 1) None); YCall 3 1 [YVar 4 1; YCall 5 0 [YVar 6 0]]])]
     (YConj [YAtom 0 [YVar 7 0; YVar 8 1]; YNegAtom 1 [YVar 9 0; YWild 10];
        YCons (YBin 11 OLt (YBin 12 OMod (YVar 13 0) (YConst 14 (KInt 7) None)) (YUn 15 (YCast TU8) (YConst 16 (KInt 3) (Some TI64))))]));
   ISet 1 [[(KInt 1, None); (KFloat, None)]; [(KInt 2, None); (KFloat, None)]];
   IRule (mkYrule [(3, [YIte 17 (YBin 18 OEq (YVar 19 0) (YVar 20 1)) (YUn 21 YNeg (YVar 22 0)) (YVar 23 0)])]
     (YDisj [YAtom 2 [YVar 24 0; YWild 25]; YAtom 2 [YVar 26 1; YWild 27]]))].
Definition result_of (x : option (tres (state * list var_types_t))) : state * list var_types_t :=
  match x with Some (TOk r) => r | _ => (([], []), []) end.
Ltac nodup := repeat (constructor; [cbn; intros NDH; repeat (destruct NDH as [NDH|NDH]; [discriminate|]); exact NDH|]); constructor.
Example ex_sound : let r := result_of (infer_program 20 env0 ex_good) in
  infer_program 20 env0 ex_good = Some (TOk r) /\ settled env0 ex_good r /\
  typed_rules env0 (expr_type r) (rel_type r) (variable_type r) (prog_rules ex_good) /\
  rel_type r 1 = Some [TU8; TF32] /\ rel_type r 2 = Some [TU8; TString] /\ variable_type r 0 1 = Some TString.
Proof.
  cbv zeta. assert (S : settled env0 ex_good (result_of (infer_program 20 env0 ex_good))) by (vm_compute; split; reflexivity).
  assert (I : infer_program 20 env0 ex_good = Some (TOk (result_of (infer_program 20 env0 ex_good)))) by (vm_compute; reflexivity).
  split; [exact I|]. split; [exact S|]. split; [|vm_compute; repeat split].
  apply (C65_sound_partial _ _ _ _ I); [| |apply env0_ok| |exact S].
  - unfold located. vm_compute. nodup.
  - intros x J. vm_compute in J. destruct J as [<-|[<-|[]]]; reflexivity.
  - intros l p args J i s _. exfalso. vm_compute in J. clear I S. repeat (destruct J as [J|J]; [discriminate J|]). exact J.
Qed.

(** Without a second look: the last pass makes [q] a relation of floats after the rule
    of [s] has been looked at.
    rel p = {0.5}   rel q = {1}   rel s(y) = q(y)   rel r(x + y) = p(x), q(y) *)
Definition ex_stale : list titem :=
  [IFact 0 [(KFloat, None)]; IFact 1 [(KInt 1, None)];
   IRule (mkYrule [(3, [YVar 0 0])] (YAtom 1 [YVar 1 0]));
   IRule (mkYrule [(2, [YBin 2 OAdd (YVar 3 0) (YVar 4 1)])] (YConj [YAtom 0 [YVar 5 0]; YAtom 1 [YVar 6 1]]))].
Theorem C65_stale_refuted : exists fuel T items r, infer_program fuel T items = Some (TOk r) /\ located (prog_rules items) /\
  (forall x, In x (prog_rules items) -> no_reduce (y_body x) = true) /\
  ~ typed_rules T (expr_type r) (rel_type r) (variable_type r) (prog_rules items).
Proof.
  exists 20, env0, ex_stale, (result_of (infer_program 20 env0 ex_stale)). split; [vm_compute; reflexivity|].
  split; [unfold located; vm_compute; nodup|]. split; [intros x J; vm_compute in J; destruct J as [<-|[<-|[]]]; reflexivity|].
  intros H. specialize (H 0 _ eq_refl). destruct H as [_ (_ & ts & A & _ & _ & B)].
  specialize (B 0 _ eq_refl). vm_compute in A. injection A as <-. vm_compute in B. discriminate.
Qed.
Print Assumptions C65_stale_refuted.
(** The variable that an aggregate ranges over is not tied to the type of the aggregate:
    rel p = {0.5}   rel r(n) = n := sum(x: p(x))
    The sum of numbers of type f32 is reported to be an i32, also at a second look. *)
Definition ex_sum : list titem :=
  [IFact 0 [(KFloat, None)];
   IRule (mkYrule [(2, [YVar 0 0])] (YReduce (mkYred [(1, Some 0)] 0 [] [] false [] [(2, 1)]) (YAtom 0 [YVar 3 1]) None))].
Theorem C65_aggregate_refuted : exists fuel T g p q r,
  (exists a, t_agg T g = Some a /\ ag_input a = BTuple [BGeneric 0] /\ ag_output a = BTuple [BGeneric 0]) /\
  let items := [IFact p [(KFloat, None)]; IRule (mkYrule [(q, [YVar 0 0])] (YReduce (mkYred [(1, Some 0)] g [] [] false [] [(2, 1)]) (YAtom p [YVar 3 1]) None))] in
  infer_program fuel T items = Some (TOk r) /\ settled T items r /\ rel_type r p = Some [TF32] /\ rel_type r q = Some [TI32].
Proof.
  exists 20, env0, 0, 0, 2, (result_of (infer_program 20 env0 ex_sum)). split; [eexists; split; [reflexivity|split; reflexivity]|].
  vm_compute. repeat split.
Qed.
Print Assumptions C65_aggregate_refuted.

(** ** The rule of an operator *)
(** What is known of an expression allows a type. *)
Definition allows (X : exprs) (l : loc) (t : vtype) : Prop := match get X l with Some s => member s t | None => True end.
Lemma any_unify s : ts_unify SAny s = Some s.
Proof. revert s. assert (K : forall s, match ts_unify SAny s with Some x => ts_eqb x s | None => false end = true) by (refine (by_tsets (fun s => _) _); vm_compute; reflexivity).
  intros s. specialize (K s). destruct (ts_unify SAny s) as [x|]; [|discriminate]. apply ts_eqb_eq in K. congruence. Qed.
Lemma base_narrow s t : member s t -> s <> SUnsigned -> ts_unify (SBase t) s = Some (SBase t).
Proof.
  intros M NU. destruct (ts_unify (SBase t) s) as [x|] eqn:E.
  - apply unify_le in E. destruct E as [E _]. apply sle_base in E. congruence.
  - exfalso. apply C64_complete_partial in E; [apply E; exists t; split; [reflexivity|exact M]|]. destruct s; cbn; auto. congruence.
Qed.
(** If the operands and the result of an operator leave one rule, the types are those of
    this rule; if they leave none, the program is rejected. *)
Theorem C65_one_rule : forall T R op strict a b e X, a <> b -> a <> e -> b <> e -> (forall l, get X l <> Some SUnsigned) ->
  (forall r, In r (rules_of op) -> allows X a (fst (fst r)) -> allows X b (snd (fst r)) -> allows X e (snd r) ->
    (forall r', In r' (rules_of op) -> allows X a (fst (fst r')) -> allows X b (snd (fst r')) -> allows X e (snd r') -> r' = r) ->
    exists X', unify T strict R (UPoly op a b e) X = TOk X' /\
      get X' a = Some (SBase (fst (fst r))) /\ get X' b = Some (SBase (snd (fst r))) /\ get X' e = Some (SBase (snd r))) /\
  ((forall r, In r (rules_of op) -> allows X a (fst (fst r)) -> allows X b (snd (fst r)) -> allows X e (snd r) -> False) ->
    unify T strict R (UPoly op a b e) X = TErr).
Proof.
  intros T R op strict a b e X AB AE BE NU.
  set (sa := match get X a with Some s => s | None => SAny end). set (sb := match get X b with Some s => s | None => SAny end). set (se := match get X e with Some s => s | None => SAny end).
  assert (UT : forall l Y, unify_ty l SAny Y = TOk (match get Y l with Some s => s | None => SAny end, put Y l (match get Y l with Some s => s | None => SAny end))).
  { intros l Y. unfold unify_ty. rewrite any_unify. reflexivity. }
  assert (AL : forall l t, allows X l t <-> ts_contains (match get X l with Some s => s | None => SAny end) t = true).
  { intros l t. unfold allows. destruct (get X l); rewrite C64_member; cbn; tauto. }
  cbn [unify]. unfold unify_poly. rewrite UT. fold sa. cbn [tbind]. rewrite UT, get_put_neq by auto. fold sb. cbn [tbind]. rewrite UT, !get_put_neq by auto. fold se. cbn [tbind].
  set (Y := put (put (put X a sa) b sb) e se). set (ok := fun '(t1, t2, te) => ts_contains sa t1 && ts_contains sb t2 && ts_contains se te).
  assert (OK : forall r, ok r = true <-> allows X a (fst (fst r)) /\ allows X b (snd (fst r)) /\ allows X e (snd r)).
  { intros ((t1 & t2) & te). cbn [ok fst snd]. rewrite !andb_true_iff, !AL. fold sa sb se. tauto. }
  assert (ND : NoDup (rules_of op)) by (destruct op; vm_compute; nodup).
  split.
  - intros r I A1 A2 A3 U. assert (F : filter ok (rules_of op) = [r]).
    { assert (FN : NoDup (filter ok (rules_of op))) by (apply NoDup_filter, ND). assert (FR : forall r', In r' (filter ok (rules_of op)) <-> r' = r).
      { intros r'. rewrite filter_In, OK. split; [intros (J & B1 & B2 & B3); auto|intros ->; auto]. }
      destruct (filter ok (rules_of op)) as [|x [|y l]].
      - destruct (proj2 (FR r) eq_refl).
      - f_equal. apply FR. left. reflexivity.
      - exfalso. assert (x = r) by (apply FR; left; reflexivity). assert (y = r) by (apply FR; right; left; reflexivity). subst. inversion FN; subst. apply H1. left. reflexivity. }
    change (filter (fun '(t1, t2, te) => ts_contains sa t1 && ts_contains sb t2 && ts_contains se te) (rules_of op)) with (filter ok (rules_of op)). rewrite F. destruct r as ((t1 & t2) & te). cbn [fst snd] in *.
    assert (US : forall l s, match get X l with Some s => s | None => SAny end = s -> s <> SUnsigned).
    { intros l s <- K. destruct (get X l) as [s|] eqn:G; [|discriminate]. apply (NU l). congruence. }
    unfold unify_loc, unify_ty. unfold Y at 1. rewrite !get_put_neq, get_put_eq by auto. rewrite base_narrow; [|apply C64_member, AL, A1|eapply (US a); reflexivity]. cbn [tbind snd].
    rewrite get_put_neq by auto. unfold Y at 1. rewrite get_put_neq, get_put_eq by auto. rewrite base_narrow; [|apply C64_member, AL, A2|eapply (US b); reflexivity]. cbn [tbind snd].
    rewrite !get_put_neq by auto. unfold Y at 1. rewrite get_put_eq. rewrite base_narrow; [|apply C64_member, AL, A3|eapply (US e); reflexivity]. cbn [tbind snd].
    eexists. split; [reflexivity|]. rewrite get_put_eq. rewrite !get_put_neq by auto. rewrite !get_put_eq. rewrite get_put_neq, get_put_eq by auto. auto.
  - intros U. change (filter (fun '(t1, t2, te) => ts_contains sa t1 && ts_contains sb t2 && ts_contains se te) (rules_of op)) with (filter ok (rules_of op)).
    destruct (filter ok (rules_of op)) as [|r l] eqn:F; [reflexivity|]. exfalso. assert (J : In r (filter ok (rules_of op))) by (rewrite F; left; reflexivity).
    apply filter_In in J. destruct J as (J & K). apply OK in K. destruct K as (K1 & K2 & K3). exact (U r J K1 K2 K3).
Qed.
Print Assumptions C65_one_rule.
(** A sum with a time that is a time has a duration as its other operand. *)
Example ex_one_rule : exists X', unify env0 false [] (UPoly PAdd 0 1 2) (put (put [] 2 (SBase TDateTime)) 0 (SBase TDateTime)) = TOk X' /\
  get X' 1 = Some (SBase TDuration).
Proof. eexists. vm_compute. repeat split. Qed.
