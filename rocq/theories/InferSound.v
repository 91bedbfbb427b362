(** Lemmas for the soundness of type inference: a round that changes no reported type,
    and the first round. *)
From Coq Require Import List Bool Arith Lia.
From Verif Require Import Back TypeSet Infer PropsTypeSet InferFacts InferRun.
Import ListNotations.

Definition odef (s : option tset) : option vtype := option_map ts_default s.
Definition nar (X Y : exprs) : Prop := forall e, ole (get Y e) (get X e).
Lemma nar_refl X : nar X X.
Proof. intros e. apply ole_refl. Qed.
Lemma nar_trans X Y Z : nar X Y -> nar Y Z -> nar X Z.
Proof. intros A B e. eapply ole_trans; [apply B|apply A]. Qed.
Lemma dec_nar L X Y : dec L X Y -> nar X Y.
Proof. intros D e. apply D. Qed.
Lemma nar_get X Y e a : nar X Y -> get X e = Some a -> exists b, get Y e = Some b /\ sle b a.
Proof. intros N G. specialize (N e). rewrite G in N. apply ole_some, N. Qed.
Lemma odef_between a b c : ole b a -> ole c b -> odef a = odef c -> odef b = odef a.
Proof.
  destruct a as [a|], b as [b|], c as [c|]; cbn; try tauto; try discriminate.
  intros A B E. injection E as E. f_equal. rewrite E. apply (default_between c b a); auto.
Qed.
Lemma nar_between X Y Z : nar X Y -> nar Y Z -> (forall e, odef (get X e) = odef (get Z e)) -> forall e, odef (get Y e) = odef (get X e).
Proof. intros A B E e. apply (odef_between _ _ (get Z e)); [apply A|apply B|apply E]. Qed.
Definition rnar (R R' : rels) : Prop := (forall p i, ole (rget R' p i) (rget R p i)) /\ forall p, rlen R' p = rlen R p.
Lemma rnar_refl R : rnar R R.
Proof. split; [intros p i; apply ole_refl|auto]. Qed.
Lemma rnar_trans A B C : rnar A B -> rnar B C -> rnar A C.
Proof. intros [H1 L1] [H2 L2]. split; [intros p i; eapply ole_trans; eauto|intros p; rewrite L2; apply L1]. Qed.

Lemma pi_eq_dec (a b : pred * nat) : {a = b} + {a <> b}.
Proof. decide equality; apply Nat.eq_dec. Qed.
(** The relations narrow if no location gets its first type. *)
Lemma rels_narrow re X R X' R' : NoDup (map fst re) -> closed_rels re X R -> nar X X' ->
  (forall e, get X e = None -> get X' e = None) -> tfold (propagate_rel X') re R = TOk R' -> rnar R R'.
Proof.
  intros N C D U P. apply (propagate_rels_ok _ _ N) in P. destruct P as (L & K & P). split; [|exact L].
  intros p i.
  destruct (in_dec pi_eq_dec (p, i) (map fst re)) as [I|I].
  - apply in_map_iff in I. destruct I as ((k & es) & Q & I). cbn in Q. subst k.
    destruct (types_at X' es) as [|s0 l0] eqn:TA.
    + rewrite K; [apply ole_refl|]. intros es' I'. rewrite (fst_unique _ _ _ _ N I' I). exact TA.
    + destruct (P _ _ _ I) as (s & US & G); [congruence|]. rewrite G. destruct (rget R p i) as [a|] eqn:GR; [|exact Logic.I]. cbn.
      assert (NE : types_at X es <> []).
      { assert (J : In s0 (types_at X' es)) by (rewrite TA; left; reflexivity). apply types_at_In in J. destruct J as (e & J & G').
        destruct (get X e) as [b|] eqn:GX; [|rewrite (U _ GX) in G'; discriminate].
        intros Q. assert (J' : In b (types_at X es)) by (apply types_at_In; eauto). rewrite Q in J'. destruct J'. }
      pose proof (C _ _ _ I NE _ GR) as UA. eapply unify_sets_glb; [exact UA|]. intros b J. apply types_at_In in J.
      destruct J as (e & J & G'). destruct (nar_get _ _ _ _ D G') as (b' & G2 & S). eapply sle_trans; [|exact S].
      apply (unify_sets_le _ _ US). apply types_at_In. eauto.
  - rewrite K; [apply ole_refl|]. intros es J. destruct I. apply in_map_iff. exists ((p, i), es). auto.
Qed.

(** ** The rechecking pass *)
Section Recheck.
Context (T : tenv) (re : list ((pred * nat) * list loc)) (C : list (loc * vtype)) (Nre : NoDup (map fst re)).
Lemma final_step_parts c s vs s' vs' : final_step T re c (s, vs) = TOk (s', vs') ->
  ctx_step T true re c s = TOk s' /\ (forall u, In u (cx_unifs c) -> check_cast (fst s') u = TOk tt) /\
  (forall e, In e (cx_constraints c) -> check_constraint (fst s') e = TOk tt) /\
  exists vk, tmap (get_var_type (fst s')) (var_exprs (cx_unifs c)) = TOk vk /\ vs' = vs ++ [vk].
Proof.
  assert (A : forall {A} (f : A -> tres unit) l, tfold (fun u (_ : unit) => f u) l tt = TOk tt -> forall u, In u l -> f u = TOk tt).
  { intros A f l. induction l as [|x l IH]; cbn; intros H u J; [destruct J|]. tb H. destruct r. destruct J as [<-|J]; auto. }
  unfold final_step. cbn [fst snd]. intros H. tb H. tb H. tb H. tb H. injection H as <- <-. destruct r0, r1.
  split; [exact E|]. split; [apply (A _ _ _ E0)|]. split; [apply (A _ _ _ E1)|]. eauto.
Qed.
Lemma recheck_trace : forall cs X0 R0 vs Xn Rn vs', tfold (final_step T re) cs ((X0, R0), vs) = TOk ((Xn, Rn), vs') ->
  fixed C X0 -> incl (tcs (flat_map cx_unifs cs)) C -> closed_rels re X0 R0 -> (forall e, get X0 e = None -> get Xn e = None) ->
  nar X0 Xn /\ rnar R0 Rn /\
  forall c, In c cs -> exists X R X' R', ctx_step T true re c (X, R) = TOk (X', R') /\ fixed C X /\
    nar X0 X /\ nar X X' /\ nar X' Xn /\ rnar R0 R /\ rnar R R' /\ rnar R' Rn /\ closed_rels re X' R' /\
    (forall u, In u (cx_unifs c) -> check_cast X' u = TOk tt) /\ (forall e, In e (cx_constraints c) -> check_constraint X' e = TOk tt).
Proof.
  induction cs as [|c cs IH]; intros X0 R0 vs Xn Rn vs' H F I CR U.
  - cbn in H. injection H as <- <- <-. split; [apply nar_refl|]. split; [apply rnar_refl|]. intros c [].
  - cbn [tfold] in H. tb H. destruct r as ((X1 & R1) & vs1). cbn [flat_map] in I. rewrite tcs_app in I.
    apply final_step_parts in E. destruct E as (S & CC & CK & _). cbn [fst] in CC, CK.
    pose proof (ctx_step_dec C _ _ _ _ _ _ _ _ S F (fun x K => I x (in_or_app _ _ _ (or_introl K)))) as D.
    pose proof (final_is_round _ _ _ _ _ _ _ H) as RD.
    pose proof (round_dec C _ _ _ _ _ _ RD (fun x K => I x (in_or_app _ _ _ (or_intror K))) (fixed_dec _ _ _ _ D F)) as D'. cbn [fst] in D'.
    assert (U1 : forall e, get X0 e = None -> get X1 e = None).
    { intros e G. destruct (get X1 e) as [b|] eqn:G1; [|reflexivity]. destruct (dec_get _ _ _ _ _ D' G1) as (b' & G2 & _).
      rewrite (U _ G) in G2. discriminate. }
    assert (U2 : forall e, get X1 e = None -> get Xn e = None).
    { intros e G. destruct (get X0 e) as [b|] eqn:G0; [|auto]. destruct (dec_get _ _ _ _ _ D G0) as (b' & G1 & _). congruence. }
    pose proof (ctx_step_parts _ _ _ _ _ _ _ _ S) as (Y & _ & _ & P).
    assert (RN : rnar R0 R1) by exact (rels_narrow _ _ _ _ _ Nre CR (dec_nar _ _ _ D) U1 P).
    pose proof (ctx_step_closed _ _ _ _ _ _ _ _ Nre S) as CR1.
    destruct (IH _ _ _ _ _ _ H (fixed_dec _ _ _ _ D F) (fun x K => I x (in_or_app _ _ _ (or_intror K))) CR1 U2) as (A & B & Q).
    split; [exact (nar_trans _ _ _ (dec_nar _ _ _ D) A)|]. split; [exact (rnar_trans _ _ _ RN B)|].
    intros c' [<-|J].
    + exists X0, R0, X1, R1. repeat (split; [first [assumption|apply nar_refl|apply rnar_refl|exact (dec_nar _ _ _ D)]|]). exact CK.
    + destruct (Q c' J) as (X & R & X' & R' & Q1 & Q2 & Q3 & Q4 & Q5 & Q6 & Q7).
      exists X, R, X', R'. split; [exact Q1|]. split; [exact Q2|]. split; [exact (nar_trans _ _ _ (dec_nar _ _ _ D) Q3)|].
      split; [exact Q4|]. split; [exact Q5|]. split; [exact (rnar_trans _ _ _ RN Q6)|exact Q7].
Qed.
End Recheck.

(** ** Cells that hold no typed constant only narrow *)
Lemma unify_cell T strict R u X X' e : unify T strict R u X = TOk X' -> ~ In e (map fst (tcs [u])) -> ole (get X' e) (get X e).
Proof.
  intros H N. pose proof (unify_ok _ _ _ _ _ _ H) as (D & _). destruct (typed_const u) as [(x & t)|] eqn:E.
  - cbn in N. rewrite E in N. apply typed_const_UConst in E. destruct E as (s & ->). cbn in H. tb H. injection H as <-.
    rewrite get_put_neq; [apply ole_refl|]. intros ->. apply N. left. reflexivity.
  - apply D. reflexivity.
Qed.
Lemma unify_touch T strict R u X X' e : unify T strict R u X = TOk X' -> ~ In e (ulocs u) -> get X' e = get X e.
Proof.
  intros H N. pose proof (unify_ok _ _ _ _ _ _ H) as (D & _). destruct (typed_const u) as [(x & t)|] eqn:E.
  - apply typed_const_UConst in E. destruct E as (s & ->). cbn in H, N. tb H. injection H as <-.
    apply get_put_neq. intros ->. auto.
  - eapply dec_frame; [apply D; reflexivity|exact N].
Qed.
Lemma unifs_cell T strict R us : forall X X' e, tfold (unify T strict R) us X = TOk X' -> ~ In e (map fst (tcs us)) -> ole (get X' e) (get X e).
Proof.
  induction us as [|u us IH]; intros X X' e H N; cbn [tfold] in H; [injection H as <-; apply ole_refl|].
  tb H. rewrite tcs_cons, map_app in N. eapply ole_trans; [eapply IH; [exact H|]|eapply unify_cell; [exact E|]]; intros K; apply N, in_or_app; auto.
Qed.
Lemma unifs_touch T strict R us : forall X X' e, tfold (unify T strict R) us X = TOk X' -> ~ In e (flat_map ulocs us) -> get X' e = get X e.
Proof.
  induction us as [|u us IH]; intros X X' e H N; cbn [tfold] in H; [injection H as <-; reflexivity|].
  tb H. cbn [flat_map] in N. rewrite (IH _ _ _ H); [eapply unify_touch; [exact E|]|]; intros K; apply N, in_or_app; auto.
Qed.
Lemma ctx_cell T strict re c s s' e : ctx_step T strict re c s = TOk s' -> ~ In e (map fst (tcs (cx_unifs c))) -> ole (get (fst s') e) (get (fst s) e).
Proof.
  destruct s as (X & R), s' as (X' & R'). intros H N. apply ctx_step_parts in H. destruct H as (Y & A & B & _).
  apply propagate_vars_ok in B. destruct B as (B & _). eapply ole_trans; [apply B|eapply unifs_cell; eauto].
Qed.
Lemma ctx_touch T strict re c s s' e : ctx_step T strict re c s = TOk s' -> ~ In e (clocs c) -> get (fst s') e = get (fst s) e.
Proof.
  destruct s as (X & R), s' as (X' & R'). intros H N. apply ctx_step_parts in H. destruct H as (Y & A & B & _). cbn [fst].
  apply propagate_vars_ok in B. destruct B as (B & _). rewrite (dec_frame _ _ _ _ B N). eapply unifs_touch; eauto.
Qed.
Lemma round_cell T strict re cs : forall s s' e, tfold (ctx_step T strict re) cs s = TOk s' -> ~ In e (map fst (tcs (flat_map cx_unifs cs))) ->
  ole (get (fst s') e) (get (fst s) e).
Proof.
  induction cs as [|c cs IH]; intros s s' e H N; cbn [tfold] in H; [injection H as <-; apply ole_refl|].
  tb H. cbn [flat_map] in N. rewrite tcs_app, map_app in N.
  eapply ole_trans; [eapply IH; [exact H|]|eapply ctx_cell; [exact E|]]; intros K; apply N, in_or_app; auto.
Qed.
Lemma round_touch T strict re cs : forall s s' e, tfold (ctx_step T strict re) cs s = TOk s' -> ~ In e (flat_map clocs cs) ->
  get (fst s') e = get (fst s) e.
Proof.
  induction cs as [|c cs IH]; intros s s' e H N; cbn [tfold] in H; [injection H as <-; reflexivity|].
  tb H. cbn [flat_map] in N. rewrite (IH _ _ _ H); [eapply ctx_touch; [exact E|]|]; intros K; apply N, in_or_app; auto.
Qed.

(** ** Operands of remainder and sign are first met by the operation *)
Definition operand (u : unif) : option (loc * loc) :=
  match u with UMod a _ e => Some (a, e) | UPosNeg a e => Some (a, e) | _ => None end.
Fixpoint fresh (seen : list loc) (us : list unif) : Prop :=
  match us with
  | [] => True
  | u :: us => (forall a e, operand u = Some (a, e) -> ~ In a seen) /\ fresh (ulocs u ++ seen) us
  end.
Lemma fresh_incl us : forall seen seen', incl seen' seen -> fresh seen us -> fresh seen' us.
Proof.
  induction us as [|u us IH]; cbn; intros seen seen' I H; [exact Logic.I|]. destruct H as (A & B). split.
  - intros a e O K. apply (A a e O), I, K.
  - eapply IH; [|exact B]. intros x K. apply in_app_iff in K. apply in_or_app. destruct K; auto.
Qed.
Lemma fresh_app us vs : forall seen, fresh seen us -> fresh (flat_map ulocs us ++ seen) vs -> fresh seen (us ++ vs).
Proof.
  induction us as [|u us IH]; cbn [flat_map app fresh]; intros seen A B; [exact B|]. destruct A as (A1 & A2). split; [exact A1|].
  apply IH; [exact A2|]. eapply fresh_incl; [|exact B]. intros x K. rewrite !in_app_iff in *. tauto.
Qed.
Lemma operand_arith T strict R u X X' a e : operand u = Some (a, e) -> unify T strict R u X = TOk X' -> get X a = None ->
  tyat X' e SArith.
Proof.
  destruct u; try discriminate; cbn [operand unify]; intros O H G; injection O as <- <-.
  - destruct (get_or_insert e0 SArith X) as (se & X1) eqn:E1. destruct (get_or_insert a0 SArith X1) as (sa & X2) eqn:E2.
    destruct (get_or_insert b SArith X2) as (sb & X3) eqn:E3.
    tb H. tb H. injection H as <-. apply of_opt_ok in E, E0. destruct (unify_le _ _ _ E) as (L1 & L2), (unify_le _ _ _ E0) as (L3 & L4).
    assert (SA : sle r0 SArith).
    { destruct (Nat.eq_dec a0 e0) as [->|NE].
      - unfold get_or_insert in E1. rewrite G in E1. injection E1 as <- <-. exact L4.
      - apply get_or_insert_ok in E1, E2. destruct E1 as (D1 & _ & _), E2 as (_ & _ & Q).
        assert (G1 : get X1 a0 = None). { rewrite (dec_frame _ _ _ _ D1); [exact G|]. intros [->|[]]. auto. }
        rewrite (Q G1) in L1. exact (sle_trans _ _ _ L3 L1). }
    exists r0. split; [|exact SA]. rewrite !get_put, !Nat.eqb_refl. destruct (Nat.eqb e0 b), (Nat.eqb e0 a0); reflexivity.
  - destruct (get_or_insert e0 SArith X) as (se & X1) eqn:E1. destruct (get_or_insert a0 SArith X1) as (sa & X2) eqn:E2.
    tb H. injection H as <-. apply of_opt_ok in E. destruct (unify_le _ _ _ E) as (L1 & L2).
    assert (SA : sle r SArith).
    { destruct (Nat.eq_dec a0 e0) as [->|NE].
      - unfold get_or_insert in E1. rewrite G in E1. injection E1 as <- <-. exact L1.
      - apply get_or_insert_ok in E1, E2. destruct E1 as (D1 & _ & _), E2 as (_ & _ & Q).
        assert (G1 : get X1 a0 = None). { rewrite (dec_frame _ _ _ _ D1); [exact G|]. intros [->|[]]. auto. }
        rewrite (Q G1) in L2. exact L2. }
    exists r. split; [|exact SA]. rewrite !get_put, !Nat.eqb_refl. destruct (Nat.eqb e0 a0); reflexivity.
Qed.
Lemma ole_tyat X Y e s : ole (get Y e) (get X e) -> tyat X e s -> tyat Y e s.
Proof. intros O (n & G & S). rewrite G in O. apply ole_some in O. destruct O as (m & G' & S'). exists m. split; [exact G'|]. exact (sle_trans _ _ _ S' S). Qed.
Lemma fresh_arith T strict R us : forall seen X X', fresh seen us -> tfold (unify T strict R) us X = TOk X' ->
  (forall x, ~ In x seen -> In x (flat_map ulocs us) -> get X x = None) ->
  forall u a e, In u us -> operand u = Some (a, e) -> ~ In e (map fst (tcs us)) -> tyat X' e SArith.
Proof.
  induction us as [|u us IH]; intros seen X X' F H U w a e I O N; [destruct I|]. cbn [tfold] in H. tb H. destruct F as (F1 & F2).
  rewrite tcs_cons, map_app in N. destruct I as [<-|I].
  - assert (G : get X a = None).
    { apply U; [eapply F1; exact O|]. apply in_or_app. left. destruct u; try discriminate; injection O as <- <-; left; reflexivity. }
    pose proof (operand_arith _ _ _ _ _ _ _ _ O E G) as A. eapply ole_tyat; [|exact A].
    eapply unifs_cell; [exact H|]. intros K. apply N, in_or_app. auto.
  - eapply (IH _ _ _ F2 H); [|exact I|exact O|intros K; apply N, in_or_app; auto].
    intros x NS J. assert (NS' : ~ In x (ulocs u) /\ ~ In x seen) by (rewrite in_app_iff in NS; tauto).
    rewrite (unify_touch _ _ _ _ _ _ _ E (proj1 NS')). apply U; [apply NS'|]. apply in_or_app. auto.
Qed.
(** In the first round every context finds its own locations without types. *)
Lemma first_round_arith T strict re : forall cs s s', tfold (ctx_step T strict re) cs s = TOk s' ->
  (forall x, In x (flat_map clocs cs) -> get (fst s) x = None) ->
  (forall c, In c cs -> fresh [] (cx_unifs c)) ->
  (forall l1 c l2 x, cs = l1 ++ c :: l2 -> In x (clocs c) -> ~ In x (flat_map clocs l2)) ->
  forall c u a e, In c cs -> In u (cx_unifs c) -> operand u = Some (a, e) -> ~ In e (map fst (tcs (flat_map cx_unifs cs))) ->
  tyat (fst s') e SArith.
Proof.
  induction cs as [|c cs IH]; intros s s' H U F D c' u a e I J O N; [destruct I|]. cbn [tfold] in H. tb H. rename r into s1.
  cbn [flat_map] in N, U. rewrite tcs_app, map_app in N. destruct I as [<-|I].
  - assert (A : tyat (fst s1) e SArith).
    { destruct s as (X & R), s1 as (X1 & R1). apply ctx_step_parts in E. destruct E as (Y & A & B & _). cbn [fst] in *.
      apply propagate_vars_ok in B. destruct B as (B & _). eapply ole_tyat; [apply B|].
      eapply (fresh_arith _ _ _ _ [] _ _ (F c (or_introl eq_refl)) A); [|exact J|exact O|intros K; apply N, in_or_app; auto].
      intros x _ K. apply U, in_or_app. auto. }
    eapply ole_tyat; [|exact A]. eapply round_cell; [exact H|]. intros K. apply N, in_or_app. auto.
  - eapply (IH _ _ H); [| | |exact I|exact J|exact O|intros K; apply N, in_or_app; auto].
    + intros x K. rewrite (ctx_touch _ _ _ _ _ _ _ E); [apply U, in_or_app; auto|]. intros K'. exact (D [] c cs x eq_refl K' K).
    + intros c0 K. apply F. right. exact K.
    + intros l1 c0 l2 x -> K. apply (D (c :: l1) c0 l2 x eq_refl K).
Qed.
Lemma loop_cell T re cs fuel : forall s s' e, infer_loop fuel T re cs s = Some (TOk s') -> ~ In e (map fst (tcs (flat_map cx_unifs cs))) ->
  ole (get (fst s') e) (get (fst s) e).
Proof.
  induction fuel as [|fuel IH]; cbn; intros s s' e H N; [discriminate|].
  destruct (tfold (ctx_step T false re) cs s) as [s1| |] eqn:E; try discriminate. pose proof (round_cell _ _ _ _ _ _ _ E N) as A.
  destruct (exprs_eq (fst s) (fst s1)); [injection H as <-; exact A|]. eapply ole_trans; [eapply IH; eauto|exact A].
Qed.

(** ** The types of variables that are reported *)
Lemma get_var_type_ok X x r : get_var_type X x = TOk r -> exists e es, snd x = e :: es /\ fst r = fst x /\ get X e = Some (snd r).
Proof.
  unfold get_var_type. destruct x as (v & [|e es]); [discriminate|]. cbn. intros H. tb H. apply unwrap_ok in E. injection H as <-. eauto.
Qed.
Lemma assoc_vars X m vk v es : tmap (get_var_type X) m = TOk vk -> NoDup (map fst m) -> In (v, es) m ->
  exists e s, In e es /\ get X e = Some s /\ assoc v vk = Some s.
Proof.
  intros H N I. apply tmap_Forall2 in H. induction H as [|x r m vk G H IH]; [destruct I|]. inversion N as [|? ? N1 N2]; subst.
  apply get_var_type_ok in G. destruct G as (e & es' & A & B & G). destruct r as (w & s). cbn in *. destruct I as [->|I].
  - cbn in *. subst. exists e, s. rewrite Nat.eqb_refl. cbn. auto.
  - destruct (Nat.eqb_spec v w) as [->|NE]; [|apply IH; auto]. destruct N1. rewrite <- B. apply in_map_iff. exists (w, es). auto.
Qed.
Lemma final_vars T re : forall cs s vs s' vs', tfold (final_step T re) cs (s, vs) = TOk (s', vs') ->
  (forall l1 c l2 x, cs = l1 ++ c :: l2 -> In x (clocs c) -> ~ In x (flat_map clocs l2)) ->
  (exists tl, vs' = vs ++ tl /\ length tl = length cs) /\
  forall k c, nth_error cs k = Some c -> exists vk, nth_error vs' (length vs + k) = Some vk /\
    forall e v, In (UVar e v) (cx_unifs c) -> exists e' s0, In (UVar e' v) (cx_unifs c) /\ get (fst s') e' = Some s0 /\ assoc v vk = Some s0.
Proof.
  induction cs as [|c cs IH]; intros s vs s' vs' H D.
  - cbn in H. injection H as <- <-. split; [exists []; rewrite app_nil_r; auto|]. intros [|k] c; discriminate.
  - cbn [tfold] in H. tb H. destruct r as (s1 & vs1). apply final_step_parts in E. destruct E as (_ & _ & _ & vk & G & ->).
    destruct (IH _ _ _ _ H) as ((tl & Q & QL) & P).
    { intros l1 c0 l2 x -> K. apply (D (c :: l1) c0 l2 x eq_refl K). }
    split; [exists (vk :: tl); rewrite <- app_assoc in Q; cbn; auto|].
    intros [|k] c' J; cbn in J.
    + injection J as <-. exists vk. split.
      * rewrite Q, <- app_assoc, nth_error_app2 by lia. replace (length vs + 0 - length vs) with 0 by lia. reflexivity.
      * intros e v UV. destruct (var_exprs_ok (cx_unifs c)) as (N & HV). apply HV in UV. destruct UV as (es & I & _).
        destruct (assoc_vars _ _ _ _ _ G N I) as (e' & s0 & I' & G' & A'). exists e', s0.
        assert (UV' : In (UVar e' v) (cx_unifs c)) by (apply HV; exists es; auto). split; [exact UV'|]. split; [|exact A'].
        rewrite <- G'. eapply round_touch; [eapply final_is_round; exact H|]. apply (D [] c cs e' eq_refl).
        apply in_flat_map. exists (UVar e' v). cbn. auto.
    + destruct (P k c' J) as (vk' & N & R). exists vk'. split; [|exact R]. rewrite app_length in N. cbn in N.
      replace (length vs + S k) with (length vs + 1 + k) by lia. exact N.
Qed.
