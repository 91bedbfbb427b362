(** The shape of the plans of rules without aggregation, foreign code and new
    entities: atoms are joined one by one, negated atoms are subtracted last.  Used
    by C56. *)
From Coq Require Import List ZArith Bool Arith Lia Permutation.
From Verif Require Import Value Back Eval Ram Dataflow BackSem Scc SccFacts Plan PlanSem PlanFacts PlanFacts2 PropsPlan
  VarTuple B2R B2RFacts B2RSpec B2RStrata StrataSem TypedProg PropsTyped PermOrder B2RWf.
Import ListNotations.
Set Implicit Arguments.

Section Shape.
  Variables (Sh : nat -> tuple -> Prop) (N : penv) (q : qctx).
  Hypothesis RED : q_reduces q = [].
  Hypothesis FP : q_fp q = [].
  Hypothesis POS : forall a, In a (q_pos q) -> aok Sh a.
  Notation ok := (posp Sh).

  Lemma dedup_iff : forall a v, In v (avars a) <-> In v (dedup (avars a)).
  Proof. intros a v. symmetry. apply dedup_In. Qed.
  Lemma ground_pos : forall a, aok Sh a -> ok (ground a).
  Proof. intros a H. cbn. split; [apply dedup_iff|exact H]. Qed.
  Lemma assigns_pos : forall fuel ap p x, ok p -> try_assigns fuel q (bvars p) ap p = Some x -> ok (snd x).
  Proof.
    induction fuel as [|fuel IH]; intros ap p x H E; cbn [try_assigns] in E;
      match type of E with context [filter ?f (enum (q_assigns q))] => destruct (filter f (enum (q_assigns q))) as [|y l] end.
    - injection E as <-. exact H.
    - discriminate.
    - injection E as <-. exact H.
    - match type of E with try_assigns _ _ ?bv ?ap' (PProject _ _ ?l') = _ => apply (IH ap' (PProject bv p l')); [|exact E] end.
      cbn [posp]. split; [|exact H]. intros v Iv. apply vunion_In. auto.
  Qed.
  Lemma constraint_pos : forall ap p, ok p -> ok (snd (try_constraint q ap p)).
  Proof.
    intros ap p H. unfold try_constraint. match goal with |- context [filter ?f (enum (q_cons q))] => destruct (filter f (enum (q_cons q))) end; [exact H|].
    cbn. auto.
  Qed.
  Lemma fp_loop_pos : forall fuel bv ap p x, fp_loop N fuel q bv ap p = Some x -> x = (ap, p).
  Proof. intros fuel bv ap p x E. destruct fuel; cbn [fp_loop] in E; rewrite FP in E; cbn in E; congruence. Qed.
  Lemma try_apply_pos : forall fuel ap p x, ok p -> try_apply N fuel q ap p = Some x -> ok (snd x).
  Proof.
    induction fuel as [|fuel IH]; intros ap p x H E; cbn [try_apply] in E;
      (destruct (try_assigns (S (n_lits q)) q (bvars p) (ap_assigns ap) p) as [[aa p1]|] eqn:E1; [|discriminate];
       pose proof (@assigns_pos _ _ _ _ H E1) as H1; cbn [snd] in H1;
       pose proof (constraint_pos (ap_cons ap) _ H1) as H2; destruct (try_constraint q (ap_cons ap) p1) as [ac p2]; cbn [snd] in H2;
       destruct (fp_loop N (S (n_lits q)) q (bvars p2) (ap_fp ap) p2) as [[af p3]|] eqn:E3; [|discriminate];
       apply fp_loop_pos in E3; injection E3 as -> ->;
       match type of E with (if ?b then _ else _) = _ => destruct b end).
    - discriminate.
    - injection E as <-. exact H2.
    - eapply IH; eauto.
    - injection E as <-. exact H2.
  Qed.
  Lemma start_pos : forall arcs ap p n, start_plan N q arcs = Some (ap, p, n) -> ok p.
  Proof.
    intros arcs ap p n E. unfold start_plan in E. rewrite RED, FP in E.
    assert (K : forall ap0 p0 k, ok p0 -> obnd (apply_all N q ap0 p0) (fun x => Some (x, k)) = Some (ap, p, n) -> ok p).
    { intros ap0 p0 k H E0. destruct (apply_all N q ap0 p0) as [[ap1 p1]|] eqn:E1; [|discriminate]. injection E0 as <- <- <-. exact (try_apply_pos _ _ _ H E1). }
    destruct arcs as [|[l0 i] arcs].
    - eapply K; [|exact E]. exact Logic.I.
    - destruct (nth_error (q_pos q) i) as [a|] eqn:En; [|discriminate]. cbn [obnd] in E. eapply K; [|exact E].
      apply ground_pos, POS. eapply nth_error_In; eauto.
  Qed.
  Lemma add_arcs_pos : forall arcs ap p x, ok p -> add_arcs N q arcs ap p = Some x -> ok (snd x).
  Proof.
    induction arcs as [|[l0 i] arcs IH]; intros ap p x H E; cbn [add_arcs] in E; [injection E as <-; exact H|].
    destruct (nth_error (q_pos q) i) as [a|] eqn:En; [|discriminate].
    destruct (apply_all N q ap (join p (ground a))) as [[ap1 p1]|] eqn:E1; [|discriminate].
    eapply IH; [|exact E]. refine (try_apply_pos _ _ _ _ E1). cbn [posp join ground].
    split; auto. split; auto. apply ground_pos, POS. eapply nth_error_In; eauto.
  Qed.
  Lemma posp_negp : forall p, ok p -> negp Sh p.
  Proof. destruct p; cbn; tauto. Qed.
  Lemma add_negs_bvars : forall l p, bvars (fold_left (fun p a => PAnti (bvars p) p (ground a)) l p) = bvars p.
  Proof. induction l as [|a l IH]; intros p; cbn; auto. rewrite IH. reflexivity. Qed.
  Lemma add_negs_neg : forall l p, negp Sh p -> (forall a, In a l -> aok Sh a /\ incl (avars a) (bvars p)) ->
    negp Sh (fold_left (fun p a => PAnti (bvars p) p (ground a)) l p).
  Proof.
    induction l as [|a l IH]; intros p H HA; cbn [fold_left]; auto. apply IH.
    - destruct (HA a (or_introl eq_refl)) as [A1 A2]. cbn [negp ground]. split; auto. split; [apply ground_pos; auto|].
      intros v Iv. apply A2, dedup_iff, Iv.
    - intros b Ib. cbn [bvars]. apply HA. right; auto.
  Qed.
End Shape.

Theorem typed_plan_shape : forall Sh C N P sig order h body p, (forall l, Permutation (order l) l) ->
  (forall p, g_foreign (p_reg P) p = pe_foreign N p) -> typed_rule C N sig h body ->
  (forall a, In (LAtom a) body \/ In (LNeg a) body -> aok Sh a) ->
  query_plan N order body = Some p -> negp Sh p.
Proof.
  intros Sh C N P sig order h body p ORD REG TR AOK R. unfold query_plan in R.
  destruct (from_body N body) as [q|] eqn:E1; [|discriminate].
  destruct (pos_atom_arcs order 5 q) as [st|] eqn:E2; [|discriminate].
  destruct (@from_body_ok _ _ _ E1) as [QO _].
  destruct (@tr_lowers C N P sig REG h body TR) as [[F1 F2 F3] P4 P5 P6 _ _ _].
  destruct (@get_query_plan_inv (p_reg P) N body F1 F2 F3 q QO (@from_body_tests _ _ _ E1 P6) P4 P5 _ _ R) as (_ & _ & (L & p0 & _ & EP & _ & LM & _) & _).
  { apply (full_covers (@pos_atom_arcs_ok _ ORD _ _ _ E2)). }
  assert (NW : news q = []).
  { destruct (news q) as [|x l] eqn:En; auto. exfalso. assert (I : In x (news q)) by (rewrite En; left; auto). unfold news in I. apply filter_In in I.
    destruct I as [I K]. apply (qo_asg QO) in I. destruct x as [v e]. unfold asg in I. cbn [fst snd] in *. rewrite (tr_no_new TR _ _ I) in K. discriminate. }
  assert (RD : q_reduces q = []).
  { destruct (q_reduces q) as [|r l] eqn:En; auto. exfalso. apply (tr_no_reduce TR r). apply (qo_red QO). rewrite En. left; auto. }
  assert (FPN : q_fp q = []).
  { destruct (q_fp q) as [|a l] eqn:En; auto. exfalso. assert (I : In a (q_fp q)) by (rewrite En; left; auto). apply (qo_fp QO) in I. destruct I as [I K].
    rewrite (tr_no_fp TR _ I) in K. discriminate. }
  unfold add_news in EP. rewrite NW in EP. subst p0.
  unfold get_query_plan in R. destruct (start_plan N q (s_arcs st)) as [[[ap1 p1] n]|] eqn:E3; [|discriminate].
  destruct (add_arcs N q (skipn n (s_arcs st)) ap1 p1) as [[ap2 p2]|] eqn:E4; [|discriminate]. injection R as R. unfold add_news in R. rewrite NW in R. subst p.
  assert (POS : forall a, In a (q_pos q) -> aok Sh a) by (intros a I; apply AOK; left; apply (qo_pos QO), I).
  pose proof (@start_pos Sh N q RD FPN POS _ _ _ _ E3) as H1.
  pose proof (@add_arcs_pos Sh N q FPN POS _ _ _ _ H1 E4) as H2. cbn [snd] in H2.
  unfold add_negs in *. rewrite add_negs_bvars in LM. apply add_negs_neg; [apply posp_negp; auto|].
  intros a Ia. apply (qo_neg QO) in Ia. split; [apply AOK; auto|]. intros v Iv. apply LM.
  destruct (tr_safe TR _ v Ia Iv) as [K|[K _]]; [exact K|discriminate].
Qed.
