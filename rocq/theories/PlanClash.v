(** Plans without clashing joins: a condition on the body of a rule.  Used by C54. *)
From Coq Require Import List ZArith Bool Arith Lia Permutation.
From Verif Require Import Value Back Eval Ram Dataflow BackSem Scc SccFacts Plan PlanSem PlanFacts PlanFacts2 PropsPlan
  VarTuple VarTupleFacts B2R RamSem B2RFacts B2RFacts2 B2RSpec.
Import ListNotations.
Set Implicit Arguments.

(** At most one aggregation, and no foreign atom that gives values without needing
    any: one with free arguments has a variable among its bounded ones. *)
Definition few_sources (N : penv) (body : list lit) : Prop :=
  length (filter (fun l => match l with LReduce _ => true | _ => false end) body) <= 1 /\
  forall a, In (LAtom a) body -> pe_foreign N (a_pred a) = true ->
    length (a_args a) <= pe_bounded N (a_pred a) \/ exists v, In (TVar v) (firstn (pe_bounded N (a_pred a)) (a_args a)).

Section Clash.
  Variables (N : penv) (order : list state -> list state) (q : qctx).
  Hypothesis RED : length (q_reduces q) <= 1.
  Hypothesis FP : forall a, In a (q_fp q) -> fp_free N a = [] \/ forallb is_const (fp_bound N a) = false.
  Notation ok p := (clash_free p = true).

  Lemma assigns_ok : forall fuel bv ap p x, ok p -> try_assigns fuel q bv ap p = Some x -> ok (snd x).
  Proof.
    induction fuel as [|fuel IH]; intros bv ap p x H E; cbn [try_assigns] in E;
      match type of E with context [filter ?f (enum (q_assigns q))] => destruct (filter f (enum (q_assigns q))) end.
    - injection E as <-. exact H.
    - discriminate.
    - injection E as <-. exact H.
    - eapply IH; [|exact E]. exact H.
  Qed.
  Lemma constraint_ok : forall ap p, ok p -> ok (snd (try_constraint q ap p)).
  Proof. intros ap p H. unfold try_constraint. match goal with |- context [filter ?f (enum (q_cons q))] => destruct (filter f (enum (q_cons q))) end; exact H. Qed.
  Lemma apply_fp_ok : forall bv p a, In a (q_fp q) -> ok p -> ok (apply_fp N bv p a).
  Proof.
    intros bv p a Ia H. unfold apply_fp. destruct (fp_free N a) as [|x l] eqn:E; [exact H|].
    destruct (FP a Ia) as [K|K]; [congruence|]. rewrite K. unfold fp_join. destruct (rename_free N a (bvars p)) as [vs es].
    destruct (const_cons N (a_pred a) (fp_free N a) ++ eq_cons es); exact H.
  Qed.
  Lemma fp_pass_ok : forall bv l ap p any, (forall i a, In (i, a) l -> In a (q_fp q)) -> ok p -> ok (snd (fst (fp_pass N bv l ap p any))).
  Proof.
    intros bv. induction l as [|[i a] l IH]; intros ap p any I H; cbn [fp_pass]; [exact H|].
    destruct (negb (memb i ap) && forallb (term_bounded bv) (fp_bound N a)).
    - apply IH; [intros j b J; apply (I j); right; auto|]. apply apply_fp_ok; [apply (I i); left|]; auto.
    - apply IH; [intros j b J; apply (I j); right; auto|exact H].
  Qed.
  Lemma fp_loop_ok : forall fuel bv ap p x, ok p -> fp_loop N fuel q bv ap p = Some x -> ok (snd x).
  Proof.
    induction fuel as [|fuel IH]; intros bv ap p x H E; cbn [fp_loop] in E;
      pose proof (@fp_pass_ok bv (enum (q_fp q)) ap p false (fun i a J => nth_error_In _ _ (proj1 (enum_In _ _ _ _) J)) H) as K;
      destruct (fp_pass N bv (enum (q_fp q)) ap p false) as [[ap' p'] any]; cbn [fst snd] in K; destruct any; try discriminate E.
    - injection E as <-. exact K.
    - eapply IH; eauto.
    - injection E as <-. exact K.
  Qed.
  Lemma try_apply_ok : forall fuel ap p x, ok p -> try_apply N fuel q ap p = Some x -> ok (snd x).
  Proof.
    induction fuel as [|fuel IH]; intros ap p x H E; cbn [try_apply] in E;
      (destruct (try_assigns (S (n_lits q)) q (bvars p) (ap_assigns ap) p) as [[aa p1]|] eqn:E1; [|discriminate];
       pose proof (@assigns_ok _ _ _ _ _ H E1) as H1; cbn [snd] in H1;
       pose proof (constraint_ok (ap_cons ap) _ H1) as H2; destruct (try_constraint q (ap_cons ap) p1) as [ac p2]; cbn [snd] in H2;
       destruct (fp_loop N (S (n_lits q)) q (bvars p2) (ap_fp ap) p2) as [[af p3]|] eqn:E3; [|discriminate];
       pose proof (@fp_loop_ok _ _ _ _ _ H2 E3) as H3; cbn [snd] in H3;
       match type of E with (if ?b then _ else _) = _ => destruct b end).
    - discriminate.
    - injection E as <-. exact H3.
    - eapply IH; eauto.
    - injection E as <-. exact H3.
  Qed.
  Lemma apply_all_ok : forall ap p x, ok p -> apply_all N q ap p = Some x -> ok (snd x).
  Proof. intros. eapply try_apply_ok; eauto. Qed.
  Lemma start_ok : forall arcs ap p n, start_plan N q arcs = Some (ap, p, n) -> ok p.
  Proof.
    intros arcs ap p n E. unfold start_plan in E.
    assert (K : forall ap0 p0 k, ok p0 -> obnd (apply_all N q ap0 p0) (fun x => Some (x, k)) = Some (ap, p, n) -> ok p).
    { intros ap0 p0 k H E0. destruct (apply_all N q ap0 p0) as [[ap1 p1]|] eqn:E1; [|discriminate]. injection E0 as <- <- <-. exact (apply_all_ok _ _ H E1). }
    destruct (q_reduces q) as [|r rs] eqn:ER.
    - destruct arcs as [|[l0 i] arcs].
      + destruct (q_fp q) as [|a0 fps] eqn:EF; [eapply K; [|exact E]; reflexivity|]. rewrite <- EF in E.
        destruct (find (fun x => is_ground_fp N (snd x)) (enum (q_fp q))) as [[i a]|]; [|discriminate]. eapply K; [|exact E].
        unfold fp_ground. destruct (rename_free N a []) as [vs es]. destruct (const_cons N (a_pred a) (fp_free N a) ++ eq_cons es); reflexivity.
      + destruct (nth_error (q_pos q) i) as [a|]; [|discriminate]. cbn [obnd] in E. eapply K; [|exact E]. reflexivity.
    - destruct rs as [|r' rs]; [|cbn in RED; lia]. eapply K; [|exact E]. reflexivity.
  Qed.
  Lemma join_ground_ok : forall p a, ok p -> ok (join p (ground a)).
  Proof. intros p a H. cbn. rewrite H. unfold clash. cbn [direct_atom ground]. destruct (direct_atom p); reflexivity. Qed.
  Lemma add_arcs_ok : forall arcs ap p x, ok p -> add_arcs N q arcs ap p = Some x -> ok (snd x).
  Proof.
    induction arcs as [|[l0 i] arcs IH]; intros ap p x H E; cbn [add_arcs] in E; [injection E as <-; exact H|].
    destruct (nth_error (q_pos q) i) as [a|]; [|discriminate].
    destruct (apply_all N q ap (join p (ground a))) as [[ap1 p1]|] eqn:E1; [|discriminate].
    eapply IH; [|exact E]. exact (apply_all_ok _ _ (join_ground_ok _ a H) E1).
  Qed.
  Lemma get_plan_ok : forall arcs p, get_query_plan N q arcs = Some p -> ok p.
  Proof.
    intros arcs p E. unfold get_query_plan in E. destruct (start_plan N q arcs) as [[[ap p0] n]|] eqn:E0; [|discriminate].
    pose proof (start_ok _ E0) as H0. destruct (add_arcs N q (skipn n arcs) ap p0) as [[ap1 p1]|] eqn:E1; [|discriminate]. injection E as <-.
    pose proof (@add_arcs_ok _ _ _ _ H0 E1) as H1. cbn [snd] in H1.
    assert (H2 : ok (add_negs q p1)).
    { unfold add_negs. clear - H1. revert p1 H1. induction (q_neg q) as [|a l IH]; intros p1 H1; cbn [fold_left]; auto. apply IH. cbn. rewrite H1. reflexivity. }
    unfold add_news. destruct (news q); exact H2.
  Qed.
End Clash.

Lemma from_body_reduces : forall N body q, from_body N body = Some q ->
  length (q_reduces q) = length (filter (fun l => match l with LReduce _ => true | _ => false end) body).
Proof.
  intros N. induction body as [|l body IH]; intros q E; cbn [from_body] in E; [injection E as <-; reflexivity|].
  destruct (from_body N body) as [q0|]; [|discriminate]. specialize (IH q0 eq_refl).
  destruct l; try discriminate; try (injection E as <-); cbn; auto. destruct (pe_foreign N (a_pred a)); injection E as <-; cbn; auto.
Qed.
Theorem few_sources_clash_free : forall N order body p, few_sources N body -> query_plan N order body = Some p -> clash_free p = true.
Proof.
  intros N order body p [H1 H2] E. unfold query_plan in E. destruct (from_body N body) as [q|] eqn:E1; [|discriminate].
  destruct (pos_atom_arcs order 5 q) as [st|]; [|discriminate]. destruct (@from_body_ok _ _ _ E1) as [QO _].
  apply (@get_plan_ok N q) in E; auto; [rewrite (from_body_reduces _ _ E1); exact H1|].
  intros a Ia. apply (qo_fp QO) in Ia. destruct Ia as [Ia Fa]. destruct (H2 a Ia Fa) as [K|(v & K)].
  - left. unfold fp_free. apply skipn_all2. rewrite <- (map_length snd), enum_snd. exact K.
  - right. destruct (forallb is_const (fp_bound N a)) eqn:Ec; auto. rewrite forallb_forall in Ec. specialize (Ec _ K). discriminate.
Qed.
