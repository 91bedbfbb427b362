(** C74: aggregations are compiled to aggregations over the tuples of their bodies. *)
From Coq Require Import List ZArith Bool Arith Lia.
From Verif Require Import Value ListAux Back Eval BackSem Scc Plan PlanSem PlanFacts Front FrontSem FrontFacts PropsFront FlatFacts PropsFlat Bound PropsBound FrontAgg AggSem AggFacts AggFacts2.
Import ListNotations.

(** The temporary relations have the tuples that their rules yield. *)
Definition defined_by (B : benv) (g : registry) (M : interp) (nm : path -> pred) (temps : list rule) : Prop :=
  forall p t, M (nm p) t <-> exists r, In r temps /\ head_consequence B g M M r (nm p) t.

(** The rules that a rule with aggregations is compiled to have no other consequences
    than the rule. *)
Theorem C74_sound_partial : forall A B g X M foreign nb ar fr wc nm r main temps,
  extensional A -> (forall r X Y s, b_agg B r X Y s <-> agg_meaning A r X Y s) ->
  (forall p q, nm p = nm q -> p = q) -> (forall i j, fr i = fr j -> i = j) ->
  (forall v i, In v (head_vars (ar_head r) ++ aform_vars wc (ar_body r)) -> v <> fr i) ->
  afull (ar_body r) = true -> aneg_wild_free (ar_body r) = true -> shared (grounds foreign nb ar) (ar_body r) = true ->
  aggs_regular A B g M wc (grounds foreign nb ar) (ar_body r) ->
  lower_rule foreign nb ar fr wc nm r = Some (main, temps) -> defined_by B g M nm temps ->
  forall r' p t, In r' main -> head_consequence B g X M r' p t -> agg_consequence A B g M wc (grounds foreign nb ar) X r p t.
Proof.
  intros A B g X M foreign nb ar fr wc nm [hd body] main temps AE BA NI FI FR AF AN SH AR H DEF r p t. cbn [ar_head ar_body] in *.
  unfold lower_rule in H. cbn [ar_head ar_body] in H. destruct (from_aform body) as [cs|] eqn:D; [|discriminate H]. cbn [obnd] in H.
  destruct (flat_head fr hd) as [[[h extra] n]|] eqn:Qh; [|discriminate H]. cbn [obnd] in H. rewrite ehead_same in H.
  destruct (lower_conjs foreign nb ar fr wc nm extra cs [] (head_vars hd) h 0 n) as [[[rs us] n']|] eqn:E; [|discriminate H]. cbn [obnd] in H. injection H as <- <-.
  pose (V := fun v => In v (head_vars hd ++ aform_vars wc body)).
  assert (VH : forall v, In v (head_vars hd) -> V v) by (intros v J; apply in_or_app; auto).
  assert (VC : forall v, In v (flat_map (jvars wc) cs) -> V v). { intros v J. apply in_flat_map in J. destruct J as (c & J1 & J2). apply in_or_app. right. eapply from_vars; eauto. }
  destruct (heads_conjs foreign nb ar fr wc nm cs (all_heads_Q foreign nb ar fr wc nm cs) _ _ _ _ _ _ _ _ _ E) as [C1 C2].
  assert (TH : forall r, In r us -> exists a, r_head r = HAtom a). { intros r0 I. destruct (C2 r0 I) as (? & ? & ? & _ & y & a & Ea & _). eauto. }
  destruct (sem_conjs A B g M foreign nb ar fr wc nm NI V (fun r => In r us) cs) with (2 := E) as (_ & S0).
  { apply Forall_forall. intros c _. apply (proj2 (sem_ok A B g M foreign nb ar fr wc nm NI FI V FR AE BA (fun r => In r us) DEF TH)). }
  { auto. } { intros ci ai b _ x Tx _. exact Tx. } { eapply from_ok; eauto. } { exact VC. } { eapply from_greg; eauto. }
  destruct (S0 X) as [A1 A2].
  intros Ir (s & a & Sr & Ia & -> & ->). destruct (A1 r Ir) as (c & m & m' & Ic & _ & ls & -> & _ & _ & S1 & _). cbn [r_body r_head] in *.
  assert (SS : sat B g X M s (ls ++ extra)) by exact Sr. apply sat_app_inv in SS. destruct SS as [Sl Se].
  destruct (@head_sound fr B g X M s hd h extra n Qh Se a Ia) as (b & J1 & J2 & J3). exists s, b. split; [|split; auto]. cbn [ar_body ar_head].
  apply (dnf_agg A B g M foreign nb ar wc AE body AF cs D). exists c. split; auto.
Qed.
(** They have all of them, if the expressions are regular. *)
Theorem C74_complete_partial : forall A B g X M foreign nb ar fr wc nm r main temps,
  extensional A -> (forall r X Y s, b_agg B r X Y s <-> agg_meaning A r X Y s) ->
  (forall p q, nm p = nm q -> p = q) -> (forall i j, fr i = fr j -> i = j) ->
  (forall v i, In v (head_vars (ar_head r) ++ aform_vars wc (ar_body r)) -> v <> fr i) ->
  afull (ar_body r) = true -> aneg_wild_free (ar_body r) = true -> shared (grounds foreign nb ar) (ar_body r) = true ->
  aggs_regular A B g M wc (grounds foreign nb ar) (ar_body r) ->
  (forall s, aholds A B g M wc (grounds foreign nb ar) X (head_vars (ar_head r)) s (ar_body r) ->
     exprs_regular A B g M wc (grounds foreign nb ar) X (head_vars (ar_head r)) s (ar_body r) /\
     forall a e, In a (fhead_atoms (ar_head r)) -> In e (snd a) -> regular (b_env B) s e) ->
  lower_rule foreign nb ar fr wc nm r = Some (main, temps) -> defined_by B g M nm temps ->
  forall p t, agg_consequence A B g M wc (grounds foreign nb ar) X r p t -> exists r', In r' main /\ head_consequence B g X M r' p t.
Proof.
  intros A B g X M foreign nb ar fr wc nm [hd body] main temps AE BA NI FI FR AF AN SH AR ER H DEF p t. cbn [ar_head ar_body] in *.
  unfold lower_rule in H. cbn [ar_head ar_body] in H. destruct (from_aform body) as [cs|] eqn:D; [|discriminate H]. cbn [obnd] in H.
  destruct (flat_head fr hd) as [[[h extra] n]|] eqn:Qh; [|discriminate H]. cbn [obnd] in H. rewrite ehead_same in H.
  destruct (lower_conjs foreign nb ar fr wc nm extra cs [] (head_vars hd) h 0 n) as [[[rs us] n']|] eqn:E; [|discriminate H]. cbn [obnd] in H. injection H as <- <-.
  pose (V := fun v => In v (head_vars hd ++ aform_vars wc body)).
  assert (VH : forall v, In v (head_vars hd) -> V v) by (intros v J; apply in_or_app; auto).
  assert (VC : forall v, In v (flat_map (jvars wc) cs) -> V v). { intros v J. apply in_flat_map in J. destruct J as (c & J1 & J2). apply in_or_app. right. eapply from_vars; eauto. }
  destruct (heads_conjs foreign nb ar fr wc nm cs (all_heads_Q foreign nb ar fr wc nm cs) _ _ _ _ _ _ _ _ _ E) as [C1 C2].
  assert (TH : forall r, In r us -> exists a, r_head r = HAtom a). { intros r0 I. destruct (C2 r0 I) as (? & ? & ? & _ & y & a & Ea & _). eauto. }
  destruct (sem_conjs A B g M foreign nb ar fr wc nm NI V (fun r => In r us) cs) with (2 := E) as (_ & S0).
  { apply Forall_forall. intros c _. apply (proj2 (sem_ok A B g M foreign nb ar fr wc nm NI FI V FR AE BA (fun r => In r us) DEF TH)). }
  { auto. } { intros ci ai b _ x Tx _. exact Tx. } { eapply from_ok; eauto. } { exact VC. } { eapply from_greg; eauto. }
  destruct (S0 X) as [A1 A2].
  intros (s & a & S1 & Ia & -> & K). cbn [ar_body ar_head] in *. destruct (ER s S1) as [RB RH].
  pose proof (proj1 (dnf_agg A B g M foreign nb ar wc AE body AF cs D X (head_vars hd) s) S1) as (c & Ic & Sc).
  destruct (A2 c Ic) as (r & m & m' & Ir & L & ls & -> & Lm & W & _ & S2).
  assert (JR : jreg A B g M foreign nb ar wc X (head_vars hd) c). { eapply from_jreg; eauto. intros s0 H0. apply ER; auto. }
  destruct (S2 s Sc JR) as (s2 & X2 & T2).
  assert (AG : agree (head_vars hd) s s2) by (eapply source_agree with (V := V); [exact FR| |exact X2]; exact VH).
  assert (AH : forall a e, In a (fhead_atoms hd) -> In e (snd a) -> agree (expr_vars e) s s2).
  { intros a0 e J1 J2 v J3. apply AG. unfold head_vars. apply in_flat_map. exists a0. split; auto. apply in_flat_map. eauto. }
  assert (RH2 : forall a e, In a (fhead_atoms hd) -> In e (snd a) -> regular (b_env B) s2 e). { intros a0 e J1 J2. apply regular_local with (s := s); [apply (AH a0 e J1 J2)|eauto]. }
  assert (K2 : have_values (b_env B) s2 (snd a) t).
  { pose proof (AH a) as AA. clear - K AA Ia. unfold have_values in *. assert (AA' : forall e, In e (snd a) -> agree (expr_vars e) s s2) by auto. clear AA. induction K as [|e v l vs He K IH]; [constructor|].
    constructor; [apply value_local with (s := s); [apply AA'; left; auto|exact He]|]. apply IH. intros e' J. apply AA'. right; auto. }
  destruct (@head_complete fr B g X M FI V FR s2 hd h extra n VH Qh RH2 a t Ia K2) as (We & Wh & s3 & X3 & T3 & b & Ib & Eb1 & Eb2).
  eexists. split; [exact Ir|]. exists s3, b. split; [|split; [exact Ib|split; [auto|]]].
  - change (sat B g X M s3 (ls ++ extra)). apply sat_app; auto. exact (@ext_sat fr FI B g X M V FR _ _ _ _ _ _ _ W X3 (or_intror L) T2).
  - symmetry. exact Eb2.
Qed.
(** Examples: PropsAggProg.v. *)
Print Assumptions C74_sound_partial.
Print Assumptions C74_complete_partial.
