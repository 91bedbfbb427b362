(** C62, the limits of the demand transformation: programs outside the conditions of
    C62_demand_partial whose answers, stratification or executability it breaks. *)
From Coq Require Import List ZArith Bool Arith Lia.
From Verif Require Import Value Back Eval Scc SccFacts PropsStrat BackSem PropsUnused Optimize PropsOpt PropsOpt2 VarTupleFacts Demand PropsDemand
  Plan PlanSem PlanFacts PropsPlan.
Import ListNotations.

(** Deciding stratification. *)
Definition stratb (P : program) (σ : pred -> nat) : bool :=
  forallb (fun r =>
    forallb (fun l => match l with
      | LAtom a => g_foreign (p_reg P) (a_pred a) || (σ (a_pred a) <=? σ (r_pred r))
      | LNeg a => g_foreign (p_reg P) (a_pred a) || (σ (a_pred a) <? σ (r_pred r))
      | LReduce d => (σ (a_pred (rd_body d)) <? σ (r_pred r)) &&
                     match rd_groupby d with Some a => σ (a_pred a) <? σ (r_pred r) | None => true end
      | _ => true end) (r_body r) &&
    forallb (fun f => σ f =? σ (r_pred r)) (functor_preds P r) &&
    forallb (fun a => a_pred a =? r_pred r) (head_atoms (r_head r)) &&
    forallb (fun f => memb f (g_adts (p_reg P))) (new_functors r)) (p_rules P).
Lemma stratb_ok : forall P σ, stratb P σ = true -> stratified P σ /\ wf_heads P /\ wf_functors P.
Proof.
  intros P σ H. unfold stratb in H. rewrite forallb_forall in H.
  assert (K : forall r, In r (p_rules P) ->
    (forall l, In l (r_body r) -> match l with
      | LAtom a => g_foreign (p_reg P) (a_pred a) || (σ (a_pred a) <=? σ (r_pred r))
      | LNeg a => g_foreign (p_reg P) (a_pred a) || (σ (a_pred a) <? σ (r_pred r))
      | LReduce d => (σ (a_pred (rd_body d)) <? σ (r_pred r)) &&
                     match rd_groupby d with Some a => σ (a_pred a) <? σ (r_pred r) | None => true end
      | _ => true end = true) /\ (forall f, In f (functor_preds P r) -> σ f = σ (r_pred r)) /\
      (forall a, In a (head_atoms (r_head r)) -> a_pred a = r_pred r) /\ (forall f, In f (new_functors r) -> In f (g_adts (p_reg P)))).
  { intros r Hr. specialize (H r Hr). rewrite !andb_true_iff, !forallb_forall in H. destruct H as (((H1 & H2) & H3) & H4).
    split; [exact H1|]. split; [intros f Hf; apply Nat.eqb_eq; auto|]. split; [intros a Ha; apply Nat.eqb_eq; auto|].
    intros f Hf. apply SccFacts.memb_In. auto. }
  split; [|split].
  - intros r Hr. destruct (K r Hr) as (K1 & K2 & _). split; [|exact K2]. intros q b Rq. destruct Rq as [a Ha F|a Ha F|d Hd|d a Hd G].
    + specialize (K1 _ Ha). cbn in K1. rewrite F in K1. apply Nat.leb_le in K1. split; [exact K1|discriminate].
    + specialize (K1 _ Ha). cbn in K1. rewrite F in K1. apply Nat.ltb_lt in K1. split; [lia|auto].
    + specialize (K1 _ Hd). cbn in K1. apply andb_true_iff in K1. destruct K1 as [K1 _]. apply Nat.ltb_lt in K1. split; [lia|auto].
    + specialize (K1 _ Hd). cbn in K1. rewrite G in K1. apply andb_true_iff in K1. destruct K1 as [_ K1]. apply Nat.ltb_lt in K1. split; [lia|auto].
  - intros r a Hr. apply (K r Hr).
  - intros r v f l Hr Hl. apply (K r Hr). eapply new_functor_In; eauto.
Qed.

Ltac body_in H := cbn in H; repeat destruct H as [H|H]; try discriminate; try contradiction; try (injection H as <-).
Definition prog_of (fs : list fact) (rs : list rule) : program := mkProg [] [] fs rs reg_none.

(** A negated atom on demand counts as a positive one for the atoms after it:
    r(y) :- q(x), not p(x), s(x,y), t(y,z) with p, s and t on demand.  The demand for
    t asks for p(x), the answer r(2) is lost. *)
Definition D1_rule : rule := mkRule (HAtom (at1 4 1)) [LAtom (at1 0 0); LNeg (at1 1 0); LAtom (tv2 2 0 1); LAtom (tv2 3 1 2)].
Definition D1_prog : program := prog_of [mkFact 0 [I32 1]; mkFact 5 [I32 1; I32 2]; mkFact 6 [I32 2; I32 3]; mkFact 7 [I32 9]]
  [mkRule (HAtom (at1 1 0)) [LAtom (at1 7 0)]; mkRule (HAtom (tv2 2 0 1)) [LAtom (tv2 5 0 1)];
   mkRule (HAtom (tv2 3 0 1)) [LAtom (tv2 6 0 1)]; D1_rule].
Definition D1_ads : adornments := [(1, mkAdorn [true] 11); (2, mkAdorn [true; false] 12); (3, mkAdorn [true; false] 13)].
Theorem C62_negated_refuted : exists ads P P' M M' p t,
  demand_transform_with ads P = Some P' /\ stable benv_none P M /\ stable benv_none P' M' /\
  (forall r, In r (p_rules P) -> passes ads true r) /\ ~ demand_name ads p /\ lookup p ads = None /\ M p t /\ ~ M' p t.
Proof.
  exists D1_ads, D1_prog.
  destruct (stratb_ok D1_prog (fun p => if p =? 4 then 1 else 0) eq_refl) as (St & WH & WF).
  destruct (stable_exists benv_none _ _ St WH WF) as [M SM].
  assert (TP : exists P', demand_transform_with D1_ads D1_prog = Some P') by (eexists; vm_compute; reflexivity).
  destruct TP as [P' TP].
  assert (EP : stratb P' (fun p => if p =? 4 then 1 else 0) = true) by (vm_compute in TP; injection TP as <-; vm_compute; reflexivity).
  destruct (stratb_ok P' _ EP) as (St' & WH' & WF').
  destruct (stable_exists benv_none _ _ St' WH' WF') as [M' SM'].
  exists P', M, M', 4, [I32 2]. split; [exact TP|]. split; [exact SM|]. split; [exact SM'|]. split; [|split; [|split; [reflexivity|split]]].
  - intros r Hr a ad v [Ho L] N. unfold needed in N. cbn in Hr. destruct Hr as [<-|[<-|[<-|[<-|[]]]]];
      try (destruct Ho as [Ho|Ho]; body_in Ho; discriminate L).
    assert (K0 : known D1_ads true D1_rule 0) by (apply (k_atom D1_ads true D1_rule (at1 0 0) 0); [left; reflexivity|reflexivity|left; reflexivity]).
    assert (K1 : known D1_ads true D1_rule 1).
    { apply (k_pass D1_ads true D1_rule (tv2 2 0 1) (mkAdorn [true; false] 12) 1); [reflexivity| | |right; left; reflexivity].
      - split; [left; right; right; left; reflexivity|reflexivity].
      - intros w [W|[]]. injection W as <-. exact K0. }
    destruct Ho as [Ho|Ho]; body_in Ho; cbn in L; try discriminate L; injection L as <-; destruct N as [N|[]]; injection N as <-; assumption.
  - intros (q & ad & L & E). cbn in L. do 3 (destruct (q =? _) in L; [injection L as <-; discriminate E|]). discriminate.
  - apply (stable_rule _ _ M D1_rule (fun v => match v with 0 => I32 1 | 1 => I32 2 | _ => I32 3 end) (at1 4 1) SM); [cbn; auto| |left; reflexivity].
    intros l Hl. cbn in Hl. destruct Hl as [<-|[<-|[<-|[<-|[]]]]]; cbn.
    + apply (stable_fact _ _ M (mkFact 0 [I32 1]) SM). cbn; auto.
    + intros H. destruct (stable_inv benv_none D1_prog M _ _ eq_refl eq_refl SM H) as [F|(r & s & a & Hr & Bs & Ha & Ep & Et)]; [body_in F|].
      cbn in Hr. destruct Hr as [<-|[<-|[<-|[<-|[]]]]]; body_in Ha; subst a; try discriminate Ep. cbn in Et. injection Et as Et.
      specialize (Bs _ (or_introl eq_refl)). cbn in Bs. rewrite <- Et in Bs.
      destruct (stable_inv benv_none D1_prog M _ _ eq_refl eq_refl SM Bs) as [F|(r & s' & a & Hr & _ & Ha & Ep' & _)]; [body_in F|].
      cbn in Hr. destruct Hr as [<-|[<-|[<-|[<-|[]]]]]; body_in Ha; subst a; discriminate Ep'.
    + apply (stable_rule _ _ M (mkRule (HAtom (tv2 2 0 1)) [LAtom (tv2 5 0 1)]) (fun v => match v with 0 => I32 1 | _ => I32 2 end) (tv2 2 0 1) SM);
        [cbn; auto| |left; reflexivity]. intros l [<-|[]]. apply (stable_fact _ _ M (mkFact 5 [I32 1; I32 2]) SM). cbn; auto.
    + apply (stable_rule _ _ M (mkRule (HAtom (tv2 3 0 1)) [LAtom (tv2 6 0 1)]) (fun v => match v with 0 => I32 2 | _ => I32 3 end) (tv2 3 0 1) SM);
        [cbn; auto| |left; reflexivity]. intros l [<-|[]]. apply (stable_fact _ _ M (mkFact 6 [I32 2; I32 3]) SM). cbn; auto.
  - vm_compute in TP. injection TP as <-.
    (* no p, so no demand for t, so no t *)
    assert (NoP : forall t, M' 1 t -> M' 7 t /\ M' 11 t).
    { intros t H. destruct (stable_inv benv_none ltac:(match type of SM' with stable _ ?P _ => exact P end) M' _ _ eq_refl eq_refl SM' H) as [F|(r & s & a & Hr & Bs & Ha & Ep & Et)]; [body_in F|].
      cbn in Hr. repeat destruct Hr as [<-|Hr]; try contradiction; cbn in Ha; destruct Ha as [<-|[]]; try discriminate Ep.
      rewrite Et. split; [apply (Bs (LAtom (at1 7 0))); left; reflexivity|apply (Bs (LAtom (at1 11 0))); right; left; reflexivity]. }
    assert (D0 : forall t, M' 0 t -> t = [I32 1]).
    { intros t H. destruct (stable_inv benv_none ltac:(match type of SM' with stable _ ?P _ => exact P end) M' _ _ eq_refl eq_refl SM' H) as [F|(r & s & a & Hr & Bs & Ha & Ep & Et)].
      - body_in F; reflexivity.
      - cbn in Hr. repeat destruct Hr as [<-|Hr]; try contradiction; cbn in Ha; destruct Ha as [<-|[]]; discriminate Ep. }
    assert (D7 : forall t, M' 7 t -> t = [I32 9]).
    { intros t H. destruct (stable_inv benv_none ltac:(match type of SM' with stable _ ?P _ => exact P end) M' _ _ eq_refl eq_refl SM' H) as [F|(r & s & a & Hr & Bs & Ha & Ep & Et)].
      - body_in F; reflexivity.
      - cbn in Hr. repeat destruct Hr as [<-|Hr]; try contradiction; cbn in Ha; destruct Ha as [<-|[]]; discriminate Ep. }
    assert (NoD : forall t, ~ M' 13 t).
    { intros t H. destruct (stable_inv benv_none ltac:(match type of SM' with stable _ ?P _ => exact P end) M' _ _ eq_refl eq_refl SM' H) as [F|(r & s & a & Hr & Bs & Ha & Ep & Et)]; [body_in F|].
      cbn in Hr. repeat destruct Hr as [<-|Hr]; try contradiction; cbn in Ha; destruct Ha as [<-|[]]; try discriminate Ep.
      assert (B0 := Bs (LAtom (at1 0 0)) (or_introl eq_refl)). assert (B1 := Bs (LAtom (at1 1 0)) (or_intror (or_introl eq_refl))). cbn in B0, B1.
      apply D0 in B0. destruct (NoP _ B1) as [B2 _]. apply D7 in B2. congruence. }
    intros H. destruct (stable_inv benv_none ltac:(match type of SM' with stable _ ?P _ => exact P end) M' _ _ eq_refl eq_refl SM' H) as [F|(r & s & a & Hr & Bs & Ha & Ep & Et)]; [body_in F|].
    cbn in Hr. repeat destruct Hr as [<-|Hr]; try contradiction; cbn in Ha; destruct Ha as [<-|[]]; try discriminate Ep.
    assert (B3 := Bs (LAtom (tv2 3 1 2)) ltac:(cbn; auto)). cbn in B3.
    destruct (stable_inv benv_none ltac:(match type of SM' with stable _ ?P _ => exact P end) M' _ _ eq_refl eq_refl SM' B3) as [F|(r & s' & a & Hr & Bs' & Ha & Ep' & Et')]; [body_in F|].
    cbn in Hr. repeat destruct Hr as [<-|Hr]; try contradiction; cbn in Ha; destruct Ha as [<-|[]]; try discriminate Ep'.
    apply (NoD _ (Bs' (LAtom (at1 13 0)) ltac:(cbn; auto))).
Qed.
Print Assumptions C62_negated_refuted.

(** When the demand of one atom cannot be computed the rule demands nothing:
    h(x) :- a(x), p(y), x == y with p on demand.  The answer h(1) is lost. *)
Definition D2_rule : rule := mkRule (HAtom (at1 2 0)) [LAtom (at1 0 0); LAtom (at1 1 1); LBin CEq (TVar 0) (TVar 1)].
Definition D2_prog : program := prog_of [mkFact 0 [I32 1]; mkFact 3 [I32 1]] [mkRule (HAtom (at1 1 0)) [LAtom (at1 3 0)]; D2_rule].
Definition D2_ads : adornments := [(1, mkAdorn [true] 11)].
Theorem C62_ungrounded_refuted : exists ads P P' M M' p t,
  demand_transform_with ads P = Some P' /\ stable benv_none P M /\ stable benv_none P' M' /\
  (forall r a, In r (p_rules P) -> ~ In (LNeg a) (r_body r)) /\ ~ demand_name ads p /\ lookup p ads = None /\ M p t /\ ~ M' p t.
Proof.
  exists D2_ads, D2_prog.
  destruct (stratb_ok D2_prog (fun p => 0) eq_refl) as (St & WH & WF).
  destruct (stable_exists benv_none _ _ St WH WF) as [M SM].
  assert (TP : exists P', demand_transform_with D2_ads D2_prog = Some P') by (eexists; vm_compute; reflexivity).
  destruct TP as [P' TP].
  assert (EP : stratb P' (fun p => 0) = true) by (vm_compute in TP; injection TP as <-; vm_compute; reflexivity).
  destruct (stratb_ok P' _ EP) as (St' & WH' & WF').
  destruct (stable_exists benv_none _ _ St' WH' WF') as [M' SM'].
  exists P', M, M', 2, [I32 1]. split; [exact TP|]. split; [exact SM|]. split; [exact SM'|]. split; [|split; [|split; [reflexivity|split]]].
  - intros r a Hr Ha. cbn in Hr. destruct Hr as [<-|[<-|[]]]; body_in Ha.
  - intros (q & ad & L & E). cbn in L. destruct (q =? _) in L; [injection L as <-; discriminate E|]. discriminate.
  - apply (stable_rule _ _ M D2_rule (fun v => I32 1) (at1 2 0) SM); [cbn; auto| |left; reflexivity].
    intros l Hl. cbn in Hl. destruct Hl as [<-|[<-|[<-|[]]]]; cbn.
    + apply (stable_fact _ _ M (mkFact 0 [I32 1]) SM). cbn; auto.
    + apply (stable_rule _ _ M (mkRule (HAtom (at1 1 0)) [LAtom (at1 3 0)]) (fun v => I32 1) (at1 1 0) SM); [cbn; auto| |left; reflexivity].
      intros l [<-|[]]. apply (stable_fact _ _ M (mkFact 3 [I32 1]) SM). cbn; auto.
    + reflexivity.
  - vm_compute in TP. injection TP as <-. intros H.
    destruct (stable_inv benv_none ltac:(match type of SM' with stable _ ?P _ => exact P end) M' _ _ eq_refl eq_refl SM' H) as [F|(r & s & a & Hr & Bs & Ha & Ep & Et)]; [body_in F|].
    cbn in Hr. repeat destruct Hr as [<-|Hr]; try contradiction; cbn in Ha; destruct Ha as [<-|[]]; try discriminate Ep.
    assert (B1 := Bs (LAtom (at1 1 1)) ltac:(cbn; auto)). cbn in B1.
    destruct (stable_inv benv_none ltac:(match type of SM' with stable _ ?P _ => exact P end) M' _ _ eq_refl eq_refl SM' B1) as [F|(r & s' & a & Hr & Bs' & Ha & Ep' & Et')]; [body_in F|].
    cbn in Hr. repeat destruct Hr as [<-|Hr]; try contradiction; cbn in Ha; destruct Ha as [<-|[]]; try discriminate Ep'.
    assert (B2 := Bs' (LAtom (at1 11 0)) ltac:(cbn; auto)). cbn in B2.
    destruct (stable_inv benv_none ltac:(match type of SM' with stable _ ?P _ => exact P end) M' _ _ eq_refl eq_refl SM' B2) as [F|(r & s2 & a & Hr & _ & Ha & Ep2 & _)]; [body_in F|].
    cbn in Hr. repeat destruct Hr as [<-|Hr]; try contradiction; cbn in Ha; destruct Ha as [<-|[]]; discriminate Ep2.
Qed.
Print Assumptions C62_ungrounded_refuted.

(** A stratified program may become one that is not: h(y) :- h(x), e(x,y), not p(y). *)
Definition D3_prog : program := prog_of [mkFact 0 [I32 1]; mkFact 1 [I32 1; I32 2]]
  [mkRule (HAtom (at1 2 0)) [LAtom (at1 3 0)]; mkRule (HAtom (at1 0 1)) [LAtom (at1 0 0); LAtom (tv2 1 0 1); LNeg (at1 2 1)]].
Theorem C62_stratified_refuted : exists ads P P' σ, demand_ok ads P /\ stratified P σ /\
  demand_transform_with ads P = Some P' /\ forall σ', ~ stratified P' σ'.
Proof.
  exists [(2, mkAdorn [true] 12)], D3_prog. eexists. exists (fun p => if p =? 0 then 1 else 0).
  destruct (stratb_ok D3_prog (fun p => if p =? 0 then 1 else 0) eq_refl) as (St & _ & _).
  split; [|split; [exact St|split; [vm_compute; reflexivity|]]].
  - constructor.
    + intros p ad H. cbn in H. destruct (p =? _) in H; [injection H as <-; auto|discriminate].
    + intros r q b Hr Rq (q' & ad & L & E). cbn in L. destruct (q' =? _) in L; [injection L as <-; cbn in E; subst q|discriminate].
      cbn in Hr. destruct Hr as [<-|[<-|[]]]; inversion Rq as [a Ha F Q|a Ha F Q|d Hd|d a Hd G]; try (body_in Ha; discriminate Q); body_in Hd.
    + intros r d Hr Hd. cbn in Hr. destruct Hr as [<-|[<-|[]]]; body_in Hd.
    + intros r Hr _. cbn in Hr. destruct Hr as [<-|[<-|[]]]; split; reflexivity.
    + intros r Hr. left. intros a ad v [Ho L] N. unfold needed in N. cbn in Hr. destruct Hr as [<-|[<-|[]]].
      * destruct Ho as [Ho|Ho]; body_in Ho; discriminate L.
      * destruct Ho as [Ho|Ho]; body_in Ho; cbn in L; try discriminate L. injection L as <-. destruct N as [N|[]]. injection N as <-.
        eapply (k_atom _ _ _ (tv2 1 0 1)); [right; left; reflexivity|reflexivity|right; left; reflexivity].
  - intros σ' S. cbn [p_rules] in S.
    assert (S1 := S (mkRule (HAtom (at1 2 0)) [LAtom (at1 3 0); LAtom (at1 12 0)]) ltac:(cbn; auto)).
    assert (S2 := S (mkRule (HAtom (at1 12 1)) [LAtom (at1 0 0); LAtom (tv2 1 0 1)]) ltac:(cbn; auto)).
    assert (S3 := S (mkRule (HAtom (at1 0 1)) [LAtom (at1 0 0); LAtom (tv2 1 0 1); LNeg (at1 2 1)]) ltac:(cbn; auto)).
    destruct S1 as [S1 _], S2 as [S2 _], S3 as [S3 _].
    destruct (S1 12 false) as [L1 _]; [apply (reads_pos _ _ (at1 12 0)); [cbn; auto|reflexivity]|].
    destruct (S2 0 false) as [L2 _]; [apply (reads_pos _ _ (at1 0 0)); [cbn; auto|reflexivity]|].
    destruct (S3 2 true) as [_ L3]; [apply (reads_neg _ _ (at1 2 1)); [cbn; auto|reflexivity]|].
    specialize (L3 eq_refl). cbn in L1, L2, L3. lia.
Qed.
Print Assumptions C62_stratified_refuted.

(** Negated atoms are kept in the demand rules when the atoms that bind their
    variables are not: in the program of [C62_ex], where all variables of negated
    atoms are bound by positive ones, the demand for p is [a(x), not n(z)].  Its plan
    asks that n be empty, and the demand for 2 is lost. *)
Definition negs_bound (r : rule) : Prop := forall a v, In (LNeg a) (r_body r) -> In (TVar v) (a_args a) ->
  exists b, In (LAtom b) (r_body r) /\ In (TVar v) (a_args b).
Theorem C62_unbound_refuted : exists ads P P' r pl M p t, demand_ok ads P /\ (forall r, In r (p_rules P) -> negs_bound r) /\
  demand_transform_with ads P = Some P' /\ In r (p_rules P') /\ ~ negs_bound r /\ query_plan N1 id_order (r_body r) = Some pl /\
  stable benv_none P' M /\ head_consequence benv_none (p_reg P') M M r p t /\
  ~ exists s a, psem benv_none M M pl s /\ In a (head_atoms (r_head r)) /\ p = a_pred a /\ t = tvals s (a_args a).
Proof.
  set (r := mkRule (HAtom (at1 11 0)) [LAtom (at1 0 0); LNeg (at1 3 2)]).
  destruct (stratb_ok C62_prog' (fun p => if (p =? 1) || (p =? 2) || (p =? 4) || (p =? 11) || (p =? 12) then 1 else 0) eq_refl) as (St & WH & WF).
  destruct (stable_exists benv_none _ _ St WH WF) as [M SM].
  exists C62_ads, C62_prog, C62_prog', r. eexists. exists M, 11, [I32 2].
  split; [exact C62_ex_ok|]. split; [|split; [vm_compute; reflexivity|split; [cbn; auto 10|split; [|split; [vm_compute; reflexivity|split; [exact SM|split]]]]]].
  - intros x Hx a v Ha Hv. cbn in Hx. destruct Hx as [<-|[<-|[<-|[<-|[]]]]]; body_in Ha.
    cbn in Hv. destruct Hv as [Hv|[]]. injection Hv as <-. exists (tv2 2 1 2). split; cbn; auto.
  - intros H. destruct (H (at1 3 2) 2) as (b & Hb & Hv); [right; left; reflexivity|left; reflexivity|]. body_in Hb.
    destruct Hv as [Hv|[]]. discriminate Hv.
  - exists (fun _ => I32 2), (at1 11 0). split; [|split; [left; reflexivity|split; reflexivity]].
    intros l [<-|[<-|[]]]; cbn.
    + apply (stable_fact _ _ M (mkFact 0 [I32 2]) SM). cbn; auto.
    + intros H. destruct (stable_inv benv_none C62_prog' M _ _ eq_refl eq_refl SM H) as [F|(x & s & a & Hx & _ & Ha & Ep & _)]; [body_in F|].
      cbn in Hx. repeat destruct Hx as [<-|Hx]; try contradiction; cbn in Ha; destruct Ha as [<-|[]]; discriminate Ep.
  - intros (s & a & H & _). cbn [psem] in H. destruct H as (s1 & A1 & (s2 & A2 & Hp) & Q). apply Q.
    exists (fun v => match v with 2 => I32 1 | _ => s1 v end). split; [intros v J; cbn in J; destruct J|].
    cbn [psem bvars]. eexists. split; [apply agree_refl|]. cbn. apply (stable_fact _ _ M (mkFact 3 [I32 1]) SM). cbn; auto 10.
Qed.
Print Assumptions C62_unbound_refuted.

(** Entities built for the sake of a demand are visible: h(e) :- a(x), e = new f(x), p(e). *)
Definition D5_prog : program := mkProg [] [] [mkFact 0 [I32 1]] [mkRule (HAtom (at1 1 0)) [LAtom (at1 3 0)];
   mkRule (HAtom (at1 4 1)) [LAtom (at1 0 0); LAssign 1 (ANew 2 [TVar 0]); LAtom (at1 1 1)]]
  (mkReg (fun _ => false) (fun _ => false) (fun _ => false) [2]).
Theorem C62_entity_refuted : exists ads P P' M M' p t,
  demand_transform_with ads P = Some P' /\ stable benv_none P M /\ stable benv_none P' M' /\
  (forall r, In r (p_rules P) -> transformable ads r) /\ ~ demand_name ads p /\ lookup p ads = None /\ ~ M p t /\ M' p t.
Proof.
  exists [(1, mkAdorn [true] 11)], D5_prog.
  destruct (stratb_ok D5_prog (fun p => 0) eq_refl) as (St & WH & WF).
  destruct (stable_exists benv_none _ _ St WH WF) as [M SM].
  assert (TP : exists P', demand_transform_with [(1, mkAdorn [true] 11)] D5_prog = Some P') by (eexists; vm_compute; reflexivity).
  destruct TP as [P' TP].
  assert (EP : stratb P' (fun p => 0) = true) by (vm_compute in TP; injection TP as <-; vm_compute; reflexivity).
  destruct (stratb_ok P' _ EP) as (St' & WH' & WF').
  destruct (stable_exists benv_none _ _ St' WH' WF') as [M' SM'].
  exists P', M, M', 2, [VEntity (e_entity env_none 2 [I32 1]); I32 1]. split; [exact TP|]. split; [exact SM|]. split; [exact SM'|].
  split; [|split; [|split; [reflexivity|split]]].
  - intros r Hr. left. intros a ad v [Ho L] N. unfold needed in N. cbn in Hr. destruct Hr as [<-|[<-|[]]].
    + destruct Ho as [Ho|Ho]; body_in Ho; discriminate L.
    + destruct Ho as [Ho|Ho]; body_in Ho; cbn in L; try discriminate L. injection L as <-. destruct N as [N|[]]. injection N as <-.
      eapply k_assign; [right; left; reflexivity|]. intros w [<-|[]]. eapply (k_atom _ _ _ (at1 0 0)); [left; reflexivity|reflexivity|left; reflexivity].
  - intros (q & ad & L & E). cbn in L. destruct (q =? _) in L; [injection L as <-; discriminate E|]. discriminate.
  - (* p is empty *)
    assert (No3 : forall p t, der benv_none D5_prog M p t -> p = 0 /\ t = [I32 1]).
    { intros p t D. induction D as [f Hf|r s p t Hr Hp IH Ho Y]; [destruct Hf as [<-|[]]; split; reflexivity|].
      cbn in Hr. destruct Hr as [<-|[<-|[]]].
      - destruct (IH (at1 3 0) (or_introl eq_refl) eq_refl) as [Q _]. discriminate Q.
      - destruct (IH (at1 1 1) ltac:(cbn; auto) eq_refl) as [Q _]. discriminate Q. }
    intros H. apply SM in H. apply No3 in H. destruct H as [H _]. discriminate H.
  - vm_compute in TP. injection TP as <-. apply SM'.
    apply der_rule with (r := mkRule (HAtom (at1 11 1)) [LAtom (at1 0 0); LAssign 1 (ANew 2 [TVar 0])])
      (s := fun v => match v with 0 => I32 1 | _ => VEntity (e_entity env_none 2 [I32 1]) end).
    + cbn; auto.
    + intros a Ha _. body_in Ha. apply (der_fact _ _ _ (mkFact 0 [I32 1])). left. reflexivity.
    + intros l [<-|[<-|[]]]; cbn; [discriminate|reflexivity].
    + exact (y_new benv_none _ (mkRule (HAtom (at1 11 1)) [LAtom (at1 0 0); LAssign 1 (ANew 2 [TVar 0])]) (fun v => match v with 0 => I32 1 | _ => VEntity (e_entity env_none 2 [I32 1]) end) 1 2 [TVar 0] (or_intror (or_introl eq_refl))).
Qed.
Print Assumptions C62_entity_refuted.
