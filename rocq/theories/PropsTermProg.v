(** * C57, second part: compiled programs end
    Programs of the typed fragment (TypedProg.v) are compiled (C54), run (C56), and
    the run ends with their stable model, unless a round compares batches by
    galloping; a finite stable model is guaranteed if expressions are not evaluated
    in recursion.  A typed program with a finite stable model whose run never ends. *)
From Coq Require Import List ZArith Bool Arith Lia Permutation.
From Verif Require Import Order Value Prov ListAux SortedCol SortedColFacts ProvInst Schedulers Relation View Dataflow Denote DataflowFacts DenFacts
  Iteration IterationFacts Views Back Eval Ram BackSem PropsOpt Scc SccFacts PropsStrat PropsUnused Dedup Increm Exec PropsExec
  Plan PlanSem PlanFacts PlanFacts2 PropsPlan VarTuple VarTupleFacts B2R RamSem B2RFacts B2RFacts2 B2RSpec B2RRule B2RScope PropsB2R B2RStrata
  StrataSem StrataFacts PropsStrata PropsTotal TypedProg PropsTyped PropsCompile PermOrder B2RWf PlanShape StrataWf RunSem RunFacts PropsRunProg
  Terminate RunTotal TermProg PropsTerm.
Import ListNotations.
Set Implicit Arguments.
Local Open Scope nat_scope.

(** ** Compiling and running a program ends
    The conditions of C56; the scheduler is the default one; tags that are added to
    improve on a well-founded order; the context holds no facts of a program; the
    stable model has finitely many facts.  Then there are a number of rounds and a
    final context such that every run with that number of rounds or more ends in this
    context, and its output relations are the stable model, unless a round gallops. *)
Definition finite_model (M : interp) : Prop := forall p, exists l, forall vs, M p vs -> In vs l.
Theorem C57_run_partial : forall (P : Prov) (IT X : Type) (E : rtenv P IT X) C N B Pr extra sig sigma order kosaraju
    (tag_of : fact -> option IT) is_adt sched_of (c : ctx P IT X),
  (forall ps r l, Permutation (order ps r l) l) -> (forall g, wf_graph g -> scc_contract g (kosaraju g)) ->
  names_ok C -> names_apart C (fun p => In p (map b_pred (p_rels Pr))) ->
  (forall r, ce_iv C r = false) -> (forall b, In b (p_rels Pr) -> ce_shape C (b_pred b) = SPlain) ->
  typed_source C N sig (with_facts Pr extra) -> PropsUnused.stratified (with_facts Pr extra) sigma ->
  rt_ok E -> (forall m, l_env (c_lenv E m) = b_env B) ->
  (forall f, In f (p_facts Pr) -> c_intern E (vtup (f_args f)) = Some (vtup (f_args f))) ->
  (forall a b, pminus P a b = None) \/ (forall r a, In r (p_rules Pr) -> ~ In (LNeg a) (r_body r)) ->
  (forall r t, stored E (e_get (x_edb c) r) t <-> exists f, In f extra /\ r = f_pred f /\ t = vtup (f_args f)) ->
  improving P -> c_default E = LFP -> (forall p, sched_of p = None \/ sched_of p = Some LFP) ->
  (forall r, e_progint (e_get (x_edb c) r) = false) ->
  (forall M, stable B (with_facts Pr extra) M -> finite_model M) ->
  exists g ss xs M, dependency_graph Pr = Some g /\ stratify g (kosaraju g) = Some (inr ss) /\
    lower_strata C N (fun _ => false) order (p_rules Pr) ss = Some (xs, []) /\ stable B (with_facts Pr extra) M /\
    forall inc,
    (exists R c', (forall fuel, R <= fuel -> execute E inc fuel (Some (xprog_of tag_of is_adt sched_of Pr xs)) c = Some c') /\
      forall p, In p (p_outputs Pr) -> In p (map b_pred (p_rels Pr)) ->
      exists col, aget p (x_idb c') = Some col /\ forall t, (exists g, In (t, g) col) <-> exists vs, t = vtup vs /\ M p vs) \/
    (exists d, start_facts E (xprog_of tag_of is_adt sched_of Pr xs) c = Some d /\ run_gallops E inc (xprog_of tag_of is_adt sched_of Pr xs) d).
Proof.
  intros P IT X E C N B Pr extra sig sigma order kosaraju tag_of is_adt sched_of c ORD SCC NM NA IV PL TS ST RT ENV INT NEG STO IMP LD LS FRESH FIN.
  assert (SCH : forall p, sched_of p <> Some (Beam 0)) by (intros p K; destruct (LS p); congruence).
  destruct (@C56_run_partial P IT X E C N B Pr extra sig sigma order kosaraju tag_of is_adt sched_of c ORD SCC NM NA IV PL TS ST RT ENV INT SCH NEG STO)
    as (g & ss & xs & G & S & LOW & (M & SM) & RUN).
  destruct (@compiled P IT X E C N B Pr extra sig sigma order kosaraju tag_of is_adt sched_of c ORD SCC NM NA IV PL TS ST RT ENV INT SCH NEG STO)
    as (g' & ss' & xs' & J0 & G' & S' & LOW' & MJ0 & UJ & TP & DC & NA' & XOK & PP & FACTS & SHP).
  rewrite G in G'. injection G' as <-. rewrite S in S'. injection S' as <-. rewrite LOW in LOW'. injection LOW' as <-.
  exists g, ss, xs, M. split; [exact G|]. split; [exact S|]. split; [exact LOW|]. split; [exact SM|]. intros inc.
  assert (FJ : forall p, In p (preds ss) -> finite (J0 p)).
  { intros p Ip. destruct (FIN M SM p) as (l & L). exists (map vtup l). intros t Ht.
    assert (PS : ce_shape C p = SPlain) by (apply DC, in_map_iff in Ip; destruct Ip as (b & <- & Ib); auto).
    destruct (@C54_laid_partial C N B (fun _ => no_ag) (with_facts Pr extra) ss (typed_fact sig) (fun _ => false) order xs J0 ORD NM NA'
      (@typed_program_ok C N B (fun _ => no_ag) (with_facts Pr extra) ss sig order TP) LOW MJ0 p t Ip Ht) as (vs & ->). rewrite PS in *.
    apply in_map_iff. exists vs. split; [reflexivity|]. apply L. apply (proj1 (UJ J0 MJ0 M) SM). split; [exact Ip|]. rewrite PS. exact Ht. }
  assert (FS := @lowered_finite P IT X E C N B Pr extra ss sig order xs tag_of is_adt sched_of ORD NM NA' IV TP DC LOW ENV NEG J0 MJ0 FJ).
  destruct (@C57_execute_partial P IT X E inc (xprog_of tag_of is_adt sched_of Pr xs) (shapes ss sig xs) c RT XOK) as [(R & c' & EX)|H]; auto.
  - eapply lowered_placed; eauto.
  - split; [exact LD|]. intros x Ix. apply xrels_in in Ix. destruct Ix as (y & r & _ & _ & ->). unfold rel_of.
    destruct (find (fun b => Nat.eqb (b_pred b) r) (p_rels Pr)); cbn; auto.
  - intros Bs dn s rest Mc HB. apply FS. intros r t. rewrite HB. apply FACTS.
  - left. exists R, c'. split; [exact EX|]. intros p Op Dp. apply (RUN inc R c'); auto.
Qed.
Print Assumptions C57_run_partial.

(** ** Stable models are finite when expressions are not evaluated in recursion
    Predicates have ranks; no rule derives facts of a lower rank than those it reads,
    and those that evaluate expressions derive facts of a higher rank. *)
Definition has_assign (r : rule) : Prop := exists v e, In (LAssign v e) (r_body r).
Definition ranked (Pr : program) (rank : pred -> nat) : Prop := forall r a, In r (p_rules Pr) -> In (LAtom a) (r_body r) ->
  rank (a_pred a) <= rank (r_pred r) /\ (has_assign r -> rank (a_pred a) < rank (r_pred r)).
Lemma finite_image : forall (A : Type) ws (f : subst -> A) (L : var -> list value), (forall s s', (forall w, In w ws -> s w = s' w) -> f s = f s') ->
  exists l, forall s, (forall w, In w ws -> In (s w) (L w)) -> In (f s) l.
Proof.
  induction ws as [|w ws IH]; intros f L D.
  - exists [f (fun _ => VBool true)]. intros s _. left. apply D. intros w [].
  - assert (H : forall xs, exists l, forall s, In (s w) xs -> (forall v, In v ws -> In (s v) (L v)) -> In (f s) l).
    { induction xs as [|x xs IHx]; [exists []; intros s []|]. destruct IHx as (l & Hl).
      destruct (IH (fun s => f (fun v => if Nat.eqb v w then x else s v)) L) as (l' & Hl').
      - intros s s' Q. apply D. intros v [<-|I]; [rewrite Nat.eqb_refl; reflexivity|]. destruct (Nat.eqb v w); auto.
      - exists (l' ++ l). intros s [K|K] Q; apply in_app_iff; [left|right; auto].
        rewrite (D s (fun v => if Nat.eqb v w then x else s v)); [apply Hl', Q|]. intros v _. destruct (Nat.eqb_spec v w) as [->|_]; auto. }
    destruct (H (L w)) as (l & Hl). exists l. intros s Q. apply Hl; [apply Q; left; auto|]. intros v I. apply Q. right; auto.
Qed.
Lemma tval_agree : forall s s' t, (forall w, In w (tvar t) -> s w = s' w) -> tval s t = tval s' t.
Proof. intros s s' [v|k] H; cbn; auto. apply H. left; auto. Qed.
Lemma aeval_agree : forall E s s' e, (forall w, In w (aexpr_vars e) -> s w = s' w) -> aeval E s e = aeval E s' e.
Proof.
  intros E s s' e H. 
  assert (TV : forall l, (forall w, In w (flat_map tvar l) -> s w = s' w) -> tvals s l = tvals s' l).
  { intros l Q. unfold tvals. apply map_ext_in. intros t I. apply tval_agree. intros w J. apply Q, in_flat_map. eauto. }
  destruct e; cbn [aeval aexpr_vars] in *;
    repeat match goal with |- context [tval s ?t] => rewrite (tval_agree s s' t) by (intros w J; apply H; cbn; rewrite ?in_app_iff; tauto) end; auto.
  all: rewrite TV by (intros w J; apply H; exact J); reflexivity.
Qed.
Fixpoint tuples (n : nat) (dom : list value) : list (list value) :=
  match n with 0 => [[]] | S n => flat_map (fun v => map (cons v) (tuples n dom)) dom end.
Lemma tuples_in : forall dom vs, (forall v, In v vs -> In v dom) -> In vs (tuples (length vs) dom).
Proof.
  intros dom. induction vs as [|v vs IH]; intros H; cbn [length tuples]; [left; reflexivity|]. apply in_flat_map. exists v. split; [apply H; left; auto|].
  apply in_map, IH. intros w I. apply H. right; auto.
Qed.
(** The values that the variables of a body get, if those in its atoms are in [dom]. *)
Definition atoms_in (dom : list value) (s : subst) (body : list lit) : Prop := forall a v, In (LAtom a) body -> In v (avars a) -> In (s v) dom.
Lemma limited_finite : forall (B : benv) N body dom, (forall a, In (LAtom a) body -> pe_foreign N (a_pred a) = false) -> (forall r, ~ In (LReduce r) body) ->
  forall v, limited N body v -> exists l, forall s, atoms_in dom s body -> (forall x e, In (LAssign x e) body -> aeval (b_env B) s e = EOk (s x)) -> In (s v) l.
Proof.
  intros B N body dom NF NR v L. induction L as [l v Il Nl Iv Nd IH]. destruct l as [a|a|x e|c t1 t2|t|r| |]; cbn [lit_binds] in Iv; try (destruct Iv; fail).
  - rewrite (NF a Il) in Iv. exists dom. intros s A _. eapply A; eauto.
  - destruct Iv as [<-|[]]. cbn [lit_needs] in IH.
    assert (CH : forall ws, (forall w, In w ws -> In w (aexpr_vars e)) -> exists L, forall s, atoms_in dom s body -> (forall x e, In (LAssign x e) body -> aeval (b_env B) s e = EOk (s x)) ->
      forall w, In w ws -> In (s w) (L w)).
    { induction ws as [|w ws IHw]; intros Q; [exists (fun _ => []); intros s _ _ w []|]. destruct IHw as (L & HL); [intros u I; apply Q; right; auto|].
      destruct (IH w (Q w (or_introl eq_refl))) as (lw & Hw). exists (fun u => if Nat.eqb u w then lw else L u). intros s A1 A2 u [<-|I].
      - rewrite Nat.eqb_refl. auto.
      - destruct (Nat.eqb_spec u w) as [->|_]; auto. }
    destruct (CH (aexpr_vars e)) as (L & HL); auto.
    destruct (@finite_image (ev value) (aexpr_vars e) (fun s => aeval (b_env B) s e) L) as (l & Hl); [intros s s'; apply aeval_agree|].
    exists (flat_map (fun r => match r with EOk y => [y] | _ => [] end) l). intros s A1 A2. apply in_flat_map. exists (aeval (b_env B) s e). split; [apply Hl, HL; auto|].
    rewrite (A2 x e Il). left; auto.
  - destruct (NR _ Il).
Qed.
Lemma all_limited_finite : forall (B : benv) N body dom, (forall a, In (LAtom a) body -> pe_foreign N (a_pred a) = false) -> (forall r, ~ In (LReduce r) body) ->
  forall vs, (forall v, In v vs -> limited N body v) -> exists l, forall s, atoms_in dom s body -> (forall x e, In (LAssign x e) body -> aeval (b_env B) s e = EOk (s x)) ->
  forall v, In v vs -> In (s v) l.
Proof.
  intros B N body dom NF NR. induction vs as [|v vs IH]; intros H; [exists []; intros s _ _ v []|].
  destruct IH as (l & Hl); [intros u I; apply H; right; auto|]. destruct (limited_finite B dom NF NR (H v (or_introl eq_refl))) as (l' & Hl').
  exists (l' ++ l). intros s A1 A2 u [<-|I]; apply in_app_iff; [left|right]; auto.
Qed.
Lemma limited_atom : forall N body, (forall a, In (LAtom a) body -> pe_foreign N (a_pred a) = false) -> (forall r, ~ In (LReduce r) body) -> (forall x e, ~ In (LAssign x e) body) ->
  forall v, limited N body v -> exists a, In (LAtom a) body /\ In v (avars a).
Proof.
  intros N body NF NR NA v [l w Il _ Iv _]. destruct l as [a|a|x e|c t1 t2|t|r| |]; cbn [lit_binds] in Iv; try (destruct Iv; fail).
  - rewrite (NF a Il) in Iv. eauto.
  - destruct (NA _ _ Il).
  - destruct (NR _ Il).
Qed.
Definition consts (l : list term) : list value := flat_map (fun t => match t with TConst k => [k] | TVar _ => [] end) l.
Lemma tvals_in : forall s l dom, (forall v, In v (flat_map tvar l) -> In (s v) dom) -> forall x, In x (tvals s l) -> In x (dom ++ consts l).
Proof.
  intros s l dom H x I. apply in_map_iff in I. destruct I as ([v|k] & <- & I); apply in_app_iff; [left|right].
  - apply H, in_flat_map. eexists. split; [exact I|]. left; auto.
  - apply in_flat_map. eexists. split; [exact I|]. left; auto.
Qed.
Theorem C57_finite : forall C N B Pr sig rank, typed_source C N sig Pr -> ranked Pr rank -> forall M, stable B Pr M -> finite_model M.
Proof.
  intros C N B Pr sig rank TS RK M SM.
  assert (RULE : forall r, In r (p_rules Pr) -> exists h body, r = mkRule (HAtom h) body /\ typed_rule C N sig h body) by (apply (ts_rules TS)).
  (** what rules yield *)
  assert (YH : forall r s p vs, In r (p_rules Pr) -> yields B (p_reg Pr) r s p vs -> exists h body, r = mkRule (HAtom h) body /\ typed_rule C N sig h body /\
    p = a_pred h /\ vs = tvals s (a_args h)).
  { intros r s p vs Ir Y. destruct (RULE r Ir) as (h & body & -> & TR). exists h, body. split; [reflexivity|]. split; [exact TR|].
    destruct Y as [a I|v f l I|v f l q t I _ K|a q t _ _ _ K]; cbn in *; try (rewrite (ts_adts TS) in K; destruct K).
    - destruct I as [<-|[]]. auto.
    - destruct (tr_types TR) as (tau & _ & TL). destruct (TL _ I) as [TE _]. inversion TE. }
  assert (NR : forall h body r, typed_rule C N sig h body -> ~ In (LReduce r) body).
  { intros h body r TR I. destruct (tr_types TR) as (tau & _ & TL). destruct (TL _ I). }
  assert (NF : forall h body a, typed_rule C N sig h body -> In (LAtom a) body -> pe_foreign N (a_pred a) = false) by (intros h body a TR I; apply (tr_foreign TR); auto).
  assert (LEN : forall p vs, M p vs -> length vs = length (sig p)).
  { intros p vs H. apply SM in H. destruct H as [f If|r s p vs Ir _ _ Y].
    - destruct (ts_facts TS f If) as (_ & _ & TF). eapply F2_len, TF.
    - destruct (YH _ _ _ _ Ir Y) as (h & body & -> & TR & -> & ->). destruct (tr_types TR) as (tau & TA & _). unfold tvals. rewrite map_length. eapply F2_len, TA. }
  assert (DOM : forall k, exists dom, forall p vs, rank p < k -> M p vs -> forall v, In v vs -> In v dom).
  { induction k as [|k (dom & IH)]; [exists []; intros p vs K; lia|].
    (* values computed by rules that evaluate expressions *)
    assert (COMP : forall rs, incl rs (p_rules Pr) -> exists l, forall r s, In r rs -> atoms_in dom s (r_body r) ->
      (forall x e, In (LAssign x e) (r_body r) -> aeval (b_env B) s e = EOk (s x)) -> forall a, In a (head_atoms (r_head r)) -> forall v, In v (avars a) -> In (s v) l).
    { induction rs as [|r rs IHr]; intros Q; [exists []; intros r s []|]. destruct IHr as (l & Hl); [intros x I; apply Q; right; auto|].
      destruct (RULE r (Q r (or_introl eq_refl))) as (h & body & -> & TR).
      destruct (@all_limited_finite B N body dom (fun a => NF h body a TR) (fun r => NR h body r TR) (avars h) (tr_head TR)) as (l' & Hl').
      exists (l' ++ l). intros r' s [<-|I] A1 A2 a Ia v Iv; apply in_app_iff; [left|right].
      - cbn in *. destruct Ia as [<-|[]]. apply Hl'; auto.
      - eapply Hl; eauto. }
    destruct (COMP (p_rules Pr) (fun x H => H)) as (l & Hl).
    set (dom' := (dom ++ l ++ flat_map f_args (p_facts Pr)) ++ flat_map (fun r => flat_map (fun a => consts (a_args a)) (head_atoms (r_head r))) (p_rules Pr)).
    exists dom'. intros p vs Kp H. apply SM in H. revert Kp. induction H as [f If|r s p vs Ir PA IHd OS Y]; intros Kp v Iv.
    - unfold dom'. rewrite !in_app_iff. left. right. right. apply in_flat_map. eauto.
    - destruct (YH _ _ _ _ Ir Y) as (h & body & -> & TR & -> & ->). cbn [r_body] in *.
      assert (ASG : forall x e, In (LAssign x e) body -> aeval (b_env B) s e = EOk (s x)) by (intros x e I; exact (OS _ I)).
      assert (FOR : forall a, In (LAtom a) body -> g_foreign (p_reg Pr) (a_pred a) = false) by (intros a I; rewrite (ts_reg TS); eapply NF; eauto).
      assert (HV : forall w, In w (avars h) -> In (s w) (dom' ++ consts (a_args h))).
      { intros w Iw. apply in_app_iff. left.
        destruct (in_dec Nat.eq_dec 0 (map (fun x => match x with LAssign _ _ => 0 | _ => 1 end) body)) as [HA|HA].
        - apply in_map_iff in HA. destruct HA as (x & Ex & Ix). destruct x as [a|a|x e|c t1 t2|t|r| |]; try discriminate.
          unfold dom'. rewrite !in_app_iff. left. right. left. apply (Hl (mkRule (HAtom h) body) s) with (a := h); auto; [|left; auto].
          intros a u Ia Iu. destruct (RK _ a Ir Ia) as [_ R]. cbn in R. assert (R' : rank (a_pred a) < k) by (enough (rank (a_pred a) < rank (r_pred (mkRule (HAtom h) body))) by (cbn in *; lia); apply R; exists x, e; exact Ix).
          apply (IH (a_pred a) (tvals s (a_args a)) R'); [apply SM, PA; auto|]. unfold avars in Iu. apply in_flat_map in Iu. destruct Iu as ([y|y] & I1 & I2); [|destruct I2].
          destruct I2 as [<-|[]]. apply in_map_iff. exists (TVar y). auto.
        - assert (NAs : forall x e, ~ In (LAssign x e) body) by (intros x e I; apply HA, in_map_iff; exists (LAssign x e); auto).
          destruct (@limited_atom N body (fun a => NF h body a TR) (fun r => NR h body r TR) NAs w (tr_head TR w Iw)) as (a & Ia & Iu).
          destruct (RK _ a Ir Ia) as [R _]. cbn in R.
          apply (IHd a Ia (FOR a Ia)); [cbn in *; lia|]. unfold avars in Iu. apply in_flat_map in Iu. destruct Iu as ([y|y] & I1 & I2); [|destruct I2].
          destruct I2 as [<-|[]]. apply in_map_iff. exists (TVar y). auto. }
      pose proof (@tvals_in s (a_args h) _ HV v Iv) as K. rewrite !in_app_iff in K.
      assert (KC : In v (consts (a_args h)) -> In v dom').
      { intros Q. unfold dom'. apply in_app_iff. right. apply in_flat_map. exists (mkRule (HAtom h) body). split; [exact Ir|]. cbn. rewrite app_nil_r. exact Q. }
      tauto. }
  intros p. destruct (DOM (S (rank p))) as (dom & H). exists (tuples (length (sig p)) dom). intros vs HM. rewrite <- (LEN p vs HM). apply tuples_in. intros v. apply H with p; auto.
Qed.
Print Assumptions C57_finite.
(** *** Example: the program of C56 *)
Definition C57_rank (p : pred) : nat := match p with 8 => 1 | _ => 0 end.
Lemma C57_ranked_ex : ranked (with_facts C56_prog C56_extra) C57_rank.
Proof.
  intros r a Ir Ia. cbn in Ir. repeat (destruct Ir as [<-|Ir]); try (destruct Ir; fail); cbn in Ia;
    repeat (destruct Ia as [Ia|Ia]; [try discriminate; injection Ia as <-|]); try (destruct Ia; fail); cbn; (split; [lia|]);
    intros (v & e & I); cbn in I; repeat (destruct I as [I|I]; [try discriminate|]); try (destruct I; fail); lia.
Qed.
Example C57_run_ex : exists xs M, stable benv_none (with_facts C56_prog C56_extra) M /\ xs = C56_lowered /\
  forall inc, (exists R c', (forall fuel, R <= fuel -> execute (yE unit_prov) inc fuel (Some (C56_x unit_prov)) (C56_ctx unit_prov) = Some c') /\
      forall p, In p [3; 4; 8] -> exists col, aget p (x_idb c') = Some col /\ forall t, (exists g, In (t, g) col) <-> exists vs, t = vtup vs /\ M p vs) \/
    (exists d, start_facts (yE unit_prov) (C56_x unit_prov) (C56_ctx unit_prov) = Some d /\ run_gallops (yE unit_prov) inc (C56_x unit_prov) d).
Proof.
  destruct (@C57_run_partial unit_prov unit nat (yE unit_prov) C3 N1 benv_none C56_prog C56_extra C54_sig C54_level same_order sccs_of
    (fun _ => None) (fun _ => false) (fun _ => None) (C56_ctx unit_prov)) as (g & ss & xs & M & G & S & LOW & SM & RUN).
  - intros ps r l. apply id_order_ok.
  - apply sccs_of_contract.
  - exact C3_names.
  - destruct C3_apart as [A1 A2 A3 A4 A5 A6 A7 A8 A9]. constructor; auto; intros; intros K; [apply (A7 i)|apply (A8 i)|apply (A9 p g)]; revert K; cbn -[Nat.mul]; lia.
  - reflexivity.
  - reflexivity.
  - exact C56_source_ex.
  - exact C56_stratified_ex.
  - split; cbn; congruence.
  - reflexivity.
  - reflexivity.
  - left. reflexivity.
  - apply C56_stored_ex.
  - exact unit_improving.
  - reflexivity.
  - auto.
  - intros r. unfold C56_ctx, add_dynamic. cbn [x_edb]. rewrite e_get_aset. destruct (Nat.eqb r 2); reflexivity.
  - intros M SM. eapply C57_finite; [exact C56_source_ex|exact C57_ranked_ex|exact SM].
  - exists xs, M. split; [exact SM|].
    assert (EX : xs = C56_lowered).
    { unfold C56_lowered. rewrite G, S. change (p_rules C56_prog) with C54_rules in LOW. rewrite LOW. reflexivity. }
    split; [exact EX|]. intros inc. unfold C56_x. rewrite <- EX. destruct (RUN inc) as [(R & c' & H1 & H2)|H]; [left|right; exact H].
    exists R, c'. split; [exact H1|]. intros p Ip. apply H2; cbn in Ip |- *; lia.
Qed.

(** * A program that hangs
    [reach(y) :- reach(x), edge(x, y)] with eight facts of [reach] and eleven
    edges.  In the third round the new facts are compared with the established batch
    {3, 5} by galloping, which misses 5; 5 then counts as new in every round. *)
Definition r1 z := mkFact 2 [I32 z].
Definition ed x y := mkFact 1 [I32 x; I32 y].
Definition H_rules : list rule := [mkRule (HAtom (mkAtom 2 [TVar 1])) [LAtom (mkAtom 2 [TVar 0]); LAtom (a2 1 0 1)]].
Definition H_facts : list fact := map r1 [1;6;7;8;9;10;11;12]%Z ++ [ed 1 3; ed 1 5; ed 5 1; ed 5 5; ed 5 6; ed 5 7; ed 5 8; ed 5 9; ed 5 10; ed 5 11; ed 5 12]%Z.
Definition H_prog : program := mkProg (map (fun p => Back.mkRel p false) [1; 2]) [2] H_facts H_rules g1.
Definition H_lowered : list rstratum :=
  match dependency_graph H_prog with
  | Some g => match stratify g (sccs_of g) with
              | Some (inr ss) => match lower_strata C3 N1 (fun _ => false) same_order H_rules ss with Some (xs, _) => xs | None => [] end
              | _ => []
              end
  | None => []
  end.
Definition H_x : xprog unit := xprog_of (fun _ => None) (fun _ => false) (fun _ => None) H_prog H_lowered.
Definition H_ctx : ctx unit_prov unit nat := mkCtx [] false [] [] 0.
Definition UE : rtenv unit_prov unit nat := yE unit_prov.
Definition H_edb : idb unit_prov :=
  match populate (x_edb H_ctx) (xrels H_x) with
  | Some d => ecols (tap_imm H_x (fst (internalize UE 0 d)))
  | None => []
  end.
Definition H_s1 : xstratum unit := hd (mkXS [] []) H_x.
Definition H_s2 : xstratum unit := hd (mkXS [] []) (tl H_x).
Definition H_it : iteration unit_prov := stratum_iter UE false H_x H_s2 H_edb [].
Definition H_init : nat -> relation unit_prov := init_state H_it (stratum_facts H_edb (i_rels H_it)).
Fixpoint rounds (it : iteration unit_prov) (k : nat) (st : nat -> relation unit_prov) (n : nat) : nat -> relation unit_prov :=
  match k with 0 => st | S k => rounds it k (do_updates it n (fst (need_to_iterate it st n))) (S n) end.
Fixpoint goes_on (it : iteration unit_prov) (k : nat) (st : nat -> relation unit_prov) (n : nat) : bool :=
  match k with
  | 0 => true
  | S k => match need_to_iterate it st n with (st1, Continue) => goes_on it k (do_updates it n st1) (S n) | _ => false end
  end.
Lemma rounds_loop : forall it k st n fuel, goes_on it k st n = true -> loop it (k + fuel) st n = loop it fuel (rounds it k st n) (k + n).
Proof.
  induction k as [|k IH]; intros st n fuel G; [reflexivity|]. cbn [Nat.add loop goes_on rounds] in *.
  destruct (need_to_iterate it st n) as [st1 []]; try discriminate. cbn [fst]. rewrite IH by exact G. rewrite Nat.add_succ_r. reflexivity.
Qed.
Lemma rounds_none : forall it k st n, goes_on it k st n = true -> loop it k st n = None.
Proof.
  intros it k st n G. pose proof (@rounds_loop it k st n 0 G) as H. rewrite Nat.add_0_r in H. rewrite H. reflexivity.
Qed.
(** The relation after four rounds, and after every later one. *)
Definition H_rel : relation unit_prov := Eval vm_compute in rounds H_it 4 H_init 0 2.
Lemma iters_at : forall (P : Prov) (v v' : denv P) d, e_first v = e_first v' -> (forall r, e_col v r = e_col v' r) ->
  (forall r, In r (dreads d) -> e_col v r = None -> e_rel v r = e_rel v' r) -> iters v d = iters v' d.
Proof.
  intros P v v' d F C. induction d; cbn [iters dreads]; intros R; try (rewrite IHd by auto; reflexivity); try reflexivity; try (rewrite F; reflexivity);
    try (rewrite IHd1, IHd2 by (intros; apply R; auto; rewrite in_app_iff; auto); reflexivity).
  rewrite <- C, F. destruct (e_col v r) eqn:Q; [reflexivity|]. rewrite R; [reflexivity|left; reflexivity|exact Q].
Qed.
Definition H_df : dflow unit_prov := match i_updates H_it with (_, d) :: _ => d | [] => DVec [] end.
Definition H_next (R : relation unit_prov) : relation unit_prov :=
  insert_batches false (map snd (iter_recent (Dataflow.mkEnv false (i_cols H_it) (fun _ => R)) H_df)) R.
Lemma H_df_at : forall g : nat -> relation unit_prov,
  insert_batches false (map snd (iter_recent (Dataflow.mkEnv false (i_cols H_it) g) H_df)) (g 2) = H_next (g 2).
Proof.
  intros g. unfold H_next, iter_recent. rewrite (@iters_at unit_prov (Dataflow.mkEnv false (i_cols H_it) g) (Dataflow.mkEnv false (i_cols H_it) (fun _ => g 2))); auto.
  intros r I N. replace (dreads H_df) with [2; 1] in I by (vm_compute; reflexivity). destruct I as [<-|[<-|[]]]; [reflexivity|]. vm_compute in N. discriminate.
Qed.
Lemma H_round : forall n st, st 2 = H_rel ->
  exists st1, need_to_iterate H_it st (S n) = (st1, Continue) /\ do_updates H_it (S n) st1 2 = H_rel.
Proof.
  intros n st R. exists (fst (changed_all H_it st)). 
  assert (RL : i_rels H_it = [2]) by (vm_compute; reflexivity).
  assert (SC : i_sched H_it 2 = LFP) by (vm_compute; reflexivity).
  assert (ST1 : fst (changed_all H_it st) 2 = fst (changed LFP H_rel)) by (cbn [changed_all fst]; rewrite RL; cbn [existsb]; rewrite SC, R; reflexivity).
  split.
  - unfold need_to_iterate. unfold changed_all at 1. rewrite RL. cbn [existsb]. rewrite SC, R. 
    replace (snd (changed LFP H_rel)) with true by (vm_compute; reflexivity). 
    replace (i_limit H_it) with (@None nat) by (vm_compute; reflexivity). replace (i_goalstop H_it) with false by (vm_compute; reflexivity).
    cbn [orb andb]. unfold changed_all. rewrite RL. reflexivity.
  - unfold do_updates. assert (UP : i_updates H_it = [(2, H_df)]).
    { assert (L : map fst (i_updates H_it) = [2]) by (vm_compute; reflexivity). unfold H_df. destruct (i_updates H_it) as [|[k d] [|u l]]; try discriminate.
      cbn in L. injection L as ->. reflexivity. } rewrite UP. cbn [fold_left do_update]. unfold upd.
    replace (i_early H_it) with false by (vm_compute; reflexivity). cbn [Nat.eqb]. unfold env_of. cbn [Nat.eqb]. rewrite H_df_at, ST1. vm_compute. reflexivity.
Qed.
Lemma H_forever : forall fuel n st, st 2 = H_rel -> loop H_it fuel st (S n) = None.
Proof.
  induction fuel as [|k IH]; intros n st R; [reflexivity|]. cbn [loop]. destruct (H_round n st R) as (f' & -> & Q). apply IH, Q.
Qed.
Lemma H_reached : rounds H_it 4 H_init 0 2 = H_rel.
Proof. vm_compute. reflexivity. Qed.
Lemma H_loop : forall fuel, loop H_it fuel H_init 0 = None.
Proof.
  intros fuel. destruct (le_lt_dec 4 fuel) as [L|L].
  - replace fuel with (4 + (fuel - 4)) by lia. rewrite rounds_loop by (vm_compute; reflexivity). apply H_forever, H_reached.
  - destruct (loop H_it fuel H_init 0) as [res|] eqn:Q; [|reflexivity]. exfalso.
    apply loop_mono with (fuel' := 4) in Q; [|lia]. rewrite rounds_none in Q by (vm_compute; reflexivity). discriminate.
Qed.
Lemma H_stratum2 : forall fuel, exec_stratum UE false fuel H_x H_s2 H_edb [] = None.
Proof.
  intros fuel. unfold exec_stratum. replace (filter (fun r => negb (ahas r (@nil (nat * list (elem unit_prov))))) (xs_names H_s2)) with [2] by (vm_compute; reflexivity).
  match goal with |- (if ?b then _ else _) = _ => destruct b; [|reflexivity] end. fold H_it. fold H_init. rewrite H_loop. reflexivity.
Qed.
Lemma H_stratum1 : forall fuel, exec_stratum UE false fuel H_x H_s1 H_edb [] = None \/ exec_stratum UE false fuel H_x H_s1 H_edb [] = Some [].
Proof.
  intros [|[|fuel]]; [left|left|right]; vm_compute; reflexivity.
Qed.
Lemma H_strata : forall fuel, exec_strata UE false fuel H_x 0 H_x H_edb [] = None.
Proof.
  intros fuel. replace H_x with [H_s1; H_s2] at 2 by (vm_compute; reflexivity). cbn [exec_strata].
  destruct (H_stratum1 fuel) as [->| ->]; [reflexivity|]. cbn [filter fold_left]. rewrite H_stratum2. reflexivity.
Qed.
Lemma H_hangs : forall fuel, execute UE false fuel (Some H_x) H_ctx = None.
Proof.
  intros fuel. unfold execute. destruct (populate (x_edb H_ctx) (xrels H_x)) as [d|] eqn:Q; [|reflexivity].
  destruct (persistent fuel _ _ _) as [keep|]; [|reflexivity].
  pose proof (H_strata fuel) as HS. unfold H_edb in HS. rewrite Q in HS. cbn [x_tag H_ctx x_idb filter].
  destruct (internalize UE 0 d) as [d2 x2]. cbn [fst] in HS. rewrite HS. destruct (deps_known H_x); reflexivity.
Qed.
Lemma H_source : typed_source C3 N1 C54_sig H_prog.
Proof.
  constructor.
  - intros r Ir. cbn in Ir. repeat (destruct Ir as [<-|Ir]); try (destruct Ir; fail); eexists; eexists; (split; [reflexivity|]).
    typed_ex; lims.
  - intros f If. cbn in If. repeat (destruct If as [<-|If]); try (destruct If; fail); (split; [cbn; tauto|split; [reflexivity|repeat constructor]]).
  - intros r p Ir Ip. cbn in Ir. repeat (destruct Ir as [<-|Ir]); try (destruct Ir; fail); cbn in Ip |- *; lia.
  - intros b Ib. cbn in Ib. repeat (destruct Ib as [<-|Ib]); try (destruct Ib; fail); reflexivity.
  - reflexivity.
  - reflexivity.
Qed.
Lemma H_stratified : PropsUnused.stratified H_prog C54_level.
Proof.
  intros r Ir. split.
  - intros q b R. cbn in Ir. repeat (destruct Ir as [<-|Ir]); try (destruct Ir; fail);
      destruct R as [a I F|a I F|d I|d a I G]; no_more I; try injection I as <-; cbn; split; intros; try discriminate; lia.
  - intros f If. cbn in Ir. repeat (destruct Ir as [<-|Ir]); try (destruct Ir; fail); cbn in If; destruct If.
Qed.
Lemma H_ranked : ranked H_prog (fun _ => 0).
Proof.
  intros r a Ir Ia. split; [auto|]. intros (v & e & I). cbn in Ir. destruct Ir as [<-|[]]. cbn in I. destruct I as [I|[I|[]]]; discriminate.
Qed.
(** Without the exception for galloping, C57 is false of the code. *)
Theorem C57_hang_refuted : typed_source C3 N1 C54_sig H_prog /\ PropsUnused.stratified H_prog C54_level /\ improving unit_prov /\
  (forall M, stable benv_none H_prog M -> finite_model M) /\
  (exists g ss, dependency_graph H_prog = Some g /\ stratify g (sccs_of g) = Some (inr ss) /\
     lower_strata C3 N1 (fun _ => false) same_order (p_rules H_prog) ss = Some (H_lowered, [])) /\
  forall fuel, execute UE false fuel (Some H_x) H_ctx = None.
Proof.
  split; [exact H_source|]. split; [exact H_stratified|]. split; [exact unit_improving|].
  split; [intros M SM; eapply C57_finite; [exact H_source|exact H_ranked|exact SM]|]. split; [|exact H_hangs].
  destruct (@C56_run_partial unit_prov unit nat UE C3 N1 benv_none H_prog [] C54_sig C54_level same_order sccs_of
    (fun _ => None) (fun _ => false) (fun _ => None) H_ctx) as (g & ss & xs & G & S & LOW & _ & _); try reflexivity.
  - apply sccs_of_contract.
  - exact C3_names.
  - destruct C3_apart as [A1 A2 A3 A4 A5 A6 A7 A8 A9]. constructor; auto; intros; intros K; [apply (A7 i)|apply (A8 i)|apply (A9 p g)]; revert K; cbn -[Nat.mul]; lia.
  - exact H_source.
  - exact H_stratified.
  - split; cbn; congruence.
  - intros p. discriminate.
  - left. reflexivity.
  - intros r t. cbn. split; [intros [(g & [])|(o & u & [] & _)]|intros (f & [] & _)].
  - exists g, ss. split; [exact G|]. split; [exact S|]. change (p_rules H_prog) with H_rules in *. unfold H_lowered. rewrite G, S, LOW. reflexivity.
Qed.
Print Assumptions C57_hang_refuted.
