(** C67: the facts of a stable model of a program whose types were inferred have those
    types. *)
From Coq Require Import List ZArith Bool Lia Arith String.
From Verif Require Import Value Back Eval BackSem TypeSet PropsTypeSet Infer TypeSpec InferFacts InferRun InferSound PropsInfer Front FrontSem FrontFacts FrontProg Cast ValSpec PropsTypedEval.
Import ListNotations.
Local Open Scope list_scope.

Lemma erase_all c tau lit l l' : oall (map (erase c tau lit) l) = Some l' -> Forall2 (fun e x => erase c tau lit e = Some x) l l'.
Proof. apply oall_map. Qed.

Section Exprs.
Context (T : tenv) (c : conv) (E : renv) (tau : loc -> option vtype) (rho : pred -> option (list vtype)) (lit : loc -> content).
Context (ET : env_typed T c E).
Context (gamma : nat -> option vtype) (s : subst).

Definition var_typed (v : nat) : Prop := forall t, gamma v = Some t -> is_a (s v) t.

Lemma go_Forall2 A (P : A -> value -> Prop) (l : list A) (vs : list value) :
  (fix go (l : list A) (vs : list value) : Prop := match l, vs with [], [] => True | e :: l, v :: vs => P e v /\ go l vs | _, _ => False end) l vs -> Forall2 P l vs.
Proof. revert vs. induction l as [|e l IH]; intros [|v vs] H; try destruct H; constructor; auto. Qed.
Lemma all_in (P : yexpr -> Prop) l :
  (fix all (l : list yexpr) : Prop := match l with [] => True | x :: l => P x /\ all l end) l -> forall x, In x l -> P x.
Proof. induction l as [|e l IH]; intros H x I; [destruct I|]. destruct H, I as [<-|I]; auto. Qed.

Lemma args_typed (args : list yexpr) l vs ts :
  (forall e, In e args -> forall x r, erase c tau lit e = Some x -> has_value E s x r -> exists t, tau (yloc e) = Some t /\ is_a r t) ->
  Forall2 (fun e x => erase c tau lit e = Some x) args l -> Forall2 (has_value E s) l vs -> Forall2 (fun a t => tau (yloc a) = Some t) args ts -> Forall2 is_a vs ts.
Proof.
  intros H A. revert vs ts. induction A as [|e x args l ER A IH]; intros vs ts V TS; inversion V; subst; inversion TS; subst; constructor.
  - destruct (H e (or_introl eq_refl) x _ ER H2) as (t & A1 & A2). congruence.
  - apply IH; auto. intros e' I. apply H. right; auto.
Qed.

Lemma expr_typed : forall e x r, typed_expr T tau rho gamma e -> contents_ok lit (ynodes e) -> no_wilds e = true ->
  (forall v, In v (yvars e) -> var_typed v) ->
  erase c tau lit e = Some x -> has_value E s x r -> exists t, tau (yloc e) = Some t /\ is_a r t.
Proof.
  intros e. induction e as [e IH] using yexpr_children. intros x r TE CO NW VT ER HV.
  destruct e as [l v|l|l k d|l op a b|l op a|l y a b|l f args|l p args]; cbn [erase] in ER; cbn [no_wilds] in NW; cbn [yvars] in VT; cbn [children] in IH; cbn [yloc].
  - injection ER as <-. cbn in HV. subst r. cbn in TE. destruct TE as (t & A & B). exists t. split; auto. apply VT; [left; auto|auto].
  - discriminate NW.
  - cbn [typed_expr] in TE. destruct TE as (t & A & B & _). rewrite A in ER. cbn [obnd] in ER. assert (K : content_kind (lit l) = k) by (eapply CO; left; reflexivity).
    destruct (vtype_eq_dec t TStr) as [->|NS].
    { destruct (lit l); cbn in ER; try discriminate ER. }
    rewrite <- K in B. destruct (C66_constant c _ _ B NS) as (v & CV & IV & _). rewrite CV in ER. injection ER as <-. cbn in HV. subst. eauto.
  - apply andb_true_iff in NW. destruct NW as [N1 N2]. destruct (erase c tau lit a) as [xa|] eqn:EA; [|discriminate ER]. cbn [obnd] in ER.
    destruct (erase c tau lit b) as [xb|] eqn:EB; [|discriminate ER]. injection ER as <-. destruct HV as (v & w & HA & HB & BV).
    cbn [typed_expr] in TE. destruct TE as (TA & TB & ta & tb & t & L1 & L2 & L3 & BT).
    destruct (IH a) with (x := xa) (r := v) as (ta' & A1 & A2); auto; [left; auto|intros l0 k0 d0 I; apply (CO l0 k0 d0); cbn; rewrite in_app_iff; auto|intros; apply VT; rewrite in_app_iff; auto|].
    destruct (IH b) with (x := xb) (r := w) as (tb' & B1 & B2); auto; [right; left; auto|intros l0 k0 d0 I; apply (CO l0 k0 d0); cbn; rewrite in_app_iff; auto|intros; apply VT; rewrite in_app_iff; auto|].
    rewrite L1 in A1. injection A1 as <-. rewrite L2 in B1. injection B1 as <-. exists t. split; auto.
    assert (D : mod_float op ta \/ ~ mod_float op ta).
    { unfold mod_float. destruct op; try (right; intros [? _]; discriminate). destruct ta; try (right; intros [_ K]; cbn in K; intuition discriminate); left; cbn; auto. }
    destruct D as [[-> F]|D].
    { exfalso. cbn in BT. destruct BT as (_ & -> & ->). destruct F as [<-|[<-|[]]]; destruct A2 as [? ->], B2 as [? ->]; discriminate BV. }
    pose proof (C66_binary_partial E op ta tb t v w (et_time _ _ _ ET) BT D A2 B2) as R. rewrite BV in R. exact R.
  - destruct (erase c tau lit a) as [xa|] eqn:EA; [|discriminate ER]. injection ER as <-. destruct HV as (v & HA & UV).
    cbn [typed_expr] in TE. destruct TE as (TA & ta & t & L1 & L2 & UT).
    destruct (IH a) with (x := xa) (r := v) as (ta' & A1 & A2); auto; [left; auto|intros l0 k0 d0 I; apply (CO l0 k0 d0); cbn; auto|].
    rewrite L1 in A1. injection A1 as <-. exists t. split; auto.
    destruct op as [| | |t']; cbn [un_typed unop_of] in UT, UV.
    + destruct UT as [N ->]. assert (D : In ta unsigned_types \/ ~ In ta unsigned_types) by (destruct (in_dec vtype_eq_dec ta unsigned_types); auto). destruct D as [D|D].
      { exfalso. destruct (kind_of ta) as [k|] eqn:K; [|destruct ta; try discriminate K; cbn in D; intuition discriminate]. apply (is_int _ _ _ K) in A2. destruct A2 as (z & -> & _).
        destruct ta; try discriminate K; injection K as <-; cbn in D; intuition (try discriminate); discriminate UV. }
      assert (CN : forall t, YNeg = YCast t -> castable ta t) by discriminate.
      pose proof (C66_unary_partial E c YNeg ta ta v (et_cast _ _ _ ET) (conj N eq_refl) A2 (fun _ => D) CN) as R. cbn [unop_of] in R. rewrite UV in R. exact R.
    + destruct UT as [_ ->]. cbn in UV. injection UV as <-. exact A2.
    + destruct UT as [-> ->]. destruct A2 as [b ->]. cbn in UV. injection UV as <-. cbn; eauto.
    + destruct UT as [-> _]. cbn [un_value] in UV. rewrite (et_cast _ _ _ ET) in UV. eapply C66_cast; eauto.
  - apply andb_true_iff in NW. destruct NW as [NW N3]. apply andb_true_iff in NW. destruct NW as [N1 N2].
    destruct (erase c tau lit y) as [xy|] eqn:EY; [|discriminate ER]. cbn [obnd] in ER. destruct (erase c tau lit a) as [xa|] eqn:EA; [|discriminate ER]. cbn [obnd] in ER.
    destruct (erase c tau lit b) as [xb|] eqn:EB; [|discriminate ER]. injection ER as <-.
    cbn [typed_expr] in TE. destruct TE as (TY & TA & TB & LY & t & L1 & L2 & L3). exists t. split; auto. cbn [has_value] in HV. destruct HV as [[_ HV]|[_ HV]].
    + destruct (IH a) with (x := xa) (r := r) as (t' & A1 & A2); auto; [right; left; auto|intros l0 k0 d0 I; apply (CO l0 k0 d0); cbn; rewrite !in_app_iff; auto|intros; apply VT; rewrite !in_app_iff; auto|]. congruence.
    + destruct (IH b) with (x := xb) (r := r) as (t' & A1 & A2); auto; [right; right; left; auto|intros l0 k0 d0 I; apply (CO l0 k0 d0); cbn; rewrite !in_app_iff; auto|intros; apply VT; rewrite !in_app_iff; auto|]. congruence.
  - destruct (oall (map (erase c tau lit) args)) as [xs|] eqn:EA; [|discriminate ER]. injection ER as <-. apply erase_all in EA.
    cbn [has_value] in HV. destruct HV as (vs & HV & CV). apply go_Forall2 in HV. cbn [typed_expr] in TE. destruct TE as (TA & ft & ts & t & F1 & F2 & F3 & F4).
    exists t. split; auto. eapply (et_call _ _ _ ET); eauto. eapply args_typed; eauto. intros e I x' r' ER' HV'. apply (IH e I) with (x := x'); auto.
    + exact (all_in _ _ TA e I).
    + intros l' k d J. apply (CO l' k d). cbn. right. apply in_flat_map. eauto.
    + rewrite forallb_forall in NW. auto.
    + intros v J. apply VT. apply in_flat_map. eauto.
  - destruct (oall (map (erase c tau lit) args)) as [xs|] eqn:EA; [|discriminate ER]. injection ER as <-.
    cbn [has_value] in HV. destruct HV as (vs & HV & ->). cbn [typed_expr] in TE. destruct TE as (TA & L & _). exists TEntity. split; auto. cbn; eauto.
Qed.
End Exprs.

(** ** Formulas *)
Section Forms.
Context (T : tenv) (c : conv) (B : benv) (g : registry) (tau : loc -> option vtype) (rho : pred -> option (list vtype)) (lit : loc -> content).
Context (ET : env_typed T c (b_env B)).
Context (FG : forall p, g_foreign g p = true <-> t_pred T p <> None).
Context (FT : forall p ts vs, t_pred T p = Some ts -> b_fp B p vs -> Forall2 is_a vs ts).
Context (gamma : nat -> option vtype) (s : subst) (M : interp).

Lemma tuple_types p vs ts : pred_types T rho p = Some ts -> tuples B g (typed_tuple rho) p vs -> Forall2 is_a vs ts.
Proof.
  unfold pred_types, tuples. intros P H. destruct (t_pred T p) as [ts'|] eqn:TP.
  - injection P as <-. assert (G : g_foreign g p = true) by (apply FG; congruence). rewrite G in H. eapply FT; eauto.
  - assert (G : g_foreign g p = false) by (destruct (g_foreign g p) eqn:G; auto; apply FG in G; congruence). rewrite G in H. apply H; auto.
Qed.
Lemma Forall2_nth A B' (R : A -> B' -> Prop) l m k x : Forall2 R l m -> nth_error l k = Some x -> exists y, nth_error m k = Some y /\ R x y.
Proof. intros H. revert k. induction H as [|a b l m R0 H IH]; intros [|k] N; try discriminate N; cbn in *; [injection N as <-; eauto|auto]. Qed.
Lemma conj_in (P : formula -> Prop) l : (fix all l := match l with [] => True | f :: l => P f /\ all l end) l -> forall f, In f l -> P f.
Proof. induction l as [|a l IH]; intros H f I; [destruct I|]. destruct H, I as [<-|I]; auto. Qed.
Lemma yconj_in (P : yform -> Prop) l : (fix all l := match l with [] => True | f :: l => P f /\ all l end) l -> forall f, In f l -> P f.
Proof. induction l as [|a l IH]; intros H f I; [destruct I|]. destruct H, I as [<-|I]; auto. Qed.
Lemma disj_in (P : formula -> Prop) l : (fix any l := match l with [] => False | f :: l => P f \/ any l end) l -> exists f, In f l /\ P f.
Proof. induction l as [|a l IH]; intros H; [destruct H|]. destruct H as [H|H]; [exists a; cbn; auto|]. destruct (IH H) as (f & A & C); exists f; cbn; auto. Qed.
Lemma yany_in (P : yform -> Prop) l : (fix any l := match l with [] => False | f :: l => P f \/ any l end) l -> exists f, In f l /\ P f.
Proof. induction l as [|a l IH]; intros H; [destruct H|]. destruct H as [H|H]; [exists a; cbn; auto|]. destruct (IH H) as (f & A & C); exists f; cbn; auto. Qed.
Lemma Forall2_in_l A B' (R : A -> B' -> Prop) l m x : Forall2 R l m -> In x l -> exists y, In y m /\ R x y.
Proof. intros H. induction H as [|a b l m R0 H IH]; intros I; [destruct I|]. destruct I as [<-|I]; [exists b; cbn; auto|]. destruct (IH I) as (y & ? & ?). exists y; cbn; auto. Qed.
Lemma Forall2_in_r A B' (R : A -> B' -> Prop) l m y : Forall2 R l m -> In y m -> exists x, In x l /\ R x y.
Proof. intros H. induction H as [|a b l m R0 H IH]; intros I; [destruct I|]. destruct I as [<-|I]; [exists a; cbn; auto|]. destruct (IH I) as (x & ? & ?). exists x; cbn; auto. Qed.

Lemma gives_typed (K : nat -> Prop) : (forall v, K v -> var_typed gamma s v) -> forall f f', typed_form T tau rho gamma f ->
  contents_ok lit (fnodes f) -> erase_form c tau lit f = Some f' -> fholds B g (typed_tuple rho) M s f' ->
  forall v, gives K f v -> var_typed gamma s v.
Proof.
  intros KT f. induction f as [p args|p args|e|l IH|l IH|a b IHa IHb|r b gr] using yform_nested; intros f' TF CO ER H v G; cbn [gives] in G; try (destruct G; fail).
  - cbn [erase_form] in ER. destruct (oall (map (erase c tau lit) args)) as [xs|] eqn:EA; [|discriminate ER]. injection ER as <-. apply erase_all in EA.
    cbn [fholds] in H. destruct H as (vs & HV & TU). destruct TF as (TA & ts & P & _ & _ & AL). destruct G as [l G].
    destruct (In_nth_error _ _ G) as [k N]. destruct (Forall2_nth _ _ _ _ _ _ _ EA N) as (x & N1 & E1). injection E1 as <-.
    destruct (Forall2_nth _ _ _ _ _ _ _ HV N1) as (w & N2 & E2). cbn in E2. subst w.
    pose proof (tuple_types _ _ _ P TU) as TT. destruct (Forall2_nth _ _ _ _ _ _ _ TT N2) as (t & N3 & E3).
    specialize (AL _ _ N). rewrite N3 in AL. specialize (TA _ G). cbn in TA. destruct TA as (t' & A1 & A2). cbn in AL. intros t0 GT. congruence.
  - destruct e as [| | |l op a b| | | |]; try (destruct G; fail). destruct op; try (destruct a; destruct G; fail). destruct a as [lx x| | | | | | |]; try (destruct G; fail).
    cbn [erase_form erase] in ER. destruct (erase c tau lit b) as [xb|] eqn:EB; [|discriminate ER]. injection ER as <-. cbn in H. destruct H as (v1 & v2 & -> & HB & EQ).
    destruct TF as [TF _]. cbn [typed_expr] in TF. destruct TF as ((t0 & A1 & A2) & TB & ta & tb & t & L1 & L2 & L3 & BT). cbn [yloc] in L1. cbn in BT. destruct BT as [-> ->].
    assert (t0 = ta) by congruence. subst t0. destruct G as [(-> & NW & VK)|(l' & -> & KX)].
    + destruct (expr_typed T c (b_env B) tau rho lit ET gamma s b xb v2) as (t' & T1 & T2); auto.
      { intros l' k d J. apply (CO l' k d). cbn. auto. }
      intros t1 GT. rewrite EQ. congruence.
    + cbn in EB. injection EB as <-. cbn in HB. cbn in TB, L2. destruct TB as (t1 & T1 & T2). intros t2 GT. specialize (KT _ KX). assert (t2 = ta) by congruence. subst t2. rewrite <- HB, <- EQ. apply KT. exact A2.
  - cbn [erase_form] in ER. destruct (oall (map (erase_form c tau lit) l)) as [xs|] eqn:EA; [|discriminate ER]. injection ER as <-. apply oall_map in EA.
    cbn [fholds] in H. apply yany_in in G. destruct G as (f & I & G). destruct (Forall2_in_l _ _ _ _ _ _ EA I) as (x & I' & EX).
    cbn [typed_form] in TF. apply (IH f I x); auto.
    + exact (yconj_in _ _ TF f I).
    + intros l' k d J. apply (CO l' k d). cbn. apply in_flat_map. eauto.
    + exact (conj_in _ _ H x I').
  - cbn [erase_form] in ER. destruct (oall (map (erase_form c tau lit) l)) as [xs|] eqn:EA; [|discriminate ER]. injection ER as <-. apply oall_map in EA.
    cbn [fholds] in H. apply disj_in in H. destruct H as (x & I' & H). destruct (Forall2_in_r _ _ _ _ _ _ EA I') as (f & I & EX). destruct G as [_ G].
    cbn [typed_form] in TF. apply (IH f I x); auto.
    + exact (yconj_in _ _ TF f I).
    + intros l' k d J. apply (CO l' k d). cbn. apply in_flat_map. eauto.
    + exact (yconj_in _ _ G f I).
Qed.
Lemma ranged_typed f f' : typed_form T tau rho gamma f ->
  contents_ok lit (fnodes f) -> erase_form c tau lit f = Some f' -> fholds B g (typed_tuple rho) M s f' ->
  forall v, ranged f v -> var_typed gamma s v.
Proof.
  intros TF CO ER H v [n K]. revert v K. induction n as [|n IH]; intros v K; [destruct K|]. destruct K as [K|K]; auto.
  eapply gives_typed; eauto.
Qed.
End Forms.

(** What is compiled: the rules with their constants. *)
Definition erases (c : conv) (tau : loc -> option vtype) (lit : loc -> content) (y : yrule) (r : frule) : Prop :=
  erase_form c tau lit (y_body y) = Some (fr_body r) /\ oall (map (erase_atom c tau lit) (y_head y)) = Some (fhead_atoms (fr_head r)).

(** In a stable model of well-typed rules, the facts have the types of their relations. *)
Theorem C67_model_typed_partial : forall T c B F extra tau rho gamma lit rs M,
  env_typed T c (b_env B) -> (forall p, g_foreign (fp_reg F) p = true <-> t_pred T p <> None) ->
  (forall p ts vs, t_pred T p = Some ts -> b_fp B p vs -> Forall2 is_a vs ts) ->
  typed_rules T tau rho gamma rs -> Forall2 (erases c tau lit) rs (fp_rules F) ->
  contents_ok lit (flat_map rnodes rs) -> (forall r, In r rs -> head_ranged r) ->
  (forall r a, In r rs -> In a (y_head r) -> t_pred T (fst a) = None) ->
  (forall f, In f (fp_facts F ++ extra) -> typed_tuple rho (f_pred f) (f_args f)) ->
  front_stable B F extra M -> forall p vs, M p vs -> typed_tuple rho p vs.
Proof.
  intros T c B F extra tau rho gamma lit rs M ET FG FT TR ER CO HR HN FF ST p vs H. apply (proj1 (ST p vs) H). clear p vs H. split; [exact FF|].
  intros r p t I (s & a & HB & IA & -> & HV). destruct (Forall2_in_r _ _ _ _ _ _ ER I) as (y & IY & EB & EH).
  destruct (In_nth_error _ _ IY) as [k N]. destruct (TR k y N) as [TH TB]. apply oall_map in EH.
  destruct (Forall2_in_r _ _ _ _ _ _ EH IA) as (ya & IYA & EA). specialize (TH ya IYA). destruct TH as (TA & ts & PT & _ & LEN & AL).
  unfold erase_atom in EA. destruct (oall (map (erase c tau lit) (snd ya))) as [xs|] eqn:EX; [|discriminate EA]. injection EA as <-. cbn [fst snd] in *. apply erase_all in EX.
  assert (CB : contents_ok lit (fnodes (y_body y))). { intros l k' d J. apply (CO l k' d). apply in_flat_map. exists y. split; auto. unfold rnodes. apply in_app_iff. auto. }
  assert (RT : forall v, ranged (y_body y) v -> var_typed (gamma k) s v) by (eapply ranged_typed; eauto).
  intros ts' RHO. assert (ts' = ts). { unfold pred_types in PT. rewrite (HN y ya IY IYA) in PT. congruence. } subst ts'.
  specialize (LEN (HN y ya IY IYA)).
  assert (VT : forall k0 e, nth_error (snd ya) k0 = Some e -> forall x w, erase c tau lit e = Some x -> has_value (b_env B) s x w -> exists t0, tau (yloc e) = Some t0 /\ is_a w t0).
  { intros k0 e N0 x w EE HW. assert (IE : In e (snd ya)) by (eapply nth_error_In; eauto). destruct (HR y IY ya e IYA IE) as [NW VR].
    eapply expr_typed; eauto.
    intros l k' d J. apply (CO l k' d). apply in_flat_map. exists y. split; auto. unfold rnodes. apply in_app_iff. left. apply in_flat_map. exists ya. split; auto. apply in_flat_map. eauto. }
  clear - EX HV AL LEN VT. revert xs ts t EX HV AL LEN VT. induction (snd ya) as [|e l IH]; intros xs ts t EX HV AL LEN VT.
  - inversion EX; subst. inversion HV; subst. destruct ts; [constructor|discriminate LEN].
  - inversion EX; subst. inversion HV; subst. destruct ts as [|t0 ts]; [discriminate LEN|]. constructor.
    + destruct (VT 0%nat e eq_refl _ _ H1 H2) as (t1 & A & C). specialize (AL 0%nat e eq_refl). cbn in AL. congruence.
    + eapply IH; eauto.
      * intros k a N. exact (AL (S k) a N).
      * intros k0 e0 N. exact (VT (S k0) e0 N).
Qed.
Print Assumptions C67_model_typed_partial.

(** ** From inference to models *)
Lemma heads_local T items : forall P P', tfold (visit T) items P = TOk P' ->
  forall r a, In r (prog_rules items) -> In a (y_head r) -> t_pred T (fst a) = None.
Proof.
  induction items as [|i items IH]; intros P P' H r a I J; [destruct I|]. cbn [tfold] in H. destruct (visit T i P) as [P1| |] eqn:V; try discriminate H. cbn [tbind] in H.
  unfold prog_rules in I. cbn [flat_map] in I. apply in_app_iff in I. destruct I as [I|I]; [|exact (IH _ _ H r a I J)].
  destruct i as [p ts|p cs|p ts|y]; try (destruct I; fail). destruct I as [->|[]]. cbn [visit] in V.
  destruct (existsb (fun a => is_foreign T (fst a)) (y_head r)) eqn:EX; [discriminate V|].
  destruct (t_pred T (fst a)) eqn:TP; auto. exfalso. assert (X : existsb (fun a => is_foreign T (fst a)) (y_head r) = true); [|congruence].
  apply existsb_exists. exists a. split; auto. unfold is_foreign. rewrite TP. reflexivity.
Qed.
(** If type inference accepts a program and its result is settled, then the facts of a
    stable model have the inferred types.  Not covered: aggregations (C65); assumed: the
    facts that the program is given have the inferred types, variables of heads are bound
    by atoms and equations, foreign functions respect their types. *)
Theorem C67_inferred_partial : forall fuel T items r c B F extra lit M,
  infer_program fuel T items = Some (TOk r) -> located (prog_rules items) ->
  (forall x, In x (prog_rules items) -> no_reduce (y_body x) = true) -> (forall f ft, t_fun T f = Some ft -> fun_ok ft) ->
  (forall l p args, In (l, YEnt l p args) (flat_map rnodes (prog_rules items)) -> forall i s, rget (snd (fst r)) p i = Some s -> exists t, s = SBase t) ->
  settled T items r ->
  env_typed T c (b_env B) -> (forall p, g_foreign (fp_reg F) p = true <-> t_pred T p <> None) ->
  (forall p ts vs, t_pred T p = Some ts -> b_fp B p vs -> Forall2 is_a vs ts) ->
  Forall2 (erases c (expr_type r) lit) (prog_rules items) (fp_rules F) ->
  contents_ok lit (flat_map rnodes (prog_rules items)) -> (forall x, In x (prog_rules items) -> head_ranged x) ->
  (forall f, In f (fp_facts F ++ extra) -> typed_tuple (rel_type r) (f_pred f) (f_args f)) ->
  front_stable B F extra M -> forall p vs, M p vs -> typed_tuple (rel_type r) p vs.
Proof.
  intros fuel T items r c B F extra lit M H LOC NR FO EN SE ET FG FT ER CO HR FF ST.
  pose proof (C65_sound_partial fuel T items r H LOC NR FO EN SE) as TR. clear SE EN.
  eapply C67_model_typed_partial; eauto. unfold infer_program in H. destruct (tfold (visit T) items (mkTprog [] [] [])) as [P| |] eqn:EV; try discriminate H. eapply heads_local; eauto.
Qed.
Print Assumptions C67_inferred_partial.

(** ** Example
    type p(u8, String)
    rel p = {(255, "a")}
    rel r(y, s) = p(x, s), y == x + 1 *)
Definition conv0 : conv := mkConv (fun _ z => z) (fun _ z => z) (fun _ _ => None) (fun _ => String.EmptyString) (fun _ => String.EmptyString) (fun _ => None) (fun _ => 0%Z).
Definition all_types : list vtype := [TI8; TI16; TI32; TI64; TI128; TISize; TU8; TU16; TU32; TU64; TU128; TUSize; TF32; TF64; TChar; TBool; TStr; TString; TSymbol; TDateTime; TDuration; TEntity; TTensor].
Definition renv0 : renv := Verif.Eval.mkEnv (fun _ _ _ => None) (fun z => z) (fun _ _ _ => EPanic)
  (fun n v => match nth_error all_types n with Some t => cast conv0 t v | None => EPanic end) (fun _ _ => ENone) (fun _ _ => 0%Z).
Definition benv0 : benv.
Proof. refine (mkBenv renv0 (fun _ _ => False) (fun _ _ _ _ => False) _ _ (fun _ _ _ _ => False) (fun _ _ _ _ => False)); intros; assumption. Defined.
Lemma renv0_typed : env_typed env0 conv0 renv0.
Proof. split; [intros; discriminate|intros t v; destruct t; reflexivity|intros; discriminate]. Qed.
Definition ex_lit (l : loc) : content := CInt 1.
Definition ex_items : list titem :=
  [IDecl 0 [TU8; TString]; IFact 0 [(KInt 255, None); (KString, None)];
   IRule (mkYrule [(2, [YVar 0 1; YVar 1 2])]
     (YConj [YAtom 0 [YVar 2 0; YVar 3 2]; YCons (YBin 4 OEq (YVar 5 1) (YBin 6 OAdd (YVar 7 0) (YConst 8 (KInt 1) None)))]))].
Definition ex_F : fprogram := mkFprog [] [] [mkFact 0 [U8 255; VString "a"%string]]
  [mkFrule (FHAtom (2, [EVar 1; EVar 2])) (FConj [FAtom 0 [EVar 0; EVar 2]; FCons (EBin OEq (EVar 1) (EBin OAdd (EVar 0) (EConst (U8 1))))])]
  (mkReg (fun _ => false) (fun _ => false) (fun _ => false) []).
(** No rule negates, so that the least closed set is the stable model. *)
Definition ex_M : interp := fun p t => forall X, fclosed benv0 ex_F [] (fun _ _ => False) X -> X p t.
Lemma ex_M_stable : front_stable benv0 ex_F [] ex_M.
Proof.
  assert (D : forall M M' X, fclosed benv0 ex_F [] M X -> fclosed benv0 ex_F [] M' X).
  { intros M M' X [H1 H2]. split; [exact H1|]. intros r p t I. specialize (H2 r p t I). destruct I as [<-|[]]. exact H2. }
  intros p t. split; [intros H X C; apply H; eapply D; exact C|intros H X C; apply H; eapply D; exact C].
Qed.
Example ex_model : let r := result_of (infer_program 20 env0 ex_items) in
  rel_type r 2 = Some [TU8; TString] /\ (forall p vs, ex_M p vs -> typed_tuple (rel_type r) p vs) /\ ex_M 2 [U8 255; VString "a"%string].
Proof.
  cbv zeta. split; [vm_compute; reflexivity|]. split.
  - apply (C67_inferred_partial 20 env0 ex_items _ conv0 benv0 ex_F [] ex_lit ex_M).
    + vm_compute. reflexivity.
    + unfold located. vm_compute. nodup.
    + intros x J. vm_compute in J. destruct J as [<-|[]]; reflexivity.
    + apply env0_ok.
    + intros l p args J. exfalso. vm_compute in J. repeat (destruct J as [J|J]; [discriminate J|]). exact J.
    + vm_compute. repeat split.
    + exact renv0_typed.
    + intros p. cbn. split; [discriminate|congruence].
    + intros p ts vs H. discriminate H.
    + constructor; [|constructor]. split; vm_compute; reflexivity.
    + intros l k d J. vm_compute in J. repeat (destruct J as [J|J]; [try discriminate J; inversion J; subst; reflexivity|]); destruct J.
    + intros x J. vm_compute in J. destruct J as [<-|[]]. intros a e [<-|[]] [<-|[<-|[]]]; (split; [reflexivity|]); intros v [<-|[]].
      * exists 2. right. cbn. right. left. left. split; [reflexivity|]. split; [reflexivity|]. intros y [<-|[]]. right. left. eexists. left; reflexivity.
      * exists 1. right. cbn. left. eexists. right; left; reflexivity.
    + intros f [<-|[]] ts H. vm_compute in H. injection H as <-. constructor; [apply (is_int TU8 KU8); [reflexivity|]; exists 255%Z; split; [reflexivity|vm_compute; split; discriminate]|].
      constructor; [exists "a"%string; reflexivity|constructor].
    + exact ex_M_stable.
  - intros X [H1 H2]. apply (H2 _ 2 _ (or_introl eq_refl)).
    exists (fun v => match v with 0 => U8 255 | 1 => U8 255 | _ => VString "a"%string end), (2, [EVar 1; EVar 2]).
    split; [|split; [left; reflexivity|split; [reflexivity|repeat constructor]]].
    cbn. split; [|split; [|exact Logic.I]].
    + exists [U8 255; VString "a"%string]. split; [repeat constructor|]. apply (H1 _ (or_introl eq_refl)).
    + exists (U8 255), (U8 255). split; [reflexivity|]. split; [|reflexivity]. exists (U8 255), (U8 1). split; [reflexivity|]. split; [reflexivity|]. vm_compute. reflexivity.
Qed.
