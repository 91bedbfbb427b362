(** C68: type inference comes to an end. *)
From Coq Require Import List Bool Arith Lia ZArith.
From Verif Require Import Back TypeSet PropsTypeSet Infer InferFacts InferRun TypeSpec PropsInfer.
Import ListNotations.

(** ** What is stored *)
(** Every set that is stored was put in by the environment, the relations, a constant or
    an operator. *)
Section Stored.
Context (P : tset -> Prop) (PB : forall t, P (SBase t)) (PA : P SAny) (PR : P SArith).
Definition all_sets (X : exprs) : Prop := forall e s, get X e = Some s -> P s.
Lemma unify_P a b c : ts_unify a b = Some c -> P a -> P b -> P c.
Proof. unfold ts_unify. destruct (ts_cmp a b) as [[]|]; intros H; try discriminate H; injection H as <-; auto. Qed.
Lemma all_put X e s : all_sets X -> P s -> all_sets (put X e s).
Proof. intros A S j x. rewrite get_put. destruct (Nat.eqb j e); [intros H; injection H as <-; exact S|apply A]. Qed.
Lemma all_put_all l s : P s -> forall X, all_sets X -> all_sets (put_all l s X).
Proof. intros S. unfold put_all. induction l as [|a l IH]; intros X A; cbn; auto. apply IH. apply all_put; auto. Qed.
Lemma unify_ty_P e s X n X' : unify_ty e s X = TOk (n, X') -> P s -> all_sets X -> P n /\ all_sets X'.
Proof.
  unfold unify_ty. destruct (ts_unify s _) as [m|] eqn:E; [|discriminate]. intros H S A. injection H as <- <-.
  assert (P m). { apply (unify_P _ _ _ E); auto. destruct (get X e) eqn:G; [exact (A _ _ G)|exact S]. } split; auto. apply all_put; auto.
Qed.
Lemma unify_loc_P e s X X' : unify_loc e s X = TOk X' -> P s -> all_sets X -> all_sets X'.
Proof. unfold unify_loc. intros H S A. apply tbind_ok in H. destruct H as ((n & Y) & E & H). injection H as <-. eapply unify_ty_P; eauto. Qed.
Lemma goi_P e s X n X' : get_or_insert e s X = (n, X') -> P s -> all_sets X -> P n /\ all_sets X'.
Proof.
  unfold get_or_insert. destruct (get X e) as [t|] eqn:E; intros H S A; injection H as <- <-; split; auto.
  - exact (A _ _ E).
  - apply all_put; auto.
Qed.
Ltac tb H := let r := fresh "r" in let E := fresh "E" in apply tbind_ok in H; destruct H as (r & E & H).
Ltac op H := apply of_opt_ok in H.
Ltac loc := match goal with H : unify_loc _ _ ?X = TOk _, A : all_sets ?X |- _ => eapply unify_loc_P in H; [|auto|exact A]; clear A end.
Lemma unify_poly_P rules strict a b e X X' : unify_poly rules strict a b e X = TOk X' -> all_sets X -> all_sets X'.
Proof.
  unfold unify_poly. intros H A. tb H. destruct r as (sa & X1). tb H. destruct r as (sb & X2). tb H. destruct r as (se & X3).
  apply unify_ty_P in E as [_ A1]; auto. apply unify_ty_P in E0 as [_ A2]; auto. apply unify_ty_P in E1 as [_ A3]; auto. clear A A1 A2.
  assert (CH : forall r, (let '(t1, t2, te) := r in
      tbind (unify_loc a (SBase t1) X3) (fun X => tbind (unify_loc b (SBase t2) X) (fun X => unify_loc e (SBase te) X))) = TOk X' -> all_sets X').
  { intros ((t1 & t2) & te) K. tb K. tb K. loc. loc. loc. exact K. }
  destruct (filter _ rules) as [|r1 [|r2 l]]; [discriminate|exact (CH r1 H)|]. destruct strict; [exact (CH r1 H)|]. injection H as <-. exact A3.
Qed.
Lemma unify_compare_P strict a b e X X' : unify_compare strict a b e X = TOk X' -> all_sets X -> all_sets X'.
Proof.
  unfold unify_compare. intros H A. tb H. tb H. destruct r0 as (sa & X2). tb H. destruct r0 as (sb & X3). loc.
  apply unify_ty_P in E0 as [_ A2]; auto. apply unify_ty_P in E1 as [_ A3]; auto. clear E A2.
  assert (CH : forall r, (let '(t1, t2) := r in tbind (unify_loc a (SBase t1) X3) (fun X => unify_loc b (SBase t2) X)) = TOk X' -> all_sets X').
  { intros (t1 & t2) K. tb K. loc. loc. exact K. }
  destruct (filter _ compare_rules) as [|r1 [|r2 l]]; [discriminate|exact (CH r1 H)|]. destruct strict; [exact (CH r1 H)|]. injection H as <-. exact A3.
Qed.

(** Functions. *)
Definition argty_P (t : argty) : Prop := match t with ASet s => P s | AGeneric _ => True end.
Definition funty_P (f : funty) : Prop :=
  Forall P (fn_generics f) /\ Forall argty_P (fn_static f) /\ Forall argty_P (fn_optional f) /\ (forall t, fn_variable f = Some t -> argty_P t).
Lemma arg_type_P f i t : funty_P f -> arg_type f i = Some t -> argty_P t.
Proof.
  intros (_ & A & B & C). unfold arg_type. rewrite Forall_forall in A, B.
  destruct (i <? _); [intros H; apply nth_error_In in H; auto|]. destruct (_ <? _); [intros H; apply nth_error_In in H; auto|apply C].
Qed.
Lemma call_args_P f args : funty_P f -> forall i X l X', call_args f i args X = TOk (l, X') -> all_sets X -> all_sets X'.
Proof.
  intros F. induction args as [|a args IH]; intros i X l X' H A; cbn in H; [injection H as <- <-; exact A|]. tb H. apply unwrap_ok in E. apply arg_type_P in E; auto.
  destruct r as [g|s].
  - tb H. destruct r as (l0 & Y). injection H as <- <-. eapply IH; eauto.
  - tb H. eapply IH; [exact H|]. eapply unify_loc_P; eauto.
Qed.
Lemma unify_instances_P fam l : P fam -> forall agg X s X', unify_instances fam agg l X = TOk (s, X') -> P agg -> all_sets X -> P s /\ all_sets X'.
Proof.
  intros F. induction l as [|a l IH]; intros agg X s X' H G A; cbn in H; [injection H as <- <-; auto|]. tb H. destruct r as (n & Y). tb H. op E0.
  apply unify_ty_P in E as [PN AY]; auto. eapply IH; [exact H| |exact AY]. eapply unify_P; eauto.
Qed.
Lemma unify_generic_P insts gf X X' : unify_generic insts gf X = TOk X' -> P (snd gf) -> all_sets X -> all_sets X'.
Proof.
  unfold unify_generic. destruct (instances _ _) as [|a l]; [intros H; injection H as <-; auto|]. intros H F A. tb H. destruct r as (s & Y). tb H. destruct r as (s' & Z). injection H as <-.
  apply unify_ty_P in E as [PN AY]; auto. destruct (unify_instances_P _ _ F _ _ _ _ E0 PN AY). apply all_put_all; auto. apply all_put; auto.
Qed.
Lemma tfold_P {A} (f : A -> exprs -> tres exprs) l : (forall a X X', In a l -> f a X = TOk X' -> all_sets X -> all_sets X') ->
  forall X X', tfold f l X = TOk X' -> all_sets X -> all_sets X'.
Proof.
  induction l as [|a l IH]; intros F X X' H A0; cbn in H; [injection H as <-; exact A0|]. tb H. apply (IH (fun a X X' I => F a X X' (or_intror I)) _ _ H). eapply F; eauto. left; reflexivity.
Qed.
Lemma unify_call_P f args e X X' : funty_P f -> unify_call f args e X = TOk X' -> all_sets X -> all_sets X'.
Proof.
  intros F. unfold unify_call. destruct (valid_num_args _ _); [|discriminate]. intros H A. tb H. destruct r as (l & Y). tb H. destruct r as (l' & Z). apply (call_args_P _ _ F) in E; auto.
  assert (AZ : all_sets Z). { destruct (fn_return f); [injection E0 as <- <-; exact E|]. tb E0. injection E0 as <- <-. loc. auto. }
  eapply tfold_P; [|exact H|exact AZ]. intros (g & s) U V I K. eapply unify_generic_P; [exact K|]. apply enumerate_In in I. apply nth_error_In in I. destruct F as [F _]. rewrite Forall_forall in F. apply F. exact I.
Qed.

(** Aggregates. *)
Lemma unify_params_P l : forall opt params X r X', unify_params l opt params X = TOk (r, X') -> all_sets X -> all_sets X'.
Proof.
  induction l as [|[t|t] l IH]; intros opt params X r X' H A; cbn in H.
  - injection H as <- <-. exact A.
  - destruct opt; [discriminate|]. destruct params as [|a params]; [discriminate|]. tb H. loc. eapply IH; eauto.
  - destruct params as [|a params]; [eapply IH; eauto|]. destruct (unify_loc a (SBase t) X) as [Y| |] eqn:E; [|eapply IH; eauto|discriminate].
    loc. eapply IH; eauto.
Qed.
Lemma unify_each_P s : Forall P s -> forall l X X', unify_each s l X = TOk X' -> all_sets X -> all_sets X'.
Proof.
  induction 1 as [|t s S0 F IH]; intros [|a l] X X' H A; cbn in H; try (injection H as <-; exact A). tb H. eapply IH; [exact H|]. eapply unify_loc_P; eauto.
Qed.
Lemma unify_each_ty_P s : Forall P s -> forall l X ns X', unify_each_ty s l X = TOk (ns, X') -> all_sets X -> Forall P ns /\ all_sets X'.
Proof.
  induction 1 as [|t s S0 F IH]; intros [|a l] X ns X' H A; cbn in H; try (injection H as <- <-; split; [constructor|exact A]).
  tb H. destruct r as (n & Y). tb H. destruct r as (ns' & Z). injection H as <- <-. apply unify_ty_P in E as [PN AY]; auto. apply IH in E0 as [PS AZ]; auto.
Qed.
Fixpoint fam_P (g : gfam) : Prop :=
  match g with
  | GUnitOr g => fam_P g
  | GTuple => True
  | GTupleOf l => forall g s f, In g l -> as_family g = Some f -> of_family f = Some s -> P s
  | GFam f => forall s, of_family f = Some s -> P s
  end.
Lemma all_some_In {A} (l : list (option A)) r a : all_some l = Some r -> In a r -> In (Some a) l.
Proof.
  revert r. induction l as [|[x|] l IH]; cbn; intros r H; try (injection H as <-; intros []); try discriminate. destruct (all_some l) as [r'|]; [|discriminate].
  injection H as <-. intros [->|J]; eauto.
Qed.
Lemma solve_generic_P g : fam_P g -> forall vars X ns X', solve_generic g vars X = TOk (ns, X') -> all_sets X -> Forall P ns /\ all_sets X'.
Proof.
  induction g as [g IH| |l|f]; intros F vars X ns X' H A; cbn [solve_generic] in H.
  - destruct vars as [|a vars]; [injection H as <- <-; split; [constructor|exact A]|eauto].
  - destruct vars as [|a vars]; [discriminate|]. eapply unify_each_ty_P; [|exact H|exact A]. apply Forall_forall. intros s I. apply in_map_iff in I. destruct I as (x & <- & _). exact PA.
  - destruct (all_some (map as_family l)) as [fams|] eqn:EF; [|discriminate]. destruct (Nat.eqb _ _); [|discriminate]. tb H. apply unwrap_ok in E.
    eapply unify_each_ty_P; [|exact H|exact A]. apply Forall_forall. intros s I. apply (all_some_In _ _ _ E) in I. apply in_map_iff in I. destruct I as (f & EO & I).
    apply (all_some_In _ _ _ EF) in I. apply in_map_iff in I. destruct I as (g & EG & I). eapply F; eauto.
  - destruct vars as [|a [|b vars]]; try discriminate. tb H. apply unwrap_ok in E. eapply unify_each_ty_P; [|exact H|exact A]. constructor; auto.
Qed.
Definition ground_P (G : grounded_t) : Prop := forall g sets, assoc g G = Some sets -> Forall P sets.
Lemma ground_input_P gs b vars G X G' X' : (forall g f, assoc g gs = Some f -> fam_P f) ->
  ground_input gs b vars G X = TOk (G', X') -> ground_P G -> all_sets X -> ground_P G' /\ all_sets X'.
Proof.
  intros FG H GP A.
  assert (BAD : forall l, (if existsb is_generic l then @TErr (grounded_t * exprs)
    else if negb (Nat.eqb (length l) (length vars)) then TErr else TPanic) <> TOk (G', X')).
  { intros l. destruct (existsb _ _); [discriminate|]. destruct (negb _); discriminate. }
  unfold ground_input in H. destruct b as [[|[g|t] [|b2 l]]|]; try discriminate; try (exfalso; eapply BAD; exact H).
  - destruct vars; [injection H as <- <-; auto|discriminate].
  - destruct (assoc g G) as [sets|] eqn:EA.
    + destruct (Nat.eqb _ _); [|discriminate]. tb H. injection H as <- <-. split; auto. eapply unify_each_P; [exact (GP _ _ EA)|exact E|exact A].
    + destruct (assoc g gs) as [fam|] eqn:EF; [|discriminate]. tb H. destruct r as (sets & Y). injection H as <- <-. apply solve_generic_P in E as [PS AY]; eauto. split; auto.
      intros h s. cbn. destruct (Nat.eqb h g); [intros K; injection K as <-; exact PS|apply GP].
  - destruct vars as [|a [|b vars]]; try discriminate. tb H. injection H as <- <-. loc. auto.
Qed.
Lemma solve_output_P b : forall G sets, solve_output b G = TOk sets -> ground_P G -> Forall P sets.
Proof.
  induction b as [l|g x IHx y IHy]; intros G sets H GP; cbn in H.
  - op H. match type of H with option_map _ ?o = _ => destruct o as [ll|] eqn:E; [|discriminate] end. cbn in H. injection H as <-.
    apply Forall_forall. intros s I. apply in_concat in I. destruct I as (x & I & J). apply (all_some_In _ _ _ E) in I. apply in_map_iff in I. destruct I as (b & EB & _).
    destruct b as [g|t]; [|injection EB as <-; destruct J as [<-|[]]; auto]. pose proof (GP _ _ EB) as F. rewrite Forall_forall in F. auto.
  - destruct (assoc g G) as [[|]|]; eauto. discriminate.
Qed.
Definition aggty_P (a : aggty) : Prop := forall g f, assoc g (ag_generics a) = Some f -> fam_P f.
Lemma unify_agg_P a lefts params named args inputs excl X X' : aggty_P a ->
  unify_agg a lefts params named args inputs excl X = TOk X' -> all_sets X -> all_sets X'.
Proof.
  intros AG. unfold unify_agg. destruct lefts as [|e0 ll]; [discriminate|]. intros H A. tb H. destruct r as (rest & X1). apply unify_params_P in E; auto. destruct (1 <? length rest); [discriminate|].
  tb H. assert (A2 : all_sets r).
  { eapply tfold_P; [|exact E0|exact E]. intros p U V _ K. unfold unify_named in K. destruct (assoc (fst p) named); [intros ?; loc; auto|].
    destruct (is_mandatory _); [discriminate|injection K as <-; auto]. }
  destruct (existsb _ _); [discriminate|]. destruct (excl && _); [discriminate|]. tb H. destruct r0 as (G & X3). tb H. destruct r0 as (G' & X4). tb H.
  apply ground_input_P in E1 as [GP A3]; auto; [|intros ? ? K; discriminate K]. apply ground_input_P in E2 as [GP' A4]; auto. apply solve_output_P in E3; auto.
  destruct (Nat.eqb _ _); [|discriminate]. eapply unify_each_P; eauto.
Qed.
Lemma unify_entity_P s : Forall P s -> forall l X X', unify_entity s l X = TOk X' -> all_sets X -> all_sets X'.
Proof.
  induction 1 as [|t s S0 F IH]; intros [|a l] X X' H A; cbn in H; try (injection H as <-; exact A). destruct (get_or_insert a SAny X) as (old & Y) eqn:E.
  tb H. op E0. apply goi_P in E as [PO AY]; auto. eapply IH; [exact H|]. apply all_put; auto. eapply unify_P; eauto.
Qed.

Definition env_P (T : tenv) : Prop := (forall f ft, t_fun T f = Some ft -> funty_P ft) /\ (forall g a, t_agg T g = Some a -> aggty_P a).
Definition rels_P (R : rels) : Prop := forall p ts, get R p = Some ts -> Forall P ts.
Definition unif_P (u : unif) : Prop := match u with UConst _ s _ => P s | _ => True end.
Lemma unify_all T strict R u X X' : env_P T -> rels_P R -> unif_P u -> unify T strict R u X = TOk X' -> all_sets X -> all_sets X'.
Proof.
  intros [TF TA] RP UP H A. destruct u; cbn [unify] in H.
  - destruct (t_pred T p) as [ts|].
    + destruct (nth_error ts i); [|discriminate]. loc. exact H.
    + tb H. apply unwrap_ok in E. destruct (nth_error r i) as [s|] eqn:N; [|discriminate]. apply nth_error_In in N. apply RP in E. rewrite Forall_forall in E. eapply unify_loc_P; eauto.
  - injection H as <-. exact A.
  - destruct decl as [t|].
    + tb H. injection H as <-. op E. apply all_put; auto. eapply unify_P; eauto.
    + eapply unify_loc_P; eauto.
  - eapply unify_poly_P; eauto.
  - destruct (get_or_insert e SArith X) as (se & X1) eqn:E1, (get_or_insert a SArith X1) as (sa & X2) eqn:E2, (get_or_insert b SArith X2) as (sb & X3) eqn:E3.
    apply goi_P in E1 as [P1 A1]; auto. apply goi_P in E2 as [P2 A2]; auto. apply goi_P in E3 as [P3 A3]; auto. tb H. tb H. op E. op E0. injection H as <-.
    assert (P r0) by (eapply unify_P; [exact E0| |exact P1]; eapply unify_P; eauto). repeat apply all_put; auto.
  - tb H. loc. destruct (get_or_insert a SAny r) as (sa & X2) eqn:E2, (get_or_insert b SAny X2) as (sb & X3) eqn:E3.
    apply goi_P in E2 as [P2 A2]; auto. apply goi_P in E3 as [P3 A3]; auto. tb H. op E0. injection H as <-. assert (P r0) by (eapply unify_P; eauto). repeat apply all_put; auto.
  - tb H. tb H. loc. loc. loc. exact H.
  - eapply unify_compare_P; eauto.
  - destruct (get_or_insert e SArith X) as (se & X1) eqn:E1, (get_or_insert a SArith X1) as (sa & X2) eqn:E2.
    apply goi_P in E1 as [P1 A1]; auto. apply goi_P in E2 as [P2 A2]; auto. tb H. op E. injection H as <-. assert (P r) by (eapply unify_P; eauto). repeat apply all_put; auto.
  - tb H. loc. loc. exact H.
  - tb H. loc. destruct (get_or_insert e SAny r) as (se & X1) eqn:E1, (get_or_insert a SAny X1) as (sa & X2) eqn:E2, (get_or_insert b SAny X2) as (sb & X3) eqn:E3.
    apply goi_P in E1 as [P1 A1]; auto. apply goi_P in E2 as [P2 A2]; auto. apply goi_P in E3 as [P3 A3]; auto. tb H. tb H. op E0. op E1. injection H as <-.
    assert (P r1) by (eapply unify_P; [exact E1| |exact P3]; eapply unify_P; eauto). repeat apply all_put; auto.
  - tb H. loc. loc. exact H.
  - destruct (t_fun T f) as [ft|] eqn:E; [|discriminate]. eapply unify_call_P; eauto.
  - destruct (t_agg T g) as [ft|] eqn:E; [|discriminate]. eapply unify_agg_P; eauto.
  - tb H. loc. destruct (get R p) as [[|t ts]|] eqn:G; try discriminate. destruct (Nat.eqb _ _); [|discriminate]. apply RP in G. inversion G; subst. eapply unify_entity_P; eauto.
Qed.
Lemma types_at_P X es : all_sets X -> Forall P (types_at X es).
Proof. intros A. apply Forall_forall. intros s I. apply types_at_In in I. destruct I as (e & _ & G). exact (A _ _ G). Qed.
Lemma unify_sets_P l c : Forall P l -> unify_type_sets l = Some c -> P c.
Proof.
  assert (G : forall l, Forall P l -> forall a, P a -> unify_from a l = Some c -> P c).
  { induction 1 as [|b l' B F IH]; intros a PA' H; cbn in H; [injection H as <-; exact PA'|]. destruct (ts_unify a b) as [d|] eqn:E; [|discriminate]. apply (IH d); auto. eapply unify_P; eauto. }
  intros F. destruct l as [|a l]; [discriminate|]. cbn [unify_type_sets]. apply (G (a :: l) F). inversion F; auto.
Qed.
Lemma propagate_vars_P vs X X' : propagate_vars vs X = TOk X' -> all_sets X -> all_sets X'.
Proof.
  unfold propagate_vars. intros H A. tb H. injection H as <-. apply tmap_Forall2 in E.
  assert (F : Forall (fun x => P (snd x)) r).
  { apply Forall_forall. intros (es & s) I. destruct (Forall2_In_r _ _ _ _ E I) as ((v & es') & _ & K). unfold var_type in K. cbn [fst snd] in K.
    pose proof (types_at_P X es' A) as TP. destruct (types_at X es') as [|s0 l]; [discriminate|]. tb K. op E0. injection K as <- <-. cbn. eapply unify_sets_P; eauto. }
  clear E. revert X A. induction F as [|(es & s) l PS F IH]; intros X A; cbn [fold_left]; auto. apply IH. apply all_put_all; auto.
Qed.
Lemma set_nth_P i s ts : Forall P ts -> P s -> Forall P (set_nth i s ts).
Proof. intros F S. revert i. induction F as [|t ts T F IH]; intros [|i]; cbn; constructor; auto. Qed.
Lemma propagate_rel_P X x R R' : propagate_rel X x R = TOk R' -> all_sets X -> rels_P R -> rels_P R'.
Proof.
  unfold propagate_rel. intros H A RP. pose proof (types_at_P X (snd x) A) as TP. destruct (types_at X (snd x)) as [|s0 l] eqn:ET; [injection H as <-; exact RP|].
  tb H. op E. destruct (get R (fst (fst x))) as [ts|] eqn:G; [|injection H as <-; exact RP]. destruct (_ <? _); [|discriminate]. injection H as <-.
  intros p us. rewrite get_put. destruct (Nat.eqb p _); [|apply RP]. intros K. injection K as <-. apply set_nth_P; [exact (RP _ _ G)|]. eapply unify_sets_P; eauto.
Qed.
Definition state_P (s : state) : Prop := all_sets (fst s) /\ rels_P (snd s).
Lemma ctx_step_P T strict re c s s' : env_P T -> (forall u, In u (cx_unifs c) -> unif_P u) -> ctx_step T strict re c s = TOk s' -> state_P s -> state_P s'.
Proof.
  destruct s as (X & R), s' as (X' & R'). intros TP UP H [A RP]. apply ctx_step_parts in H. destruct H as (Y & HU & HV & HR). cbn [fst snd] in *.
  assert (AY : all_sets Y). { eapply tfold_P; [|exact HU|exact A]. intros u U V I K. eapply unify_all; eauto. }
  assert (AX : all_sets X') by (eapply propagate_vars_P; eauto). split; cbn; [exact AX|].
  clear HU HV. revert R RP HR. induction re as [|x re IH]; intros R RP HR; cbn in HR; [injection HR as <-; exact RP|]. tb HR. eapply IH; [|exact HR]. eapply propagate_rel_P; eauto.
Qed.
Lemma round_P T strict re cs : env_P T -> (forall u, In u (flat_map cx_unifs cs) -> unif_P u) -> forall s s', tfold (ctx_step T strict re) cs s = TOk s' -> state_P s -> state_P s'.
Proof.
  intros TP. induction cs as [|c cs IH]; intros UP s s' H A; cbn in H; [injection H as <-; exact A|]. tb H.
  apply (IH (fun u I => UP u (proj2 (in_app_iff _ _ _) (or_intror I))) _ _ H). eapply ctx_step_P; eauto. intros u I. apply UP. cbn. apply in_app_iff. auto.
Qed.
End Stored.

(** ** Heights *)
Definition oheight (s : option tset) : nat := match s with Some s => height s | None => 6 end.
Lemma ole_oheight a b : ole a b -> oheight a <= oheight b.
Proof.
  destruct b as [b|], a as [a|]; cbn; intros H; auto; try contradiction; [apply sle_height_le, H|]. destruct a; cbn; lia.
Qed.
Lemma ole_oheight_lt a b : ole a b -> a <> b -> oheight a < oheight b.
Proof.
  destruct b as [b|], a as [a|]; cbn; intros H N; try contradiction; try congruence; [apply sle_height; congruence|]. destruct a; cbn; lia.
Qed.
Definition mass (U : list loc) (X : exprs) : nat := list_sum (map (fun e => oheight (get X e)) U).
Lemma mass_le U X X' : (forall e, ole (get X' e) (get X e)) -> mass U X' <= mass U X.
Proof. intros H. unfold mass. induction U as [|e U IH]; cbn [map list_sum fold_right]; [lia|]. pose proof (ole_oheight _ _ (H e)). unfold list_sum in *. cbn [fold_right]. lia. Qed.
Lemma mass_lt U X X' e : (forall e, ole (get X' e) (get X e)) -> In e U -> get X' e <> get X e -> mass U X' < mass U X.
Proof.
  intros H I N. unfold mass. induction U as [|a U IH]; [destruct I|]. unfold list_sum in *. cbn [map fold_right].
  pose proof (mass_le U X X' H) as L. unfold mass, list_sum in L. pose proof (ole_oheight _ _ (H a)). destruct I as [->|I]; [pose proof (ole_oheight_lt _ _ (H e) N); lia|specialize (IH I); lia].
Qed.
Lemma mass_max U X : mass U X <= 6 * length U.
Proof.
  unfold mass, list_sum. induction U as [|e U IH]; cbn [map fold_right length]; [lia|]. assert (oheight (get X e) <= 6) by (destruct (get X e) as [[]|]; cbn; lia). lia.
Qed.

(** ** The unsigned integers *)
(** The only set that the comparison of sets does not recognize ([ts_eq]). *)
Definition known_set (s : tset) : Prop := s <> SUnsigned.
Lemma ts_eq_refl s : known_set s -> ts_eq s s = true.
Proof. unfold known_set. destruct s; intros N; cbn; try reflexivity; [apply vt_eqb_eq; reflexivity|congruence]. Qed.
Lemma exprs_differ X X' : all_sets known_set X -> all_sets known_set X' -> exprs_eq X X' = false -> exists e, get X' e <> get X e.
Proof.
  intros A B H. unfold exprs_eq in H. assert (K : exists e, opt_eq (get X e) (get X' e) = false).
  { revert H. generalize (seq 0 (Nat.max (length X) (length X'))). induction l as [|e l IH]; cbn; [discriminate|]. destruct (opt_eq (get X e) (get X' e)) eqn:E; eauto. }
  destruct K as (e & K). exists e. intros Q. rewrite Q in K. destruct (get X e) as [s|] eqn:G; cbn in K; [|discriminate]. rewrite ts_eq_refl in K; [discriminate|exact (A _ _ G)].
Qed.

Section Loop.
Context (T : tenv) (cs : list ctx).
Context (FC : functional (tcs (flat_map cx_unifs cs))) (TP : env_P known_set T) (UP : forall u, In u (flat_map cx_unifs cs) -> unif_P known_set u).
Lemma PBk : forall t, known_set (SBase t). Proof. discriminate. Qed.
Lemma PAk : known_set SAny. Proof. discriminate. Qed.
Lemma PRk : known_set SArith. Proof. discriminate. Qed.
Lemma loop_total re n : forall s, fixed (tcs (flat_map cx_unifs cs)) (fst s) -> state_P known_set s -> mass (flat_map clocs cs) (fst s) < n ->
  exists r, forall fuel, n <= fuel -> infer_loop fuel T re cs s = Some r.
Proof.
  induction n as [|n IH]; intros s F SP M; [lia|].
  destruct (tfold (ctx_step T false re) cs s) as [s'| |] eqn:E.
  - pose proof (round_P known_set PBk PAk PRk T false re cs TP UP _ _ E SP) as SP'.
    pose proof (round_dec _ _ _ _ _ _ _ E (incl_refl _) F) as D. pose proof (round_fix _ T false re FC cs _ _ _ E (incl_refl _) (incl_refl _) F) as F'.
    destruct (exprs_eq (fst s) (fst s')) eqn:Q.
    + exists (TOk s'). intros [|fuel] L; [lia|]. cbn. rewrite E, Q. reflexivity.
    + destruct (IH s') as (r & R).
      * intros e t I. apply F'. apply in_app_iff. auto.
      * exact SP'.
      * destruct (exprs_differ _ _ (proj1 SP) (proj1 SP') Q) as (e & NE). assert (L : mass (flat_map clocs cs) (fst s') < mass (flat_map clocs cs) (fst s)); [|lia].
        apply (mass_lt _ _ _ e); auto; [intros x; apply D|]. destruct (D e) as [_ [|]]; [contradiction|assumption].
      * exists r. intros [|fuel] L; [lia|]. cbn. rewrite E, Q. apply R. lia.
  - exists TErr. intros [|fuel] L; [lia|]. cbn. rewrite E. reflexivity.
  - exists TPanic. intros [|fuel] L; [lia|]. cbn. rewrite E. reflexivity.
Qed.
Lemma infer_types_total R : rels_P known_set R -> exists r, forall fuel, 6 * length (flat_map clocs cs) + 2 <= fuel -> infer_types fuel T cs R = Some r.
Proof.
  intros RP. unfold infer_types. set (re' := all_rel_exprs cs).
  assert (K : exists r, forall fuel, 6 * length (flat_map clocs cs) + 2 <= fuel -> infer_loop fuel T re' cs ([], R) = Some r).
  { assert (SP : state_P known_set ([], R)) by (split; [intros e s G; cbn [fst] in G; rewrite get_nil in G; discriminate|exact RP]).
    destruct (tfold (ctx_step T false re') cs ([], R)) as [s'| |] eqn:E.
    - pose proof (round_P known_set PBk PAk PRk T false re' cs TP UP _ _ E SP) as SP'.
      assert (F' : fixed (tcs (flat_map cx_unifs cs)) (fst s')) by (refine (round_fix _ T false re' FC cs [] _ _ E (incl_refl _) _ _); [apply incl_nil_l|intros ? ? []]).
      destruct (exprs_eq (@nil (option tset)) (fst s')) eqn:Q.
      + exists (TOk s'). intros [|fuel] L; [lia|]. cbn [infer_loop fst]. rewrite E, Q. reflexivity.
      + pose proof (mass_max (flat_map clocs cs) (fst s')) as MM. destruct (loop_total re' (6 * length (flat_map clocs cs) + 1) s' F' SP') as (r & H); [lia|].
        exists r. intros [|fuel] L; [lia|]. cbn [infer_loop fst]. rewrite E, Q. apply H. lia.
    - exists TErr. intros [|fuel] L; [lia|]. cbn [infer_loop]. rewrite E. reflexivity.
    - exists TPanic. intros [|fuel] L; [lia|]. cbn [infer_loop]. rewrite E. reflexivity. }
  destruct K as ([s| |] & K); eexists; intros fuel L; rewrite (K fuel L); reflexivity.
Qed.
End Loop.

(** ** Programs *)
Lemma yform_nested' (P : yform -> Prop) :
  (forall p args, P (YAtom p args)) -> (forall p args, P (YNegAtom p args)) -> (forall e, P (YCons e)) ->
  (forall l, (forall f, In f l -> P f) -> P (YConj l)) -> (forall l, (forall f, In f l -> P f) -> P (YDisj l)) ->
  (forall a b, P a -> P b -> P (YImp a b)) -> (forall r b g, P b -> (forall f, g = Some f -> P f) -> P (YReduce r b g)) -> forall f, P f.
Proof.
  intros H1 H2 H3 H4 H5 H6 H7. fix IH 1. intros [p args|p args|e|l|l|a b|r b g].
  - apply H1.
  - apply H2.
  - apply H3.
  - apply H4. induction l as [|x l IHl]; [intros f []|]. intros f [<-|I]; [apply IH|exact (IHl f I)].
  - apply H5. induction l as [|x l IHl]; [intros f []|]. intros f [<-|I]; [apply IH|exact (IHl f I)].
  - apply H6; apply IH.
  - apply H7; [apply IH|]. intros f E. destruct g as [g|]; [|discriminate]. injection E as <-. apply IH.
Qed.
(** The constants with a declared type are nodes. *)
Definition const_at (nodes : list (loc * yexpr)) (u : unif) : Prop :=
  match u with
  | UConst e s d => (exists c, s = from_constant c) /\ (d <> None -> exists c, In (e, YConst e c d) nodes)
  | _ => True
  end.
Lemma const_at_incl a b u : incl a b -> const_at a u -> const_at b u.
Proof. intros I. destruct u; cbn; auto. intros (C & H). split; [exact C|]. intros N. destruct (H N) as (c & J). eauto. Qed.
Lemma comes_const nodes u : comes nodes u -> const_at nodes u.
Proof.
  intros C. destruct u; cbn; auto. assert (Q : exists c, s = from_constant c /\ In (e, YConst e c decl) nodes); [|destruct Q as (c & -> & J); split; eauto].
  destruct C as [n A B|a p i A B]; [|discriminate]. destruct n; cbn in B; try contradiction; destruct B as [B|[]]; try discriminate; try (destruct op; discriminate).
  injection B as <- <- <-. exists c. auto.
Qed.
Lemma const_form f u : In u (walk_form f) -> const_at (fnodes f) u.
Proof.
  revert f. apply (yform_nested' (fun f => In u (walk_form f) -> const_at (fnodes f) u)); cbn [walk_form fnodes].
  - intros p args J. apply comes_const. apply atom_comes in J. exact J.
  - intros p args J. apply comes_const. apply atom_comes in J. exact J.
  - intros e J. apply comes_const. apply walk_node in J. destruct J as (n & A & B). eapply comes_node; eauto.
  - intros l IH J. apply in_flat_map in J. destruct J as (f & I & J). eapply const_at_incl; [|exact (IH f I J)]. intros x K. apply in_flat_map. eauto.
  - intros l IH J. apply in_flat_map in J. destruct J as (f & I & J). eapply const_at_incl; [|exact (IH f I J)]. intros x K. apply in_flat_map. eauto.
  - intros a b IHa IHb J. apply in_app_iff in J. destruct J as [J|J]; [apply IHa in J|apply IHb in J]; (eapply const_at_incl; [|exact J]); intros x K; apply in_app_iff; auto.
  - intros r b g IHb IHg J. apply in_app_iff in J. destruct J as [J|J].
    + unfold walk_reduce in J. destruct J as [<-|J]; [exact Logic.I|]. rewrite !in_app_iff in J. destruct J as [J|[J|[J|J]]].
      * apply in_flat_map in J. destruct J as ((e & [v|]) & _ & J); cbn in J; [destruct J as [<-|[]]; exact Logic.I|destruct J].
      * apply in_map_iff in J. destruct J as ((e & c) & <- & _). split; [eexists; reflexivity|congruence].
      * apply in_map_iff in J. destruct J as ((x & (e & c)) & <- & _). split; [eexists; reflexivity|congruence].
      * apply in_map_iff in J. destruct J as ((e & v) & <- & _). exact Logic.I.
    + apply in_app_iff in J. destruct J as [J|J]; [apply IHb in J; eapply const_at_incl; [|exact J]; intros x K; apply in_app_iff; auto|].
      destruct g as [g|]; [|destruct J]. apply (IHg g eq_refl) in J. eapply const_at_incl; [|exact J]. intros x K. apply in_app_iff; auto.
Qed.
Lemma const_rule r u : In u (cx_unifs (ctx_of_rule r)) -> const_at (rnodes r) u.
Proof.
  cbn [ctx_of_rule cx_unifs]. unfold rnodes. intros J. apply in_app_iff in J. destruct J as [J|J].
  - apply in_flat_map in J. destruct J as (a & I & J). apply atom_comes, comes_const in J. eapply const_at_incl; [|exact J].
    intros x K. apply in_app_iff. left. apply in_flat_map. exists a. auto.
  - eapply const_at_incl; [|exact (const_form _ _ J)]. intros x K. apply in_app_iff. auto.
Qed.
Lemma from_constant_known c : known_set (from_constant c).
Proof. unfold known_set. destruct c; cbn; try discriminate. destruct (z <? 0)%Z; discriminate. Qed.
Lemma resolve_known c : known_set (resolve_constant c).
Proof. unfold resolve_constant. destruct (snd c); [discriminate|apply from_constant_known]. Qed.
Lemma zip_known a : forall b c, Forall known_set a -> Forall known_set b -> unify_zip a b = Some c -> Forall known_set c.
Proof.
  induction a as [|s a IH]; intros [|t b] c A B H; cbn in H; try (injection H as <-; constructor). destruct (ts_unify s t) as [n|] eqn:E; [|discriminate].
  destruct (unify_zip a b) as [l|] eqn:E'; [|discriminate]. injection H as <-. inversion A; inversion B; subst. constructor; [eapply unify_P; eauto|eapply IH; eauto].
Qed.
Lemma resolves_known cs : Forall known_set (map resolve_constant cs).
Proof. apply Forall_forall. intros s I. apply in_map_iff in I. destruct I as (c & <- & _). apply resolve_known. Qed.
Lemma put_rels R p ts : rels_P known_set R -> Forall known_set ts -> rels_P known_set (put R p ts).
Proof. intros H F q us. rewrite get_put. destruct (Nat.eqb q p); [intros K; injection K as <-; exact F|apply H]. Qed.
Lemma repeat_known n : Forall known_set (repeat SAny n).
Proof. induction n; cbn; constructor; [discriminate|auto]. Qed.
Lemma visit_known T i P P' : visit T i P = TOk P' -> rels_P known_set (tp_rels P) -> rels_P known_set (tp_rels P').
Proof.
  destruct i as [p ts|p cs|p tuples|r]; cbn [visit]; intros H R.
  - destruct (is_foreign T p || memn p (tp_decls P)); [discriminate|]. apply tbind_ok in H. destruct H as (sets & E & H). injection H as <-. cbn [tp_rels]. apply put_rels; auto.
    assert (N : Forall known_set (map SBase ts)) by (apply Forall_forall; intros s I; apply in_map_iff in I; destruct I as (c & <- & _); discriminate).
    destruct (get (tp_rels P) p) as [old|] eqn:G; [|injection E as <-; exact N]. apply of_opt_ok in E. eapply zip_known; [exact (R _ _ G)|exact N|exact E].
  - destruct (is_foreign T p); [discriminate|]. apply tbind_ok in H. destruct H as (sets & E & H). injection H as <-. cbn [tp_rels]. apply put_rels; auto.
    destruct (get (tp_rels P) p) as [old|] eqn:G; [|injection E as <-; apply resolves_known]. destruct (Nat.eqb _ _); [|discriminate]. apply of_opt_ok in E. eapply zip_known; [exact (R _ _ G)|apply resolves_known|exact E].
  - destruct (is_foreign T p); [discriminate|]. destruct tuples as [|t tuples]; [injection H as <-; exact R|]. destruct (forallb _ _); [|discriminate]. apply tbind_ok in H. destruct H as (sets & E & H). injection H as <-. cbn [tp_rels]. apply put_rels; auto.
    assert (O : Forall known_set (match get (tp_rels P) p with Some s => s | None => repeat SAny (length t) end)) by (destruct (get (tp_rels P) p) as [old|] eqn:G; [exact (R _ _ G)|apply repeat_known]).
    revert O E. generalize (match get (tp_rels P) p with Some s => s | None => repeat SAny (length t) end). generalize (t :: tuples). induction l as [|u l IH]; intros old O E; cbn [tfold] in E; [injection E as <-; exact O|].
    apply tbind_ok in E. destruct E as (o1 & E1 & E). apply (IH o1); [|exact E]. unfold unify_tuple in E1. destruct (Nat.eqb _ _); [|discriminate]. apply of_opt_ok in E1. eapply zip_known; [exact O|apply resolves_known|exact E1].
  - destruct (existsb _ _); [discriminate|]. apply tbind_ok in H. destruct H as (R' & E & H). injection H as <-. cbn [tp_rels]. revert R E. generalize (cx_arities (ctx_of_rule r)) (tp_rels P). clear P.
    induction l as [|a l IH]; intros R0 RP E; cbn [tfold] in E; [injection E as <-; exact RP|]. apply tbind_ok in E. destruct E as (R1 & E1 & E). apply (IH R1); [|exact E].
    unfold unify_arity in E1. destruct (is_foreign T (fst a)); [injection E1 as <-; exact RP|]. destruct (get R0 (fst a)) as [ts|]; [destruct (Nat.eqb _ _); [|discriminate]; injection E1 as <-; exact RP|].
    injection E1 as <-. apply put_rels; [exact RP|apply repeat_known].
Qed.

Fixpoint unsigned_in (g : gfam) : Prop :=
  match g with
  | GUnitOr g => unsigned_in g
  | GTuple => False
  | GTupleOf l => In (GFam FamUnsigned) l
  | GFam f => f = FamUnsigned
  end.
(** No parameter of a function or aggregate ranges over the unsigned integers. *)
Definition no_unsigned (T : tenv) : Prop :=
  (forall f ft, t_fun T f = Some ft ->
     ~ In SUnsigned (fn_generics ft) /\ ~ In (ASet SUnsigned) (fn_static ft ++ fn_optional ft) /\ fn_variable ft <> Some (ASet SUnsigned)) /\
  (forall g a, t_agg T g = Some a -> forall x f, In (x, f) (ag_generics a) -> ~ unsigned_in f).
Lemma no_unsigned_env T : no_unsigned T -> env_P known_set T.
Proof.
  intros [F A]. assert (AR : forall t, t <> ASet SUnsigned -> argty_P known_set t) by (intros [g|s] N; cbn; [exact Logic.I|intros ->; congruence]). split.
  - intros f ft E. destruct (F _ _ E) as (G & S & V). repeat split.
    + apply Forall_forall. intros s I ->. contradiction.
    + apply Forall_forall. intros t I. apply AR. intros ->. apply S, in_app_iff. auto.
    + apply Forall_forall. intros t I. apply AR. intros ->. apply S, in_app_iff. auto.
    + intros t E'. apply AR. congruence.
  - intros g a E x f I. apply assoc_In in I. pose proof (A _ _ E _ _ I) as N. clear - N.
    assert (OF : forall f s, of_family f = Some s -> f <> FamUnsigned -> known_set s) by (intros [] s H M; cbn in H; try discriminate; injection H as <-; unfold known_set; congruence).
    induction f as [f IH| |l|f]; cbn in *; auto.
    + intros g s f J K O. eapply OF; [exact O|]. intros ->. destruct g; try discriminate. cbn in K. injection K as ->. contradiction.
    + intros s O. eapply OF; eauto.
Qed.
(** Type inference comes to an end. *)
Theorem C68_terminates_partial : forall T items, no_unsigned T -> located (prog_rules items) ->
  exists n r, forall fuel, n <= fuel -> infer_program fuel T items = Some r.
Proof.
  intros T items NU LOC. unfold infer_program. destruct (tfold (visit T) items (mkTprog [] [] [])) as [P| |] eqn:EV; [|exists 0; eexists; reflexivity|exists 0; eexists; reflexivity].
  destruct (visits_ok _ _ _ _ EV) as (_ & CX & _). cbn [tp_ctxs app] in CX.
  assert (RP : rels_P known_set (tp_rels P)).
  { assert (R0 : rels_P known_set (tp_rels (mkTprog [] [] []))) by (intros p ts; cbn [tp_rels]; rewrite get_nil; discriminate). revert R0 EV. generalize (mkTprog [] [] []). clear CX LOC.
    induction items as [|i items IH]; intros P0 R0 EV; cbn [tfold] in EV; [injection EV as <-; exact R0|]. apply tbind_ok in EV. destruct EV as (P1 & E & EV). eapply IH; [|exact EV]. eapply visit_known; eauto. }
  assert (CM : forall u, In u (flat_map cx_unifs (tp_ctxs P)) -> const_at (flat_map rnodes (prog_rules items)) u).
  { intros u J. rewrite CX in J. apply in_flat_map in J. destruct J as (c & J & K). apply in_map_iff in J. destruct J as (y & <- & J). eapply const_at_incl; [|exact (const_rule _ _ K)].
    intros x I. apply in_flat_map. eauto. }
  destruct (infer_types_total T (tp_ctxs P)) with (R := tp_rels P) as (r & H).
  - intros e t t' J K. apply tcs_In in J, K. destruct J as (a & J), K as (b & K). apply CM in J, K. cbn in J, K. destruct J as (_ & J), K as (_ & K).
    destruct J as (c1 & J); [discriminate|]. destruct K as (c2 & K); [discriminate|]. pose proof (node_unique _ _ _ _ LOC J K) as Q. congruence.
  - apply no_unsigned_env, NU.
  - intros u J. apply CM in J. destruct u; cbn in *; auto. destruct J as ((c & ->) & _). apply from_constant_known.
  - exact RP.
  - eauto.
Qed.
Print Assumptions C68_terminates_partial.
Lemma env0_no_unsigned : no_unsigned env0.
Proof.
  split.
  - intros [|[|f]] ft E; cbn in E; try discriminate; injection E as <-; cbn; intuition discriminate.
  - intros [|g] a E x f I; cbn in E; [|discriminate]. injection E as <-. cbn in I. destruct I as [I|[]]. injection I as <- <-. discriminate.
Qed.
(** More fuel does not change the result. *)
Lemma loop_more T re cs n m r : n <= m -> forall s, infer_loop n T re cs s = Some r -> infer_loop m T re cs s = Some r.
Proof.
  revert m. induction n as [|n IH]; intros [|m] L s H; cbn in H; try discriminate; [lia|]. cbn. destruct (tfold _ cs s) as [s'| |]; auto. destruct (exprs_eq _ _); auto. apply IH; [lia|exact H].
Qed.
Lemma program_more T items n m r : n <= m -> infer_program n T items = Some r -> infer_program m T items = Some r.
Proof.
  intros L. unfold infer_program, infer_types. destruct (tfold (visit T) items _) as [P| |]; auto. destruct (infer_loop n T _ _ _) as [o|] eqn:E; [|discriminate].
  rewrite (loop_more _ _ _ _ _ _ L _ E). auto.
Qed.
Example ex_terminates : exists n r, forall fuel, n <= fuel -> infer_program fuel env0 ex_good = Some (TOk r).
Proof.
  destruct (C68_terminates_partial env0 ex_good env0_no_unsigned) as (n & r & H); [unfold located; vm_compute; nodup|].
  assert (E : exists r0, infer_program 20 env0 ex_good = Some (TOk r0)) by (eexists; vm_compute; reflexivity). destruct E as (r0 & E).
  pose proof (H (n + 20) ltac:(lia)) as K. rewrite (program_more _ _ 20 (n + 20) _ ltac:(lia) E) in K. injection K as <-. exists n, r0. exact H.
Qed.

(** With a function of a parameter that ranges over the unsigned integers, inference goes
    on for ever:
      rel q = {1}
      rel p(x) = q(x) and $f(x) *)
Definition env_u : tenv := mkTenv (fun _ => None) (fun f => if Nat.eqb f 0 then Some (mkFun [] [ASet SUnsigned] [] None (RBase TBool)) else None) (fun _ => None).
Definition ex_u : list titem :=
  [ISet 0 [[(KInt 1, None)]]; IRule (mkYrule [(1, [YVar 0 0])] (YConj [YAtom 0 [YVar 1 0]; YCons (YCall 2 0 [YVar 3 0])]))].
Theorem C68_unsigned_refuted : exists T items, located (prog_rules items) /\ forall fuel, infer_program fuel T items = None.
Proof.
  exists env_u, ex_u. split; [unfold located; vm_compute; nodup|].
  assert (V : exists P, tfold (visit env_u) ex_u (mkTprog [] [] []) = TOk P /\
    exists s2, (exists s1, tfold (ctx_step env_u false (all_rel_exprs (tp_ctxs P))) (tp_ctxs P) ([], tp_rels P) = TOk s1 /\ exprs_eq [] (fst s1) = false /\
        tfold (ctx_step env_u false (all_rel_exprs (tp_ctxs P))) (tp_ctxs P) s1 = TOk s2 /\ exprs_eq (fst s1) (fst s2) = false) /\
      tfold (ctx_step env_u false (all_rel_exprs (tp_ctxs P))) (tp_ctxs P) s2 = TOk s2 /\ exprs_eq (fst s2) (fst s2) = false).
  { eexists. split; [vm_compute; reflexivity|]. eexists. split; [eexists; split; [vm_compute; reflexivity|]; split; [vm_compute; reflexivity|]; split; vm_compute; reflexivity|]. split; vm_compute; reflexivity. }
  destruct V as (P & EV & s2 & (s1 & E1 & Q1 & E2 & Q2) & E3 & Q3). intros fuel. unfold infer_program. rewrite EV. unfold infer_types.
  assert (L3 : forall n, infer_loop n env_u (all_rel_exprs (tp_ctxs P)) (tp_ctxs P) s2 = None) by (induction n as [|n IH]; cbn [infer_loop]; [reflexivity|]; rewrite E3, Q3; exact IH).
  assert (L2 : forall n, infer_loop n env_u (all_rel_exprs (tp_ctxs P)) (tp_ctxs P) s1 = None) by (intros [|n]; cbn [infer_loop]; [reflexivity|]; rewrite E2, Q2; apply L3).
  destruct fuel as [|n]; cbn [infer_loop]; [reflexivity|]. rewrite E1. cbn [fst]. rewrite Q1, L2. reflexivity.
Qed.
Print Assumptions C68_unsigned_refuted.
