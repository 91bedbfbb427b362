(** Lemmas about contexts with aggregations (FrontAgg.v): what they mean and what their
    translation means.  Used by C74. *)
From Coq Require Import List ZArith Bool Arith Lia.
From Verif Require Import Value ListAux Back Eval BackSem Scc Plan PlanSem PlanFacts Front FrontSem FrontFacts PropsFront FlatFacts Bound FrontAgg AggSem.
Import ListNotations.

Section CtxInd.
  Variables (P : actx -> Prop) (Q : jctx -> Prop).
  Hypothesis HP : forall lv op args bs body wh, Forall Q body -> (forall vs w, wh = Some (vs, w) -> Forall Q w) -> P (mkA lv op args bs body wh).
  Hypothesis HQ : forall pos neg aggs, Forall P aggs -> Q (mkJ pos neg aggs).
  Fixpoint actx_ind2 (a : actx) : P a :=
    match a with
    | mkA lv op args bs body wh =>
        let go := fix go (l : list jctx) : Forall Q l := match l with [] => Forall_nil _ | c :: l => Forall_cons _ (jctx_ind2 c) (go l) end in
        HP lv op args bs body wh (go body)
          (match wh return forall vs w, wh = Some (vs, w) -> Forall Q w with
           | None => fun vs w E => match E in _ = y return match y with Some _ => Forall Q w | None => True end with eq_refl => Logic.I end
           | Some (vs0, w0) => fun vs w E =>
               match E in _ = y return match y with Some (_, w1) => Forall Q w1 | None => True end with eq_refl => go w0 end
           end)
    end
  with jctx_ind2 (c : jctx) : Q c :=
    match c with
    | mkJ pos neg aggs => HQ pos neg aggs ((fix go (l : list actx) : Forall P l := match l with [] => Forall_nil _ | a :: l => Forall_cons _ (actx_ind2 a) (go l) end) aggs)
    end.
End CtxInd.

Section AInd.
  Variable P : aform -> Prop.
  Hypothesis H1 : forall p l, P (AAtom p l).
  Hypothesis H2 : forall p l, P (ANeg p l).
  Hypothesis H3 : forall e, P (ACons e).
  Hypothesis H4 : forall l, Forall P l -> P (AConj l).
  Hypothesis H5 : forall l, Forall P l -> P (ADisj l).
  Hypothesis H6 : forall a b, P a -> P b -> P (AImp a b).
  Hypothesis H7 : forall lv op args bs body wh, P body -> (forall vs w, wh = Some (vs, w) -> P w) -> P (ARed lv op args bs body wh).
  Hypothesis H8 : forall id neg op bs body wh, P (AAll id neg op bs body wh).
  Fixpoint aform_ind2 (f : aform) : P f :=
    match f with
    | AAtom p l => H1 p l
    | ANeg p l => H2 p l
    | ACons e => H3 e
    | AConj l => H4 l ((fix go l : Forall P l := match l with [] => Forall_nil _ | e :: l => Forall_cons _ (aform_ind2 e) (go l) end) l)
    | ADisj l => H5 l ((fix go l : Forall P l := match l with [] => Forall_nil _ | e :: l => Forall_cons _ (aform_ind2 e) (go l) end) l)
    | AImp a b => H6 a b (aform_ind2 a) (aform_ind2 b)
    | ARed lv op args bs body wh =>
        H7 lv op args bs body wh (aform_ind2 body)
          (match wh return forall vs w, wh = Some (vs, w) -> P w with
           | None => fun vs w E => match E in _ = y return match y with Some _ => P w | None => True end with eq_refl => Logic.I end
           | Some (vs0, w0) => fun vs w E =>
               match E in _ = y return match y with Some (_, w1) => P w1 | None => True end with eq_refl => aform_ind2 w0 end
           end)
    | AAll id neg op bs body wh => H8 id neg op bs body wh
    end.
End AInd.

(** ** The variables of contexts *)
Fixpoint gvars (wc : nat -> var) (a : actx) : list var :=
  match a with
  | mkA lv _ args bs body wh => map (lvar_of wc) lv ++ args ++ bs ++ flat_map (jvars wc) body ++ match wh with None => [] | Some (vs, w) => vs ++ flat_map (jvars wc) w end
  end
with jvars (wc : nat -> var) (c : jctx) : list var :=
  match c with mkJ pos neg aggs => flat_map form_vars pos ++ flat_map form_vars neg ++ flat_map (gvars wc) aggs end.

Lemma walk_vars : forall e n v l, In (v, l) (lc_vars (fst (walk_expr e n))) -> In v (expr_vars e).
Proof.
  assert (ARGS : forall es, Forall (fun e => forall n v l, In (v, l) (lc_vars (fst (walk_expr e n))) -> In v (expr_vars e)) es ->
    forall n v l, In (v, l) (lc_vars (fst (fst ((fix args (l : list expr) (n : loc) : lctx * list loc * loc :=
           match l with
           | [] => (lc_empty, [], n)
           | e :: l => let '(c, n1) := walk_expr e n in let '(cs, ls, n2) := args l n1 in (lc_app c cs, n :: ls, n2)
           end) es n)))) -> In v (flat_map expr_vars es)).
  { intros es F. induction F as [|e es He F IH]; intros n v l H; [destruct H|].
    destruct (walk_expr e n) as [c n1] eqn:E1.
    specialize (IH n1 v l). match type of IH with context [(?g es n1)] => set (G := g) in * end.
    destruct (G es n1) as [[cs ls] n2] eqn:E2. cbn [fst lc_app lc_vars] in *. cbn [flat_map]. apply in_app_or in H. apply in_or_app. destruct H as [H|H]; [left|right; auto].
    apply (He n v l). rewrite E1. exact H. }
  intros e. induction e using expr_ind2; intros n w l0 Hi; cbn [walk_expr expr_vars] in *.
  - destruct Hi as [Hi|[]]. injection Hi as -> _. left; reflexivity.
  - destruct Hi.
  - destruct Hi.
  - specialize (IHe1 (S n) w l0). destruct (walk_expr e1 (S n)) as [ca n1]. specialize (IHe2 n1 w l0). destruct (walk_expr e2 n1) as [cb n2]. cbn [fst lc_app lc_vars app] in *.
    apply in_app_or in Hi. apply in_or_app. destruct Hi; auto.
  - specialize (IHe (S n) w l0). destruct (walk_expr e (S n)) as [ca n1]. cbn [fst lc_app lc_vars app] in *. auto.
  - specialize (IHe1 (S n) w l0). destruct (walk_expr e1 (S n)) as [ca n1]. specialize (IHe2 n1 w l0). destruct (walk_expr e2 n1) as [cb n2]. specialize (IHe3 n2 w l0). destruct (walk_expr e3 n2) as [cc n3]. cbn [fst lc_app lc_vars app] in *.
    rewrite !in_app_iff in *. tauto.
  - specialize (ARGS l H (S n) w l0). match type of ARGS with context [(?g l (S n))] => set (G := g) in * end.
    destruct (G l (S n)) as [[c ls] n1]. cbn [fst lc_app lc_vars app] in *. auto.
  - specialize (ARGS l H (S n) w l0). match type of ARGS with context [(?g l (S n))] => set (G := g) in * end.
    destruct (G l (S n)) as [[c ls] n1]. cbn [fst lc_app lc_vars app] in *. auto.
Qed.
Lemma walk_args_vars : forall es n v l, In (v, l) (lc_vars (fst (fst (walk_args es n)))) -> In v (flat_map expr_vars es).
Proof.
  induction es as [|e es IH]; intros n v l H; [destruct H|]. cbn [walk_args] in H. pose proof (walk_vars e n v l) as W. destruct (walk_expr e n) as [c n1]. specialize (IH n1 v l).
  destruct (walk_args es n1) as [[cs ls] n2]. cbn [fst lc_app lc_vars flat_map] in *. apply in_app_or in H. apply in_or_app. destruct H; auto.
Qed.
Section BoundVars.
  Variables (foreign : pred -> bool) (nb ar : pred -> nat).
  Lemma walk_formulas_vars : forall fs n v l, In (v, l) (lc_vars (fst (walk_formulas foreign nb ar fs n))) -> In v (flat_map form_vars fs).
  Proof.
    induction fs as [|f fs IH]; intros n v l H; [destruct H|]. cbn [walk_formulas] in H.
    assert (W : In (v, l) (lc_vars (fst (walk_formula foreign nb ar f n))) -> In v (form_vars f)).
    { destruct f as [p es|p es|e| | |]; cbn [walk_formula form_vars]; try (intros []).
      - pose proof (walk_args_vars es n v l) as W. destruct (walk_args es n) as [[c ls] n1]. exact W.
      - pose proof (walk_vars e n v l) as W. destruct (walk_expr e n) as [c n1]. exact W. }
    destruct (walk_formula foreign nb ar f n) as [c n1]. specialize (IH n1 v l). destruct (walk_formulas foreign nb ar fs n1) as [cs n2]. cbn [fst lc_app lc_vars flat_map] in *.
    apply in_app_or in H. apply in_or_app. destruct H; auto.
  Qed.
  Lemma pos_bound_vars : forall pos init vs, pos_bound foreign nb ar pos init [] = Some (Bounded vs) -> forall v, In v vs -> In v init \/ In v (flat_map form_vars pos).
  Proof.
    intros pos init vs H v I. unfold pos_bound, conj_context in H. cbn [c_pos walk_args] in H. pose proof (walk_formulas_vars pos 0 v) as W.
    destruct (walk_formulas foreign nb ar pos 0) as [c1 n1]. cbn [fst] in W.
    match type of H with match ?b with _ => _ end = _ => destruct b as [s|]; [|discriminate H] end.
    match type of H with Some (if ?b then _ else _) = _ => destruct b; [|discriminate H] end. injection H as <-. apply nodup_In in I. apply in_app_or in I. destruct I as [I|I]; [left; exact I|right].
    unfold variables in I. apply nodup_In in I. apply in_map_iff in I. destruct I as ([w l] & <- & I). cbn [fst lc_app lc_vars lc_empty] in I. rewrite app_nil_r in I. exact (W l I).
  Qed.
  Definition kvars (S : var -> Prop) (k : kconj) : Prop := (forall v, In v (flat_map form_vars (fst k)) -> S v) /\ forall vs, snd k = Bounded vs -> forall v, In v vs -> S v.
  Lemma meet_vars : forall l a vs, fold_left meet l a = Bounded vs -> exists us, a = Bounded us /\ incl vs us.
  Proof.
    induction l as [|b l IH]; intros a vs H; cbn [fold_left] in H; [exists vs; split; [exact H|apply incl_refl]|].
    destruct (IH _ _ H) as (us & E & L). destruct a as [x|], b as [y|]; try discriminate E. cbn [meet] in E. injection E as <-. exists x. split; auto. intros v I. apply L in I. apply filter_In in I. apply I.
  Qed.
  Lemma ctx_bound_vars : forall (S : var -> Prop) hv ks, (forall k, In k ks -> kvars S k) -> forall vs, ctx_bound foreign nb ar [] hv ks = Some (Bounded vs) -> forall v, In v vs -> S v.
  Proof.
    intros S hv ks K vs H v I. unfold ctx_bound in H. destruct (answers (map (kconj_bound foreign nb ar []) ks)) as [l|] eqn:E; [|discriminate H]. cbn [obnd] in H.
    match type of H with Some (match ?a with _ => _ end) = _ => destruct a as [us|] eqn:F; [|discriminate H] end.
    match type of H with context [forallb ?f hv] => destruct (forallb f hv); [|discriminate H] end. injection H as <-.
    destruct ks as [|k ks]; cbn in E; [injection E as <-; injection F as <-; destruct I|].
    destruct (kconj_bound foreign nb ar [] k) as [a|] eqn:E1; [|discriminate E]. cbn [obnd] in E. destruct (answers (map (kconj_bound foreign nb ar []) ks)) as [r|]; [|discriminate E]. injection E as <-.
    destruct (meet_vars _ _ _ F) as (ws & -> & L). apply L in I. destruct (K k (or_introl eq_refl)) as [K1 K2].
    unfold kconj_bound in E1. destruct k as [pos [init|]]; cbn [fst snd] in *; [|discriminate E1]. destruct (pos_bound_vars _ _ _ E1 v I) as [J|J]; [eapply K2; eauto|auto].
  Qed.
  Lemma union_vars : forall l a vs, fold_left union l a = Bounded vs -> exists us, a = Bounded us /\ forall v, In v vs -> In v us \/ exists ws, In (Bounded ws) l /\ In v ws.
  Proof.
    induction l as [|b l IH]; intros a vs H; cbn [fold_left] in H; [exists vs; split; [exact H|auto]|].
    destruct (IH _ _ H) as (us & E & L). destruct a as [x|], b as [y|]; try discriminate E. injection E as <-. exists x. split; auto. intros v I. apply L in I. destruct I as [I|(ws & J & I)].
    - apply in_app_or in I. destruct I as [I|I]; [auto|]. right. exists y. split; [left; auto|auto].
    - right. exists ws. split; [right; auto|auto].
  Qed.
  Lemma kjoin_vars : forall S l, (forall k, In k l -> kvars S k) -> kvars S (kjoin l).
  Proof.
    intros S l K. split; unfold kjoin; cbn [fst snd].
    - intros v I. apply in_flat_map in I. destruct I as (f & I & J). apply in_flat_map in I. destruct I as (k & Ik & I). apply (proj1 (K k Ik)). apply in_flat_map. eauto.
    - intros vs E v I. destruct (union_vars _ _ _ E) as (us & Q & L). injection Q as <-. destruct (L v I) as [[]|(ws & J & J')]. apply in_map_iff in J. destruct J as (k & Ek & Ik). eapply (proj2 (K k Ik)); eauto.
  Qed.
  Lemma known_eq : forall l, (fix known (l : list jctx) : option (list kconj) :=
          match l with
          | [] => Some []
          | c :: l => obnd (conj_known foreign nb ar [] c) (fun k => obnd (known l) (fun l => Some (k :: l)))
          end) l = conjs_known foreign nb ar [] l.
  Proof. induction l as [|c l IH]; [reflexivity|]. unfold conjs_known in *. cbn [map oall]. rewrite IH. destruct (conj_known foreign nb ar [] c); reflexivity. Qed.
  Fixpoint aggs_known (l : list actx) : option answer :=
    match l with
    | [] => Some (Bounded [])
    | a :: l => obnd (agg_bound foreign nb ar [] a) (fun a => obnd (aggs_known l) (fun r => Some (union a r)))
    end.
  Lemma conj_known_eq : forall pos neg aggs, conj_known foreign nb ar [] (mkJ pos neg aggs) = obnd (aggs_known aggs) (fun a => Some (pos, a)).
  Proof. reflexivity. Qed.
  Lemma known_vars : forall wc, (forall a vs, agg_bound foreign nb ar [] a = Some (Bounded vs) -> forall v, In v vs -> In v (gvars wc a)) /\
    (forall c k, conj_known foreign nb ar [] c = Some k -> kvars (fun v => In v (jvars wc c)) k).
  Proof.
    intros wc. set (P := fun a => forall vs, agg_bound foreign nb ar [] a = Some (Bounded vs) -> forall v, In v vs -> In v (gvars wc a)).
    set (Q := fun c => forall k, conj_known foreign nb ar [] c = Some k -> kvars (fun v => In v (jvars wc c)) k).
    assert (KS : forall l, Forall Q l -> forall ks, conjs_known foreign nb ar [] l = Some ks -> forall k, In k ks -> kvars (fun v => In v (flat_map (jvars wc) l)) k).
    { intros l F ks E. unfold conjs_known in E. apply oall_map in E. intros k I. destruct (F2_in_r _ E I) as (c & Ic & Ec). rewrite Forall_forall in F. destruct (F c Ic k Ec) as [A1 A2].
      split; intros; apply in_flat_map; exists c; split; eauto. }
    assert (HP : forall lv op args bs body wh, Forall Q body -> (forall vs w, wh = Some (vs, w) -> Forall Q w) -> P (mkA lv op args bs body wh)).
    { intros lv op args bs body wh FB FW vs H v I. cbn [agg_bound] in H. rewrite known_eq in H. destruct (conjs_known foreign nb ar [] body) as [kb|] eqn:EB; [|discriminate H]. cbn [obnd] in H.
      set (T := flat_map (jvars wc) body ++ match wh with None => [] | Some (vs, w) => vs ++ flat_map (jvars wc) w end).
      assert (KB : forall k, In k kb -> kvars (fun v => In v T) k).
      { intros k J. destruct (KS body FB kb EB k J) as [A1 A2]. split; intros; apply in_or_app; left; eauto. }
      assert (G : exists kw, known_bound foreign nb ar [] lv args bs kb kw = Some (Bounded vs) /\ forall us g, kw = Some (us, g) -> forall k, In k g -> kvars (fun v => In v T) k).
      { destruct wh as [[us w]|]; [|exists None; split; [exact H|discriminate]]. rewrite known_eq in H. destruct (conjs_known foreign nb ar [] w) as [kw|] eqn:EW; [|discriminate H]. cbn [obnd] in H.
        exists (Some (us, kw)). split; [exact H|]. intros us' g E. injection E as <- <-. intros k J. destruct (KS w (FW us w eq_refl) kw EW k J) as [A1 A2].
        split; intros; apply in_or_app; right; apply in_or_app; right; eauto. }
      destruct G as (kw & G & KW). clear H. unfold known_bound in G.
      match type of G with obnd ?a _ = _ => destruct a as [w0|]; [|discriminate G] end. cbn [obnd] in G.
      match type of G with obnd ?a _ = _ => destruct a as [j|] eqn:EJ; [|discriminate G] end. cbn [obnd] in G.
      destruct w0; [|discriminate G]. destruct j as [js|]; [|discriminate G]. match type of G with context [forallb ?f args] => destruct (forallb f args); [|discriminate G] end. injection G as <-.
      cbn [gvars]. fold T. rewrite !in_app_iff in *. destruct I as [I|[I|I]].
      - apply filter_In in I. destruct I as [I _]. right. right. right. eapply ctx_bound_vars with (S := fun v => In v T); [|exact EJ|exact I].
        intros k J. destruct kw as [[us g]|]; [|apply KB; exact J]. apply in_map_iff in J. destruct J as (l & <- & J). apply kjoin_vars. apply multi_product_in in J; [|discriminate].
        inversion J as [|x1 y1 l1 r1 X1 X2]; subst. inversion X2 as [|x2 y2 l2 r2 X3 X4]; subst. inversion X4; subst. intros k [<-|[<-|[]]]; [apply KB; auto|eapply KW; eauto].
      - left. unfold lvars in I. apply in_flat_map in I. destruct I as (x & J & I). apply in_map_iff. exists x. split; auto. destruct x; [|destruct I]. destruct I as [<-|[]]. reflexivity.
      - auto. }
    assert (HQ : forall pos neg aggs, Forall P aggs -> Q (mkJ pos neg aggs)).
    { intros pos neg aggs F k E. rewrite conj_known_eq in E. destruct (aggs_known aggs) as [a0|] eqn:EA; [|discriminate E]. cbn [obnd] in E. injection E as <-.
      split; cbn [fst snd jvars]; [intros v I; apply in_or_app; auto|]. intros vs -> v I. apply in_or_app. right. apply in_or_app. right. revert vs EA v I.
      induction F as [|a l Ha F IH]; intros vs EA v I; [injection EA as <-; destruct I|].
      cbn [aggs_known] in EA.
      destruct (agg_bound foreign nb ar [] a) as [x|] eqn:E1; [|cbn [obnd] in EA; discriminate EA]. cbn [obnd] in EA. match type of EA with obnd ?a _ = _ => destruct a as [y|] eqn:E2; [|cbn [obnd] in EA; discriminate EA] end. cbn [obnd] in EA.
      destruct x as [x|], y as [y|]; try discriminate EA. injection EA as <-. cbn [flat_map]. apply in_app_or in I. apply in_or_app. destruct I as [I|I]; [left; eapply Ha; eauto|right; eapply IH; eauto]. }
    split; [apply (actx_ind2 P Q HP HQ)|apply (jctx_ind2 P Q HP HQ)].
  Qed.
  Lemma rctx_vars : forall wc hv cs vs, rctx_bound foreign nb ar [] hv cs = Some (Bounded vs) -> forall v, In v vs -> In v (flat_map (jvars wc) cs).
  Proof.
    intros wc hv cs vs H. unfold rctx_bound in H. destruct (conjs_known foreign nb ar [] cs) as [ks|] eqn:E; [|discriminate H]. cbn [obnd] in H.
    apply (ctx_bound_vars (fun v => In v (flat_map (jvars wc) cs)) hv ks); [|exact H].
    intros k I. unfold conjs_known in E. apply oall_map in E. destruct (F2_in_r _ E I) as (c & Ic & Ec). destruct (proj2 (known_vars wc) c k Ec) as [A1 A2]. split; intros; apply in_flat_map; exists c; split; eauto.
  Qed.
  (** The head variables only decide whether there is an error. *)
  Lemma rctx_bound_hv : forall hv cs vs, rctx_bound foreign nb ar [] hv cs = Some (Bounded vs) -> rctx_bound foreign nb ar [] [] cs = Some (Bounded vs).
  Proof.
    intros hv cs vs H. unfold rctx_bound in *. destruct (conjs_known foreign nb ar [] cs) as [ks|]; [|discriminate H]. cbn [obnd] in *. unfold ctx_bound in *.
    destruct (answers (map (kconj_bound foreign nb ar []) ks)) as [l|]; [|discriminate H]. cbn [obnd] in *.
    match type of H with Some (match ?a with _ => _ end) = _ => destruct a as [us|]; [|discriminate H] end. cbn [forallb]. match type of H with context [forallb ?f hv] => destruct (forallb f hv); [|discriminate H] end. exact H.
  Qed.
End BoundVars.

(** ** The meaning of contexts *)
Definition some_of {T} (P : T -> Prop) (l : list T) : Prop := fold_right (fun c Q => P c \/ Q) False l.
Definition all_of {T} (P : T -> Prop) (l : list T) : Prop := fold_right (fun c Q => P c /\ Q) True l.
Lemma some_of_iff : forall T (P : T -> Prop) l, some_of P l <-> exists c, In c l /\ P c.
Proof.
  intros T P. induction l as [|c l IH]; cbn; [split; [intros []|intros (? & [] & _)]|]. rewrite IH. split.
  - intros [H|(x & I & H)]; eauto.
  - intros (x & [<-|I] & H); eauto.
Qed.
Lemma all_of_iff : forall T (P : T -> Prop) l, all_of P l <-> forall c, In c l -> P c.
Proof.
  intros T P. induction l as [|c l IH]; cbn; [split; [intros _ ? []|auto]|]. rewrite IH. split.
  - intros [H K] x [<-|I]; auto.
  - intros H. split; intros; apply H; auto.
Qed.
Section Ctx.
  Variables (A : aggregator) (B : benv) (g : registry) (M : interp) (foreign : pred -> bool) (nb ar : pred -> nat) (wc : nat -> var).
  Notation cvars := (ctx_vars foreign nb ar).
  Definition cimplicit (hv args bs : list var) (body : list jctx) : list var :=
    filter (fun v => memb v hv && negb (memb v bs) && negb (memb v args)) (cvars body).
  Definition cexplicit (w body : list jctx) : list var := filter (fun v => memb v (cvars body)) (cvars w).
  Fixpoint gsem (hv : list var) (s : subst) (a : actx) {struct a} : Prop :=
    match a with
    | mkA lv op args bs body wh =>
        let inside (G : list var) (t : list value) :=
          exists s', agree G s s' /\ some_of (csem M (bs ++ args) s') body /\ t = map s' (args ++ bs) in
        match wh with
        | None => (cimplicit hv args bs body = [] \/ exists t, inside (cimplicit hv args bs body) t) /\
                  A op (length args) (inside (cimplicit hv args bs body)) (map s (map (lvar_of wc) lv))
        | Some (vs, w) => (exists s', agree (cvars w) s s' /\ some_of (csem M vs s') w) /\
                          A op (length args) (inside (cexplicit w body)) (map s (map (lvar_of wc) lv))
        end
    end
  with csem (X : interp) (hv : list var) (s : subst) (c : jctx) {struct c} : Prop :=
    match c with
    | mkJ pos neg aggs => (forall f, In f (pos ++ neg) -> fholds B g X M s f) /\ all_of (gsem hv s) aggs
    end.
  Fixpoint greg (a : actx) {struct a} : Prop :=
    match a with
    | mkA lv op args bs body wh => all_of (jreg M (bs ++ args)) body /\ match wh with None => True | Some (vs, w) => all_of (jreg M vs) w end
    end
  with jreg (X : interp) (hv : list var) (c : jctx) {struct c} : Prop :=
    match c with
    | mkJ pos neg aggs => (forall s, csem X hv s (mkJ pos neg aggs) -> forall f e, In f (pos ++ neg) -> In e (fexprs f) -> regular (b_env B) s e) /\ all_of greg aggs
    end.
  Fixpoint gok (a : actx) {struct a} : Prop :=
    match a with
    | mkA lv op args bs body wh =>
        all_of jok body /\ match wh with None => True | Some (vs, w) => all_of jok w /\ cexplicit w body <> [] end
    end
  with jok (c : jctx) {struct c} : Prop :=
    match c with
    | mkJ pos neg aggs => forallb neg_wild_free pos = true /\ forallb neg_wild_free neg = true /\ all_of gok aggs
    end.
  Lemma csem_eq : forall X hv s pos neg aggs, csem X hv s (mkJ pos neg aggs) <-> (forall f, In f (pos ++ neg) -> fholds B g X M s f) /\ forall a, In a aggs -> gsem hv s a.
  Proof. intros. rewrite <- (all_of_iff _ (gsem hv s) aggs). reflexivity. Qed.
  Lemma jreg_eq : forall X hv pos neg aggs, jreg X hv (mkJ pos neg aggs) <->
    (forall s, csem X hv s (mkJ pos neg aggs) -> forall f e, In f (pos ++ neg) -> In e (fexprs f) -> regular (b_env B) s e) /\ forall a, In a aggs -> greg a.
  Proof. intros. rewrite <- (all_of_iff _ greg aggs). reflexivity. Qed.
  Lemma jok_eq : forall pos neg aggs, jok (mkJ pos neg aggs) <-> forallb neg_wild_free pos = true /\ forallb neg_wild_free neg = true /\ forall a, In a aggs -> gok a.
  Proof. intros. rewrite <- (all_of_iff _ gok aggs). reflexivity. Qed.
End Ctx.

(** ** The translation *)
Section Lower.
  Variables (A : aggregator) (B : benv) (g : registry) (M : interp) (foreign : pred -> bool) (nb ar : pred -> nat) (fr wc : nat -> var) (nm : path -> pred).
  Notation lower_agg := (lower_agg foreign nb ar fr wc nm).
  Notation lower_conj := (lower_conj foreign nb ar fr wc nm).
  Notation lower_conjs := (lower_conjs foreign nb ar fr wc nm).
  Notation cvars := (ctx_vars foreign nb ar).
  Notation csem := (csem A B g M foreign nb ar wc).
  Notation gsem := (gsem A B g M foreign nb ar wc).
  Notation jreg := (jreg A B g M foreign nb ar wc).
  Notation greg := (greg A B g M foreign nb ar wc).
  Notation jok := (jok foreign nb ar).
  Notation gok := (gok foreign nb ar).
  Definition lower_aggs (pi : path) (ci : nat) (hv : list var) : list actx -> nat -> nat -> option (list lit * list rule * nat) :=
    fix all (l : list actx) (ai n : nat) : option (list lit * list rule * nat) :=
      match l with
      | [] => Some ([], [], n)
      | a :: l =>
          obnd (lower_agg a pi ci ai hv n) (fun x => let '(r, ts, n1) := x in
            obnd (all l (S ai) n1) (fun y => let '(ls, us, n2) := y in Some (LReduce r :: ls, ts ++ us, n2)))
      end.
  Lemma lower_conj_eq : forall pos neg aggs pi ci hv h extra n, lower_conj (mkJ pos neg aggs) pi ci hv h extra n =
    obnd (lower_aggs pi ci hv aggs 0 n) (fun x => let '(reds, ts, n1) := x in
      obnd (flat_lits fr pos n1) (fun x => obnd (flat_lits fr neg (snd x)) (fun y =>
        Some (mkRule h (fst x ++ fst y ++ reds ++ extra), ts, snd y)))).
  Proof. reflexivity. Qed.
  Lemma lower_agg_eq : forall lv op args bs body wh pi ci ai hv n, lower_agg (mkA lv op args bs body wh) pi ci ai hv n =
    obnd (bounded_vars (rctx_bound foreign nb ar [] (bs ++ args) body)) (fun bv =>
      obnd (match wh with
            | None => Some (implicit_vars hv args bs bv, [], None, [], n)
            | Some (vs, w) =>
                obnd (bounded_vars (rctx_bound foreign nb ar [] vs w)) (fun gv =>
                  let j := joined_vars gv bv in
                  let o := other_vars gv bv in
                  let p := (ci, ai, false) :: pi in
                  obnd (lower_conjs [] w p vs (HAtom (var_atom (nm p) (j ++ o))) 0 n) (fun y => let '(rs, us, n1) := y in
                    Some (j, o, Some (var_atom (nm p) (j ++ o)), rs ++ us, n1)))
            end) (fun x => let '(j, o, ga, ts, n1) := x in
        let p := (ci, ai, true) :: pi in
        obnd (lower_conjs [] body p (bs ++ args) (HAtom (var_atom (nm p) (j ++ args ++ bs))) 0 n1) (fun y => let '(rs, us, n2) := y in
          Some (mkReduce op (map (lvar_of wc) lv) j o args bs (var_atom (nm p) (j ++ args ++ bs)) ga, ts ++ rs ++ us, n2)))).
  Proof. reflexivity. Qed.
  Lemma lower_conjs_eq : forall extra c l pi hv h ci n, lower_conjs extra (c :: l) pi hv h ci n =
    obnd (lower_conj c pi ci hv h extra n) (fun x => let '(r, ts, n1) := x in
      obnd (lower_conjs extra l pi hv h (S ci) n1) (fun y => let '(rs, us, n2) := y in Some (r :: rs, ts ++ us, n2))).
  Proof. reflexivity. Qed.
  Lemma lower_aggs_eq : forall pi ci hv a l ai n, lower_aggs pi ci hv (a :: l) ai n =
    obnd (lower_agg a pi ci ai hv n) (fun x => let '(r, ts, n1) := x in
      obnd (lower_aggs pi ci hv l (S ai) n1) (fun y => let '(ls, us, n2) := y in Some (LReduce r :: ls, ts ++ us, n2))).
  Proof. reflexivity. Qed.

  (** *** The names of the temporary relations *)
  Hypothesis nm_inj : forall p q, nm p = nm q -> p = q.
  Definition at_path (p : path) (r : rule) : Prop := exists a, r_head r = HAtom a /\ a_pred a = nm p.
  Definition under (q : path) (r : rule) : Prop := exists y, at_path (y ++ q) r.
  Lemma at_path_fun : forall p q r, at_path p r -> at_path q r -> p = q.
  Proof. intros p q r (a & E1 & E2) (b & F1 & F2). apply nm_inj. congruence. Qed.
  Lemma under_here : forall p r, at_path p r -> under p r.
  Proof. intros p r H. exists []. exact H. Qed.
  Lemma under_sub : forall a q r, under (a :: q) r -> under q r.
  Proof. intros a q r (y & H). exists (y ++ [a]). rewrite <- app_assoc. exact H. Qed.
  Lemma under_sep : forall a b q r, under (a :: q) r -> under (b :: q) r -> a = b.
  Proof.
    intros a b q r (y & H) (z & K). pose proof (at_path_fun _ _ _ H K) as E.
    change (a :: q) with ([a] ++ q) in E. change (b :: q) with ([b] ++ q) in E. rewrite !app_assoc in E. apply app_inv_tail in E. apply app_inj_tail in E. apply E.
  Qed.
  Lemma under_strict : forall a q r, at_path q r -> under (a :: q) r -> False.
  Proof.
    intros a q r H (y & K). pose proof (at_path_fun _ _ _ H K) as E. apply (f_equal (@length _)) in E. rewrite app_length in E. cbn [length] in E. lia.
  Qed.

  Definition head_P (a : actx) : Prop := forall pi ci ai hv n r ts n', lower_agg a pi ci ai hv n = Some (r, ts, n') -> forall t, In t ts -> exists b, under ((ci, ai, b) :: pi) t.
  Definition head_Q (c : jctx) : Prop := forall pi ci hv h extra n r ts n', lower_conj c pi ci hv h extra n = Some (r, ts, n') ->
    r_head r = h /\ forall t, In t ts -> exists ai b, under ((ci, ai, b) :: pi) t.
  Lemma heads_aggs : forall l, Forall head_P l -> forall pi ci hv ai n ls ts n', lower_aggs pi ci hv l ai n = Some (ls, ts, n') ->
    forall t, In t ts -> exists ai' b, ai <= ai' /\ under ((ci, ai', b) :: pi) t.
  Proof.
    intros l F. induction F as [|a l Ha F IH]; intros pi ci hv ai n ls ts n' H t I; [injection H as <- <- <-; destruct I|].
    rewrite lower_aggs_eq in H. destruct (lower_agg a pi ci ai hv n) as [[[r ts1] n1]|] eqn:E1; [|discriminate H]. cbn [obnd] in H.
    destruct (lower_aggs pi ci hv l (S ai) n1) as [[[ls2 us] n2]|] eqn:E2; [|discriminate H]. cbn [obnd] in H. injection H as <- <- <-.
    apply in_app_or in I. destruct I as [I|I].
    - destruct (Ha _ _ _ _ _ _ _ _ E1 t I) as (b & K). exists ai, b. split; auto.
    - destruct (IH _ _ _ _ _ _ _ _ E2 t I) as (ai' & b & L & K). exists ai', b. split; auto. lia.
  Qed.
  Lemma heads_conjs : forall l, Forall head_Q l -> forall extra pi hv h ci n rs ts n', lower_conjs extra l pi hv h ci n = Some (rs, ts, n') ->
    (forall r, In r rs -> r_head r = h) /\ forall t, In t ts -> exists ci' ai b, ci <= ci' /\ under ((ci', ai, b) :: pi) t.
  Proof.
    intros l F extra. induction F as [|c l Hc F IH]; intros pi hv h ci n rs ts n' H; [injection H as <- <- <-; split; intros ? []|].
    rewrite lower_conjs_eq in H. destruct (lower_conj c pi ci hv h extra n) as [[[r ts1] n1]|] eqn:E1; [|discriminate H]. cbn [obnd] in H.
    destruct (lower_conjs extra l pi hv h (S ci) n1) as [[[rs2 us] n2]|] eqn:E2; [|discriminate H]. cbn [obnd] in H. injection H as <- <- <-.
    destruct (Hc _ _ _ _ _ _ _ _ _ E1) as [C1 C2]. destruct (IH _ _ _ _ _ _ _ _ E2) as [D1 D2]. split.
    - intros x [<-|I]; auto.
    - intros t I. apply in_app_or in I. destruct I as [I|I].
      + destruct (C2 t I) as (ai & b & K). exists ci, ai, b. split; auto.
      + destruct (D2 t I) as (ci' & ai & b & L & K). exists ci', ai, b. split; auto. lia.
  Qed.
  (** The parts of the translation of an aggregation. *)
  Lemma lower_agg_inv : forall lv op args bs body wh pi ci ai hv n r ts n', lower_agg (mkA lv op args bs body wh) pi ci ai hv n = Some (r, ts, n') ->
    exists bv j o ga tw n1 rs us, bounded_vars (rctx_bound foreign nb ar [] (bs ++ args) body) = Some bv /\
      lower_conjs [] body ((ci, ai, true) :: pi) (bs ++ args) (HAtom (var_atom (nm ((ci, ai, true) :: pi)) (j ++ args ++ bs))) 0 n1 = Some (rs, us, n') /\
      r = mkReduce op (map (lvar_of wc) lv) j o args bs (var_atom (nm ((ci, ai, true) :: pi)) (j ++ args ++ bs)) ga /\ ts = tw ++ rs ++ us /\
      match wh with
      | None => j = implicit_vars hv args bs bv /\ o = [] /\ ga = None /\ tw = [] /\ n1 = n
      | Some (vs, w) => exists gv ws uw, bounded_vars (rctx_bound foreign nb ar [] vs w) = Some gv /\ j = joined_vars gv bv /\ o = other_vars gv bv /\
          ga = Some (var_atom (nm ((ci, ai, false) :: pi)) (j ++ o)) /\ tw = ws ++ uw /\
          lower_conjs [] w ((ci, ai, false) :: pi) vs (HAtom (var_atom (nm ((ci, ai, false) :: pi)) (j ++ o))) 0 n = Some (ws, uw, n1)
      end.
  Proof.
    intros lv op args bs body wh pi ci ai hv n r ts n' H. rewrite lower_agg_eq in H.
    destruct (bounded_vars (rctx_bound foreign nb ar [] (bs ++ args) body)) as [bv|]; [|discriminate H]. cbn [obnd] in H.
    destruct wh as [[vs w]|].
    - destruct (bounded_vars (rctx_bound foreign nb ar [] vs w)) as [gv|]; [|discriminate H]. cbn [obnd] in H. cbv zeta in H.
      match type of H with context [lower_conjs [] w ?p vs ?h 0 n] => destruct (lower_conjs [] w p vs h 0 n) as [[[ws uw] n1]|] eqn:EW; [|discriminate H] end. cbn [obnd] in H. cbv beta iota zeta in H.
      match type of H with context [lower_conjs [] body ?p (bs ++ args) ?h 0 n1] => destruct (lower_conjs [] body p (bs ++ args) h 0 n1) as [[[rs us] n2]|] eqn:EB; [|discriminate H] end. cbn [obnd] in H.
      injection H as <- <- <-. exists bv, (joined_vars gv bv), (other_vars gv bv). eexists. exists (ws ++ uw), n1, rs, us. split; [reflexivity|]. split; [exact EB|]. split; [reflexivity|]. split; [reflexivity|].
      exists gv, ws, uw. split; [reflexivity|]. split; [reflexivity|]. split; [reflexivity|]. split; [reflexivity|]. split; [reflexivity|]. exact EW.
    - cbn [obnd] in H. cbv beta iota zeta in H.
      match type of H with context [lower_conjs [] body ?p (bs ++ args) ?h 0 n] => destruct (lower_conjs [] body p (bs ++ args) h 0 n) as [[[rs us] n2]|] eqn:EB; [|discriminate H] end. cbn [obnd] in H.
      injection H as <- <- <-. exists bv, (implicit_vars hv args bs bv), [], None, [], n, rs, us. split; [reflexivity|]. split; [exact EB|]. split; [reflexivity|]. split; [reflexivity|]. auto.
  Qed.
  Lemma at_head : forall p vs r, r_head r = HAtom (var_atom (nm p) vs) -> at_path p r.
  Proof. intros p vs r H. eexists. split; [exact H|reflexivity]. Qed.
  Lemma heads_ok : (forall a, head_P a) /\ forall c, head_Q c.
  Proof.
    assert (HP : forall lv op args bs body wh, Forall head_Q body -> (forall vs w, wh = Some (vs, w) -> Forall head_Q w) -> head_P (mkA lv op args bs body wh)).
    { intros lv op args bs body wh FB FW pi ci ai hv n r ts n' H t I. apply lower_agg_inv in H.
      destruct H as (bv & j & o & ga & tw & n1 & rs & us & E1 & EB & _ & -> & W). apply in_app_or in I. destruct I as [I|I].
      - destruct wh as [[vs w]|]; [|destruct W as (_ & _ & _ & -> & _); destruct I]. destruct W as (gv & ws & uw & _ & _ & _ & _ & -> & EW).
        destruct (heads_conjs w (FW vs w eq_refl) _ _ _ _ _ _ _ _ _ EW) as [C1 C2]. exists false. apply in_app_or in I. destruct I as [I|I].
        + apply under_here. eapply at_head. apply C1; auto.
        + destruct (C2 t I) as (ci' & ai' & b & _ & K). eapply under_sub; eauto.
      - destruct (heads_conjs body FB _ _ _ _ _ _ _ _ _ EB) as [C1 C2]. exists true. apply in_app_or in I. destruct I as [I|I].
        + apply under_here. eapply at_head. apply C1; auto.
        + destruct (C2 t I) as (ci' & ai' & b & _ & K). eapply under_sub; eauto. }
    assert (HQ : forall pos neg aggs, Forall head_P aggs -> head_Q (mkJ pos neg aggs)).
    { intros pos neg aggs F pi ci hv h extra n r ts n' H. rewrite lower_conj_eq in H.
      destruct (lower_aggs pi ci hv aggs 0 n) as [[[reds ts1] n1]|] eqn:EA; [|discriminate H]. cbn [obnd] in H.
      destruct (flat_lits fr pos n1) as [x|]; [|discriminate H]. cbn [obnd] in H. destruct (flat_lits fr neg (snd x)) as [y|]; [|discriminate H]. cbn [obnd] in H. injection H as <- <- <-.
      split; [reflexivity|]. intros t I. destruct (heads_aggs aggs F _ _ _ _ _ _ _ _ EA t I) as (ai & b & _ & K). eauto. }
    split; [apply (actx_ind2 _ _ HP HQ)|apply (jctx_ind2 _ _ HP HQ)].
  Qed.
  Lemma all_heads_P : forall l, Forall head_P l.
  Proof. intros l. apply Forall_forall. intros a _. apply heads_ok. Qed.
  Lemma all_heads_Q : forall l, Forall head_Q l.
  Proof. intros l. apply Forall_forall. intros a _. apply heads_ok. Qed.

  (** *** What the rules mean *)
  Hypothesis fr_inj : forall i j, fr i = fr j -> i = j.
  Variable V : var -> Prop.
  Hypothesis fresh : forall v i, V v -> v <> fr i.
  Hypothesis A_ext : extensional A.
  Hypothesis B_agg : forall r X Y s, b_agg B r X Y s <-> agg_meaning A r X Y s.
  (** The rules of the temporary relations. *)
  Variable T : rule -> Prop.
  Hypothesis T_rel : forall p t, M (nm p) t <-> exists r, T r /\ head_consequence B g M M r (nm p) t.
  Hypothesis T_heads : forall r, T r -> exists a, r_head r = HAtom a.

  Definition own (q : path) (ts : list rule) : Prop := forall r, T r -> under q r -> In r ts.
  Definition lowered (X : interp) (hv : list var) (c : jctx) (h : head) (extra : list lit) (n n' : nat) (r : rule) : Prop :=
    exists ls, r = mkRule h (ls ++ extra) /\ n <= n' /\ within fr V n n' (flat_map lit_vars ls) /\
      (forall s, sat B g X M s ls -> csem X hv s c) /\
      (forall s, csem X hv s c -> jreg X hv c -> exists s', ext fr n n' s s' /\ sat B g X M s' ls).
  Definition sem_P (a : actx) : Prop := forall pi ci ai hv n r ts n', lower_agg a pi ci ai hv n = Some (r, ts, n') ->
    (forall x, In x ts -> T x) -> (forall b, own ((ci, ai, b) :: pi) ts) -> gok a -> (forall v, In v (gvars wc a) -> V v) -> greg a ->
    n <= n' /\ (forall v, In v (reduce_free r) -> V v) /\ forall X s, lit_sat B g X M s (LReduce r) <-> gsem hv s a.
  Definition sem_Q (c : jctx) : Prop := forall pi ci hv h extra n r ts n', lower_conj c pi ci hv h extra n = Some (r, ts, n') ->
    (forall x, In x ts -> T x) -> (forall ai b, own ((ci, ai, b) :: pi) ts) -> jok c -> (forall v, In v (jvars wc c) -> V v) -> (forall a, In a (j_aggs c) -> greg a) ->
    forall X, lowered X hv c h extra n n' r.

  Lemma sem_aggs : forall l, Forall sem_P l -> forall pi ci hv ai n ls ts n', lower_aggs pi ci hv l ai n = Some (ls, ts, n') ->
    (forall x, In x ts -> T x) -> (forall ai' b, ai <= ai' -> own ((ci, ai', b) :: pi) ts) -> (forall a, In a l -> gok a) -> (forall v, In v (flat_map (gvars wc) l) -> V v) -> (forall a, In a l -> greg a) ->
    n <= n' /\ (forall v, In v (flat_map lit_vars ls) -> V v) /\ forall X s, sat B g X M s ls <-> forall a, In a l -> gsem hv s a.
  Proof.
    intros l F. induction F as [|a l Ha F IH]; intros pi ci hv ai n ls ts n' H TT O K Hv R.
    - injection H as <- <- <-. split; auto. split; [intros v []|]. intros X s. split; [intros _ a []|intros _ x []].
    - rewrite lower_aggs_eq in H. destruct (lower_agg a pi ci ai hv n) as [[[r ts1] n1]|] eqn:E1; [|discriminate H]. cbn [obnd] in H.
      destruct (lower_aggs pi ci hv l (S ai) n1) as [[[ls2 us] n2]|] eqn:E2; [|discriminate H]. cbn [obnd] in H. injection H as <- <- <-.
      destruct (Ha _ _ _ _ _ _ _ _ E1) as (L1 & V1 & S1).
      + intros x I. apply TT, in_or_app; auto.
      + intros b x Tx U. pose proof (O ai b (le_n _) x Tx U) as I. apply in_app_or in I. destruct I as [I|I]; auto.
        destruct (heads_aggs l (all_heads_P l) _ _ _ _ _ _ _ _ E2 x I) as (ai' & b' & L & U'). pose proof (under_sep _ _ _ _ U U') as E. injection E as E _. lia.
      + apply K; left; auto.
      + intros v I. apply Hv. cbn [flat_map]. apply in_or_app; auto.
      + apply R; left; auto.
      + destruct (IH _ _ _ _ _ _ _ _ E2) as (L2 & V2 & S2).
        * intros x I. apply TT, in_or_app; auto.
        * intros ai' b L x Tx U. pose proof (O ai' b (Nat.le_trans _ _ _ (Nat.le_succ_diag_r _) L) x Tx U) as I. apply in_app_or in I. destruct I as [I|I]; auto.
          destruct (proj1 heads_ok a _ _ _ _ _ _ _ _ E1 x I) as (b' & U'). pose proof (under_sep _ _ _ _ U U') as E. injection E as E _. lia.
        * intros x I. apply K; right; auto.
        * intros v I. apply Hv. cbn [flat_map]. apply in_or_app; auto.
        * intros x I. apply R; right; auto.
        * split; [lia|]. split; [intros v I; cbn [flat_map lit_vars] in I; apply in_app_or in I; destruct I as [I|I]; [apply V1|apply V2]; auto|].
          intros X s. split.
          -- intros H x [<-|I]; [apply (S1 X s), H; left; auto|]. apply (proj1 (S2 X s)); auto. intros y J. apply H. right; auto.
          -- intros H x [<-|I]; [apply S1, H; left; auto|]. apply (proj2 (S2 X s)); auto. intros y J. apply H. right; auto.
  Qed.
  Lemma sem_conjs : forall l, Forall sem_Q l -> forall extra pi hv h ci n rs ts n', lower_conjs extra l pi hv h ci n = Some (rs, ts, n') ->
    (forall x, In x ts -> T x) -> (forall ci' ai b, ci <= ci' -> own ((ci', ai, b) :: pi) ts) -> (forall c, In c l -> jok c) -> (forall v, In v (flat_map (jvars wc) l) -> V v) -> (forall c a, In c l -> In a (j_aggs c) -> greg a) ->
    n <= n' /\ forall X, (forall r, In r rs -> exists c m m', In c l /\ n <= m /\ lowered X hv c h extra m m' r) /\ (forall c, In c l -> exists r m m', In r rs /\ n <= m /\ lowered X hv c h extra m m' r).
  Proof.
    intros l F extra. induction F as [|c l Hc F IH]; intros pi hv h ci n rs ts n' H TT O K Hv R.
    - injection H as <- <- <-. split; auto. intros X. split; intros ? [].
    - rewrite lower_conjs_eq in H. destruct (lower_conj c pi ci hv h extra n) as [[[r ts1] n1]|] eqn:E1; [|discriminate H]. cbn [obnd] in H.
      destruct (lower_conjs extra l pi hv h (S ci) n1) as [[[rs2 us] n2]|] eqn:E2; [|discriminate H]. cbn [obnd] in H. injection H as <- <- <-.
      assert (S1 : forall X, lowered X hv c h extra n n1 r).
      { apply (Hc _ _ _ _ _ _ _ _ _ E1).
        - intros x I. apply TT, in_or_app; auto.
        - intros ai b x Tx U. pose proof (O ci ai b (le_n _) x Tx U) as I. apply in_app_or in I. destruct I as [I|I]; auto.
          destruct (proj2 (heads_conjs l (all_heads_Q l) _ _ _ _ _ _ _ _ _ E2) x I) as (ci' & ai' & b' & L & U'). pose proof (under_sep _ _ _ _ U U') as E. injection E as E _. lia.
        - apply K; left; auto.
        - intros v I. apply Hv. cbn [flat_map]. apply in_or_app; auto.
        - intros a. apply R; left; auto. }
      destruct (IH _ _ _ _ _ _ _ _ E2) as (L2 & S2).
      + intros x I. apply TT, in_or_app; auto.
      + intros ci' ai b L x Tx U. pose proof (O ci' ai b (Nat.le_trans _ _ _ (Nat.le_succ_diag_r _) L) x Tx U) as I. apply in_app_or in I. destruct I as [I|I]; auto.
        destruct (proj2 (proj2 heads_ok c _ _ _ _ _ _ _ _ _ E1) x I) as (ai' & b' & U'). pose proof (under_sep _ _ _ _ U U') as E. injection E as E _. lia.
      + intros x I. apply K; right; auto.
      + intros v I. apply Hv. cbn [flat_map]. apply in_or_app; auto.
      + intros x a I. apply R; right; auto.
      + assert (L1 : n <= n1) by (destruct (S1 M) as (? & _ & L & _); exact L).
        split; [lia|]. intros X. destruct (S2 X) as [A1 A2]. split.
        * intros x [<-|I]; [exists c, n, n1; split; [left; auto|]; split; auto|]. destruct (A1 x I) as (c' & m & m' & I1 & I2 & I3). exists c', m, m'. split; [right; auto|]. split; [lia|auto].
        * intros x [<-|I]; [exists r, n, n1; split; [left; auto|]; split; auto|]. destruct (A2 x I) as (c' & m & m' & I1 & I2 & I3). exists c', m, m'. split; [right; auto|]. split; [lia|auto].
  Qed.
  Lemma tvals_vars : forall s vs, tvals s (map TVar vs) = map s vs.
  Proof. intros s vs. unfold tvals. rewrite map_map. reflexivity. Qed.
  (** A temporary relation has the tuples for which one of its conjunctions holds. *)
  Lemma rel_sem : forall l p vs hv n rs us n' ts, Forall sem_Q l -> lower_conjs [] l p hv (HAtom (var_atom (nm p) vs)) 0 n = Some (rs, us, n') ->
    (forall x, In x (rs ++ us) -> T x) -> own p ts -> (forall r, In r ts -> under p r -> In r (rs ++ us)) ->
    (forall c, In c l -> jok c) -> (forall v, In v (flat_map (jvars wc) l) -> V v) -> (forall v, In v vs -> V v) -> (forall c, In c l -> jreg M hv c) ->
    n <= n' /\ forall t, M (nm p) t <-> exists s, some_of (csem M hv s) l /\ t = map s vs.
  Proof.
    intros l p vs hv n rs us n' ts F H TT O Q K Hv Hvs R.
    destruct (heads_conjs l (all_heads_Q l) _ _ _ _ _ _ _ _ _ H) as [C1 C2].
    destruct (sem_conjs l F _ _ _ _ _ _ _ _ _ H) as (L & S0); auto.
    - intros x I. apply TT, in_or_app; auto.
    - intros ci' ai b _ x Tx U. assert (I : In x (rs ++ us)) by (apply Q; [apply O; auto|]; eapply under_sub; eauto). apply in_app_or in I. destruct I as [I|I]; auto.
      exfalso. apply (under_strict (ci', ai, b) p x); auto. eapply at_head. apply C1; auto.
    - intros c a Ic Ia. destruct c as [pos neg aggs]. exact (proj2 (proj1 (jreg_eq _ _ _ _ _ _ _ _ _ _ _ _ _) (R _ Ic)) a Ia).
    - split; auto. destruct (S0 M) as [A1 A2]. intros t. rewrite T_rel. split.
      + intros (r & Tr & s & a & Sr & Ia & Ep & ->). destruct (T_heads r Tr) as (a1 & Eh). assert (U0 : at_path p r).
        { exists a1. split; auto. rewrite Eh in Ia. destruct Ia as [<-|[]]. auto. }
        assert (U : under p r) by (apply under_here; exact U0). assert (P : under p r -> In r rs).
        { intros _. assert (I : In r (rs ++ us)) by (apply Q; auto). apply in_app_or in I. destruct I as [I|I]; auto. exfalso. destruct (C2 r I) as (ci' & ai & b & _ & U'). exact (under_strict _ _ _ U0 U'). }
        destruct (A1 r (P U)) as (c & m & m' & Ic & _ & ls & -> & _ & _ & S1 & _). cbn [r_body r_head head_atoms] in *. destruct Ia as [<-|[]]. exists s. split.
        * apply some_of_iff. exists c. split; auto. apply S1. rewrite app_nil_r in Sr. exact Sr.
        * cbn [var_atom a_args]. apply tvals_vars.
      + intros (s & H0 & ->). apply some_of_iff in H0. destruct H0 as (c & Ic & Hc). destruct (A2 c Ic) as (r & m & m' & Ir & _ & ls & -> & _ & _ & _ & S2).
        destruct (S2 s Hc (R c Ic)) as (s' & X1 & X2). eexists. split; [apply TT, in_or_app; left; exact Ir|]. exists s'. eexists. split; [|split; [left; reflexivity|split; [reflexivity|]]].
        * cbn [r_body]. rewrite app_nil_r. exact X2.
        * cbn [var_atom a_args]. rewrite tvals_vars. apply map_ext_in. intros v I. symmetry. eapply ext_source; eauto.
  Qed.

  Lemma vinsert_In : forall v w l, In v (vinsert w l) <-> v = w \/ In v l.
  Proof.
    intros v w l. induction l as [|x l IH]; cbn [vinsert]; [cbn; intuition|]. destruct (Nat.eqb_spec w x) as [->|N]; [cbn; intuition|].
    destruct (Nat.ltb w x); cbn [In]; [intuition|]. rewrite IH. cbn [In]. intuition.
  Qed.
  Lemma vset_In : forall v l, In v (vset l) <-> In v l.
  Proof. intros v. induction l as [|x l IH]; cbn; [tauto|]. rewrite vinsert_In, IH. intuition. Qed.
  Lemma vset_nil : forall l, vset l = [] <-> l = [].
  Proof.
    intros l. split; [|intros ->; reflexivity]. destruct l as [|x l]; auto. intros H. exfalso. assert (I : In x (vset (x :: l))) by (apply vset_In; left; auto). rewrite H in I. destruct I.
  Qed.
  Lemma bounded_cvars : forall hv cs vs, bounded_vars (rctx_bound foreign nb ar [] hv cs) = Some vs -> cvars cs = vs /\ forall v, In v vs -> In v (flat_map (jvars wc) cs).
  Proof.
    intros hv cs vs H. unfold bounded_vars in H. destruct (rctx_bound foreign nb ar [] hv cs) as [[us|]|] eqn:E; try discriminate H. injection H as <-.
    split; [|eapply rctx_vars; eauto]. unfold ctx_vars. rewrite (rctx_bound_hv _ _ _ _ _ _ E). reflexivity.
  Qed.
  Lemma agree_map : forall vs (s s' : subst), map s vs = map s' vs <-> agree vs s s'.
  Proof.
    intros vs s s'. split.
    - intros H v I. induction vs as [|w vs IH]; [destruct I|]. cbn in H. injection H as H1 H2. destruct I as [<-|I]; auto.
    - intros H. apply map_ext_in. exact H.
  Qed.
  Lemma app_inj_len : forall X (a b c d : list X), length a = length c -> a ++ b = c ++ d -> a = c /\ b = d.
  Proof.
    intros X a. induction a as [|x a IH]; intros b [|y c] d L E; try discriminate L; [auto|]. cbn in L, E. injection L as L. injection E as -> E. destruct (IH _ _ _ L E) as [-> ->]. auto.
  Qed.
  Lemma sem_ok : (forall a, sem_P a) /\ forall c, sem_Q c.
  Proof.
    assert (HP : forall lv op args bs body wh, Forall sem_Q body -> (forall vs w, wh = Some (vs, w) -> Forall sem_Q w) -> sem_P (mkA lv op args bs body wh)).
    { intros lv op args bs body wh FB FW pi ci ai hv n r ts n' H TT O K Hv R. apply lower_agg_inv in H.
      destruct H as (bv & j & o & ga & tw & n1 & rs & us & E1 & EB & Er & Ets & W). destruct (bounded_cvars _ _ _ E1) as [Ebv Vbv].
      cbn [AggFacts.gok] in K. destruct K as [K1 K2]. rewrite all_of_iff in K1. cbn [AggFacts.greg] in R. destruct R as [R1 R2]. rewrite all_of_iff in R1. cbn [gvars] in Hv.
      assert (Vl : forall v, In v (map (lvar_of wc) lv) -> V v) by (intros; apply Hv; rewrite !in_app_iff; auto).
      assert (Va : forall v, In v args -> V v) by (intros; apply Hv; rewrite !in_app_iff; auto).
      assert (Vs : forall v, In v bs -> V v) by (intros; apply Hv; rewrite !in_app_iff; auto).
      assert (Vb : forall v, In v (flat_map (jvars wc) body) -> V v) by (intros; apply Hv; rewrite !in_app_iff; auto).
      set (p := (ci, ai, true) :: pi) in *. set (p' := (ci, ai, false) :: pi) in *.
      assert (SEP : forall x, under p x -> under p' x -> False). { intros x U U'. pose proof (under_sep _ _ _ _ U U') as E. discriminate E. }
      destruct (heads_conjs body (all_heads_Q body) _ _ _ _ _ _ _ _ _ EB) as [CB1 CB2].
      assert (UB : forall x, In x (rs ++ us) -> under p x).
      { intros x I. apply in_app_or in I. destruct I as [I|I]; [apply under_here; eapply at_head; apply CB1; auto|]. destruct (CB2 x I) as (? & ? & ? & _ & U). eapply under_sub; eauto. }
      assert (UW : forall x, In x tw -> under p' x).
      { intros x I. destruct wh as [[vs w]|]; [|destruct W as (_ & _ & _ & -> & _); destruct I]. destruct W as (gv & ws & uw & _ & _ & _ & _ & -> & EW).
        destruct (heads_conjs w (all_heads_Q w) _ _ _ _ _ _ _ _ _ EW) as [C1 C2]. apply in_app_or in I. destruct I as [I|I]; [apply under_here; eapply at_head; apply C1; auto|].
        destruct (C2 x I) as (? & ? & ? & _ & U). eapply under_sub; eauto. }
      assert (Vj : forall v, In v j -> V v).
      { intros v I. destruct wh as [[vs w]|].
        - destruct W as (gv & ws & uw & _ & -> & _). unfold joined_vars, other_vars, implicit_vars in I; rewrite vset_In in I; apply filter_In in I. destruct I as [_ I]. apply existsb_exists in I; destruct I as (z & Iz & Ez); apply Nat.eqb_eq in Ez; subst z; auto.
        - destruct W as (-> & _). unfold joined_vars, other_vars, implicit_vars in I; rewrite vset_In in I; apply filter_In in I. destruct I as [I _]. auto. }
      destruct (rel_sem body p (j ++ args ++ bs) (bs ++ args) n1 rs us n' ts FB EB) as (LB & BODY); auto.
      { intros x I. apply TT. rewrite Ets. apply in_or_app. auto. }
      { apply O. }
      { intros x I U. rewrite Ets in I. apply in_app_or in I. destruct I as [I|I]; auto. exfalso. eauto. }
      { intros v I. rewrite !in_app_iff in I. destruct I as [I|[I|I]]; auto. }
      assert (INS : forall s G t, (forall v, In v j <-> In v G) -> (M (nm p) (map s j ++ t) <-> exists s', agree G s s' /\ some_of (csem M (bs ++ args) s') body /\ t = map s' (args ++ bs))).
      { intros s G t EG. rewrite BODY. split.
        - intros (s' & H & E). rewrite (map_app s' j (args ++ bs)) in E. apply app_inj_len in E; [|rewrite !map_length; reflexivity]. destruct E as [E ->]. exists s'. split; auto. intros v I. apply agree_map in E. apply E. apply EG; auto.
        - intros (s' & H1 & H2 & ->). exists s'. split; auto. rewrite (map_app s' j (args ++ bs)). f_equal. apply agree_map. intros v I. apply H1. apply EG; auto. }
      assert (AGG : forall s G, (forall v, In v j <-> In v G) ->
        (A op (length args) (fun t => M (nm p) (map s j ++ t)) (map s (map (lvar_of wc) lv)) <->
         A op (length args) (fun t => exists s', agree G s s' /\ some_of (csem M (bs ++ args) s') body /\ t = map s' (args ++ bs)) (map s (map (lvar_of wc) lv)))).
      { intros s G EG. split; apply A_ext; intros t; rewrite INS by exact EG; reflexivity. }
      destruct wh as [[vs w]|].
      - destruct W as (gv & ws & uw & E2 & Ej & Eo & Ega & Etw & EW). destruct (bounded_cvars _ _ _ E2) as [Egv Vgv]. destruct K2 as [K2 K3]. rewrite all_of_iff in K2. rewrite all_of_iff in R2.
        assert (Vw : forall v, In v (flat_map (jvars wc) w) -> V v) by (intros; apply Hv; rewrite !in_app_iff; auto 10).
        assert (Vo : forall v, In v o -> V v). { intros v I. rewrite Eo in I. unfold joined_vars, other_vars, implicit_vars in I; rewrite vset_In in I; apply filter_In in I. destruct I as [I _]. auto. }
        assert (JO : forall v, In v (j ++ o) <-> In v gv).
        { intros v. rewrite in_app_iff, Ej, Eo. unfold joined_vars, other_vars. rewrite !vset_In, !filter_In. destruct (memb v bv); cbn [negb]; intuition discriminate. }
        assert (JE : forall v, In v j <-> In v (cexplicit foreign nb ar w body)). { intros v. rewrite Ej. unfold joined_vars, cexplicit. rewrite vset_In, Ebv, Egv. tauto. }
        assert (JN : j <> []). { intros E. apply K3. rewrite Ej in E. unfold joined_vars in E. apply (proj1 (vset_nil _)) in E. unfold cexplicit. rewrite Ebv, Egv. exact E. }
        destruct (rel_sem w p' (j ++ o) vs n ws uw n1 ts (FW vs w eq_refl) EW) as (LW & GRP); auto.
        { intros x I. apply TT. rewrite Ets, Etw. apply in_or_app. auto. }
        { apply O. }
        { intros x I U. rewrite Ets, Etw in I. apply in_app_or in I. destruct I as [I|I]; auto. exfalso. eauto. }
        { intros v I. apply in_app_or in I. destruct I; auto. }
        split; [lia|]. split.
        { intros v I. rewrite Er in I. unfold reduce_free, reduce_vars in I. cbn in I. rewrite !in_app_iff in I. intuition. }
        intros X s. cbn [lit_sat other_sat AggFacts.gsem]. rewrite B_agg. unfold agg_meaning, grouped. rewrite Er. cbn [rd_group rd_groupby rd_other rd_agg rd_arg rd_left rd_body a_pred var_atom]. rewrite Ega. cbn [a_pred].
        fold p. rewrite (AGG s _ JE). destruct j as [|j0 j']; [contradiction|]. rewrite GRP, Egv. split.
        + intros [(s' & H1 & H2) H3]. split; auto. exists s'. split; auto. apply agree_map in H2. intros v I. apply H2. apply JO; auto.
        + intros [(s' & H1 & H2) H3]. split; auto. exists s'. split; auto. apply agree_map. intros v I. apply H1. apply JO; auto.
      - destruct W as (Ej & Eo & Ega & Etw & En). split; [lia|]. split.
        { intros v I. rewrite Er in I. unfold reduce_free, reduce_vars in I. cbn in I. rewrite Eo in I. rewrite !in_app_iff in I. rewrite ?in_app_iff in I. cbn [In] in I. intuition auto. }
        assert (JI : forall v, In v j <-> In v (cimplicit foreign nb ar hv args bs body)). { intros v. rewrite Ej. unfold implicit_vars, cimplicit. rewrite vset_In, Ebv. tauto. }
        intros X s. cbn [lit_sat other_sat AggFacts.gsem]. rewrite B_agg. unfold agg_meaning, grouped. rewrite Er. cbn [rd_group rd_groupby rd_other rd_agg rd_arg rd_left rd_body a_pred var_atom]. rewrite Ega.
        fold p. rewrite (AGG s _ JI). assert (EN : j = [] <-> cimplicit foreign nb ar hv args bs body = []).
        { rewrite Ej. unfold implicit_vars, cimplicit. rewrite Ebv. apply vset_nil. }
        assert (EX : (exists t, M (nm p) (map s j ++ t)) <-> exists t s', agree (cimplicit foreign nb ar hv args bs body) s s' /\ some_of (csem M (bs ++ args) s') body /\ t = map s' (args ++ bs)).
        { split; intros (t & H); exists t; apply (INS s _ t JI); auto. }
        destruct j as [|j0 j'].
        + pose proof (proj1 EN eq_refl). intuition.
        + rewrite EX. assert (cimplicit foreign nb ar hv args bs body <> []) by (intros E; apply EN in E; discriminate E). intuition. }
    assert (HQ : forall pos neg aggs, Forall sem_P aggs -> sem_Q (mkJ pos neg aggs)).
    { intros pos neg aggs F pi ci hv h extra n r ts n' H TT O K Hv R X. rewrite lower_conj_eq in H.
      destruct (lower_aggs pi ci hv aggs 0 n) as [[[reds ts1] n1]|] eqn:EA; [|discriminate H]. cbn [obnd] in H.
      destruct (flat_lits fr pos n1) as [[lx nx]|] eqn:Qx; [|discriminate H]. cbn [obnd fst snd] in H. destruct (flat_lits fr neg nx) as [[ly ny]|] eqn:Qy; [|discriminate H]. cbn [obnd fst snd] in H. injection H as <- <- <-.
      rewrite jok_eq in K. destruct K as (K1 & K2 & K3). cbn [jvars] in Hv. cbn [j_aggs] in R.
      assert (Vp : forall f v, In f pos -> In v (form_vars f) -> V v) by (intros f v I J; apply Hv; apply in_or_app; left; apply in_flat_map; eauto).
      assert (Vn : forall f v, In f neg -> In v (form_vars f) -> V v) by (intros f v I J; apply Hv; apply in_or_app; right; apply in_or_app; left; apply in_flat_map; eauto).
      destruct (sem_aggs aggs F _ _ _ _ _ _ _ _ EA) as (LA & VA & SA); auto.
      { intros v I. apply Hv. rewrite !in_app_iff. auto. }
      destruct (lits_flat_vars fr fr_inj V pos n1 Vp Qx) as (Lx & Wx). destruct (lits_flat_vars fr fr_inj V neg nx Vn Qy) as (Ly & Wy).
      exists (lx ++ ly ++ reds). split; [rewrite <- !app_assoc; reflexivity|]. split; [lia|]. split; [|split].
      - rewrite !flat_map_app. apply within_app; [eapply within_mono; eauto; lia|]. apply within_app; [eapply within_mono; eauto; lia|]. intros v I. left. auto.
      - intros s S0. apply sat_app_inv in S0. destruct S0 as [Sx S0]. apply sat_app_inv in S0. destruct S0 as [Sy Sr]. apply csem_eq. split; [|exact (proj1 (SA X s) Sr)].
        intros f I. apply in_app_or in I. destruct I as [I|I]; [eapply (lits_flat_sound fr pos); eauto|eapply (lits_flat_sound fr neg); eauto].
      - intros s S0 RR. rewrite jreg_eq in RR. destruct RR as [RR _]. specialize (RR s S0). apply csem_eq in S0. destruct S0 as [S1 S2].
        destruct (lits_flat_complete fr fr_inj B g X M V fresh pos s n1) with (2 := Qx) as (s2 & X2 & T2); auto.
        { intros f e I J. eapply RR; eauto. apply in_or_app; auto. } { intros f I. apply S1, in_or_app; auto. }
        destruct (lits_flat_complete fr fr_inj B g X M V fresh neg s2 nx) with (2 := Qy) as (s3 & X3 & T3); auto.
        { intros f e I J. apply regular_local with (s := s); [|eapply RR; eauto; apply in_or_app; auto]. eapply source_agree with (V := V) (n := n1) (n' := nx); [exact fresh| |assumption]. intros v I'. eapply Vn; eauto. eapply fexprs_vars; eauto. }
        { intros f I. eapply fholds_lit_local with (s := s); [exact Qy|exact I| |apply S1, in_or_app; auto]. eapply source_agree with (V := V) (n := n1) (n' := nx); [exact fresh| |assumption]. intros v I'. eapply Vn; eauto. }
        assert (X23 : ext fr n1 ny s s3) by (eapply ext_trans; eauto). exists s3. split; [eapply ext_mono; eauto; lia|].
        apply sat_app; [exact (@ext_sat fr fr_inj B g X M V fresh _ _ _ _ _ _ _ Wx X3 (or_introl (le_n _)) T2)|]. apply sat_app; auto.
        apply (SA X s) in S2. intros l Il. eapply lit_sat_agree; [|apply S2; exact Il]. eapply source_agree with (V := V) (n := n1) (n' := ny); [exact fresh| |assumption]. intros v J. apply VA. apply in_flat_map. eauto. }
    split; [apply (actx_ind2 _ _ HP HQ)|apply (jctx_ind2 _ _ HP HQ)].
  Qed.
End Lower.
