(** C72: case formulas and destructors match what they say. *)
From Coq Require Import List ZArith Bool Arith Lia.
From Verif Require Import Value Back Eval BackSem Front FrontSem FrontFacts Case.
Import ListNotations.

(** ** Specification *)
Section Meaning.
  Variables (B : benv) (g : registry) (X M : interp).
  (** A pattern matches a value: an expression has that value; an object is the functor of
      the entity with that id, and the patterns match its arguments. *)
  Fixpoint matches (s : subst) (p : pat) (v : value) : Prop :=
    match p with
    | PExpr e => has_value (b_env B) s e v
    | PObj _ f l => exists vs, tuples B g X f (v :: vs) /\
        (fix all l vs := match l, vs with [], [] => True | p :: l, v :: vs => matches s p v /\ all l vs | _, _ => False end) l vs
    end.
  Definition match_all (s : subst) : list pat -> list value -> Prop := Forall2 (matches s).
  Fixpoint sholds (s : subst) (f : sform) : Prop :=
    match f with
    | SAtom p l => exists vs, match_all s l vs /\ tuples B g X p vs
    | SNeg p l => exists ws, Forall2 (arg_pattern (b_env B) s) l ws /\ forall vs, fits ws vs -> ~ tuples B g M p vs
    | SCons e => constraint_holds (b_env B) s e
    | SCase x p => matches s p (s x)
    | SConj l => (fix all l := match l with [] => True | f :: l => sholds s f /\ all l end) l
    | SDisj l => (fix any l := match l with [] => False | f :: l => sholds s f \/ any l end) l
    end.
  (** What a rule adds. *)
  Definition sconsequence (r : srule) (p : pred) (t : list value) : Prop :=
    exists s, sholds s (sr_body r) /\ p = fst (sr_head r) /\ match_all s (snd (sr_head r)) t.
End Meaning.

(** ** The variables of patterns and the temporaries *)
Fixpoint pat_vars (p : pat) : list var :=
  match p with PExpr e => expr_vars e | PObj _ _ l => flat_map pat_vars l end.
Fixpoint sform_vars (f : sform) : list var :=
  match f with
  | SAtom _ l => flat_map pat_vars l
  | SNeg _ l => flat_map expr_vars l
  | SCons e => expr_vars e
  | SCase x p => x :: pat_vars p
  | SConj l | SDisj l => flat_map sform_vars l
  end.
(** How many objects there are in a pattern. *)
Fixpoint objects (p : pat) : nat :=
  match p with PExpr _ => 0 | PObj _ _ l => S (list_sum (map objects l)) end.
Section Temps.
  Variables (ct : var -> nat -> var) (dr : nat -> var) (dt : nat -> nat -> var).
  Definition case_temps (x : var) (p : pat) : list var := map (ct x) (seq 0 (Nat.pred (objects p))).
  Fixpoint atom_temps (l : list pat) (n : nat) : list var :=
    match l with
    | [] => []
    | PExpr _ :: l => atom_temps l n
    | PObj i f args :: l => let k := list_sum (map objects args) in dr i :: map (dt i) (seq n k) ++ atom_temps l (n + k)
    end.
  Fixpoint temps (f : sform) : list var :=
    match f with
    | SAtom _ l => atom_temps l 0
    | SCase x p => case_temps x p
    | SConj l | SDisj l => flat_map temps l
    | _ => []
    end.
  (** Formulas of one conjunction do not share temporaries. *)
  Fixpoint apart (f : sform) : Prop :=
    match f with
    | SAtom _ l => NoDup (atom_temps l 0)
    | SCase x p => NoDup (case_temps x p)
    | SConj l => (fix all l := match l with
                               | [] => True
                               | f :: l => apart f /\ (forall v, In v (temps f) -> ~ In v (flat_map temps l)) /\ all l end) l
    | SDisj l => (fix all l := match l with [] => True | f :: l => apart f /\ all l end) l
    | _ => True
    end.
  Definition rule_apart (r : srule) : Prop :=
    apart (sr_body r) /\ NoDup (atom_temps (snd (sr_head r)) 0) /\
    (forall v, In v (temps (sr_body r)) -> ~ In v (atom_temps (snd (sr_head r)) 0)) /\
    (forall v, In v (temps (sr_body r) ++ atom_temps (snd (sr_head r)) 0) -> ~ In v (sform_vars (sr_body r) ++ flat_map pat_vars (snd (sr_head r)))).
End Temps.
(** Two substitutions that differ in nothing but [T]. *)
Definition agree_off (T : list var) (s s' : subst) : Prop := forall x, ~ In x T -> s' x = s x.

(** ** Locality *)
Lemma values_local : forall E s s' l, (forall v, In v (flat_map expr_vars l) -> s v = s' v) -> forall vs, have_values E s l vs -> have_values E s' l vs.
Proof.
  intros E s s' l. induction l as [|e l IH]; intros A vs H; inversion H; subst; constructor.
  - eapply value_local; [|eassumption]. intros v I. apply A. cbn. apply in_or_app. auto.
  - apply IH; [|assumption]. intros v I. apply A. cbn. apply in_or_app. auto.
Qed.
Lemma pattern_local : forall E s s' l, (forall v, In v (flat_map expr_vars l) -> s v = s' v) -> forall ws, Forall2 (arg_pattern E s) l ws -> Forall2 (arg_pattern E s') l ws.
Proof.
  intros E s s' l. induction l as [|e l IH]; intros A vs H; inversion H as [|? w ? ws P F]; subst; constructor.
  - destruct w as [v|]; [|exact P]. destruct P as [N V]. split; [exact N|]. eapply value_local; [|exact V]. intros x I. apply A. cbn. apply in_or_app. auto.
  - apply IH; [|assumption]. intros v I. apply A. cbn. apply in_or_app. auto.
Qed.
Lemma constraint_local : forall E s s' e, (forall v, In v (expr_vars e) -> s v = s' v) -> constraint_holds E s e -> constraint_holds E s' e.
Proof.
  intros E s s' e A H. assert (K : forall r, has_value E s e r -> has_value E s' e r) by (apply value_local; exact A).
  destruct e; cbn [constraint_holds] in *; auto.
  - destruct (cop_of op); [|auto]. destruct H as (x & y & H1 & H2 & H3). exists x, y. cbn in A.
    split; [eapply value_local; [|exact H1]; intros; apply A; apply in_or_app; auto|]. split; [eapply value_local; [|exact H2]; intros; apply A; apply in_or_app; auto|exact H3].
  - destruct op; auto. eapply value_local; [|exact H]. exact A.
Qed.
Section Form.
  Variable P : formula -> Prop.
  Hypothesis Pa : forall p l, P (FAtom p l).
  Hypothesis Pn : forall p l, P (FNeg p l).
  Hypothesis Pc : forall e, P (FCons e).
  Hypothesis Pj : forall l, Forall P l -> P (FConj l).
  Hypothesis Pd : forall l, Forall P l -> P (FDisj l).
  Hypothesis Pi : forall a b, P a -> P b -> P (FImp a b).
  Fixpoint formula_ind2 (f : formula) : P f :=
    let go := fix go l : Forall P l := match l with [] => Forall_nil _ | f :: l => Forall_cons f (formula_ind2 f) (go l) end in
    match f with
    | FAtom p l => Pa p l | FNeg p l => Pn p l | FCons e => Pc e
    | FConj l => Pj l (go l) | FDisj l => Pd l (go l) | FImp a b => Pi a b (formula_ind2 a) (formula_ind2 b)
    end.
End Form.
Section Pat.
  Variable P : pat -> Prop.
  Hypothesis Pe : forall e, P (PExpr e).
  Hypothesis Po : forall i f l, Forall P l -> P (PObj i f l).
  Fixpoint pat_ind2 (p : pat) : P p :=
    match p with
    | PExpr e => Pe e
    | PObj i f l => Po i f l ((fix go l : Forall P l := match l with [] => Forall_nil _ | f :: l => Forall_cons f (pat_ind2 f) (go l) end) l)
    end.
End Pat.
Section SForm.
  Variable P : sform -> Prop.
  Hypothesis Pa : forall p l, P (SAtom p l).
  Hypothesis Pn : forall p l, P (SNeg p l).
  Hypothesis Pc : forall e, P (SCons e).
  Hypothesis Ps : forall x p, P (SCase x p).
  Hypothesis Pj : forall l, Forall P l -> P (SConj l).
  Hypothesis Pd : forall l, Forall P l -> P (SDisj l).
  Fixpoint sform_ind2 (f : sform) : P f :=
    let go := fix go l : Forall P l := match l with [] => Forall_nil _ | f :: l => Forall_cons f (sform_ind2 f) (go l) end in
    match f with
    | SAtom p l => Pa p l | SNeg p l => Pn p l | SCons e => Pc e | SCase x p => Ps x p
    | SConj l => Pj l (go l) | SDisj l => Pd l (go l)
    end.
End SForm.

Section Facts.
  Variables (B : benv) (g : registry) (X M : interp).
  Notation holds := (fholds B g X M).
  Notation E := (b_env B).
  Lemma form_local : forall f s s', (forall v, In v (form_vars f) -> s v = s' v) -> holds s f -> holds s' f.
  Proof.
    induction f as [p l|p l|e|l IH|l IH|a b IHa IHb] using formula_ind2; intros s s' A H.
    - destruct H as (vs & V & T). exists vs. split; [|exact T]. eapply values_local; eauto.
    - destruct H as (ws & V & T). exists ws. split; [|exact T]. eapply pattern_local; eauto.
    - eapply constraint_local; eauto.
    - apply holds_conj. rewrite holds_conj in H. intros f I. rewrite Forall_forall in IH. eapply IH; [exact I| |apply H; exact I]. intros v J. apply A. cbn. apply in_flat_map. eauto.
    - apply holds_disj. apply holds_disj in H. destruct H as (f & I & H). exists f. split; [exact I|]. rewrite Forall_forall in IH. eapply IH; [exact I| |exact H]. intros v J. apply A. cbn. apply in_flat_map. eauto.
    - cbn in *. intros Ha. eapply IHb; [|apply H; eapply IHa; [|exact Ha]]; intros v I; [|symmetry]; apply A; apply in_or_app; auto.
  Qed.
  Lemma matches_obj : forall s i f l v, matches B g X s (PObj i f l) v <-> exists vs, tuples B g X f (v :: vs) /\ match_all B g X s l vs.
  Proof.
    intros s i f l v. cbn [matches].
    assert (K : forall l vs, (fix all l vs := match l, vs with [], [] => True | p :: l, v :: vs => matches B g X s p v /\ all l vs | _, _ => False end) l vs <-> match_all B g X s l vs).
    { clear. induction l as [|p l IH]; intros [|v vs]; (split; [intros H|intros H; inversion H; subst]); try (constructor; fail); try contradiction.
      - destruct H as [H1 H2]. constructor; [exact H1|]. apply IH. exact H2.
      - split; [assumption|]. apply IH. assumption. }
    split; intros (vs & T & Q); exists vs; (split; [exact T|]); apply K; exact Q.
  Qed.
  Lemma matches_local : forall p s s', (forall v, In v (pat_vars p) -> s v = s' v) -> forall v, matches B g X s p v -> matches B g X s' p v.
  Proof.
    induction p as [e|i f l IH] using pat_ind2; intros s s' A v H; [eapply value_local; eauto|].
    rewrite matches_obj in *. destruct H as (vs & T & Q). exists vs. split; [exact T|]. clear T. cbn in A.
    revert vs Q. induction IH as [|p l Hp IH IH2]; intros vs Q; inversion Q; subst; constructor.
    - eapply Hp; [|eassumption]. intros w I. apply A. cbn. apply in_or_app. auto.
    - apply IH2; [|assumption]. intros w I. apply A. cbn. apply in_or_app. auto.
  Qed.
  Lemma match_all_local : forall l s s', (forall v, In v (flat_map pat_vars l) -> s v = s' v) -> forall vs, match_all B g X s l vs -> match_all B g X s' l vs.
  Proof.
    induction l as [|p l IH]; intros s s' A vs Q; inversion Q; subst; constructor.
    - eapply matches_local; [|eassumption]. intros w I. apply A. cbn. apply in_or_app. auto.
    - eapply IH; [|eassumption]. intros w I. apply A. cbn. apply in_or_app. auto.
  Qed.
  Lemma sholds_conj : forall s l, sholds B g X M s (SConj l) <-> forall f, In f l -> sholds B g X M s f.
  Proof.
    intros s l. cbn [sholds]. induction l as [|f l IH]; [split; [intros _ f []|auto]|]. rewrite IH. split.
    - intros [H1 H2] f' [<-|I]; auto.
    - intros H. split; [apply H; left; reflexivity|]. intros f' I. apply H. right. exact I.
  Qed.
  Lemma sholds_disj : forall s l, sholds B g X M s (SDisj l) <-> exists f, In f l /\ sholds B g X M s f.
  Proof.
    intros s l. cbn [sholds]. induction l as [|f l IH]; [split; [intros []|intros (f & [] & _)]|]. rewrite IH. split.
    - intros [H|(f' & I & H)]; [exists f; split; [left; reflexivity|exact H]|exists f'; split; [right; exact I|exact H]].
    - intros (f' & [<-|I] & H); [left; exact H|right; eauto].
  Qed.
  Lemma sholds_local : forall f s s', (forall v, In v (sform_vars f) -> s v = s' v) -> sholds B g X M s f -> sholds B g X M s' f.
  Proof.
    induction f as [p l|p l|e|x p|l IH|l IH] using sform_ind2; intros s s' A H.
    - destruct H as (vs & V & T). exists vs. split; [|exact T]. eapply match_all_local; eauto.
    - destruct H as (ws & V & T). exists ws. split; [|exact T]. eapply pattern_local; eauto.
    - eapply constraint_local; eauto.
    - cbn [sholds] in *. rewrite <- (A x) by (left; reflexivity). eapply matches_local; [|exact H]. intros v I. apply A. right. exact I.
    - apply sholds_conj. rewrite sholds_conj in H. intros f I. rewrite Forall_forall in IH. eapply IH; [exact I| |apply H; exact I]. intros v J. apply A. cbn. apply in_flat_map. eauto.
    - apply sholds_disj. apply sholds_disj in H. destruct H as (f & I & H). exists f. split; [exact I|]. rewrite Forall_forall in IH. eapply IH; [exact I| |exact H]. intros v J. apply A. cbn. apply in_flat_map. eauto.
  Qed.

  (** ** Patterns as arguments *)
  Section Tmp.
    Variable tmp : nat -> var.
    Lemma pat_arg_obj : forall i f l n, pat_arg tmp (PObj i f l) n =
      let '(es, fs, n1) := pat_args tmp l (S n) in (EVar (tmp n), fs ++ [FAtom f (EVar (tmp n) :: es)], n1).
    Proof.
      intros i f l n. cbn [pat_arg].
      assert (K : forall l n, (fix go (l : list pat) (n : nat) : list expr * list formula * nat :=
         match l with
         | [] => ([], [], n)
         | a :: l => let '(e, f1, n1) := pat_arg tmp a n in let '(es, f2, n2) := go l n1 in (e :: es, f1 ++ f2, n2)
         end) l n = pat_args tmp l n).
      { clear. induction l as [|a l IH]; intros n; [reflexivity|]. cbn [pat_args]. destruct (pat_arg tmp a n) as [[e f1] n1]. rewrite IH. reflexivity. }
      rewrite K. reflexivity.
    Qed.
    (** The formulas say no more than the pattern. *)
    Lemma arg_sound : forall p n e fs n1, pat_arg tmp p n = (e, fs, n1) -> forall s v, has_value E s e v -> (forall f, In f fs -> holds s f) -> matches B g X s p v.
    Proof.
      induction p as [e|i f l IH] using pat_ind2; intros n e' fs n1 Q s v V H.
      - injection Q as <- <- <-. exact V.
      - rewrite pat_arg_obj in Q. destruct (pat_args tmp l (S n)) as [[es fs'] n'] eqn:Ea. injection Q as <- <- <-. cbn in V. subst v.
        apply matches_obj. assert (HL : holds s (FAtom f (EVar (tmp n) :: es))) by (apply H; apply in_or_app; right; left; reflexivity). destruct HL as (vs & Vs & T). inversion Vs as [|? ? ? vs' V0 Vs']; subst. cbn in V0. subst.
        exists vs'. split; [exact T|]. assert (H' : forall f, In f fs' -> holds s f) by (intros; apply H; apply in_or_app; auto). clear H T Vs.
        generalize dependent fs'. generalize dependent vs'. generalize dependent es. generalize (S n). clear n. induction IH as [|p l Hp IH IH2]; intros n es vs Vs fs Ea H.
        + injection Ea as <- <- <-. inversion Vs; subst. constructor.
        + cbn [pat_args] in Ea. destruct (pat_arg tmp p n) as [[e f1] n1] eqn:E1. destruct (pat_args tmp l n1) as [[es2 f2] n2] eqn:E2. injection Ea as <- <- <-.
          inversion Vs; subst. constructor; [eapply Hp; [exact E1|eassumption|]|eapply IH2; [eassumption|exact E2|]]; intros f0 I; apply H; apply in_or_app; auto.
    Qed.
    Lemma args_sound : forall l n es fs n1, pat_args tmp l n = (es, fs, n1) -> forall s vs, have_values E s es vs -> (forall f, In f fs -> holds s f) -> match_all B g X s l vs.
    Proof.
      induction l as [|p l IH]; intros n es fs n1 Q s vs V H.
      - injection Q as <- <- <-. inversion V; subst. constructor.
      - cbn [pat_args] in Q. destruct (pat_arg tmp p n) as [[e f1] n'] eqn:E1. destruct (pat_args tmp l n') as [[es2 f2] n2] eqn:E2. injection Q as <- <- <-.
        inversion V; subst. constructor; [eapply arg_sound; [exact E1|eassumption|]|eapply IH; [exact E2|eassumption|]]; intros f0 I; apply H; apply in_or_app; auto.
    Qed.
    Definition range (n k : nat) : list var := map tmp (seq n k).
    Lemma range_split : forall n a b, range n (a + b) = range n a ++ range (n + a) b.
    Proof. intros. unfold range. rewrite seq_app, map_app. reflexivity. Qed.
    (** The next number and the variables. *)
    Lemma args_shape_of : forall l, Forall (fun p => forall n e fs n1, pat_arg tmp p n = (e, fs, n1) -> n1 = n + objects p /\
        forall v, In v (expr_vars e ++ flat_map form_vars fs) -> In v (pat_vars p ++ range n (objects p))) l ->
      forall n es fs n1, pat_args tmp l n = (es, fs, n1) -> n1 = n + list_sum (map objects l) /\
        forall v, In v (flat_map expr_vars es ++ flat_map form_vars fs) -> In v (flat_map pat_vars l ++ range n (list_sum (map objects l))).
    Proof.
      intros l F. induction F as [|p l Hp F IH]; intros n es fs n1 Q.
      - injection Q as <- <- <-. cbn. split; [lia|auto].
      - cbn [pat_args] in Q. destruct (pat_arg tmp p n) as [[e f1] n'] eqn:E1. destruct (pat_args tmp l n') as [[es2 f2] n2] eqn:E2. injection Q as <- <- <-.
        destruct (Hp _ _ _ _ E1) as [-> H1]. destruct (IH _ _ _ _ E2) as [-> H2].
        change (list_sum (map objects (p :: l))) with (objects p + list_sum (map objects l)). cbn [flat_map].
        split; [lia|]. intros v I.
        rewrite range_split. specialize (H1 v). specialize (H2 v). rewrite flat_map_app in I. rewrite !in_app_iff in *. tauto.
    Qed.
    Lemma arg_shape : forall p n e fs n1, pat_arg tmp p n = (e, fs, n1) -> n1 = n + objects p /\
        forall v, In v (expr_vars e ++ flat_map form_vars fs) -> In v (pat_vars p ++ range n (objects p)).
    Proof.
      induction p as [e|i f l IH] using pat_ind2; intros n e' fs n1 Q.
      - injection Q as <- <- <-. cbn. split; [lia|]. intros v. rewrite !app_nil_r. auto.
      - rewrite pat_arg_obj in Q. destruct (pat_args tmp l (S n)) as [[es fs'] n'] eqn:Ea. injection Q as <- <- <-.
        destruct (args_shape_of l IH _ _ _ _ Ea) as [-> H]. change (objects (PObj i f l)) with (S (list_sum (map objects l))). split; [lia|]. intros v I. cbn [pat_vars].
        change (range n (S (list_sum (map objects l)))) with (tmp n :: range (S n) (list_sum (map objects l))).
        rewrite flat_map_app in I. specialize (H v). cbn [flat_map form_vars expr_vars app] in I. rewrite !in_app_iff in *. cbn [In] in *. rewrite in_app_iff in *. cbn [In] in *. rewrite ?app_nil_r in I. tauto.
    Qed.
    Lemma args_shape : forall l n es fs n1, pat_args tmp l n = (es, fs, n1) -> n1 = n + list_sum (map objects l) /\
        forall v, In v (flat_map expr_vars es ++ flat_map form_vars fs) -> In v (flat_map pat_vars l ++ range n (list_sum (map objects l))).
    Proof. intros l. apply args_shape_of. rewrite Forall_forall. intros p _. apply arg_shape. Qed.
  End Tmp.

  (** Putting two substitutions together. *)
  Lemma glue : forall T1 T2 s s1 s2, agree_off T1 s s1 -> agree_off T2 s s2 -> (forall v, In v T1 -> ~ In v T2) ->
    exists s', agree_off (T1 ++ T2) s s' /\ (forall v, ~ In v T2 -> s1 v = s' v) /\ (forall v, ~ In v T1 -> s2 v = s' v).
  Proof.
    intros T1 T2 s s1 s2 A1 A2 D. exists (fun x => if in_dec Nat.eq_dec x T1 then s1 x else s2 x). split; [|split].
    - intros x N. rewrite in_app_iff in N. destruct (in_dec Nat.eq_dec x T1); [tauto|]. apply A2. tauto.
    - intros v N. destruct (in_dec Nat.eq_dec v T1); [reflexivity|]. rewrite (A1 v), (A2 v); auto.
    - intros v N. destruct (in_dec Nat.eq_dec v T1); [contradiction|reflexivity].
  Qed.
  Lemma NoDup_split : forall A (a b : list A), NoDup (a ++ b) -> NoDup a /\ NoDup b /\ forall x, In x a -> ~ In x b.
  Proof.
    intros A a b. induction a as [|y a IH]; intros N; [split; [constructor|]; split; [exact N|intros x []]|]. cbn in N. inversion N as [|? ? Y N']; subst.
    destruct (IH N') as (N1 & N2 & D). split; [constructor; [intros I; apply Y; apply in_or_app; auto|exact N1]|]. split; [exact N2|].
    intros x [<-|I]; [intros J; apply Y; apply in_or_app; auto|auto].
  Qed.

  Section Tmp2.
    Variable tmp : nat -> var.
    Lemma args_complete_of : forall l, Forall (fun p => forall n e fs n1, pat_arg tmp p n = (e, fs, n1) -> NoDup (range tmp n (objects p)) ->
        (forall v, In v (range tmp n (objects p)) -> ~ In v (pat_vars p)) ->
        forall s v, matches B g X s p v -> exists s', agree_off (range tmp n (objects p)) s s' /\ has_value E s' e v /\ forall f, In f fs -> holds s' f) l ->
      forall n es fs n1, pat_args tmp l n = (es, fs, n1) -> NoDup (range tmp n (list_sum (map objects l))) ->
        (forall v, In v (range tmp n (list_sum (map objects l))) -> ~ In v (flat_map pat_vars l)) ->
        forall s vs, match_all B g X s l vs -> exists s', agree_off (range tmp n (list_sum (map objects l))) s s' /\ have_values E s' es vs /\ forall f, In f fs -> holds s' f.
    Proof.
      intros l F. induction F as [|p l Hp F IH]; intros n es fs n1 Q ND NV s vs V.
      - injection Q as <- <- <-. inversion V; subst. exists s. split; [intros x _; reflexivity|]. split; [constructor|intros f []].
      - cbn [pat_args] in Q. destruct (pat_arg tmp p n) as [[e f1] n'] eqn:E1. destruct (pat_args tmp l n') as [[es2 f2] n2] eqn:E2. injection Q as <- <- <-.
        destruct (arg_shape _ _ _ _ _ _ E1) as [-> S1]. destruct (args_shape _ _ _ _ _ _ E2) as [_ S2].
        change (list_sum (map objects (p :: l))) with (objects p + list_sum (map objects l)) in *. rewrite range_split in *. cbn [flat_map] in NV.
        destruct (NoDup_split _ _ _ ND) as (N1 & N2 & D). inversion V as [|? v ? vs' V1 V2]; subst.
        destruct (Hp _ _ _ _ E1 N1) with (s := s) (v := v) as (s1 & A1 & Q1 & H1); [|exact V1|]. { intros w I J. apply (NV w); apply in_or_app; auto. }
        destruct (IH _ _ _ _ E2 N2) with (s := s) (vs := vs') as (s2 & A2 & Q2 & H2); [|exact V2|]. { intros w I J. apply (NV w); apply in_or_app; auto. }
        destruct (glue _ _ _ _ _ A1 A2 D) as (s' & A & L1 & L2). exists s'. split; [exact A|].
        assert (K1 : forall w, In w (expr_vars e ++ flat_map form_vars f1) -> s1 w = s' w).
        { intros w I. apply L1. intros J. apply S1 in I. apply in_app_or in I. destruct I as [I|I]; [apply (NV w); apply in_or_app; auto|apply (D w); auto]. }
        assert (K2 : forall w, In w (flat_map expr_vars es2 ++ flat_map form_vars f2) -> s2 w = s' w).
        { intros w I. apply L2. intros J. apply S2 in I. apply in_app_or in I. destruct I as [I|I]; [apply (NV w); apply in_or_app; auto|apply (D w); auto]. }
        split.
        + constructor; [eapply value_local; [|exact Q1]; intros; apply K1; apply in_or_app; auto|eapply values_local; [|exact Q2]; intros; apply K2; apply in_or_app; auto].
        + intros f I. apply in_app_or in I. destruct I as [I|I].
          * eapply form_local; [|apply H1; exact I]. intros w J. apply K1. apply in_or_app. right. apply in_flat_map. eauto.
          * eapply form_local; [|apply H2; exact I]. intros w J. apply K2. apply in_or_app. right. apply in_flat_map. eauto.
    Qed.
    Lemma arg_complete : forall p n e fs n1, pat_arg tmp p n = (e, fs, n1) -> NoDup (range tmp n (objects p)) ->
        (forall v, In v (range tmp n (objects p)) -> ~ In v (pat_vars p)) ->
        forall s v, matches B g X s p v -> exists s', agree_off (range tmp n (objects p)) s s' /\ has_value E s' e v /\ forall f, In f fs -> holds s' f.
    Proof.
      induction p as [e|i f l IH] using pat_ind2; intros n e' fs n1 Q ND NV s v Hm.
      - injection Q as <- <- <-. exists s. split; [intros x _; reflexivity|]. split; [exact Hm|intros f []].
      - rewrite pat_arg_obj in Q. destruct (pat_args tmp l (S n)) as [[es fs'] n'] eqn:Ea. injection Q as <- <- <-.
        change (range tmp n (objects (PObj i f l))) with (tmp n :: range tmp (S n) (list_sum (map objects l))) in *.
        inversion ND as [|? ? N0 ND']; subst. cbn [pat_vars] in NV. apply matches_obj in Hm. destruct Hm as (vs & T & Hm).
        destruct (args_complete_of l IH _ _ _ _ Ea ND') with (s := s) (vs := vs) as (s1 & A1 & Q1 & H1); [intros w I; apply NV; right; exact I|exact Hm|].
        destruct (args_shape _ _ _ _ _ _ Ea) as [_ Sh].
        set (s' := fun x => if Nat.eq_dec x (tmp n) then v else s1 x). exists s'.
        assert (S0 : s' (tmp n) = v) by (unfold s'; destruct (Nat.eq_dec (tmp n) (tmp n)); congruence).
        assert (K : forall w, In w (flat_map expr_vars es ++ flat_map form_vars fs') -> s1 w = s' w).
        { intros w I. unfold s'. destruct (Nat.eq_dec w (tmp n)) as [->|]; [|reflexivity]. exfalso. apply Sh in I. apply in_app_or in I.
          destruct I as [I|I]; [apply (NV (tmp n)); [left; reflexivity|exact I]|auto]. }
        split. { intros x N. unfold s'. destruct (Nat.eq_dec x (tmp n)) as [->|]; [exfalso; apply N; left; reflexivity|]. apply A1. intros I. apply N. right. exact I. }
        split; [cbn; congruence|]. intros f0 I. apply in_app_or in I. destruct I as [I|[<-|[]]].
        + eapply form_local; [|apply H1; exact I]. intros w J. apply K. apply in_or_app. right. apply in_flat_map. eauto.
        + exists (v :: vs). split; [|exact T]. constructor; [cbn; congruence|]. eapply values_local; [|exact Q1]. intros w J. apply K. apply in_or_app. auto.
    Qed.
    (** The outermost object. *)
    Lemma root_sound : forall x f l n fs n1, pat_root tmp x f l n = (fs, n1) -> forall i s, (forall f, In f fs -> holds s f) -> matches B g X s (PObj i f l) (s x).
    Proof.
      intros x f l n fs n1 Q i s H. unfold pat_root in Q. destruct (pat_args tmp l n) as [[es fs'] n'] eqn:Ea. injection Q as <- <-.
      apply matches_obj. assert (HL : holds s (FAtom f (EVar x :: es))) by (apply H; apply in_or_app; right; left; reflexivity). destruct HL as (vs & Vs & T). inversion Vs as [|? ? ? vs' V0 Vs']; subst. cbn in V0. subst.
      exists vs'. split; [exact T|]. eapply args_sound; [exact Ea|exact Vs'|]. intros; apply H; apply in_or_app; auto.
    Qed.
    Lemma root_complete : forall x f l n fs n1, pat_root tmp x f l n = (fs, n1) -> let T := range tmp n (list_sum (map objects l)) in
      NoDup T -> (forall v, In v T -> ~ In v (x :: flat_map pat_vars l)) ->
      forall i s, matches B g X s (PObj i f l) (s x) -> exists s', agree_off T s s' /\ forall f, In f fs -> holds s' f.
    Proof.
      intros x f l n fs n1 Q T ND NV i s Hm. unfold pat_root in Q. destruct (pat_args tmp l n) as [[es fs'] n'] eqn:Ea. injection Q as <- <-.
      apply matches_obj in Hm. destruct Hm as (vs & Tu & Hm).
      destruct (args_complete_of l) with (n := n) (es := es) (fs := fs') (n1 := n') (s := s) (vs := vs) as (s1 & A1 & Q1 & H1); auto.
      { rewrite Forall_forall. intros p _. apply arg_complete. } { intros w I J. apply (NV w I). right. exact J. }
      exists s1. split; [exact A1|]. intros f0 I. apply in_app_or in I. destruct I as [I|[<-|[]]]; [auto|].
      exists (s x :: vs). split; [|exact Tu]. constructor; [|exact Q1]. cbn. symmetry. apply A1. intros I. apply (NV x I). left. reflexivity.
    Qed.
    Lemma root_shape : forall x f l n fs n1, pat_root tmp x f l n = (fs, n1) -> n1 = n + list_sum (map objects l) /\
      forall v, In v (flat_map form_vars fs) -> In v (x :: flat_map pat_vars l ++ range tmp n (list_sum (map objects l))).
    Proof.
      intros x f l n fs n1 Q. unfold pat_root in Q. destruct (pat_args tmp l n) as [[es fs'] n'] eqn:Ea. injection Q as <- <-.
      destruct (args_shape _ _ _ _ _ _ Ea) as [-> Sh]. split; [reflexivity|]. intros v I. rewrite flat_map_app, in_app_iff in I. cbn [flat_map form_vars expr_vars app] in I.
      rewrite app_nil_r in I. cbn [In] in *. specialize (Sh v). rewrite in_app_iff in Sh. tauto.
    Qed.
  End Tmp2.

  (** ** Atoms with destructors, formulas *)
  Section Names.
    Variables (ct : var -> nat -> var) (dr : nat -> var) (dt : nat -> nat -> var).
    Lemma destruct_sound : forall l n es fs, destruct_args dr dt l n = (es, fs) -> forall s vs, have_values E s es vs -> (forall f, In f fs -> holds s f) -> match_all B g X s l vs.
    Proof.
      induction l as [|[e|i f args] l IH]; intros n es fs Q s vs V H; cbn [destruct_args] in Q.
      - injection Q as <- <-. inversion V; subst. constructor.
      - destruct (destruct_args dr dt l n) as [es2 f2] eqn:E2. injection Q as <- <-. inversion V; subst. constructor; [assumption|eapply IH; eauto].
      - destruct (pat_root (dt i) (dr i) f args n) as [f1 n1] eqn:E1. destruct (destruct_args dr dt l n1) as [es2 f2] eqn:E2. injection Q as <- <-.
        inversion V as [|? v ? vs' V1 V2]; subst. cbn in V1. subst v. constructor.
        + eapply root_sound; [exact E1|]. intros; apply H; apply in_or_app; auto.
        + eapply IH; [exact E2|eassumption|]. intros; apply H; apply in_or_app; auto.
    Qed.
    Lemma destruct_shape : forall l n es fs, destruct_args dr dt l n = (es, fs) -> forall v, In v (flat_map expr_vars es ++ flat_map form_vars fs) -> In v (flat_map pat_vars l ++ atom_temps dr dt l n).
    Proof.
      induction l as [|[e|i f args] l IH]; intros n es fs Q v I; cbn [destruct_args] in Q.
      - injection Q as <- <-. exact I.
      - destruct (destruct_args dr dt l n) as [es2 f2] eqn:E2. injection Q as <- <-. specialize (IH _ _ _ E2 v). cbn [flat_map pat_vars atom_temps] in *. rewrite !in_app_iff in *. tauto.
      - destruct (pat_root (dt i) (dr i) f args n) as [f1 n1] eqn:E1. destruct (destruct_args dr dt l n1) as [es2 f2] eqn:E2. injection Q as <- <-.
        destruct (root_shape _ _ _ _ _ _ _ E1) as [-> S1]. specialize (IH _ _ _ E2 v). specialize (S1 v). cbn [flat_map pat_vars atom_temps expr_vars app] in *. rewrite flat_map_app in I.
        cbn [In] in *. rewrite !in_app_iff in *. cbn [In] in *. rewrite !in_app_iff in *. unfold range in S1. tauto.
    Qed.
    Lemma destruct_complete : forall l n es fs, destruct_args dr dt l n = (es, fs) -> NoDup (atom_temps dr dt l n) -> (forall v, In v (atom_temps dr dt l n) -> ~ In v (flat_map pat_vars l)) ->
      forall s vs, match_all B g X s l vs -> exists s', agree_off (atom_temps dr dt l n) s s' /\ have_values E s' es vs /\ forall f, In f fs -> holds s' f.
    Proof.
      induction l as [|[e|i f args] l IH]; intros n es fs Q ND NV s vs V; cbn [destruct_args] in Q.
      - injection Q as <- <-. inversion V; subst. exists s. split; [intros x _; reflexivity|]. split; [constructor|intros f []].
      - destruct (destruct_args dr dt l n) as [es2 f2] eqn:E2. injection Q as <- <-. inversion V as [|? v ? vs' V1 V2]; subst. cbn [atom_temps flat_map pat_vars] in *.
        destruct (IH _ _ _ E2 ND) with (s := s) (vs := vs') as (s' & A & Q' & H'); [intros w I J; apply (NV w I); apply in_or_app; auto|exact V2|].
        exists s'. split; [exact A|]. split; [|exact H']. constructor; [|exact Q']. eapply value_local; [|exact V1]. intros w I. symmetry. apply A. intros J. apply (NV w J). apply in_or_app. auto.
      - destruct (pat_root (dt i) (dr i) f args n) as [f1 n1] eqn:E1. destruct (destruct_args dr dt l n1) as [es2 f2] eqn:E2. injection Q as <- <-.
        inversion V as [|? v ? vs' V1 V2]; subst. destruct (root_shape _ _ _ _ _ _ _ E1) as [-> S1]. assert (S2 := destruct_shape _ _ _ _ E2).
        set (k := list_sum (map objects args)) in *.
        change (atom_temps dr dt (PObj i f args :: l) n) with ((dr i :: range (dt i) n k) ++ atom_temps dr dt l (n + k)) in *.
        cbn [flat_map pat_vars] in NV. destruct (NoDup_split _ _ _ ND) as (N1 & N2 & D). inversion N1 as [|? ? N0 N1']; subst.
        (* the root *)
        set (s0 := fun x => if Nat.eq_dec x (dr i) then v else s x).
        assert (S0 : s0 (dr i) = v) by (unfold s0; destruct (Nat.eq_dec (dr i) (dr i)); congruence).
        destruct (root_complete (dt i) (dr i) f args n f1 (n + k) E1 N1') with (i := i) (s := s0) as (s1 & A1 & H1).
        { intros w I [<-|J]; [apply N0; exact I|]. apply (NV w); [apply in_or_app; left; right; exact I|apply in_or_app; left; exact J]. }
        { rewrite S0. eapply matches_local; [|exact V1]. intros w I. unfold s0. destruct (Nat.eq_dec w (dr i)) as [->|]; [|reflexivity].
          exfalso. apply (NV (dr i)); [left; reflexivity|]. apply in_or_app. left. exact I. }
        fold k in A1.
        assert (A1' : agree_off (dr i :: range (dt i) n k) s s1).
        { intros x N. rewrite A1; [|intros J; apply N; right; exact J]. unfold s0. destruct (Nat.eq_dec x (dr i)) as [->|]; [exfalso; apply N; left; reflexivity|reflexivity]. }
        destruct (IH _ _ _ E2 N2) with (s := s) (vs := vs') as (s2 & A2 & Q2 & H2); [intros w I J; apply (NV w); apply in_or_app; auto|exact V2|].
        destruct (glue _ _ _ _ _ A1' A2 D) as (s' & A & L1 & L2). exists s'. split; [exact A|].
        assert (K1 : forall w, In w (flat_map form_vars f1) -> s1 w = s' w).
        { intros w I. apply L1. intros J. apply S1 in I. destruct I as [<-|I]; [apply (D (dr i)); [left; reflexivity|exact J]|].
          apply in_app_or in I. destruct I as [I|I]; [apply (NV w); apply in_or_app; auto|apply (D w); [right; exact I|exact J]]. }
        assert (K2 : forall w, In w (flat_map expr_vars es2 ++ flat_map form_vars f2) -> s2 w = s' w).
        { intros w I. apply L2. intros J. apply S2 in I. apply in_app_or in I. destruct I as [I|I]; [apply (NV w); apply in_or_app; auto|apply (D w); auto]. }
        split.
        + constructor; [|eapply values_local; [|exact Q2]; intros; apply K2; apply in_or_app; auto].
          cbn. rewrite <- S0, <- L1, A1; [reflexivity|exact N0|]. intros J. apply (D (dr i)); [left; reflexivity|exact J].
        + intros f0 I. apply in_app_or in I. destruct I as [I|I].
          * eapply form_local; [|apply H1; exact I]. intros w J. apply K1. apply in_flat_map. eauto.
          * eapply form_local; [|apply H2; exact I]. intros w J. apply K2. apply in_or_app. right. apply in_flat_map. eauto.
    Qed.
    Lemma no_destruct : forall l n es fs, destruct_args dr dt l n = (es, fs) -> has_destruct l = false -> fs = [].
    Proof.
      induction l as [|[e|i f args] l IH]; intros n es fs Q N; cbn [destruct_args has_destruct existsb] in *.
      - injection Q as <- <-. reflexivity.
      - destruct (destruct_args dr dt l n) as [es2 f2] eqn:E2. injection Q as <- <-. eapply IH; eauto.
      - discriminate N.
    Qed.

    Lemma desugar_sound : forall f s, holds s (desugar ct dr dt f) -> sholds B g X M s f.
    Proof.
      induction f as [p l|p l|e|x p|l IH|l IH] using sform_ind2; intros s H; cbn [desugar] in H.
      - destruct (destruct_args dr dt l 0) as [es fs] eqn:Ed. assert (K : holds s (FAtom p es) /\ forall f, In f fs -> holds s f).
        { destruct (has_destruct l) eqn:Hd; [rewrite holds_conj in H; split; [apply H; left; reflexivity|intros f I; apply H; right; exact I]|].
          split; [exact H|]. rewrite (no_destruct _ _ _ _ Ed Hd). intros f []. }
        destruct K as ((vs & V & T) & Hf). exists vs. split; [|exact T]. eapply destruct_sound; eauto.
      - exact H.
      - exact H.
      - destruct p as [e|i f args]; cbn [desugar_case] in H.
        + cbn in H. destruct H as (a & b & -> & Hb & <-). exact Hb.
        + destruct (pat_root (ct x) x f args 0) as [fs n1] eqn:Er. cbn [fst] in H. rewrite holds_conj in H. cbn [sholds]. eapply root_sound; eauto.
      - apply sholds_conj. rewrite holds_conj in H. intros f I. rewrite Forall_forall in IH. apply IH; [exact I|]. apply H. apply in_map. exact I.
      - apply sholds_disj. apply holds_disj in H. destruct H as (f & I & H). apply in_map_iff in I. destruct I as (f' & <- & I). exists f'. split; [exact I|].
        rewrite Forall_forall in IH. apply IH; auto.
    Qed.
    Lemma desugar_shape : forall f v, In v (form_vars (desugar ct dr dt f)) -> In v (sform_vars f ++ temps ct dr dt f).
    Proof.
      assert (FM : forall l, Forall (fun f => forall v, In v (form_vars (desugar ct dr dt f)) -> In v (sform_vars f ++ temps ct dr dt f)) l ->
        forall v, In v (flat_map form_vars (map (desugar ct dr dt) l)) -> In v (flat_map sform_vars l ++ flat_map (temps ct dr dt) l)).
      { intros l F v I. apply in_flat_map in I. destruct I as (y & I & J). apply in_map_iff in I. destruct I as (f & <- & I). rewrite Forall_forall in F.
        specialize (F _ I _ J). apply in_app_or in F. apply in_or_app. destruct F; [left|right]; apply in_flat_map; eauto. }
      induction f as [p l|p l|e|x p|l IH|l IH] using sform_ind2; intros v I; cbn [desugar] in I.
      - destruct (destruct_args dr dt l 0) as [es fs] eqn:Ed. apply (destruct_shape _ _ _ _ Ed). destruct (has_destruct l); [exact I|apply in_or_app; left; exact I].
      - apply in_or_app. left. exact I.
      - apply in_or_app. left. exact I.
      - destruct p as [e|i f args]; cbn [desugar_case] in I; [apply in_or_app; left; exact I|].
        destruct (pat_root (ct x) x f args 0) as [fs n1] eqn:Er. destruct (root_shape _ _ _ _ _ _ _ Er) as [_ S1]. exact (S1 v I).
      - exact (FM l IH v I).
      - exact (FM l IH v I).
    Qed.
    Lemma desugar_complete : forall f, apart ct dr dt f -> (forall v, In v (temps ct dr dt f) -> ~ In v (sform_vars f)) ->
      forall s, sholds B g X M s f -> exists s', agree_off (temps ct dr dt f) s s' /\ holds s' (desugar ct dr dt f).
    Proof.
      induction f as [p l|p l|e|x p|l IH|l IH] using sform_ind2; intros A NV s H.
      - destruct H as (vs & V & T). cbn [desugar apart temps sform_vars] in *. destruct (destruct_args dr dt l 0) as [es fs] eqn:Ed.
        destruct (destruct_complete _ _ _ _ Ed A NV s vs V) as (s' & A' & Q & Hf). exists s'. split; [exact A'|].
        assert (HA : holds s' (FAtom p es)) by (exists vs; auto). destruct (has_destruct l); [|exact HA].
        apply holds_conj. intros f [<-|I]; auto.
      - exists s. split; [intros x _; reflexivity|exact H].
      - exists s. split; [intros x _; reflexivity|exact H].
      - cbn [sholds desugar apart temps sform_vars] in *. destruct p as [e|i f args]; cbn [desugar_case].
        + exists s. split; [intros y _; reflexivity|]. cbn. exists (s x), (s x). auto.
        + destruct (pat_root (ct x) x f args 0) as [fs n1] eqn:Er. cbn [fst].
          destruct (root_complete (ct x) x f args 0 fs n1 Er A NV i s H) as (s' & A' & Hf). exists s'. split; [exact A'|]. apply holds_conj. exact Hf.
      - rewrite sholds_conj in H. cbn [desugar temps sform_vars] in *.
        assert (K : exists s', agree_off (flat_map (temps ct dr dt) l) s s' /\ forall f, In f l -> holds s' (desugar ct dr dt f)).
        { clear - IH A NV H. induction IH as [|f l Hf IH IH2]; [exists s; split; [intros x _; reflexivity|intros f []]|].
          cbn [apart] in A. destruct A as (Af & D & Al). cbn [flat_map] in *.
          destruct (Hf Af) with (s := s) as (s1 & A1 & H1). { intros w I J. apply (NV w); apply in_or_app; auto. } { apply H. left. reflexivity. }
          destruct IH2 as (s2 & A2 & H2). { exact Al. } { intros w I J. apply (NV w); apply in_or_app; auto. } { intros f' I. apply H. right. exact I. }
          destruct (glue _ _ _ _ _ A1 A2 D) as (s' & A' & L1 & L2). exists s'. split; [exact A'|]. intros f' [<-|I].
          - eapply form_local; [|exact H1]. intros w J. apply L1. intros J2. apply desugar_shape in J. apply in_app_or in J.
            destruct J as [J|J]; [apply (NV w); apply in_or_app; auto|apply (D w); auto].
          - eapply form_local; [|apply H2; exact I]. intros w J. apply L2. intros J2. apply desugar_shape in J. apply in_app_or in J.
            destruct J as [J|J]; [apply (NV w); apply in_or_app; [left; exact J2|right; apply in_flat_map; eauto]|apply (D w); [exact J2|apply in_flat_map; eauto]]. }
        destruct K as (s' & A' & K). exists s'. split; [exact A'|]. apply holds_conj. intros f I. apply in_map_iff in I. destruct I as (f' & <- & I). auto.
      - apply sholds_disj in H. destruct H as (f & I & H). cbn [desugar temps sform_vars] in *. rewrite Forall_forall in IH.
        assert (Af : apart ct dr dt f). { clear - A I. cbn [apart] in A. induction l as [|h l IH]; [destruct I|]. destruct A as [A1 A2]. destruct I as [<-|I]; auto. }
        destruct (IH f I Af) with (s := s) as (s' & A' & H'); [|exact H|]. { intros w J K. apply (NV w); apply in_flat_map; eauto. }
        exists s'. split. { intros x N. apply A'. intros J. apply N. apply in_flat_map. eauto. }
        apply holds_disj. exists (desugar ct dr dt f). split; [apply in_map; exact I|exact H'].
    Qed.
  End Names.
End Facts.

(** C72: the formula without patterns holds for some values of the temporaries exactly if
    the formula with the patterns does. *)
Theorem C72_formula : forall B g X M ct dr dt f s, apart ct dr dt f -> (forall v, In v (temps ct dr dt f) -> ~ In v (sform_vars f)) ->
  (sholds B g X M s f <-> exists s', agree_off (temps ct dr dt f) s s' /\ fholds B g X M s' (desugar ct dr dt f)).
Proof.
  intros B g X M ct dr dt f s A NV. split; [apply desugar_complete; auto|]. intros (s' & A' & H). apply desugar_sound in H.
  eapply sholds_local; [|exact H]. intros v I. apply A'. intros J. apply (NV v); auto.
Qed.
Print Assumptions C72_formula.

(** Whatever the temporaries are, nothing is matched that does not match. *)
Theorem C72_sound : forall B g X M ct dr dt r p t, front_consequence B g X M (desugar_rule ct dr dt r) p t -> sconsequence B g X M r p t.
Proof.
  intros B g X M ct dr dt [[q l] b] p t (s & a & H & I & -> & V). unfold desugar_rule in *. cbn [sr_head sr_body] in *.
  destruct (destruct_args dr dt l 0) as [es fs] eqn:Ed. cbn [fr_head fr_body fhead_atoms] in *. destruct I as [<-|[]]. cbn [fst snd] in *.
  assert (K : fholds B g X M s (desugar ct dr dt b) /\ forall f, In f fs -> fholds B g X M s f).
  { destruct (has_destruct l) eqn:Hd; [rewrite holds_conj in H; split; [apply H; left; reflexivity|intros f I; apply H; right; exact I]|].
    split; [exact H|]. rewrite (no_destruct _ _ _ _ _ _ Ed Hd). intros f []. }
  destruct K as [K1 K2]. exists s. split; [eapply desugar_sound; eauto|]. split; [reflexivity|]. cbn [snd]. eapply destruct_sound; eauto.
Qed.
Print Assumptions C72_sound.
(** C72: a rule without patterns adds exactly the facts that the rule with patterns does. *)
Theorem C72_rule : forall B g X M ct dr dt r p t, rule_apart ct dr dt r ->
  (front_consequence B g X M (desugar_rule ct dr dt r) p t <-> sconsequence B g X M r p t).
Proof.
  intros B g X M ct dr dt r p t RA. split; [apply C72_sound|]. destruct r as [[q l] b]. destruct RA as (Ab & ND & D & NV). cbn [sr_head sr_body snd] in *.
  intros (s & H & -> & V). unfold desugar_rule. cbn [sr_head sr_body fst snd] in *. destruct (destruct_args dr dt l 0) as [es fs] eqn:Ed.
  destruct (desugar_complete B g X M ct dr dt b Ab) with (s := s) as (s1 & A1 & H1). { intros v I J. apply (NV v); apply in_or_app; auto. } { exact H. }
  destruct (destruct_complete B g X M ct dr dt l 0 es fs Ed ND) with (s := s) (vs := t) as (s2 & A2 & Q2 & H2). { intros v I J. apply (NV v); apply in_or_app; auto. } { exact V. }
  destruct (glue _ _ _ _ _ A1 A2 D) as (s' & A & L1 & L2). exists s', (q, es). cbn [fr_body fr_head fhead_atoms fst snd].
  assert (S2 := destruct_shape ct dr dt l 0 es fs Ed).
  assert (K2 : forall w, In w (flat_map expr_vars es ++ flat_map form_vars fs) -> s2 w = s' w).
  { intros w I. apply L2. intros J. apply S2 in I. apply in_app_or in I. destruct I as [I|I]; [apply (NV w); apply in_or_app; auto|apply (D w); auto]. }
  assert (HB : fholds B g X M s' (desugar ct dr dt b)).
  { eapply form_local; [|exact H1]. intros w J. apply L1. intros J2. apply desugar_shape in J. apply in_app_or in J. destruct J as [J|J]; [apply (NV w); apply in_or_app; auto|apply (D w); auto]. }
  split; [|split; [left; reflexivity|split; [reflexivity|]]].
  - destruct (has_destruct l); [|exact HB]. apply holds_conj. intros f [<-|I]; [exact HB|]. eapply form_local; [|apply H2; exact I]. intros w J. apply K2. apply in_or_app. right. apply in_flat_map. eauto.
  - eapply values_local; [|exact Q2]. intros w J. apply K2. apply in_or_app. auto.
Qed.
Print Assumptions C72_rule.

(** ** Examples *)
(** The variable of rules is [n], the temporaries are far from it. *)
Definition ex_ct (x : var) (n : nat) : var := 100 + 30 * x + n.
Definition ex_dr (l : nat) : var := 500 + l.
Definition ex_dt (l n : nat) : var := 600 + 30 * l + n.
(** Relations: 1 is the argument, 2 is [Pair], 3 is [A], 4 is [C]. *)
Definition ex_db : interp := fun p t =>
  (p = 1 /\ t = [VEntity 7]) \/ (p = 2 /\ t = [VEntity 7; VEntity 8; VEntity 9]) \/ (p = 3 /\ t = [VEntity 8; I32 5]) \/ (p = 4 /\ t = [VEntity 9; I32 6]).
Definition ex_rule : srule :=
  mkSrule (5, [PExpr (EVar 1); PObj 3 4 [PExpr (EVar 2)]])
    (SConj [SAtom 1 [PExpr (EVar 0)]; SCase 0 (PObj 0 2 [PObj 0 3 [PExpr (EVar 1)]; PExpr (EVar 3)]); SDisj [SAtom 3 [PExpr EWild; PExpr (EVar 1)]; SAtom 1 [PObj 9 2 [PExpr EWild; PObj 10 3 [PExpr (EVar 1)]]]]; SAtom 4 [PExpr EWild; PExpr (EVar 2)]]).
Ltac nd := repeat (constructor; [cbn; lia|]); constructor.
Example ex_apart : rule_apart ex_ct ex_dr ex_dt ex_rule.
Proof.
  split; [|split; [|split]].
  - cbn. repeat split; try (nd; fail); intros v; cbn; unfold ex_ct, ex_dr, ex_dt; cbn; lia.
  - cbn. nd.
  - intros v. cbn. unfold ex_ct, ex_dr, ex_dt. cbn. lia.
  - intros v. cbn. unfold ex_ct, ex_dr, ex_dt. cbn. lia.
Qed.
Example ex_consequence : forall B g, (forall p, g_foreign g p = false) -> sconsequence B g ex_db ex_db ex_rule 5 [I32 5; VEntity 9].
Proof.
  intros B g NF. exists (fun x => match x with 0 => VEntity 7 | 1 => I32 5 | 2 => I32 6 | _ => VEntity 9 end).
  split; [|split; [reflexivity|]].
  - unfold ex_rule. cbn [sr_body]. rewrite sholds_conj. intros f I. cbn [In] in I. destruct I as [<-|[<-|[<-|[<-|[]]]]].
    + exists [VEntity 7]. split; [repeat constructor|]. unfold tuples. rewrite NF. left. auto.
    + cbn [sholds]. rewrite matches_obj. exists [VEntity 8; VEntity 9]. split; [unfold tuples; rewrite NF; right; left; auto|].
      constructor; [rewrite matches_obj; exists [I32 5]; split; [unfold tuples; rewrite NF; right; right; left; auto|repeat constructor]|repeat constructor].
    + rewrite sholds_disj. eexists. split; [left; reflexivity|]. exists [VEntity 8; I32 5]. split; [repeat constructor|]. unfold tuples. rewrite NF. right; right; left; auto.
    + exists [VEntity 9; I32 6]. split; [repeat constructor|]. unfold tuples. rewrite NF. right; right; right; auto.
  - cbn [snd sr_head ex_rule]. constructor; [reflexivity|]. constructor; [|constructor]. rewrite matches_obj. exists [I32 6]. split; [unfold tuples; rewrite NF; right; right; right; auto|repeat constructor].
Qed.

(** Two cases of one variable in a conjunction share their temporaries: what matches both
    is not found. *)
Theorem C72_twice_refuted : exists r p t, forall B g ct dr dt, (forall p, g_foreign g p = false) ->
  sconsequence B g ex_db ex_db r p t /\ ~ front_consequence B g ex_db ex_db (desugar_rule ct dr dt r) p t.
Proof.
  exists (mkSrule (5, [PExpr (EVar 1); PExpr (EVar 2)])
    (SConj [SAtom 1 [PExpr (EVar 0)]; SCase 0 (PObj 0 2 [PObj 0 3 [PExpr (EVar 1)]; PExpr EWild]); SCase 0 (PObj 0 2 [PExpr EWild; PObj 0 4 [PExpr (EVar 2)]])])), 5, [I32 5; I32 6].
  intros B g ct dr dt NF. split.
  - exists (fun x => match x with 0 => VEntity 7 | 1 => I32 5 | 2 => I32 6 | _ => VEntity 9 end). split; [|split; [reflexivity|repeat constructor]].
    cbn [sr_body]. rewrite sholds_conj. intros f I. cbn [In] in I. destruct I as [<-|[<-|[<-|[]]]].
    + exists [VEntity 7]. split; [repeat constructor|]. unfold tuples. rewrite NF. left. auto.
    + cbn [sholds]. rewrite matches_obj. exists [VEntity 8; VEntity 9]. split; [unfold tuples; rewrite NF; right; left; auto|].
      constructor; [rewrite matches_obj; exists [I32 5]; split; [unfold tuples; rewrite NF; right; right; left; auto|repeat constructor]|repeat constructor].
    + cbn [sholds]. rewrite matches_obj. exists [VEntity 8; VEntity 9]. split; [unfold tuples; rewrite NF; right; left; auto|].
      constructor; [exact Logic.I|]. constructor; [rewrite matches_obj; exists [I32 6]; split; [unfold tuples; rewrite NF; right; right; right; auto|repeat constructor]|constructor].
  - intros (s & a & H & _). match type of H with fholds _ _ _ _ _ ?b => let b' := eval cbv in b in change b with b' in H end.
    rewrite holds_conj in H.
    assert (H1 := H _ (or_intror (or_introl eq_refl))). assert (H2 := H _ (or_intror (or_intror (or_introl eq_refl)))). clear H.
    rewrite holds_conj in H1, H2. cbn [In] in H1, H2.
    destruct (H1 _ (or_introl eq_refl)) as (v1 & V1 & T1). destruct (H2 _ (or_introl eq_refl)) as (v2 & V2 & T2).
    unfold tuples in T1, T2. rewrite NF in T1, T2.
    inversion V1 as [|? a1 ? l1 A1 L1]; subst. inversion V2 as [|? a2 ? l2 A2 L2]; subst. cbn in A1, A2. subst a1 a2.
    assert (E1 : s (ct 0 0) = VEntity 8) by (destruct T1 as [[Q _]|[[Q _]|[[_ Q]|[Q _]]]]; try discriminate Q; congruence).
    assert (E2 : s (ct 0 0) = VEntity 9) by (destruct T2 as [[Q _]|[[Q _]|[[Q _]|[_ Q]]]]; try discriminate Q; congruence).
    congruence.
Qed.
Print Assumptions C72_twice_refuted.
