(** C84: rules with tags (Tagged.v).  The specification gives tagged derivations of
    formulas; it knows nothing of the rewriting. *)
From Coq Require Import List ZArith Bool Arith String.
From Coq Require Import List.
From Verif Require Import Value Prov ProvInst Back Eval BackSem TypeSet Front FrontSem FrontFacts Cast Tagged.
Import ListNotations.
Local Arguments bin_value : simpl never.
Local Arguments un_value : simpl never.

(** ** Specification *)
(** The floats that values stand for as tags. *)
Inductive stands_for (c : conv) : value -> Z -> Prop :=
| SfI8 : forall z, stands_for c (I8 z) (cv_float c true z)
| SfI32 : forall z, stands_for c (I32 z) (cv_float c true z)
| SfUSize : forall z, stands_for c (USize z) (cv_float c true z)
| SfF32 : forall f, stands_for c (F32 f) (cv_round c true f)
| SfChar : forall a f, cv_parse c true (cv_char c a) = Some f -> stands_for c (VChar a) f
| SfString : forall s f, cv_parse c true s = Some f -> stands_for c (VString s) f.

Section Derivations.
  Variables (P : Prov) (E : renv).
  (** The tagged tuples of the relations, and the tags of the absence of tuples that fit a
      pattern. *)
  Variable T : pred -> list value -> ptag P -> Prop.
  Variable N : pred -> list (option value) -> ptag P -> Prop.
  (** One way to satisfy a formula under a substitution, with its tag: the product over
      conjunctions; implications have none. *)
  Inductive derives (s : subst) : formula -> ptag P -> Prop :=
  | DAtom : forall p l vs t, have_values E s l vs -> T p vs t -> derives s (FAtom p l) t
  | DNeg : forall p l ws t, Forall2 (arg_pattern E s) l ws -> N p ws t -> derives s (FNeg p l) t
  | DCons : forall e, constraint_holds E s e -> derives s (FCons e) (pone P)
  | DConj : forall l t, derives_all s l t -> derives s (FConj l) t
  | DDisj : forall l f t, In f l -> derives s f t -> derives s (FDisj l) t
  with derives_all (s : subst) : list formula -> ptag P -> Prop :=
  | DNil : derives_all s [] (pone P)
  | DNext : forall f l t u, derives s f t -> derives_all s l u -> derives_all s (f :: l) (pmult P t u).
  (** The tagged tuples that a rule with an atom as its head derives. *)
  Definition rule_derives (r : frule) (q : pred) (ts : list value) (t : ptag P) : Prop :=
    exists s l, fr_head r = FHAtom (q, l) /\ derives s (fr_body r) t /\ have_values E s l ts.
End Derivations.
Scheme derives_mind := Minimality for derives Sort Prop
  with derives_all_mind := Minimality for derives_all Sort Prop.
Combined Scheme derives_both from derives_mind, derives_all_mind.

(** ** The predicate of a tag *)
Theorem C84_value : forall c v f, tag_value c v = EOk f <-> stands_for c v f.
Proof.
  intros c v f. split.
  - destruct v; cbn; try discriminate; try (intros H; injection H as <-; constructor).
    all: cbv [tag_value cast to_number kind_of some_or]; match goal with |- context [cv_parse ?x ?y ?z] => destruct (cv_parse x y z) eqn:Q end; cbn; [|discriminate]; intros H; injection H as <-; constructor; auto.
  - intros H. inversion H; subst; try reflexivity; cbv [tag_value cast to_number kind_of some_or]; rewrite H0; reflexivity.
Qed.
(** The types whose values have no tag predicate that works. *)
Definition no_tag_cast (t : vtype) : bool :=
  match t with TI8 | TI32 | TUSize | TF32 | TChar | TString => false | _ => true end.
Theorem C84_panics : forall c v, tag_value c v = EPanic <-> no_tag_cast (val_type v) = true.
Proof.
  intros c v. destruct v; cbn; try (split; [discriminate|discriminate]); try tauto;
  cbv [tag_value cast to_number kind_of some_or]; match goal with |- context [cv_parse ?x ?y ?z] => destruct (cv_parse x y z) end; cbn; split; discriminate.
Qed.
(** Which variables the analysis accepts as tags: numbers, booleans, characters and strings. *)
Theorem C84_accepted : forall s t, target_tag_type s = Some t <->
  t = ts_default s /\ (forall b, s = SBase b -> is_numeric b = true \/ b = TBool \/ b = TChar \/ b = TStr \/ b = TString).
Proof.
  intros s t. unfold target_tag_type. destruct s as [b| | | | | | | |];
  try (cbn; split; [intros H; injection H as <-; split; auto; discriminate|intros [-> _]; auto]).
  destruct b; cbn;
  (split; [intros H; try discriminate H; injection H as <-; split; auto; intros b' Hb; injection Hb as <-; cbn; auto 6
          |intros [-> H]; auto; specialize (H _ eq_refl); cbn in H; destruct H as [H|[H|[H|[H|H]]]]; discriminate]).
Qed.
(** Accepted variables whose values panic when the predicate is evaluated. *)
Theorem C84_accepted_refuted : exists s t, target_tag_type s = Some t /\ forall c v, val_type v = t -> tag_value c v = EPanic.
Proof. exists (SBase TF64), TF64. split; [reflexivity|]. intros c v H. apply C84_panics. rewrite H. reflexivity. Qed.
Definition C84_conv : conv := mkConv (fun _ z => z) (fun _ z => z) (fun _ _ => None) (fun _ => ""%string) (fun _ => ""%string) (fun _ => None) (fun _ => 0%Z).
Theorem C84_accepted_panics : forall s t, target_tag_type s = Some t ->
  (no_tag_cast t = true <-> forall c v, val_type v = t -> tag_value c v = EPanic).
Proof.
  intros s t A. split.
  - intros H c v V. apply C84_panics. rewrite V. auto.
  - intros H. destruct t; auto; exfalso;
    [specialize (H C84_conv (I8 0%Z) eq_refl)
    |specialize (H C84_conv (I32 0%Z) eq_refl)
    |specialize (H C84_conv (USize 0%Z) eq_refl)
    |specialize (H C84_conv (F32 0%Z) eq_refl)
    |specialize (H C84_conv (VChar 0%Z) eq_refl)
    |specialize (H C84_conv (VString ""%string) eq_refl)];
    discriminate H.
Qed.

(** ** The rule *)
Section Rule.
  Variables (P : Prov) (E : renv) (c : conv) (tagging : Z -> ptag P).
  Variable T : pred -> list value -> ptag P -> Prop.
  Variable N : pred -> list (option value) -> ptag P -> Prop.
  Notation der := (derives P E T N).
  Notation ders := (derives_all P E T N).

  Lemma constraint_local : forall s s' e, (forall v, In v (expr_vars e) -> s v = s' v) -> constraint_holds E s e -> constraint_holds E s' e.
  Proof.
    intros s s' e V. assert (G : forall r, has_value E s e r -> has_value E s' e r) by (apply value_local; auto).
    destruct e; cbn [constraint_holds]; auto.
    - destruct (cop_of op); auto. cbn in V. intros (x & y & H1 & H2 & H3). exists x, y.
      split; [|split; [|exact H3]]; [eapply value_local; [|exact H1]|eapply value_local; [|exact H2]]; intros; apply V; rewrite in_app_iff; auto.
    - destruct op; auto. apply value_local. exact V.
  Qed.
  Lemma patterns_local : forall s s' l ws, (forall v, In v (flat_map expr_vars l) -> s v = s' v) -> Forall2 (arg_pattern E s) l ws -> Forall2 (arg_pattern E s') l ws.
  Proof.
    intros s s' l ws V H. induction H as [|e w l ws H1 H IH]; constructor.
    - destruct w as [x|]; cbn in *; auto. destruct H1. split; auto. eapply value_local; [|eauto]. intros; apply V; rewrite in_app_iff; auto.
    - apply IH. intros; apply V; cbn; rewrite in_app_iff; auto.
  Qed.
  Lemma derives_local : forall s s',
    (forall f t, der s f t -> (forall v, In v (form_vars f) -> s v = s' v) -> der s' f t) /\
    (forall l t, ders s l t -> (forall v, In v (flat_map form_vars l) -> s v = s' v) -> ders s' l t).
  Proof.
    intros s s'. apply derives_both; cbn.
    - intros p l vs t H K V. eapply DAtom; eauto. eapply values_local; eauto.
    - intros p l ws t H K V. eapply DNeg; eauto. eapply patterns_local; eauto.
    - intros e H V. apply DCons. eapply constraint_local; eauto.
    - intros l t _ IH V. apply DConj. auto.
    - intros l f t I _ IH V. apply DDisj with f; auto. apply IH. intros v J. apply V. apply in_flat_map. eauto.
    - intros _. constructor.
    - intros f l t u _ IH _ IH' V. constructor; [apply IH|apply IH']; intros; apply V; rewrite in_app_iff; auto.
  Qed.

  Hypothesis one_l : forall t, pmult P (pone P) t = t.
  Hypothesis one_r : forall t, pmult P t (pone P) = t.

  (** A rule with a tag derives its head with the product of the float that the tag stands
      for and the tag of the body. *)
  Theorem C84_rule_partial : forall p v tag r r' q ts t,
    tag_rule p v tag r = Some r' ->
    ~ In v (expr_vars tag) -> ~ In v (form_vars (fr_body r)) ->
    (forall q' l, fr_head r = FHAtom (q', l) -> ~ In v (flat_map expr_vars l)) ->
    (forall vs u, T p vs u <-> exists x f, vs = [x] /\ tag_value c x = EOk f /\ u = tagging f) ->
    (rule_derives P E T N r' q ts t <->
     exists s l x f u, fr_head r = FHAtom (q, l) /\ have_values E s l ts /\ der s (fr_body r) u /\
       has_value E s tag x /\ stands_for c x f /\ t = pmult P (tagging f) u).
  Proof.
    intros p v tag [h b] r' q ts t R Ft Fb Fh Tp. cbn in *. unfold tag_rule in R. cbn in R.
    destruct h as [a| |]; try discriminate. injection R as <-. unfold rule_derives. cbn [fr_head fr_body]. split.
    - intros (s & l & Hh & D & Hv). inversion D as [| | |l0 t0 A|]; subst; clear D.
      inversion A as [|f0 l0 t1 u1 D1 A1]; subst; clear A. inversion A1 as [|f0 l0 t2 u2 D2 A2]; subst; clear A1. inversion A2; subst; clear A2.
      inversion D1 as [| | |l0 t0 B|]; subst; clear D1.
      inversion B as [|f0 l0 t3 u3 C1 B1]; subst; clear B. inversion B1 as [|f0 l0 t4 u4 C2 B2]; subst; clear B1. inversion B2; subst; clear B2.
      inversion C1 as [| |e K| |]; subst; clear C1. inversion C2 as [p0 l0 vs t0 W Q| | | |]; subst; clear C2.
      cbn in K. destruct K as (x & y & -> & Hy & Exy). cbn in Exy. subst y.
      inversion W as [|e0 w l0 ws W1 W2]; subst. inversion W2; subst. cbn in W1. subst w.
      apply Tp in Q. destruct Q as (x & f & Hx & Hf & ->). injection Hx as <-.
      exists s, l, (s v), f, t2. rewrite !one_l, !one_r. repeat split; auto. apply C84_value; auto.
    - intros (s & l & x & f & u & Hh & Hv & D & Hx & Hf & ->).
      set (s' := fun w => if Nat.eqb w v then x else s w).
      assert (SV : s' v = x) by (unfold s'; rewrite Nat.eqb_refl; auto).
      assert (SO : forall w, w <> v -> s w = s' w) by (intros w Hw; unfold s'; apply Nat.eqb_neq in Hw; rewrite Hw; auto).
      assert (L : forall vs : list var, ~ In v vs -> forall w, In w vs -> s w = s' w) by (intros vs Hn w Hw; apply SO; intros ->; auto).
      exists s', l. split; [auto|]. split.
      + replace (pmult P (tagging f) u) with (pmult P (pmult P (pone P) (pmult P (tagging f) (pone P))) (pmult P u (pone P))) by (rewrite !one_l, !one_r; auto).
        apply DConj. constructor; [|constructor; [|constructor]].
        * apply DConj. constructor; [|constructor; [|constructor]].
          -- apply DCons. cbn. exists x, x. repeat split; auto. eapply value_local; [apply L; eauto|auto].
          -- apply DAtom with [x]; [constructor; [cbn; auto|constructor]|]. apply Tp. exists x, f. repeat split; auto. apply C84_value; auto.
        * eapply (proj1 (derives_local s s')); eauto.
      + eapply values_local; [|exact Hv]. apply L. injection Hh as ->. eapply Fh; reflexivity.
  Qed.
  (** A rule with the attribute multiplies its body by a tag of the fact of its predicate. *)
  Theorem C84_attr : forall p r r' q ts t,
    tag_attr_rule p r = Some r' ->
    (rule_derives P E T N r' q ts t <->
     exists s l e u, fr_head r = FHAtom (q, l) /\ have_values E s l ts /\ der s (fr_body r) u /\ T p [] e /\ t = pmult P e u).
  Proof.
    intros p [h b] r' q ts t R. unfold tag_attr_rule in R. cbn in R. destruct h as [a| |]; try discriminate. injection R as <-.
    unfold rule_derives. cbn [fr_head fr_body]. split.
    - intros (s & l & Hh & D & Hv). inversion D as [| | |l0 t0 A|]; subst; clear D.
      inversion A as [|f0 l0 t1 u1 D1 A1]; subst; clear A. inversion A1 as [|f0 l0 t2 u2 D2 A2]; subst; clear A1. inversion A2; subst; clear A2.
      inversion D1 as [p0 l0 vs t0 W Q| | | |]; subst; clear D1. inversion W; subst.
      exists s, l, t1, t2. rewrite one_r. repeat split; auto.
    - intros (s & l & e & u & Hh & Hv & D & Q & ->). exists s, l. split; [auto|]. split; [|auto].
      replace (pmult P e u) with (pmult P e (pmult P u (pone P))) by (rewrite one_r; auto).
      apply DConj. constructor; [|constructor; [exact D|constructor]]. apply DAtom with []; auto. constructor.
  Qed.
End Rule.
(** Rules whose heads are not atoms cannot have tags. *)
Theorem C84_head : forall p v tag r, (tag_rule p v tag r = None <-> forall a, fr_head r <> FHAtom a) /\ (tag_attr_rule p r = None <-> forall a, fr_head r <> FHAtom a).
Proof.
  intros p v tag [h b]. unfold tag_rule, tag_attr_rule. cbn. destruct h as [a| |]; split; split; try discriminate; auto; intros H; exfalso; apply (H a); auto.
Qed.

(** ** Examples *)
(** [rel x :: h(x) = b(x)] with [b(3)] of tag 2, in the natural numbers. *)
Definition C84_T (p : pred) (vs : list value) (u : ptag nat_prov) : Prop :=
  if Nat.eqb p 9 then exists x f, vs = [x] /\ tag_value C84_conv x = EOk f /\ u = Z.to_nat f
  else p = 1 /\ vs = [I32 3%Z] /\ u = 2.
Definition C84_env : renv := Verif.Eval.mkEnv (fun _ _ _ => None) (fun z => z) (fun _ _ _ => ENone) (fun _ _ => ENone) (fun _ _ => ENone) (fun _ _ => 0%Z).
Definition C84_r : frule := mkFrule (FHAtom (0, [EVar 0])) (FAtom 1 [EVar 0]).
Example C84_rule_example : exists r', tag_rule 9 5 (EVar 0) C84_r = Some r' /\ rule_derives nat_prov C84_env C84_T (fun _ _ _ => False) r' 0 [I32 3%Z] 6.
Proof.
  eexists. split; [reflexivity|].
  eapply (@C84_rule_partial nat_prov C84_env C84_conv Z.to_nat C84_T (fun _ _ _ => False)) with (p := 9) (v := 5) (tag := EVar 0) (r := C84_r).
  - apply Nat.mul_1_l.
  - apply Nat.mul_1_r.
  - reflexivity.
  - cbn. intros [H|[]]; discriminate.
  - cbn. intros [H|[]]; discriminate.
  - cbn. intros q' l H. injection H as <- <-. cbn. intros [H|[]]; discriminate.
  - intros vs u. unfold C84_T. cbn. tauto.
  - exists (fun _ => I32 3%Z), [EVar 0], (I32 3%Z), 3%Z, 2. repeat split.
    + constructor; [reflexivity|constructor].
    + apply DAtom with [I32 3%Z]; [constructor; [reflexivity|constructor]|]. cbn. auto.
    + apply (SfI32 C84_conv 3%Z).
Qed.
Example C84_accepted_example : target_tag_type SUnsigned = Some TU32 /\ tag_value C84_conv (U32 1%Z) = EPanic /\ target_tag_type (SBase TBool) = Some TBool
  /\ tag_value C84_conv (VBool true) = EPanic /\ target_tag_type (SBase TSymbol) = None /\ tag_value C84_conv (F32 5%Z) = EOk 5%Z.
Proof. repeat split. Qed.
Example C84_head_example : tag_rule 9 5 (EVar 0) (mkFrule (FHConj [(0, [EVar 0]); (2, [EVar 0])]) (FAtom 1 [EVar 0])) = None.
Proof. reflexivity. Qed.
Example C84_attr_example : exists r', tag_attr_rule 8 C84_r = Some r' /\
  rule_derives nat_prov C84_env (fun p vs u => (p = 8 /\ vs = [] /\ u = 5) \/ C84_T p vs u) (fun _ _ _ => False) r' 0 [I32 3%Z] 10.
Proof.
  eexists. split; [reflexivity|]. apply C84_attr with (p := 8) (r := C84_r); [apply Nat.mul_1_r|reflexivity|].
  exists (fun _ => I32 3%Z), [EVar 0], 5, 2. repeat split; auto.
  - constructor; [reflexivity|constructor].
  - apply DAtom with [I32 3%Z]; [constructor; [reflexivity|constructor]|]. right. cbn. auto.
Qed.

Print Assumptions C84_value.
Print Assumptions C84_panics.
Print Assumptions C84_accepted.
Print Assumptions C84_accepted_refuted.
Print Assumptions C84_accepted_panics.
Print Assumptions C84_rule_partial.
Print Assumptions C84_attr.
Print Assumptions C84_head.
