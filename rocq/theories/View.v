(** Tag-weighted coverage between sets of elements.

    A [view] maps tags to values of an ordered semiring-like structure in which
    the provenance operations become join and product.  Two views matter: the
    trivial one (all tags are the same), under which coverage is inclusion of
    tuple sets, and the identity view of lattice provenances.  This file is
    specification vocabulary and proof infrastructure only; it models no code. *)
From Coq Require Import List Bool.
From Verif Require Import Order Value Prov.
Import ListNotations.
Set Implicit Arguments.

Record view (P : Prov) := {
  vS : Type;
  vle : vS -> vS -> Prop;
  vadd : vS -> vS -> vS;
  vzero : vS;
  vmul : vS -> vS -> vS;
  vh : ptag P -> vS;
  vle_refl : forall a, vle a a;
  vle_trans : forall a b c, vle a b -> vle b c -> vle a c;
  vadd_l : forall a b, vle a (vadd a b);
  vadd_r : forall a b, vle b (vadd a b);
  vadd_lub : forall a b c, vle a c -> vle b c -> vle (vadd a b) c;
  vzero_le : forall a, vle vzero a;
  vmul_mono : forall a a' b b', vle a a' -> vle b b' -> vle (vmul a b) (vmul a' b');
  vmul_add_l : forall a b c, vle (vmul (vadd a b) c) (vadd (vmul a c) (vmul b c));
  vmul_add_r : forall a b c, vle (vmul a (vadd b c)) (vadd (vmul a b) (vmul a c));
  vmul_zero_l : forall a, vle (vmul vzero a) vzero;
  vmul_zero_r : forall a, vle (vmul a vzero) vzero;
  vh_add_le : forall a b, vle (vh (padd P a b)) (vadd (vh a) (vh b));
  vh_add_ge : forall a b, vle (vadd (vh a) (vh b)) (vh (padd P a b));
  vh_mul_le : forall a b, vle (vh (pmult P a b)) (vmul (vh a) (vh b));
  vh_mul_ge : forall a b, vle (vmul (vh a) (vh b)) (vh (pmult P a b))
}.

Section Cov.
  Variable P : Prov.
  Variable V : view P.
  Notation elem := (elem P).
  Notation h := (vh V).
  Notation le := (vle V).

  (** Saturation is only reported when the new tag adds nothing. *)
  Definition sat_sound : Prop :=
    forall o t, psat P o (padd P o t) = true -> le (h t) (h o).
  (** An unsaturated update dominates the old tag. *)
  Definition unsat_dom : Prop :=
    forall o t, psat P o (padd P o t) = false -> le (h o) (h t).
  (** Only worthless tags are discarded. *)
  Definition discard_sound : Prop := forall t, pdiscard P t = true -> le (h t) (vzero V).

  Definition vsum (l : list (ptag P)) : vS V := fold_right (fun g s => vadd V (h g) s) (vzero V) l.

  Definition cov (X : elem -> Prop) (t : tuple) (s : vS V) : Prop :=
    exists ts, Forall (fun g => X (t, g)) ts /\ le s (vsum ts).
  Definition covE (X : elem -> Prop) (e : elem) : Prop := cov X (fst e) (h (snd e)).
  Definition covers (X Y : elem -> Prop) : Prop := forall e, Y e -> covE X e.

  Lemma vsum_app : forall l m, le (vadd V (vsum l) (vsum m)) (vsum (l ++ m)).
  Proof.
    induction l; simpl; intros.
    - apply vadd_lub; [apply vzero_le | apply vle_refl].
    - apply vadd_lub; [apply vadd_lub|].
      + apply vadd_l.
      + eapply vle_trans; [|apply vadd_r]. eapply vle_trans; [|apply IHl]. apply vadd_l.
      + eapply vle_trans; [|apply vadd_r]. eapply vle_trans; [|apply IHl]. apply vadd_r.
  Qed.

  Lemma vsum_in : forall g l, In g l -> le (h g) (vsum l).
  Proof.
    induction l; simpl; [tauto|]. intros [->|I]; [apply vadd_l|].
    eapply vle_trans; [apply IHl; auto | apply vadd_r].
  Qed.

  Lemma vsum_lub : forall l s, (forall g, In g l -> le (h g) s) -> le (vsum l) s.
  Proof.
    induction l; simpl; intros; [apply vzero_le|]. apply vadd_lub; auto.
  Qed.

  Lemma cov_le : forall X t s s', le s s' -> cov X t s' -> cov X t s.
  Proof. intros X t s s' L (ts & F & L'). exists ts; split; auto. eapply vle_trans; eauto. Qed.

  Lemma cov_add : forall X t a b, cov X t a -> cov X t b -> cov X t (vadd V a b).
  Proof.
    intros X t a b (l & F & L) (m & G & M). exists (l ++ m). split; [apply Forall_app; auto|].
    eapply vle_trans; [|apply vsum_app]. apply vadd_lub.
    - eapply vle_trans; [apply L | apply vadd_l].
    - eapply vle_trans; [apply M | apply vadd_r].
  Qed.

  Lemma cov_zero : forall X t, cov X t (vzero V).
  Proof. intros. exists []. split; auto. apply vle_refl. Qed.

  Lemma cov_sum : forall X t l, (forall g, In g l -> cov X t (h g)) -> cov X t (vsum l).
  Proof.
    induction l; simpl; intros; [apply cov_zero|]. apply cov_add; auto.
  Qed.

  Lemma covE_in : forall (X : elem -> Prop) e, X e -> covE X e.
  Proof.
    intros X [t g] I. exists [g]. split; [repeat constructor; auto|]. simpl. apply vadd_l.
  Qed.

  Lemma covE_le : forall X t g g', le (h g) (h g') -> covE X (t, g') -> covE X (t, g).
  Proof. intros. eapply cov_le; eauto. Qed.

  Lemma covE_padd : forall X t a b, covE X (t, a) -> covE X (t, b) -> covE X (t, padd P a b).
  Proof.
    intros X t a b A B. eapply cov_le; [apply vh_add_le|]. apply cov_add; auto.
  Qed.

  Lemma covE_padd_l : forall X t a b, covE X (t, padd P a b) -> covE X (t, a).
  Proof.
    intros. eapply covE_le; eauto. eapply vle_trans; [|apply vh_add_ge]. apply vadd_l.
  Qed.
  Lemma covE_padd_r : forall X t a b, covE X (t, padd P a b) -> covE X (t, b).
  Proof.
    intros. eapply covE_le; eauto. eapply vle_trans; [|apply vh_add_ge]. apply vadd_r.
  Qed.

  Lemma cov_covers : forall (X Y : elem -> Prop) t s, covers X Y -> cov Y t s -> cov X t s.
  Proof.
    intros X Y t s C (ts & F & L). eapply cov_le; eauto. apply cov_sum. intros g I.
    rewrite Forall_forall in F. apply (C (t, g)); auto.
  Qed.

  Lemma covE_covers : forall (X Y : elem -> Prop) e, covers X Y -> covE Y e -> covE X e.
  Proof. intros. eapply cov_covers; eauto. Qed.

  Lemma covers_trans : forall (X Y Z : elem -> Prop), covers X Y -> covers Y Z -> covers X Z.
  Proof. intros X Y Z C D e I. eapply covE_covers; eauto. Qed.

  Lemma covers_incl : forall (X Y : elem -> Prop), (forall e, Y e -> X e) -> covers X Y.
  Proof. intros X Y I e H. apply covE_in; auto. Qed.

  Lemma covers_refl : forall X, covers X X.
  Proof. intros; apply covers_incl; auto. Qed.

  Lemma cov_mono : forall (X Y : elem -> Prop) t s, (forall e, X e -> Y e) -> cov X t s -> cov Y t s.
  Proof. intros. eapply cov_covers; eauto. apply covers_incl; auto. Qed.

  (** Products of covered elements. *)
  Lemma vsum_mul : forall l m, le (vmul V (vsum l) (vsum m))
    (vsum (flat_map (fun a => map (pmult P a) m) l)).
  Proof.
    induction l; simpl; intros; [apply vmul_zero_l|].
    eapply vle_trans; [apply vmul_add_l|]. eapply vle_trans; [|apply vsum_app].
    apply vadd_lub; [eapply vle_trans; [|apply vadd_l] | eapply vle_trans; [apply IHl|apply vadd_r]].
    clear. induction m; simpl; [apply vmul_zero_r|].
    eapply vle_trans; [apply vmul_add_r|]. apply vadd_lub.
    - eapply vle_trans; [apply vh_mul_ge | apply vadd_l].
    - eapply vle_trans; [apply IHm | apply vadd_r].
  Qed.

  Lemma cov_mul : forall (X Y Z : elem -> Prop) t u v a b,
    (forall g k, X (t, g) -> Y (u, k) -> Z (v, pmult P g k)) ->
    cov X t a -> cov Y u b -> cov Z v (vmul V a b).
  Proof.
    intros X Y Z t u v a b H (l & F & L) (m & G & M).
    exists (flat_map (fun a => map (pmult P a) m) l). split.
    - rewrite Forall_forall in *. intros x I. apply in_flat_map in I as (g & I & J).
      apply in_map_iff in J as (k & <- & J). auto.
    - eapply vle_trans; [|apply vsum_mul]. apply vmul_mono; auto.
  Qed.
End Cov.

(** The trivial view: every provenance has it.  Coverage is then inclusion of
    tuple sets. *)
Definition set_view (P : Prov) : view P.
Proof.
  refine {| vS := bool; vle := fun a b => a = true -> b = true; vadd := orb; vzero := false;
            vmul := andb; vh := fun _ => true |}; repeat intros [|]; simpl; auto; try congruence.
Defined.

Lemma set_view_sat : forall P, sat_sound (set_view P).
Proof. repeat intro; simpl; auto. Qed.
Lemma set_view_dom : forall P, unsat_dom (set_view P).
Proof. repeat intro; simpl; auto. Qed.

Lemma set_view_cov : forall P (X : elem P -> Prop) e,
  covE (set_view P) X e <-> exists g, X (fst e, g).
Proof.
  intros P X [t g]. unfold covE, cov; simpl. split.
  - intros ([|k ts] & F & L); simpl in L; [specialize (L eq_refl); discriminate|].
    inversion F; subst. eauto.
  - intros (k & I). exists [k]. split; auto.
Qed.
