(** Properties of the sets of types that type inference works with (C64). *)
From Coq Require Import List ZArith Bool Lia Permutation.
From Verif Require Import TypeSet.
Import ListNotations.

(** ** Specification: the value types of each set, listed *)
Definition signed_types := [TI8; TI16; TI32; TI64; TI128; TISize].
Definition unsigned_types := [TU8; TU16; TU32; TU64; TU128; TUSize].
Definition float_types := [TF32; TF64].
Definition member (s : tset) (t : vtype) : Prop :=
  match s with
  | SBase u => t = u
  | SSigned => In t signed_types
  | SUnsigned => In t unsigned_types
  | SInteger => In t signed_types \/ In t unsigned_types
  | SFloat => In t float_types
  | SNumeric | SArith => In t signed_types \/ In t unsigned_types \/ In t float_types
  | SString => t = TString \/ t = TStr
  | SAny => True
  end.

(** ** Everything is finite *)
Definition all_types : list vtype :=
  [TI8; TI16; TI32; TI64; TI128; TISize; TU8; TU16; TU32; TU64; TU128; TUSize; TF32; TF64; TChar; TBool; TStr;
   TString; TSymbol; TDateTime; TDuration; TEntity; TTensor].
Definition all_tsets : list tset :=
  map SBase all_types ++ [SNumeric; SArith; SInteger; SSigned; SUnsigned; SFloat; SString; SAny].
Lemma all_types_In t : In t all_types.
Proof. destruct t; cbn; auto 30. Qed.
Lemma all_tsets_In s : In s all_tsets.
Proof.
  destruct s as [t| | | | | | | |]; unfold all_tsets; apply in_or_app;
    [left; apply in_map, all_types_In | right; cbn; auto 10 ..].
Qed.
Lemma by_types (f : vtype -> bool) : forallb f all_types = true -> forall t, f t = true.
Proof. intros H t. rewrite forallb_forall in H. apply H, all_types_In. Qed.
Lemma by_tsets (f : tset -> bool) : forallb f all_tsets = true -> forall s, f s = true.
Proof. intros H t. rewrite forallb_forall in H. apply H, all_tsets_In. Qed.

Lemma by_ss (f : tset -> tset -> bool) :
  forallb (fun a => forallb (f a) all_tsets) all_tsets = true -> forall a b, f a b = true.
Proof. intros H a b. exact (by_tsets _ (by_tsets _ H a) b). Qed.
Lemma by_st (f : tset -> vtype -> bool) :
  forallb (fun a => forallb (f a) all_types) all_tsets = true -> forall a t, f a t = true.
Proof. intros H a t. exact (by_types _ (by_tsets _ H a) t). Qed.
Lemma by_sst (f : tset -> tset -> vtype -> bool) :
  forallb (fun a => forallb (fun b => forallb (f a b) all_types) all_tsets) all_tsets = true -> forall a b t, f a b t = true.
Proof. intros H a b t. exact (by_types _ (by_ss _ H a b) t). Qed.
Lemma by_sss (f : tset -> tset -> tset -> bool) :
  forallb (fun a => forallb (fun b => forallb (f a b) all_tsets) all_tsets) all_tsets = true -> forall a b c, f a b c = true.
Proof. intros H a b c. exact (by_tsets _ (by_ss _ H a b) c). Qed.

Lemma tset_eq_dec (a b : tset) : {a = b} + {a <> b}.
Proof. decide equality. apply vtype_eq_dec. Defined.
Definition ts_eqb (a b : tset) : bool := if tset_eq_dec a b then true else false.
Lemma ts_eqb_eq a b : ts_eqb a b = true <-> a = b.
Proof. unfold ts_eqb. destruct (tset_eq_dec a b); split; congruence. Qed.
Lemma vt_eqb_eq a b : vt_eqb a b = true <-> a = b.
Proof. unfold vt_eqb. destruct (vtype_eq_dec a b); split; congruence. Qed.

(** ** Membership *)
Theorem C64_member s t : ts_contains s t = true <-> member s t.
Proof.
  destruct s; cbn [ts_contains member].
  - rewrite vt_eqb_eq. split; congruence.
  - destruct t; cbn; intuition discriminate.
  - destruct t; cbn; intuition discriminate.
  - destruct t; cbn; intuition discriminate.
  - destruct t; cbn; intuition discriminate.
  - destruct t; cbn; intuition discriminate.
  - destruct t; cbn; intuition discriminate.
  - destruct t; cbn; intuition discriminate.
  - tauto.
Qed.

(** The default type of a set is one of its types. *)
Theorem C64_default s : member s (ts_default s).
Proof. apply C64_member. revert s. refine (by_tsets (fun s => ts_contains s (ts_default s)) _). vm_compute. reflexivity. Qed.

(** ** Unification is intersection *)
Lemma unify_contains a b c t : ts_unify a b = Some c -> ts_contains c t = ts_contains a t && ts_contains b t.
Proof.
  intros H.
  assert (K : forall a b t, match ts_unify a b with
              | Some c => Bool.eqb (ts_contains c t) (ts_contains a t && ts_contains b t) | None => true end = true).
  { refine (by_sst (fun a b t => _) _). vm_compute. reflexivity. }
  specialize (K a b t). rewrite H in K. apply eqb_prop, K.
Qed.
Theorem C64_intersection a b c : ts_unify a b = Some c -> forall t, member c t <-> member a t /\ member b t.
Proof.
  intros H t. rewrite <- !C64_member, (unify_contains _ _ _ t H), andb_true_iff. reflexivity.
Qed.

(** The pair that the comparison forgets. *)
Definition base_unsigned (a b : tset) : bool :=
  match a, b with
  | SBase t, SUnsigned | SUnsigned, SBase t => is_unsigned_integer t
  | _, _ => false
  end.
Lemma unify_none_contains a b t :
  ts_unify a b = None -> base_unsigned a b = false -> ts_contains a t && ts_contains b t = false.
Proof.
  intros H N.
  assert (K : forall a b t, match ts_unify a b with
              | Some c => true | None => base_unsigned a b || negb (ts_contains a t && ts_contains b t) end = true).
  { refine (by_sst (fun a b t => _) _). vm_compute. reflexivity. }
  specialize (K a b t). rewrite H, N in K. apply negb_true_iff, K.
Qed.
(** Two sets fail to unify only if they have no type in common, except a base type and
    the unsigned integers. *)
Theorem C64_complete_partial a b :
  ts_unify a b = None -> base_unsigned a b = false -> ~ exists t, member a t /\ member b t.
Proof.
  intros H N (t & A & B). apply C64_member in A, B.
  pose proof (unify_none_contains a b t H N) as K. rewrite A, B in K. discriminate.
Qed.
Theorem C64_complete_refuted :
  exists a b t, member a t /\ member b t /\ ts_unify a b = None.
Proof. exists (SBase TU32), SUnsigned, TU32. repeat split; cbn; auto. Qed.

(** ** Unification does not depend on the order *)
Theorem C64_comm a b : ts_unify a b = ts_unify b a.
Proof.
  assert (K : forall a b, match ts_unify a b, ts_unify b a with
      | Some c, Some d => ts_eqb c d | None, None => true | _, _ => false end = true).
  { refine (by_ss (fun a b => _) _). vm_compute. reflexivity. }
  specialize (K a b). destruct (ts_unify a b), (ts_unify b a); try discriminate; auto.
  apply ts_eqb_eq in K. congruence.
Qed.
Definition obind (x : option tset) (f : tset -> option tset) := match x with Some a => f a | None => None end.
Theorem C64_assoc a b c :
  obind (ts_unify a b) (fun d => ts_unify d c) = obind (ts_unify b c) (fun d => ts_unify a d).
Proof.
  assert (K : forall a b c, match obind (ts_unify a b) (fun d => ts_unify d c), obind (ts_unify b c) (fun d => ts_unify a d) with
      | Some c, Some d => ts_eqb c d | None, None => true | _, _ => false end = true).
  { refine (by_sss (fun a b c => _) _). vm_compute. reflexivity. }
  specialize (K a b c).
  destruct (obind (ts_unify a b) _), (obind (ts_unify b c) _); try discriminate; auto.
  apply ts_eqb_eq in K. congruence.
Qed.
Lemma unify_idem a : ts_unify a a = Some a.
Proof.
  assert (K : forall a, match ts_unify a a with Some b => ts_eqb b a | None => false end = true)
    by (refine (by_tsets (fun a => _) _); vm_compute; reflexivity).
  specialize (K a). destruct (ts_unify a a); [|discriminate]. apply ts_eqb_eq in K. congruence.
Qed.
Lemma unify_from_fold a l : unify_from a l = fold_left (fun x b => obind x (fun a => ts_unify a b)) l (Some a).
Proof.
  revert a. induction l as [|b l IH]; intros a; cbn; [reflexivity|].
  destruct (ts_unify a b); [apply IH|]. clear. induction l; cbn; auto.
Qed.
Lemma fold_none l : fold_left (fun x b => obind x (fun a => ts_unify a b)) l None = None.
Proof. induction l; cbn; auto. Qed.
Lemma fold_perm l l' : Permutation l l' -> forall x,
  fold_left (fun x b => obind x (fun a => ts_unify a b)) l x = fold_left (fun x b => obind x (fun a => ts_unify a b)) l' x.
Proof.
  induction 1 as [|b l l' H IH|b c l|l l' l'' H IH H' IH']; intros x; cbn; auto; [|congruence].
  f_equal. destruct x as [a|]; cbn; [|reflexivity].
  pose proof (C64_assoc a b c) as P. pose proof (C64_assoc a c b) as Q.
  rewrite P, Q. rewrite (C64_comm b c). reflexivity.
Qed.
Lemma unify_sets_from a l : unify_type_sets (a :: l) = unify_from a l.
Proof. cbn. rewrite unify_idem. reflexivity. Qed.
Lemma unify_from_any a l : unify_from SAny (a :: l) = unify_from a l.
Proof. cbn. replace (ts_unify SAny a) with (Some a); [reflexivity|]. destruct a; reflexivity. Qed.
(** The type of a variable or of an argument of a relation does not depend on the order in
    which the types of its occurrences are combined (they come out of hash sets). *)
Theorem C64_sets_order l l' : Permutation l l' -> unify_type_sets l = unify_type_sets l'.
Proof.
  intros H. destruct l as [|a l].
  - apply Permutation_nil in H. subst. reflexivity.
  - destruct l' as [|b l']; [apply Permutation_sym, Permutation_nil in H; discriminate|].
    rewrite (unify_sets_from a), (unify_sets_from b), <- (unify_from_any a l), <- (unify_from_any b l'), !unify_from_fold.
    apply fold_perm, H.
Qed.
Lemma unify_from_member a l c : unify_from a l = Some c -> forall t, member c t <-> member a t /\ (forall b, In b l -> member b t).
Proof.
  revert a. induction l as [|b l IH]; cbn; intros a H t.
  - injection H as <-. split; [intros; split; [assumption|intros ? []]|tauto].
  - destruct (ts_unify a b) as [d|] eqn:E; [|discriminate]. rewrite (IH _ H t), (C64_intersection _ _ _ E t).
    split; [intros [[A B] C]; split; [exact A|intros x [<-|X]; auto]|intros [A B]; auto 10].
Qed.
(** It is the intersection of the types of the occurrences. *)
Theorem C64_sets_intersection l c :
  unify_type_sets l = Some c -> forall t, member c t <-> (forall a, In a l -> member a t).
Proof.
  destruct l as [|a l]; [discriminate|]. rewrite unify_sets_from. intros H t.
  rewrite (unify_from_member _ _ _ H t). cbn. split; [intros [A B] x [<-|X]; auto|intros A; auto].
Qed.

(** ** Equality, which decides when the inference stops *)
Theorem C64_eq_sound a b : ts_eq a b = true -> a = b.
Proof.
  intros H.
  assert (K : forall a b, implb (ts_eq a b) (ts_eqb a b) = true)
    by (refine (by_ss (fun a b => _) _); vm_compute; reflexivity).
  specialize (K a b). rewrite H in K. apply ts_eqb_eq, K.
Qed.
Theorem C64_eq_complete_partial a : a <> SUnsigned -> ts_eq a a = true.
Proof.
  intros H. destruct a; cbn; try reflexivity; [apply vt_eqb_eq; reflexivity|congruence].
Qed.
Theorem C64_eq_complete_refuted : exists a, ts_eq a a = false.
Proof. exists SUnsigned. reflexivity. Qed.

(** ** The order of the sets *)
Definition sle (a b : tset) : Prop := ts_unify a b = Some a.
Lemma sle_refl a : sle a a.
Proof. apply unify_idem. Qed.
Lemma sle_trans a b c : sle a b -> sle b c -> sle a c.
Proof.
  unfold sle. intros H K. pose proof (C64_assoc a b c) as P. rewrite H, K in P. cbn in P. congruence.
Qed.
Lemma sle_antisym a b : sle a b -> sle b a -> a = b.
Proof. unfold sle. intros H K. rewrite C64_comm in K. congruence. Qed.
Lemma unify_le a b c : ts_unify a b = Some c -> sle c a /\ sle c b.
Proof.
  assert (K : forall a b, match ts_unify a b with
      | Some c => match ts_unify c a, ts_unify c b with Some x, Some y => ts_eqb x c && ts_eqb y c | _, _ => false end
      | None => true end = true)
    by (refine (by_ss (fun a b => _) _); vm_compute; reflexivity).
  specialize (K a b). intros H. rewrite H in K. unfold sle.
  destruct (ts_unify c a), (ts_unify c b); try discriminate.
  apply andb_true_iff in K. rewrite !ts_eqb_eq in K. destruct K; split; congruence.
Qed.
Lemma unify_glb a b c d : ts_unify a b = Some c -> sle d a -> sle d b -> sle d c.
Proof.
  unfold sle. intros H A B. pose proof (C64_assoc d a b) as P. rewrite A, H in P. cbn in P. congruence.
Qed.
Lemma sle_any a : sle a SAny.
Proof. destruct a; reflexivity. Qed.
Lemma sle_base a t : sle a (SBase t) -> a = SBase t.
Proof.
  assert (K : forall a t, match ts_unify a (SBase t) with Some x => ts_eqb x (SBase t) | None => true end = true)
    by (refine (by_st (fun a t => _) _); vm_compute; reflexivity).
  unfold sle. intros H. specialize (K a t). rewrite H in K. apply ts_eqb_eq, K.
Qed.
Lemma sle_member a b t : sle a b -> member a t -> member b t.
Proof. intros H M. apply (C64_intersection _ _ _ H t) in M. tauto. Qed.
(** The default type does not change back on the way down. *)
Lemma default_between a b c : sle a b -> sle b c -> ts_default a = ts_default c -> ts_default b = ts_default a.
Proof.
  assert (K : forall a b c,
      match ts_unify a b, ts_unify b c with
      | Some x, Some y => negb (ts_eqb x a) || negb (ts_eqb y b) || negb (vt_eqb (ts_default a) (ts_default c)) || vt_eqb (ts_default b) (ts_default a)
      | _, _ => true end = true)
    by (refine (by_sss (fun a b c => _) _); vm_compute; reflexivity).
  unfold sle. intros A B D. specialize (K a b c). rewrite A, B in K.
  assert (EA : ts_eqb a a = true) by (apply ts_eqb_eq; reflexivity).
  assert (EB : ts_eqb b b = true) by (apply ts_eqb_eq; reflexivity).
  assert (vt_eqb (ts_default a) (ts_default c) = true) as E by (apply vt_eqb_eq; assumption).
  rewrite E, EA, EB in K. cbn in K. apply vt_eqb_eq, K.
Qed.
(** The height of a set. *)
Definition height (a : tset) : nat :=
  match a with
  | SBase _ => 0 | SSigned | SUnsigned | SFloat | SString => 1 | SInteger => 2 | SArith => 3 | SNumeric => 4 | SAny => 5
  end.
Lemma sle_height a b : sle a b -> a <> b -> height a < height b.
Proof.
  assert (K : forall a b, match ts_unify a b with Some x => negb (ts_eqb x a) || ts_eqb a b || Nat.ltb (height a) (height b) | None => true end = true)
    by (refine (by_ss (fun a b => _) _); vm_compute; reflexivity).
  unfold sle. intros H N. specialize (K a b). rewrite H in K.
  assert (ts_eqb a a = true) as E by (apply ts_eqb_eq; reflexivity). rewrite E in K. cbn in K.
  destruct (ts_eqb a b) eqn:F; [apply ts_eqb_eq in F; contradiction|]. cbn in K. apply Nat.ltb_lt, K.
Qed.
Lemma sle_height_le a b : sle a b -> height a <= height b.
Proof.
  intros H. destruct (tset_eq_dec a b) as [->|N]; [auto|]. pose proof (sle_height _ _ H N). lia.
Qed.

(** Two sets with a common type unify, unless one of them is the unsigned integers. *)
Lemma unify_common a b t : a <> SUnsigned -> b <> SUnsigned -> member a t -> member b t -> exists c, ts_unify a b = Some c.
Proof.
  intros NA NB A B. destruct (ts_unify a b) as [c|] eqn:E; [eauto|]. exfalso.
  apply (C64_complete_partial a b E); [|eauto]. destruct a, b; cbn; congruence.
Qed.
Lemma unify_no_unsigned a b c : ts_unify a b = Some c -> a <> SUnsigned -> b <> SUnsigned -> c <> SUnsigned.
Proof.
  unfold ts_unify. destruct (ts_cmp a b) as [[]|]; intros H; inversion H; subst; auto.
Qed.

(** ** Constants *)
(** The sets of constants are those of the values that they can stand for: a
    non-negative integer for every number type, a negative one for the signed ones,
    a float for the floats, a string for the string types. *)
Definition literal_type (c : fconst) (t : vtype) : Prop :=
  match c with
  | KInt z => In t signed_types \/ (0 <= z)%Z /\ (In t unsigned_types \/ In t float_types)
  | KFloat => In t float_types
  | KChar => t = TChar | KBool => t = TBool | KString => t = TString \/ t = TStr | KSymbol => t = TSymbol
  | KDateTime => t = TDateTime | KDuration => t = TDuration | KEntity => t = TEntity
  end.
Theorem C64_constant_types c t : member (from_constant c) t <-> literal_type c t.
Proof.
  destruct c as [z| | | | | | | |]; cbn [from_constant]; try (cbn; tauto).
  destruct (Z.ltb_spec z 0); cbn -[signed_types unsigned_types float_types]; intuition lia.
Qed.

Example ex_unify : ts_unify SNumeric (SBase TU8) = Some (SBase TU8) /\ ts_unify SFloat SInteger = None
  /\ ts_unify SArith SNumeric = Some SArith /\ ts_unify SAny SAny = Some SAny.
Proof. vm_compute. auto. Qed.
Example ex_unify_sets : unify_type_sets [SAny; SInteger; SBase TU8; SNumeric] = Some (SBase TU8)
  /\ unify_type_sets [SNumeric; SBase TU8; SAny; SInteger] = Some (SBase TU8).
Proof. vm_compute. auto. Qed.
Example ex_default : map ts_default [SNumeric; SFloat; SString; SUnsigned; SAny; SBase TChar]
  = [TI32; TF32; TString; TU32; TI32; TChar].
Proof. reflexivity. Qed.
Example ex_constant : member (from_constant (KInt 3)) TF32 /\ ~ member (from_constant (KInt (-3))) TF32.
Proof. cbn. intuition discriminate. Qed.
Print Assumptions C64_member.
Print Assumptions C64_default.
Print Assumptions C64_intersection.
Print Assumptions C64_complete_partial.
Print Assumptions C64_complete_refuted.
Print Assumptions C64_comm.
Print Assumptions C64_assoc.
Print Assumptions C64_sets_order.
Print Assumptions C64_sets_intersection.
Print Assumptions C64_eq_sound.
Print Assumptions C64_eq_complete_partial.
Print Assumptions C64_eq_complete_refuted.
Print Assumptions C64_constant_types.
