(** Facts about the variable-tree model: the tables computed by [post_process]
    and the lowest common ancestor. *)
From Coq Require Import List Arith Bool Lia.
From Verif Require Import ListAux VTree.
Import ListNotations.
Set Implicit Arguments.

(** ** the tree behind a graph *)

(** A variable tree annotated with node indices. *)
Inductive atree := AL (id v : nat) | AB (id : nat) (l r : atree).
Definition aid (t : atree) : nat := match t with AL i _ => i | AB i _ _ => i end.
Fixpoint ids (t : atree) : list nat :=
  match t with AL i _ => [i] | AB i l r => ids l ++ i :: ids r end.
Fixpoint avars (t : atree) : list nat :=
  match t with AL _ v => [v] | AB _ l r => avars l ++ avars r end.
Fixpoint size (t : atree) : nat := match t with AL _ _ => 1 | AB _ l r => size l + 1 + size r end.
Fixpoint height (t : atree) : nat := match t with AL _ _ => 0 | AB _ l r => S (Nat.max (height l) (height r)) end.
Definition rootoff (t : atree) : nat := match t with AL _ _ => 0 | AB _ l _ => size l end.
Fixpoint afirst (t : atree) : nat := match t with AL i _ => i | AB _ l _ => afirst l end.
Fixpoint alast (t : atree) : nat := match t with AL i _ => i | AB _ _ r => alast r end.

Fixpoint repr (tree : list vnode) (t : atree) : Prop :=
  match t with
  | AL i v => nth_error tree i = Some (VLeaf v)
  | AB i l r => nth_error tree i = Some (VBranch (aid l) (aid r)) /\ repr tree l /\ repr tree r
  end.

(** [sub t k u]: [u] is a subtree of [t]; its in-order block starts at
    position [k] of that of [t]. *)
Inductive sub : atree -> nat -> atree -> Prop :=
| sub_refl : forall t, sub t 0 t
| sub_l : forall i l r k u, sub l k u -> sub (AB i l r) k u
| sub_r : forall i l r k u, sub r k u -> sub (AB i l r) (size l + 1 + k) u.

Lemma ids_length : forall t, length (ids t) = size t.
Proof. induction t; simpl; auto. rewrite app_length. simpl. lia. Qed.
Lemma size_pos : forall t, 0 < size t.
Proof. destruct t; simpl; lia. Qed.
Lemma rootoff_lt : forall t, rootoff t < size t.
Proof. destruct t; simpl; [lia|]. pose proof (size_pos t2). lia. Qed.
Lemma height_lt : forall t, height t < size t.
Proof. induction t; simpl; lia. Qed.
Lemma height_vars : forall t, height t < length (avars t).
Proof. induction t; simpl; auto. rewrite app_length. lia. Qed.
Lemma avars_pos : forall t, 0 < length (avars t).
Proof. intros. pose proof (height_vars t). lia. Qed.

Lemma sub_range : forall t k u, sub t k u -> k + size u <= size t.
Proof. induction 1; simpl; lia. Qed.
Lemma sub_trans : forall t k u j x, sub t k u -> sub u j x -> sub t (k + j) x.
Proof.
  induction 1; simpl; intros S; auto.
  - apply sub_l; auto.
  - replace (size l + 1 + k + j) with (size l + 1 + (k + j)) by lia. apply sub_r; auto.
Qed.
Lemma sub_height : forall t k u, sub t k u -> height u <= height t.
Proof. induction 1; simpl; lia. Qed.
Lemma sub_ids : forall t k u, sub t k u -> exists A B, ids t = A ++ ids u ++ B /\ length A = k.
Proof.
  induction 1 as [t|i l r k u S (A & B & E & L)|i l r k u S (A & B & E & L)].
  - exists [], []. simpl. rewrite app_nil_r. auto.
  - exists A, (B ++ i :: ids r). simpl. rewrite E, !app_assoc_reverse. auto.
  - exists (ids l ++ i :: A), B. simpl. rewrite E, !app_assoc_reverse. simpl. split; auto.
    rewrite app_length, ids_length. simpl. lia.
Qed.
Lemma ids_root : forall u, nth_error (ids u) (rootoff u) = Some (aid u).
Proof.
  destruct u; simpl; auto. rewrite <- ids_length. apply nth_error_app_len.
Qed.
Lemma ids_first : forall u, nth_error (ids u) 0 = Some (afirst u).
Proof.
  induction u; [auto|]. cbn [ids afirst]. rewrite nth_error_app1; auto. rewrite ids_length. apply size_pos.
Qed.
Lemma ids_last : forall u, nth_error (ids u) (size u - 1) = Some (alast u).
Proof.
  induction u; [auto|]. cbn [ids alast size]. rewrite nth_error_app2; rewrite ids_length; [|lia].
  replace (size u1 + 1 + size u2 - 1 - size u1) with (S (size u2 - 1)) by (pose proof (size_pos u2); lia).
  auto.
Qed.
Lemma nth_block : forall (l A B C : list nat) k j x, l = A ++ B ++ C -> length A = k -> nth_error B j = Some x ->
  nth_error l (k + j) = Some x.
Proof.
  intros l A B C k j x -> <- H. rewrite nth_error_app2 by lia. replace (length A + j - length A) with j by lia.
  rewrite nth_error_app1; auto. apply nth_error_Some. congruence.
Qed.
Lemma sub_pos : forall t k u, sub t k u -> nth_error (ids t) (k + rootoff u) = Some (aid u).
Proof. intros. destruct (sub_ids H) as (A & B & E & L). eapply nth_block; eauto. apply ids_root. Qed.
Lemma sub_first : forall t k u, sub t k u -> nth_error (ids t) k = Some (afirst u).
Proof.
  intros. destruct (sub_ids H) as (A & B & E & L). replace k with (k + 0) by lia.
  eapply nth_block; eauto. apply ids_first.
Qed.
Lemma sub_last : forall t k u, sub t k u -> nth_error (ids t) (k + (size u - 1)) = Some (alast u).
Proof. intros. destruct (sub_ids H) as (A & B & E & L). eapply nth_block; eauto. apply ids_last. Qed.
Lemma sub_aid_In : forall t k u, sub t k u -> In (aid u) (ids t).
Proof. intros. eapply nth_error_In, sub_pos; eauto. Qed.
Lemma NoDup_split : forall (A B : list nat), NoDup (A ++ B) ->
  NoDup A /\ NoDup B /\ forall x, In x A -> In x B -> False.
Proof.
  induction A as [|a A IH]; simpl; intros B N.
  - repeat split; auto. constructor.
  - inversion N as [|? ? H1 H2]; subst. destruct (IH B H2) as (NA & NB & D). repeat split; auto.
    + constructor; auto. intros X. apply H1, in_or_app; auto.
    + intros x [->|X] Y; [apply H1, in_or_app; auto|eauto].
Qed.
Lemma sub_unique : forall t, NoDup (ids t) -> forall k u k' u', sub t k u -> sub t k' u' -> aid u = aid u' ->
  u = u' /\ k = k'.
Proof.
  induction t as [i v|i l IHl r IHr]; intros ND k u k' u' S S' E.
  - inversion S; inversion S'; subst; auto.
  - simpl in ND. destruct (NoDup_split _ _ ND) as (Nl & Nr & D).
    inversion Nr as [|? ? Ni Nr']; subst.
    inversion S; inversion S'; subst; auto; simpl in E.
    + exfalso. apply (D (aid u')); [eapply sub_aid_In; eauto|left; auto].
    + exfalso. apply Ni. rewrite E. eapply sub_aid_In; eauto.
    + exfalso. apply (D (aid u)); [eapply sub_aid_In; eauto|left; auto].
    + exfalso. apply (D (aid u)); [eapply sub_aid_In; eauto|right; rewrite E; eapply sub_aid_In; eauto].
    + exfalso. apply Ni. rewrite <- E. eapply sub_aid_In; eauto.
    + exfalso. apply (D (aid u')); [eapply sub_aid_In; eauto|right; rewrite <- E; eapply sub_aid_In; eauto].
    + destruct (IHr Nr' k0 u k1 u') as [-> ->]; auto.
Qed.

(** ** the tables *)

Lemma mget_app : forall m1 m2 k, mget (m1 ++ m2) k = match mget m1 k with Some v => Some v | None => mget m2 k end.
Proof. induction m1 as [|[a b] m1 IH]; simpl; intros; auto. destruct (a =? k); auto. Qed.
Lemma mget_In : forall m k v, mget m k = Some v -> In (k, v) m.
Proof.
  induction m as [|[a b] m IH]; simpl; intros k v H; [discriminate|].
  destruct (a =? k) eqn:E; [apply Nat.eqb_eq in E; left; congruence|right; auto].
Qed.
Lemma mget_None : forall m k, mget m k = None <-> ~ In k (map fst m).
Proof.
  induction m as [|[a b] m IH]; simpl; intros k; [tauto|].
  destruct (a =? k) eqn:E; [apply Nat.eqb_eq in E|apply Nat.eqb_neq in E; rewrite IH]; intuition congruence.
Qed.
Lemma mget_NoDup : forall m k v, NoDup (map fst m) -> In (k, v) m -> mget m k = Some v.
Proof.
  induction m as [|[a b] m IH]; simpl; intros k v N I; [tauto|]. inversion N; subst.
  destruct I as [E|I]; [injection E as -> ->; rewrite Nat.eqb_refl; auto|].
  destruct (a =? k) eqn:E; [|auto]. apply Nat.eqb_eq in E. subst. exfalso. apply H1.
  apply in_map_iff. exists (k, v). auto.
Qed.
Lemma mget_rev : forall m k, NoDup (map fst m) -> mget (rev m) k = mget m k.
Proof.
  intros m k N. destruct (mget m k) as [v|] eqn:E.
  - apply mget_NoDup; [rewrite map_rev; apply NoDup_rev; auto|]. apply -> in_rev. apply mget_In; auto.
  - apply mget_None. rewrite map_rev, <- in_rev. apply mget_None; auto.
Qed.

(** in-order positions *)
Fixpoint lpairs (t : atree) : list (nat * nat) := (* var, leaf *)
  match t with AL i v => [(v, i)] | AB _ l r => lpairs l ++ lpairs r end.
Lemma in_order_spec : forall tree t, repr tree t -> forall fuel c pos vm, height t < fuel ->
  in_order tree fuel (aid t) (c, pos, vm) =
  Some (c + size t, rev (combine (ids t) (seq c (size t))) ++ pos, rev (lpairs t) ++ vm).
Proof.
  induction t as [i v|i l IHl r IHr]; intros R fuel c pos vm F; (destruct fuel as [|f]; [simpl in F; lia|]).
  - simpl in R. cbn [in_order aid]. rewrite R. simpl. repeat f_equal. lia.
  - simpl in R. destruct R as (R & Rl & Rr). simpl in F. cbn [in_order aid]. rewrite R.
    rewrite IHl by (auto; lia). cbn [obind ino_visit]. rewrite IHr by (auto; lia).
    cbn [ids size lpairs]. f_equal. f_equal; [f_equal; [lia|]|].
    + rewrite <- Nat.add_assoc, seq_app.
      assert (G : forall (A B C D : list nat), length A = length C -> combine (A ++ B) (C ++ D) = combine A C ++ combine B D).
      { induction A; destruct C; simpl; intros; try discriminate; auto. f_equal. auto. }
      rewrite G by (rewrite ids_length, seq_length; auto). rewrite rev_app_distr. cbn [plus seq combine rev].
      rewrite !app_assoc_reverse. replace (c + size l + 1) with (S (c + size l)) by lia. reflexivity.
    + rewrite rev_app_distr, app_assoc_reverse. auto.
Qed.
Lemma combine_fst : forall (A B : list nat), length A = length B -> map fst (combine A B) = A.
Proof. induction A; destruct B; simpl; intros; try discriminate; auto. f_equal; auto. Qed.
Lemma pos_lookup : forall t p i, NoDup (ids t) -> nth_error (ids t) p = Some i ->
  mget (rev (combine (ids t) (seq 0 (size t))) ++ []) i = Some p.
Proof.
  intros t p i N H. rewrite app_nil_r. rewrite mget_rev.
  2:{ rewrite combine_fst; auto. rewrite ids_length, seq_length; auto. }
  apply mget_NoDup; [rewrite combine_fst; auto; rewrite ids_length, seq_length; auto|].
  rewrite <- ids_length. clear N. replace p with (0 + p) by auto. generalize 0.
  revert p H. induction (ids t) as [|a m IH]; intros p H s; [destruct p; discriminate|].
  destruct p as [|p]; simpl in *.
  - left. injection H as ->. f_equal. lia.
  - right. replace (s + S p) with (S s + p) by lia. auto.
Qed.

(** first and last in a subtree *)
Fixpoint fpairs (t : atree) : list (nat * nat) :=
  match t with AL i _ => [(i, i)] | AB i l r => (i, afirst l) :: fpairs r ++ fpairs l end.
Fixpoint lapairs (t : atree) : list (nat * nat) :=
  match t with AL i _ => [(i, i)] | AB i l r => (i, alast r) :: lapairs r ++ lapairs l end.
Lemma fpairs_In : forall t i, In i (map fst (fpairs t)) <-> In i (ids t).
Proof.
  induction t; simpl; intros; [tauto|]. rewrite map_app, !in_app_iff, IHt1, IHt2. simpl. tauto.
Qed.
Lemma lapairs_In : forall t i, In i (map fst (lapairs t)) <-> In i (ids t).
Proof.
  induction t; simpl; intros; [tauto|]. rewrite map_app, !in_app_iff, IHt1, IHt2. simpl. tauto.
Qed.
Lemma fpairs_get : forall t, NoDup (ids t) -> forall k u, sub t k u -> mget (fpairs t) (aid u) = Some (afirst u).
Proof.
  induction t as [i v|i l IHl r IHr]; intros N k u S.
  - inversion S; subst. simpl. rewrite Nat.eqb_refl. auto.
  - simpl in N. destruct (NoDup_split _ _ N) as (Nl & Nr & D). inversion Nr as [|? ? Ni Nr']; subst.
    cbn [fpairs]. inversion S; subst.
    + simpl. rewrite Nat.eqb_refl. auto.
    + cbn [mget]. match goal with H : sub ?x _ u |- _ => lazymatch x with AB _ _ _ => fail | _ => pose proof (sub_aid_In H) as I end end. destruct (i =? aid u) eqn:E.
      * apply Nat.eqb_eq in E. subst. exfalso. apply (D (aid u)); simpl; auto.
      * rewrite mget_app. replace (mget (fpairs r) (aid u)) with (@None nat); [eauto|].
        symmetry. apply mget_None. rewrite fpairs_In. intros X. apply (D (aid u)); simpl; auto.
    + cbn [mget]. match goal with H : sub ?x _ u |- _ => lazymatch x with AB _ _ _ => fail | _ => pose proof (sub_aid_In H) as I end end. destruct (i =? aid u) eqn:E.
      * apply Nat.eqb_eq in E. subst. exfalso. auto.
      * rewrite mget_app. erewrite IHr; eauto.
Qed.
Lemma lapairs_get : forall t, NoDup (ids t) -> forall k u, sub t k u -> mget (lapairs t) (aid u) = Some (alast u).
Proof.
  induction t as [i v|i l IHl r IHr]; intros N k u S.
  - inversion S; subst. simpl. rewrite Nat.eqb_refl. auto.
  - simpl in N. destruct (NoDup_split _ _ N) as (Nl & Nr & D). inversion Nr as [|? ? Ni Nr']; subst.
    cbn [lapairs]. inversion S; subst.
    + simpl. rewrite Nat.eqb_refl. auto.
    + cbn [mget]. match goal with H : sub ?x _ u |- _ => lazymatch x with AB _ _ _ => fail | _ => pose proof (sub_aid_In H) as I end end. destruct (i =? aid u) eqn:E.
      * apply Nat.eqb_eq in E. subst. exfalso. apply (D (aid u)); simpl; auto.
      * rewrite mget_app. replace (mget (lapairs r) (aid u)) with (@None nat); [eauto|].
        symmetry. apply mget_None. rewrite lapairs_In. intros X. apply (D (aid u)); simpl; auto.
    + cbn [mget]. match goal with H : sub ?x _ u |- _ => lazymatch x with AB _ _ _ => fail | _ => pose proof (sub_aid_In H) as I end end. destruct (i =? aid u) eqn:E.
      * apply Nat.eqb_eq in E. subst. exfalso. auto.
      * rewrite mget_app. erewrite IHr; eauto.
Qed.
Lemma cache_spec : forall tree t, repr tree t -> NoDup (ids t) -> forall fuel mn mx, height t < fuel ->
  cache_min_max tree fuel (aid t) (mn, mx) = Some (fpairs t ++ mn, lapairs t ++ mx).
Proof.
  induction t as [i v|i l IHl r IHr]; intros R N fuel mn mx F; (destruct fuel as [|f]; [simpl in F; lia|]).
  - simpl in R. cbn [cache_min_max aid]. rewrite R. auto.
  - simpl in R. destruct R as (R & Rl & Rr). simpl in F. cbn [cache_min_max aid]. rewrite R.
    simpl in N. destruct (NoDup_split _ _ N) as (Nl & Nr & D). inversion Nr as [|? ? Ni Nr']; subst.
    rewrite IHl by (auto; lia). cbn [obind]. rewrite IHr by (auto; lia). cbn [obind fst snd].
    assert (E : mget (fpairs r ++ fpairs l ++ mn) (aid l) = Some (afirst l)).
    { rewrite mget_app. replace (mget (fpairs r) (aid l)) with (@None nat).
      - rewrite mget_app, (fpairs_get Nl (sub_refl l)). auto.
      - symmetry. apply mget_None. rewrite fpairs_In. intros X. apply (D (aid l)); simpl; auto.
        eapply sub_aid_In, sub_refl. }
    rewrite E. cbn [obind].
    assert (E' : mget (lapairs r ++ lapairs l ++ mx) (aid r) = Some (alast r)).
    { rewrite mget_app, (lapairs_get Nr' (sub_refl r)). auto. }
    rewrite E'. cbn [obind]. unfold mset. simpl. rewrite !app_assoc_reverse. auto.
Qed.

(** ** validity of a variable tree *)

(** the subtrees of a possibly empty tree *)
Definition sT (T : option atree) (k : nat) (u : atree) : Prop :=
  match T with Some t => sub t k u | None => False end.
Record vt_ok (vt : vtree) (T : option atree) : Prop := {
  ok_pos : forall k u, sT T k u -> position vt (aid u) = Some (k + rootoff u);
  ok_first : forall k u, sT T k u -> exists f, first_in_subtree vt (aid u) = Some f /\ position vt f = Some k;
  ok_last : forall k u, sT T k u -> exists f, last_in_subtree vt (aid u) = Some f /\
              position vt f = Some (k + (size u - 1));
  ok_parent : forall k i l r, sT T k (AB i l r) ->
              parent_of (vt_edges vt) (aid l) = Some i /\ parent_of (vt_edges vt) (aid r) = Some i;
  ok_size : forall k u, sT T k u -> size u <= length (vt_tree vt);
  ok_unique : forall k u k' u', sT T k u -> sT T k' u' -> aid u = aid u' -> u = u' /\ k = k';
  ok_nodup : NoDup (vt_vars vt);
  ok_leaf : forall x, In x (vt_vars vt) -> exists i k, mget (vt_var vt) x = Some i /\ sT T k (AL i x);
  ok_leaf_unique : forall i k i' k' x, sT T k (AL i x) -> sT T k' (AL i' x) -> i = i';
  ok_vars : match T with Some t => avars t = vt_vars vt | None => vt_vars vt = [] end
}.

Arguments ok_pos {vt T} _ {k u} _.
Arguments ok_first {vt T} _ {k u} _.
Arguments ok_last {vt T} _ {k u} _.
Arguments ok_parent {vt T} _ {k i l r} _.
Arguments ok_size {vt T} _ {k u} _.
Arguments ok_unique {vt T} _ {k u k' u'} _ _ _.
Arguments ok_leaf_unique {vt T} _ {i k i' k' x} _ _.
Lemma sT_trans : forall T k u j x, sT T k u -> sub u j x -> sT T (k + j) x.
Proof. destruct T; simpl; [apply sub_trans|tauto]. Qed.

(** The lowest common ancestor of two nodes of a subtree [t], in the order
    demanded by the code. *)
Inductive lca_case (t : atree) (ua ub : atree) : atype -> nat -> Prop :=
| lc_eq : ua = ub -> lca_case t ua ub AEqual (aid ua)
| lc_left : forall i l r k, ub = AB i l r -> sub l k ua -> lca_case t ua ub ALeft i
| lc_right : forall i l r k, ua = AB i l r -> sub r k ub -> lca_case t ua ub ARight i
| lc_disj : forall i l r k ka kb, sub t k (AB i l r) -> sub l ka ua -> sub r kb ub -> lca_case t ua ub ADisjoint i.

(** two subtrees of the same tree *)
Lemma sub_cases : forall t ka ua kb ub, sub t ka ua -> sub t kb ub ->
  (ua = ub /\ ka = kb) \/
  (exists i l r k, ub = AB i l r /\ sub l k ua /\ ka = kb + k) \/
  (exists i l r k, ub = AB i l r /\ sub r k ua /\ ka = kb + size l + 1 + k) \/
  (exists i l r k, ua = AB i l r /\ sub l k ub /\ kb = ka + k) \/
  (exists i l r k, ua = AB i l r /\ sub r k ub /\ kb = ka + size l + 1 + k) \/
  (exists i l r k ja jb, sub t k (AB i l r) /\ sub l ja ua /\ sub r jb ub /\ ka = k + ja /\ kb = k + size l + 1 + jb) \/
  (exists i l r k ja jb, sub t k (AB i l r) /\ sub r ja ua /\ sub l jb ub /\ kb = k + jb /\ ka = k + size l + 1 + ja).
Proof.
  induction t as [i v|i l IHl r IHr]; intros ka ua kb ub Sa Sb.
  - inversion Sa; inversion Sb; subst. auto.
  - inversion Sa as [|? ? ? x ? SA|? ? ? x ? SA]; inversion Sb as [|? ? ? y ? SB|? ? ? y ? SB]; subst.
    + auto.
    + right. right. right. left. exists i, l, r, kb. auto.
    + right. right. right. right. left. exists i, l, r, y. repeat split; auto; lia.
    + right. left. exists i, l, r, ka. auto.
    + destruct (IHl ka ua kb ub) as [H|[H|[H|[H|[H|[H|H]]]]]]; auto 10.
      * do 5 right. left. destruct H as (i' & l' & r' & k & ja & jb & A & B & C & D & E).
        exists i', l', r', k, ja, jb. split; [apply sub_l; auto|auto].
      * do 6 right. destruct H as (i' & l' & r' & k & ja & jb & A & B & C & D & E).
        exists i', l', r', k, ja, jb. split; [apply sub_l; auto|auto].
    + do 5 right. left. exists i, l, r, 0, ka, y. repeat split; auto using sub_refl; lia.
    + right. right. left. exists i, l, r, x. repeat split; auto; lia.
    + do 6 right. exists i, l, r, 0, x, kb. repeat split; auto using sub_refl; lia.
    + destruct (IHr x ua y ub) as [H|[H|[H|[H|[H|[H|H]]]]]]; auto.
      * left. destruct H; split; auto; lia.
      * right. left. destruct H as (i' & l' & r' & j & A & B & C). exists i', l', r', j. repeat split; auto; lia.
      * do 2 right. left. destruct H as (i' & l' & r' & j & A & B & C). exists i', l', r', j. repeat split; auto; lia.
      * do 3 right. left. destruct H as (i' & l' & r' & j & A & B & C). exists i', l', r', j. repeat split; auto; lia.
      * do 4 right. left. destruct H as (i' & l' & r' & j & A & B & C). exists i', l', r', j. repeat split; auto; lia.
      * do 5 right. left. destruct H as (i' & l' & r' & j & ja & jb & A & B & C & D & E).
        exists i', l', r', (size l + 1 + j), ja, jb. repeat split; auto using sub_r; lia.
      * do 6 right. destruct H as (i' & l' & r' & j & ja & jb & A & B & C & D & E).
        exists i', l', r', (size l + 1 + j), ja, jb. repeat split; auto using sub_r; lia.
Qed.

(** every strict subtree has a parent *)
Lemma sub_parent : forall t k u, sub t k u -> u <> t ->
  exists j i l r, sub t j (AB i l r) /\ (u = l /\ k = j \/ u = r /\ k = j + size l + 1).
Proof.
  induction 1 as [t|i l r k u S IH|i l r k u S IH]; intros N; [congruence|..].
  - assert (D : u = l \/ u <> l).
    { destruct (Nat.eq_dec (size u) (size l)) as [E|E]; [|right; intros ->; auto].
      left. inversion S; subst; auto; simpl in E; apply sub_range in H; lia. }
    destruct D as [->|D].
    + exists 0, i, l, r. split; [apply sub_refl|]. left. split; auto.
      apply sub_range in S. lia.
    + destruct (IH D) as (j & i' & l' & r' & A & B). exists j, i', l', r'. split; [apply sub_l; auto|auto].
  - assert (D : u = r \/ u <> r).
    { destruct (Nat.eq_dec (size u) (size r)) as [E|E]; [|right; intros ->; auto].
      left. inversion S; subst; auto; simpl in E; apply sub_range in H; lia. }
    destruct D as [->|D].
    + exists 0, i, l, r. split; [apply sub_refl|]. right. split; auto.
      apply sub_range in S. lia.
    + destruct (IH D) as (j & i' & l' & r' & A & B). exists (size l + 1 + j), i', l', r'.
      split; [apply sub_r; auto|]. destruct B as [[-> ->]|[-> ->]]; [left; auto|right; split; auto; lia].
Qed.

Section Lca.
  Variables (vt : vtree) (T : option atree).
  Hypothesis OK : vt_ok vt T.

  (** climbing from inside [l] to the branch [AB i l r] *)
  Lemma lca_loop_spec : forall i l r k p2, sT T k (AB i l r) -> k + size l < p2 -> p2 < k + size (AB i l r) ->
    forall fuel j u, sub (AB i l r) j u -> (u = AB i l r \/ exists j', sub l j' u) ->
    size (AB i l r) - size u < fuel ->
    lca_loop vt fuel p2 (aid u) = Some i.
  Proof.
    intros i l r k p2 ST P1 P2. induction fuel as [|f IH]; intros j u S D F; [lia|].
    cbn [lca_loop]. pose proof (sT_trans _ _ ST S) as STu.
    destruct (ok_last OK STu) as (la & -> & E). cbn [obind]. rewrite E. cbn [obind].
    destruct D as [->|(j' & Sl)].
    - assert (j = 0) by (apply sub_range in S; lia). subst j.
      replace (k + 0 + (size (AB i l r) - 1) <? p2) with false; auto.
      symmetry. apply Nat.ltb_ge. lia.
    - pose proof (sub_l i r Sl) as S'.
      assert (j' = j).
      { pose proof (sT_trans _ _ ST S') as X. destruct (ok_unique OK X STu eq_refl). lia. }
      subst j'. pose proof (sub_range Sl) as RG. pose proof (size_pos u).
      replace (k + j + (size u - 1) <? p2) with true by (symmetry; apply Nat.ltb_lt; lia).
      assert (NE : u <> AB i l r) by (intros ->; simpl in RG; lia).
      destruct (sub_parent S NE) as (jp & ip & lp & rp & Sp & Q).
      pose proof (sT_trans _ _ ST Sp) as STp. destruct (ok_parent OK STp) as [PL PR].
      assert (PP : parent_of (vt_edges vt) (aid u) = Some ip) by (destruct Q as [[-> _]|[-> _]]; auto).
      rewrite PP. cbn [obind]. change ip with (aid (AB ip lp rp)) at 1. apply IH with (j := jp); auto.
      + inversion Sp; subst; [left; auto|right; eauto|].
        exfalso. destruct Q as [[-> Q]|[-> Q]]; lia.
      + assert (size u < size (AB ip lp rp)) by (destruct Q as [[-> _]|[-> _]]; simpl; lia).
        pose proof (sub_range Sp). lia.
  Qed.

  Theorem lca_spec : forall t kt ka ua kb ub, sT T kt t -> sub t ka ua -> sub t kb ub ->
    ka + rootoff ua <= kb + rootoff ub ->
    exists ty lca, lowest_common_ancestor vt (aid ua) (aid ub) = Some (ty, lca) /\ lca_case t ua ub ty lca.
  Proof.
    intros t kt ka ua kb ub ST Sa Sb LE.
    pose proof (sT_trans _ _ ST Sa) as STa. pose proof (sT_trans _ _ ST Sb) as STb.
    unfold lowest_common_ancestor.
    destruct (aid ua =? aid ub) eqn:E.
    - apply Nat.eqb_eq in E. destruct (ok_unique OK STa STb E). subst.
      exists AEqual, (aid ub). split; auto. constructor; auto.
    - apply Nat.eqb_neq in E.
      rewrite (ok_pos OK STa), (ok_pos OK STb). cbn [obind].
      destruct (ok_first OK STb) as (fb & -> & Pfb). destruct (ok_last OK STa) as (la & -> & Pla).
      cbn [obind]. rewrite Pfb, Pla. cbn [obind].
      pose proof (rootoff_lt ua) as Ra. pose proof (rootoff_lt ub) as Rb.
      destruct (sub_cases Sa Sb) as [(X & _)|[H|[H|[H|[H|[H|H]]]]]].
      + congruence.
      + destruct H as (i & l & r & k & -> & S & ->). pose proof (sub_range S). simpl rootoff in *.
        rewrite (proj2 (Nat.ltb_lt _ _)) by lia. rewrite (proj2 (Nat.leb_le _ _)) by lia.
        exists ALeft, i. split; auto. econstructor; eauto.
      + destruct H as (i & l & r & k & -> & S & ->). exfalso. simpl rootoff in *. lia.
      + destruct H as (i & l & r & k & -> & S & ->). exfalso. pose proof (sub_range S). simpl rootoff in *. lia.
      + destruct H as (i & l & r & k & -> & S & ->). pose proof (sub_range S). simpl rootoff in *. simpl size in *.
        rewrite (proj2 (Nat.ltb_lt _ _)) by lia. rewrite (proj2 (Nat.leb_gt _ _)) by lia.
        rewrite (proj2 (Nat.leb_le _ _)) by lia.
        exists ARight, i. split; auto. econstructor; eauto.
      + destruct H as (i & l & r & k & ja & jb & Sc & Sl & Sr & -> & ->).
        pose proof (sub_range Sl). pose proof (sub_range Sr).
        rewrite (proj2 (Nat.ltb_lt _ _)) by lia. rewrite (proj2 (Nat.leb_gt _ _)) by lia.
        rewrite (proj2 (Nat.leb_gt _ _)) by lia.
        pose proof (sT_trans _ _ ST Sc) as STc.
        assert (NE : ua <> AB i l r) by (intros ->; pose proof (sub_range Sl); simpl in *; lia).
        pose proof (sub_l i r Sl) as Sa'.
        destruct (sub_parent Sa' NE) as (jp & ip & lp & rp & Sp & Q).
        pose proof (sT_trans _ _ STc Sp) as STp. destruct (ok_parent OK STp) as [PL PR].
        assert (PP : parent_of (vt_edges vt) (aid ua) = Some ip) by (destruct Q as [[-> _]|[-> _]]; auto).
        rewrite PP. cbn [obind].
        rewrite (@lca_loop_spec i l r (kt + k) (kt + (k + size l + 1 + jb) + rootoff ub) STc) with (u := AB ip lp rp) (j := jp); auto.
        * cbn [obind]. exists ADisjoint, i. split; auto. econstructor; eauto.
        * lia.
        * simpl. lia.
        * inversion Sp; subst; [left; auto|right; eauto|].
          exfalso. destruct Q as [[-> Q]|[-> Q]]; lia.
        * pose proof (ok_size OK STc). lia.
      + destruct H as (i & l & r & k & ja & jb & Sc & Sr & Sl & -> & ->). exfalso.
        pose proof (sub_range Sl). lia.
  Qed.
End Lca.
