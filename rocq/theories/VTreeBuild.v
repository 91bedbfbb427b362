(** Every variable tree made by the three constructors is valid. *)
From Coq Require Import List Arith Bool Lia.
From Verif Require Import ListAux VTree VTreeFacts.
Import ListNotations.
Set Implicit Arguments.

Definition has_parents (edges : list (nat * nat)) (t : atree) : Prop :=
  forall k i l r, sub t k (AB i l r) ->
    parent_of edges (aid l) = Some i /\ parent_of edges (aid r) = Some i.

Lemma repr_mono : forall tree ext t, repr tree t -> repr (tree ++ ext) t.
Proof.
  induction t; simpl; intros R.
  - rewrite nth_error_app1; auto. apply nth_error_Some. congruence.
  - destruct R as (A & B & C). split; [|auto]. rewrite nth_error_app1; auto. apply nth_error_Some. congruence.
Qed.

(** [g'] extends [g] by exactly the tree [t]. *)
Record bld (g g' : vgraph) (t : atree) : Prop := {
  bl_nodes : exists ext, fst g' = fst g ++ ext;
  bl_edges : exists E, snd g' = E ++ snd g /\ forall e, In e E -> length (fst g) <= snd e;
  bl_repr : repr (fst g') t;
  bl_ids : forall i, In i (ids t) -> length (fst g) <= i < length (fst g');
  bl_nodup : NoDup (ids t);
  bl_par : has_parents (snd g') t
}.

Lemma bld_leaf : forall g v, bld g (fst (add_vnode g (VLeaf v))) (AL (length (fst g)) v).
Proof.
  intros g v. unfold add_vnode. simpl. split; simpl; eauto.
  - exists []. split; auto. intros e [].
  - apply nth_error_app_len.
  - intros i [<-|[]]. rewrite app_length. simpl. lia.
  - repeat constructor. auto.
  - intros k i l r S. inversion S.
Qed.

Lemma parent_front : forall E edges x, (forall e, In e E -> snd e <> x) ->
  parent_of (E ++ edges) x = parent_of edges x.
Proof.
  unfold parent_of. induction E as [|e E IH]; simpl; intros edges x H; auto.
  destruct (snd e =? x) eqn:Q; [apply Nat.eqb_eq in Q; exfalso; eapply H; eauto|]. apply IH. auto.
Qed.

(** the children of a branch inside [t] are not the root of [t] *)
Lemma child_not_root : forall t k i l r, NoDup (ids t) -> sub t k (AB i l r) ->
  aid l <> aid t /\ aid r <> aid t /\ In (aid l) (ids t) /\ In (aid r) (ids t).
Proof.
  intros t k i l r N S.
  assert (Sl : sub t (k + 0) l) by (eapply sub_trans; [exact S|apply sub_l, sub_refl]).
  assert (Sr : sub t (k + (size l + 1 + 0)) r) by (eapply sub_trans; [exact S|apply sub_r, sub_refl]).
  pose proof (sub_range S) as R. simpl in R. pose proof (size_pos l). pose proof (size_pos r).
  split; [|split; [|split]]; try (eapply sub_aid_In; eauto; fail).
  - intros E. destruct (sub_unique N Sl (sub_refl t) E) as [-> _]. lia.
  - intros E. destruct (sub_unique N Sr (sub_refl t) E) as [-> _]. lia.
Qed.

(** adding a branch above two trees built one after the other; [t] was built
    first, [u] second, and they become the two children in either order *)
Lemma bld_branch : forall g0 g g1 t u a b, bld g0 g t -> bld g g1 u ->
  (a = t /\ b = u \/ a = u /\ b = t) ->
  bld g0 (fst (add_branch g1 (aid a) (aid b))) (AB (length (fst g1)) a b).
Proof.
  intros g0 g g1 t u a b [(x1 & N1) (E1 & Q1 & D1) R1 I1 U1 P1] [(x2 & N2) (E2 & Q2 & D2) R2 I2 U2 P2] AB.
  assert (L0 : length (fst g0) <= length (fst g)) by (rewrite N1, app_length; lia).
  assert (L1 : length (fst g) <= length (fst g1)) by (rewrite N2, app_length; lia).
  assert (RT : repr (fst g1) t) by (rewrite N2; apply repr_mono; auto).
  assert (DJ : forall x, In x (ids t) -> In x (ids u) -> False) by (intros x A B; apply I1 in A; apply I2 in B; lia).
  assert (IT : forall i, In i (ids t) -> length (fst g0) <= i < length (fst g1)) by (intros i A; apply I1 in A; lia).
  assert (IU : forall i, In i (ids u) -> length (fst g0) <= i < length (fst g1)) by (intros i A; apply I2 in A; lia).
  assert (PT : has_parents (snd g1) t).
  { intros k i l r S. rewrite Q2. destruct (child_not_root U1 S) as (_ & _ & A & B).
    rewrite !parent_front; [eapply P1; eauto|..]; intros e Ie X; apply D2 in Ie; rewrite X in Ie; [apply I1 in B|apply I1 in A]; lia. }
  assert (IDT : In (aid t) (ids t)) by (eapply sub_aid_In, sub_refl).
  assert (IDU : In (aid u) (ids u)) by (eapply sub_aid_In, sub_refl).
  assert (NEQ : aid t <> aid u) by (intros X; apply (DJ (aid t)); auto; rewrite X; auto).
  unfold add_branch, add_vnode, add_edge. simpl.
  assert (PA : forall x, has_parents (snd g1) x -> NoDup (ids x) -> (x = t \/ x = u) ->
            has_parents ((length (fst g1), aid b) :: (length (fst g1), aid a) :: snd g1) x).
  { intros x PX NX D k i l r S. destruct (child_not_root NX S) as (A & B & C & C').
    change ((length (fst g1), aid b) :: (length (fst g1), aid a) :: snd g1)
      with ([(length (fst g1), aid b); (length (fst g1), aid a)] ++ snd g1).
    assert (OUT : forall y, In y (ids x) -> y <> aid x -> forall e, In e [(length (fst g1), aid b); (length (fst g1), aid a)] -> snd e <> y).
    { intros y IY NY e Ie X. assert (Z : y = aid t \/ y = aid u).
      { destruct AB as [[-> ->]|[-> ->]], Ie as [<-|[<-|[]]]; simpl in X; auto. }
      destruct D as [->| ->], Z as [->| ->]; auto; [eapply (DJ (aid u)); eauto|eapply (DJ (aid t)); eauto]. }
    rewrite !parent_front; [eapply PX; eauto|apply OUT; auto|apply OUT; auto]. }
  split; simpl.
  - exists (x1 ++ x2 ++ [VBranch (aid a) (aid b)]). rewrite N2, N1, !app_assoc_reverse. auto.
  - exists ((length (fst g1), aid b) :: (length (fst g1), aid a) :: E2 ++ E1). split.
    + rewrite Q2, Q1. simpl. rewrite app_assoc_reverse. auto.
    + intros e [<-|[<-|X]]; simpl.
      * destruct AB as [[-> ->]|[-> ->]]; [apply IU|apply IT]; auto.
      * destruct AB as [[-> ->]|[-> ->]]; [apply IT|apply IU]; auto.
      * apply in_app_or in X as [X|X]; [apply D2 in X; lia|apply D1 in X; auto].
  - split; [apply nth_error_app_len|].
    destruct AB as [[-> ->]|[-> ->]]; split; apply repr_mono; auto.
  - intros i X. rewrite app_length. simpl. apply in_app_or in X as [X|[<-|X]]; [|lia|].
    + assert (length (fst g0) <= i < length (fst g1)) by (destruct AB as [[-> ->]|[-> ->]]; auto). lia.
    + assert (length (fst g0) <= i < length (fst g1)) by (destruct AB as [[-> ->]|[-> ->]]; auto). lia.
  - assert (G : forall A B : list nat, NoDup A -> NoDup B -> (forall x, In x A -> In x B -> False) ->
              (forall x, In x A -> x < length (fst g1)) -> (forall x, In x B -> x < length (fst g1)) ->
              NoDup (A ++ length (fst g1) :: B)).
    { clear. intros A B NA NB D LA LB. apply NoDup_rev in NA. rewrite <- (rev_involutive A).
      assert (NB' : NoDup (length (fst g1) :: B)) by (constructor; auto; intros X; apply LB in X; lia).
      induction A as [|x A IH]; auto. simpl. rewrite rev_app_distr. simpl.
      constructor.
      - rewrite rev_involutive. intros X. apply in_app_or in X as [X|[X|X]].
        + apply NoDup_rev in NA. rewrite rev_involutive in NA. inversion NA; auto.
        + specialize (LA x (or_introl eq_refl)). lia.
        + eapply D; simpl; eauto.
      - apply IH.
        + apply NoDup_rev in NA. rewrite rev_involutive in NA. inversion NA; subst. apply NoDup_rev; auto.
        + intros; eapply D; simpl; eauto.
        + intros; apply LA; simpl; auto. }
    destruct AB as [[-> ->]|[-> ->]]; apply G; eauto;
      intros x X; first [apply IT in X; lia | apply IU in X; lia].
  - intros k i l r S. inversion S; subst.
    + unfold parent_of. simpl. rewrite !Nat.eqb_refl. simpl. split; auto.
      destruct (aid r =? aid l) eqn:E; simpl; auto.
    + pose proof (PA t PT U1 (or_introl eq_refl)) as HT. pose proof (PA u P2 U2 (or_intror eq_refl)) as HU.
      destruct AB as [[-> ->]|[-> ->]]; [eapply HT|eapply HU]; eauto.
    + pose proof (PA t PT U1 (or_introl eq_refl)) as HT. pose proof (PA u P2 U2 (or_intror eq_refl)) as HU.
      destruct AB as [[-> ->]|[-> ->]]; [eapply HU|eapply HT]; eauto.
Qed.

Lemma lpairs_fst : forall t, map fst (lpairs t) = avars t.
Proof. induction t; simpl; auto. rewrite map_app. congruence. Qed.
Lemma lpairs_sub : forall t x i, In (x, i) (lpairs t) -> exists k, sub t k (AL i x).
Proof.
  induction t as [i v|i l IHl r IHr]; simpl; intros x j H.
  - destruct H as [E|[]]. injection E as -> ->. exists 0. apply sub_refl.
  - apply in_app_or in H as [H|H].
    + destruct (IHl _ _ H) as (k & S). exists k. apply sub_l; auto.
    + destruct (IHr _ _ H) as (k & S). eexists. apply sub_r; eauto.
Qed.
Lemma sub_lpairs : forall t k i x, sub t k (AL i x) -> In (x, i) (lpairs t).
Proof.
  induction t as [i v|i l IHl r IHr]; intros k j x S; inversion S; subst; simpl; auto; apply in_or_app; eauto.
Qed.

(** [post_process] of a finished graph *)
Definition graph_ok (vt : vtree) (T : option atree) : Prop :=
  match T with
  | None => True
  | Some t => repr (vt_tree vt) t /\ NoDup (ids t) /\ has_parents (vt_edges vt) t /\ vt_root vt = aid t
  end.
Lemma post_process_ok : forall g t vars, bld ([], []) g t -> avars t = vars -> NoDup vars ->
  exists vt, post_process g vars (aid t) = Some vt /\ (vt_ok vt (Some t) /\ graph_ok vt (Some t)) /\ vt_vars vt = vars.
Proof.
  intros g t vars B V N. destruct B as [_ _ R I U P]. simpl in I.
  assert (SZ : size t <= length (fst g)).
  { rewrite <- ids_length. rewrite <- (seq_length (length (fst g)) 0). apply NoDup_incl_length; auto.
    intros x X. apply in_seq. apply I in X. lia. }
  pose proof (height_lt t) as HT.
  unfold post_process. rewrite (in_order_spec _ _ R) by lia. cbn [obind].
  rewrite (cache_spec _ _ R U) by lia. cbn [obind fst snd].
  eexists. split; [reflexivity|]. split; [|auto]. split; [|simpl; auto].
  assert (PO : forall p i, nth_error (ids t) p = Some i ->
            mget (rev (combine (ids t) (seq 0 (size t))) ++ []) i = Some p) by (intros; apply pos_lookup; auto).
  split; unfold position, first_in_subtree, last_in_subtree; simpl; auto.
  - intros k u S. apply PO. apply sub_pos; auto.
  - intros k u S. exists (afirst u). split; [rewrite app_nil_r; eapply fpairs_get; eauto|]. apply PO. apply sub_first; auto.
  - intros k u S. exists (alast u). split; [rewrite app_nil_r; eapply lapairs_get; eauto|]. apply PO. apply sub_last; auto.
  - intros k u S. apply sub_range in S. lia.
  - intros k u k' u' S S' E. eapply sub_unique; eauto.
  - intros x X. rewrite <- V, <- lpairs_fst in X. apply in_map_iff in X as ((x' & i) & E & X). simpl in E. subst x'.
    destruct (lpairs_sub _ _ _ X) as (k & S). exists i, k. split; auto.
    rewrite app_nil_r, mget_rev by (rewrite lpairs_fst, V; auto).
    apply mget_NoDup; auto. rewrite lpairs_fst, V; auto.
  - intros i k i' k' x S S'. apply sub_lpairs in S, S'.
    apply (@mget_NoDup (lpairs t)) in S, S'; try (rewrite lpairs_fst, V; auto). congruence.
Qed.

Lemma left_loop_ok : forall vars g t, bld ([], []) g t ->
  exists g' t', left_loop g (aid t) vars = (g', aid t') /\ bld ([], []) g' t' /\ avars t' = avars t ++ vars.
Proof.
  induction vars as [|v r IH]; intros g t B.
  - exists g, t. rewrite app_nil_r. auto.
  - cbn [left_loop]. pose proof (bld_leaf g v) as BL. unfold add_vnode at 1. unfold add_vnode in BL. simpl in BL.
    pose proof (bld_branch B BL (or_introl (conj eq_refl eq_refl))) as BB.
    simpl aid in BB at 2. destruct (add_branch _ _ _) as [g2 p] eqn:E. simpl in BB.
    assert (p = length (fst g ++ [VLeaf v])) by (unfold add_branch, add_vnode in E; simpl in E; congruence).
    subst p. destruct (IH g2 _ BB) as (g' & t' & E' & B' & V'). simpl aid in E' at 1.
    exists g', t'. split; [exact E'|]. split; auto. rewrite V'. simpl. rewrite app_assoc_reverse. auto.
Qed.
Lemma right_loop_ok : forall vars g t, bld ([], []) g t ->
  exists g' t', right_loop g (aid t) vars = (g', aid t') /\ bld ([], []) g' t' /\ avars t' = rev vars ++ avars t.
Proof.
  induction vars as [|v r IH]; intros g t B.
  - exists g, t. auto.
  - cbn [right_loop]. pose proof (bld_leaf g v) as BL. unfold add_vnode at 1. unfold add_vnode in BL. simpl in BL.
    pose proof (bld_branch B BL (or_intror (conj eq_refl eq_refl))) as BB.
    simpl aid in BB at 1. destruct (add_branch _ _ _) as [g2 p] eqn:E. simpl in BB.
    assert (p = length (fst g ++ [VLeaf v])) by (unfold add_branch, add_vnode in E; simpl in E; congruence).
    subst p. destruct (IH g2 _ BB) as (g' & t' & E' & B' & V'). simpl aid in E' at 1.
    exists g', t'. split; [exact E'|]. split; auto. rewrite V'. simpl. rewrite app_assoc_reverse. auto.
Qed.
Lemma skipn_add : forall a b (l : list nat), skipn (a + b) l = skipn b (skipn a l).
Proof. induction a as [|a IH]; intros b [|x l]; simpl; auto. now rewrite skipn_nil. Qed.
Lemma bal_ok : forall vars fuel g low high, low < high -> high <= length vars -> high - low <= fuel ->
  exists g' t, bal_recurse fuel g vars low high = Some (g', aid t) /\ bld g g' t /\
    avars t = firstn (high - low) (skipn low vars).
Proof.
  intros vars. induction fuel as [|f IH]; intros g low high L H F; [lia|].
  cbn [bal_recurse]. destruct (low =? high - 1) eqn:E.
  - apply Nat.eqb_eq in E. replace (high - low) with 1 by lia.
    destruct (nth_error vars low) as [v|] eqn:N; [|apply nth_error_None in N; lia].
    cbn [obind]. exists (fst (add_vnode g (VLeaf v))), (AL (length (fst g)) v).
    split; [reflexivity|]. split; [apply bld_leaf|].
    clear -N. revert low N. induction vars as [|x vars IH]; intros [|low] N; simpl in *; try discriminate.
    + congruence.
    + apply IH; auto.
  - apply Nat.eqb_neq in E.
    assert (M : low < (high + low) / 2 < high).
    { split.
      - apply Nat.div_le_lower_bound; lia.
      - apply Nat.div_lt_upper_bound; lia. }
    set (mid := (high + low) / 2) in *. clearbody mid.
    destruct (IH g low mid) as (g1 & t1 & E1 & B1 & V1); [lia..|]. rewrite E1. cbn [obind].
    destruct (IH g1 mid high) as (g2 & t2 & E2 & B2 & V2); [lia..|]. rewrite E2. cbn [obind].
    exists (fst (add_branch g2 (aid t1) (aid t2))), (AB (length (fst g2)) t1 t2).
    split; [reflexivity|]. split; [eapply bld_branch; eauto|].
    simpl. rewrite V1, V2. replace (high - low) with ((mid - low) + (high - mid)) by lia.
    rewrite <- (firstn_skipn (mid - low) (skipn low vars)) at 2.
    rewrite firstn_app, firstn_firstn.
    assert (LF : length (firstn (mid - low) (skipn low vars)) = mid - low).
    { rewrite firstn_length, skipn_length. lia. }
    rewrite LF. replace (Nat.min (mid - low + (high - mid)) (mid - low)) with (mid - low) by lia.
    f_equal. replace (mid - low + (high - mid) - (mid - low)) with (high - mid) by lia.
    f_equal. replace mid with (low + (mid - low)) at 1 by lia. apply skipn_add.
Qed.

(** Every variable tree of every kind over distinct variables is valid. *)
Theorem new_with_type_graph : forall vars ty, NoDup vars -> (vars <> [] \/ ty = VTBalanced) ->
  exists vt T, new_with_type vars ty = Some vt /\ (vt_ok vt T /\ graph_ok vt T) /\ vt_vars vt = vars.
Proof.
  intros vars ty N NE. destruct ty; simpl.
  - destruct vars as [|v r]; [destruct NE; congruence|].
    pose proof (bld_leaf ([], []) v) as BL.
    destruct (left_loop_ok r BL) as (g' & t' & E & B & V).
    change (create_left (v :: r)) with (let (g, root) := left_loop ([VLeaf v], []) 0 r in post_process g (v :: r) root).
    change (left_loop ([VLeaf v], []) 0 r = (g', aid t')) in E. rewrite E.
    change (avars t' = v :: r) in V.
    destruct (post_process_ok B V N) as (vt & -> & O & W). exists vt, (Some t'). auto.
  - unfold create_right. destruct (rev vars) as [|v r] eqn:RV.
    + exfalso. destruct NE as [NE|]; [|discriminate]. apply NE. rewrite <- (rev_involutive vars), RV. auto.
    + pose proof (bld_leaf ([], []) v) as BL.
      destruct (right_loop_ok r BL) as (g' & t' & E & B & V).
      change (right_loop ([VLeaf v], []) 0 r = (g', aid t')) in E. cbn [add_vnode fst snd app length].
      rewrite E.
      assert (V' : avars t' = vars).
      { rewrite V. simpl. rewrite <- (rev_involutive vars), RV. auto. }
      destruct (post_process_ok B V' N) as (vt & -> & O & W). exists vt, (Some t'). auto.
  - destruct vars as [|v r].
    + eexists. exists None. split; [reflexivity|]. split; [|auto]. split; [|simpl; auto].
      split; simpl; try tauto; try constructor; intros; tauto.
    + set (vars := v :: r) in *. cbn [create_balanced]. unfold create_balanced. fold vars.
      assert (LV : 0 < length vars) by (unfold vars; simpl; lia).
      destruct (@bal_ok vars (length vars) ([], []) 0 (length vars)) as (g' & t' & E & B & V); [lia..|].
      change (match vars with [] => Some (mkVT [] [] [] 0 [] [] [] []) | _ :: _ =>
        obind (bal_recurse (length vars) ([], []) vars 0 (length vars)) (fun '(g, root) => post_process g vars root) end)
        with (obind (bal_recurse (length vars) ([], []) vars 0 (length vars)) (fun '(g, root) => post_process g vars root)).
      rewrite E. cbn [obind].
      assert (V' : avars t' = vars) by (rewrite V, Nat.sub_0_r; simpl skipn; apply firstn_all).
      destruct (post_process_ok B V' N) as (vt & -> & O & W). exists vt, (Some t'). auto.
Qed.

Corollary new_with_type_ok : forall vars ty, NoDup vars -> (vars <> [] \/ ty = VTBalanced) ->
  exists vt T, new_with_type vars ty = Some vt /\ vt_ok vt T /\ vt_vars vt = vars.
Proof.
  intros vars ty N NE. destruct (new_with_type_graph N NE) as (vt & T & E & (O & _) & V). exists vt, T. auto.
Qed.
