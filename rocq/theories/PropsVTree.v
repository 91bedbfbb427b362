(** C44: what rotating and swapping does to a variable tree. *)
From Coq Require Import List Arith Bool Lia Permutation.
From Verif Require Import ListAux VTree VTreeFacts VTreeBuild VRotate.
Import ListNotations.
Set Implicit Arguments.

(** The in-order sequence of the variables, read off the child pointers from
    the root; [None] if some pointer is dangling or the walk does not end. *)
Fixpoint walk (tree : list vnode) (fuel n : nat) : option (list nat) :=
  match fuel with
  | 0 => None
  | S f =>
      match nth_error tree n with
      | Some (VLeaf v) => Some [v]
      | Some (VBranch l r) => do a <- walk tree f l; do b <- walk tree f r; Some (a ++ b)
      | None => None
      end
  end.
Definition inorder (t : vtree) : option (list nat) := walk (vt_tree t) (S (length (vt_tree t))) (vt_root t).

(** A proper variable tree: the child pointers from the root form the tree
    [t], every node occurs once, and [parent] inverts the child pointers. *)
Record proper (m : mvt) (t : atree) : Prop := {
  pr_repr : repr (vt_tree (fst m)) t;
  pr_ids : NoDup (ids t);
  pr_par : has_parents (vt_edges (fst m)) t;
  pr_root : vt_root (fst m) = aid t;
  pr_edges : vt_edges (fst m) = map snd (snd m);
  pr_idx : NoDup (map fst (snd m));
  pr_bound : forall e, In e (snd m) -> fst e < length (snd m)
}.

(** ** edges *)
Lemma remove_in : forall g e p, NoDup (map fst g) -> In p (remove_edge g e) ->
  (In p g /\ fst p <> e) \/ (fst p = e /\ In (length g - 1, snd p) g /\ e <> length g - 1).
Proof.
  unfold remove_edge. intros g e p N I. destruct (existsb (fun p => fst p =? e) g) eqn:X.
  - apply in_map_iff in I as (q & Q & I). apply filter_In in I as [I F].
    apply negb_true_iff, Nat.eqb_neq in F.
    destruct (fst q =? length g - 1) eqn:L.
    + apply Nat.eqb_eq in L. subst p. simpl. right. split; auto. rewrite <- L. split; [|congruence].
      destruct q; auto.
    + subst p. left. split; auto.
  - left. split; auto. intros E. assert (Z : existsb (fun q => fst q =? e) g = true); [|congruence].
    apply existsb_exists. exists p. split; auto. apply Nat.eqb_eq. auto.
Qed.
Lemma filter_keep : forall A (f : A -> bool) l, (forall x, In x l -> f x = true) -> filter f l = l.
Proof. induction l as [|x l IH]; simpl; intros H; auto. rewrite H; auto. f_equal. auto. Qed.
Lemma remove_len : forall (g : iedges) e, NoDup (map fst g) -> existsb (fun p => fst p =? e) g = true ->
  S (length (filter (fun p => negb (fst p =? e)) g)) = length g.
Proof.
  induction g as [|q g IH]; simpl; intros e N X; [discriminate|]. inversion N; subst.
  destruct (fst q =? e) eqn:Q; simpl.
  - apply Nat.eqb_eq in Q. subst e. f_equal. f_equal. apply filter_keep. intros x Hx.
    apply negb_true_iff, Nat.eqb_neq. intros Y. apply H1. rewrite <- Y. apply in_map. auto.
  - rewrite IH; auto.
Qed.
Lemma NoDup_map_inj_in : forall A B (f : A -> B) l, (forall x y, In x l -> In y l -> f x = f y -> x = y) -> NoDup l -> NoDup (map f l).
Proof.
  induction l as [|x l IH]; simpl; intros F N; [constructor|]. inversion N; subst. constructor.
  - intros I. apply in_map_iff in I as (y & Y & I). apply F in Y; auto. subst. auto.
  - apply IH; auto.
Qed.
Lemma NoDup_map_filter : forall A B (f : A -> B) p l, NoDup (map f l) -> NoDup (map f (filter p l)).
Proof.
  induction l as [|x l IH]; simpl; intros N; auto. inversion N; subst. destruct (p x); simpl; auto.
  constructor; auto. intros I. apply H1. apply in_map_iff in I as (y & Y & I). apply filter_In in I as [I _].
  rewrite <- Y. apply in_map; auto.
Qed.
Definition wfi (g : iedges) : Prop := NoDup (map fst g) /\ forall e, In e g -> fst e < length g.
Lemma remove_wfi : forall g e, wfi g -> wfi (remove_edge g e).
Proof.
  intros g e [N B]. unfold remove_edge. destruct (existsb (fun p => fst p =? e) g) eqn:X; [|split; auto].
  pose proof (@remove_len g e N X) as L. split.
  - rewrite map_map.
    rewrite (map_ext _ (fun p => (fun i => if i =? length g - 1 then e else i) (fst p))).
    2:{ intros q. simpl. destruct (fst q =? length g - 1) eqn:Q; auto. }
    rewrite <- (map_map fst (fun i => if i =? length g - 1 then e else i)). apply NoDup_map_inj_in.
    + intros i j I J. apply in_map_iff in I as (p & <- & I). apply in_map_iff in J as (q & <- & J).
      apply filter_In in I as [I P]. apply filter_In in J as [J Q].
      apply negb_true_iff, Nat.eqb_neq in P. apply negb_true_iff, Nat.eqb_neq in Q.
      destruct (fst p =? length g - 1) eqn:A, (fst q =? length g - 1) eqn:C; intros; try congruence.
      apply Nat.eqb_eq in A. apply Nat.eqb_eq in C. congruence.
    + apply NoDup_map_filter. auto.
  - intros p I. rewrite map_length. apply in_map_iff in I as (q & Q & I).
    apply filter_In in I as [I F]. apply negb_true_iff, Nat.eqb_neq in F.
    apply existsb_exists in X as (z & Z & X). apply Nat.eqb_eq in X. apply B in Z. specialize (B _ I).
    destruct (fst q =? length g - 1) eqn:A; subst p; simpl.
    + apply Nat.eqb_eq in A. lia.
    + apply Nat.eqb_neq in A. lia.
Qed.
Lemma ins_wfi : forall g a b, wfi g -> wfi (ins_edge g a b).
Proof.
  intros g a b [N B]. split; simpl.
  - constructor; auto. intros I. apply in_map_iff in I as (p & P & I). apply B in I. lia.
  - intros e [<-|I]; simpl; [lia|]. apply B in I. lia.
Qed.
(** removing an edge with another target leaves a parent alone *)
Lemma remove_parent : forall g e n, wfi g -> (forall p, In p g -> fst p = e -> snd (snd p) <> n) ->
  parent_of (map snd (remove_edge g e)) n = parent_of (map snd g) n.
Proof.
  intros g e n _ H. unfold remove_edge. destruct (existsb (fun p => fst p =? e) g); auto.
  rewrite map_map. unfold parent_of. f_equal.
  rewrite (map_ext (fun x : nat * (nat * nat) => snd (if fst x =? length g - 1 then (e, snd x) else x)) snd)
    by (intros x; destruct (fst x =? length g - 1); auto).
  induction g as [|p g IH] in H |- *; simpl; auto.
  destruct (fst p =? e) eqn:P; simpl.
  - apply Nat.eqb_eq in P. assert (snd (snd p) <> n) by (apply H; simpl; auto).
    destruct (snd (snd p) =? n) eqn:Q; [apply Nat.eqb_eq in Q; contradiction|]. apply IH. intros; apply H; simpl; auto.
  - destruct (snd (snd p) =? n); auto. apply IH. intros; apply H; simpl; auto.
Qed.
Lemma idx_unique : forall (g : iedges) p q, NoDup (map fst g) -> In p g -> In q g -> fst p = fst q -> p = q.
Proof.
  induction g as [|z g IH]; simpl; intros p q N P Q E; [contradiction|]. inversion N; subst.
  destruct P as [->|P], Q as [->|Q]; auto.
  - exfalso. apply H1. rewrite E. apply in_map; auto.
  - exfalso. apply H1. rewrite <- E. apply in_map; auto.
Qed.
Lemma find_edge_spec : forall g a b e, find_edge g a b = Some e -> In (e, (a, b)) g.
Proof.
  unfold find_edge. intros g a b e H. destruct (find _ g) as [p|] eqn:F; [|discriminate].
  inversion H; subst. apply find_some in F as [I T]. apply andb_true_iff in T as [A B].
  apply Nat.eqb_eq in A. apply Nat.eqb_eq in B. destruct p as (i & x & y). simpl in *. subst. auto.
Qed.
Lemma find_edge_ex : forall g a b, In (a, b) (map snd g) -> exists e, find_edge g a b = Some e.
Proof.
  unfold find_edge. intros g a b I. destruct (find _ g) as [p|] eqn:F; simpl; eauto. exfalso.
  apply in_map_iff in I as (p & P & I). eapply find_none in F; eauto. rewrite P in F. simpl in F.
  rewrite !Nat.eqb_refl in F. discriminate.
Qed.
Lemma parent_in : forall E n p, parent_of E n = Some p -> In (p, n) E.
Proof.
  unfold parent_of. intros E n p H. destruct (find _ E) as [q|] eqn:F; [|discriminate].
  inversion H; subst. apply find_some in F as [I T]. apply Nat.eqb_eq in T. destruct q. simpl in *. subst. auto.
Qed.

(** ** trees *)
Lemma repr_lset : forall tree i n t, ~ In i (ids t) -> repr tree t -> repr (lset i n tree) t.
Proof.
  induction t as [j v|j l IHl r IHr]; simpl; intros NI R.
  - rewrite nth_error_lset. destruct (Nat.eq_dec i j) as [->|D]; [exfalso; apply NI; auto|].
    destruct (i =? j) eqn:Q; [apply Nat.eqb_eq in Q; contradiction|auto].
  - destruct R as (A & B & C). assert (i <> j) by (intros ->; apply NI, in_or_app; simpl; auto).
    split; [|split; [apply IHl|apply IHr]; auto; intros X; apply NI, in_or_app; simpl; auto].
    rewrite nth_error_lset. destruct (i =? j) eqn:Q; [apply Nat.eqb_eq in Q; contradiction|auto].
Qed.
Lemma walk_repr : forall t tree fuel, repr tree t -> height t < fuel -> walk tree fuel (aid t) = Some (avars t).
Proof.
  induction t as [j v|j l IHl r IHr]; simpl; intros tree [|f] R H; try lia; simpl.
  - rewrite R. auto.
  - destruct R as (A & B & C). rewrite A. rewrite IHl by (auto; lia). simpl. rewrite IHr by (auto; lia). auto.
Qed.
Lemma repr_in : forall tree t i, repr tree t -> In i (ids t) -> i < length tree.
Proof.
  induction t as [j v|j l IHl r IHr]; simpl; intros i R I.
  - destruct I as [<-|[]]. apply nth_error_Some. congruence.
  - destruct R as (A & B & C). apply in_app_or in I as [I|[<-|I]]; auto. apply nth_error_Some. congruence.
Qed.
Lemma repr_size : forall tree t, repr tree t -> NoDup (ids t) -> size t <= length tree.
Proof.
  intros tree t R N. rewrite <- ids_length, <- (seq_length (length tree) 0). apply NoDup_incl_length; auto.
  intros i I. apply in_seq. pose proof (@repr_in tree t i R I). lia.
Qed.
Lemma inorder_ok : forall m t, proper m t -> inorder (fst m) = Some (avars t).
Proof.
  intros m t [R N _ RT _ _ _]. unfold inorder. rewrite RT. apply walk_repr; auto.
  pose proof (@repr_size _ _ R N). pose proof (height_lt t). lia.
Qed.

(** a freshly built tree is proper *)
Theorem C44_built : forall vars ty, NoDup vars -> vars <> [] ->
  exists vt t, new_with_type vars ty = Some vt /\ proper (start vt) t /\ inorder vt = Some vars.
Proof.
  intros vars ty N NE. destruct (@new_with_type_graph vars ty N (or_introl NE)) as (vt & T & E & (O & G) & V).
  assert (NT : exists t, T = Some t /\ avars t = vars).
  { pose proof (ok_vars O) as OV. destruct T as [t|]; [exists t|exfalso; apply NE; congruence]. split; auto. congruence. }
  destruct NT as (t & -> & AV). destruct G as (R & I & P & RT). exists vt, t. split; auto.
  assert (PR : proper (start vt) t).
  { assert (LEN : length (rev (seq 0 (length (vt_edges vt)))) = length (vt_edges vt)) by (rewrite rev_length, seq_length; auto).
    unfold start, fresh. constructor; simpl; auto.
    - clear - LEN. revert LEN. generalize (rev (seq 0 (length (vt_edges vt)))). induction (vt_edges vt) as [|e E IH]; intros [|i l] L; simpl in *; try lia; auto.
      f_equal. apply IH. lia.
    - assert (X : map fst (combine (rev (seq 0 (length (vt_edges vt)))) (vt_edges vt)) = rev (seq 0 (length (vt_edges vt)))).
      { clear - LEN. revert LEN. generalize (rev (seq 0 (length (vt_edges vt)))). induction (vt_edges vt) as [|e E IH]; intros [|i l] L; simpl in *; try lia; auto.
        f_equal. apply IH. lia. }
      rewrite X. apply NoDup_rev, seq_NoDup.
    - intros [i e] X. apply in_combine_l in X. apply in_rev, in_seq in X. rewrite combine_length, LEN. simpl. lia. }
  split; auto. rewrite <- AV. apply (inorder_ok PR).
Qed.

(** ** the two rotations at the root *)
Lemma relink_edges : forall g old new b e1 e2, wfi g -> new <> b ->
  find_edge g new b = Some e1 -> find_edge g old new = Some e2 ->
  let g' := ins_edge (ins_edge (remove_edge (remove_edge g e1) e2) new old) old b in
  wfi g' /\ parent_of (map snd g') b = Some old /\
  (b <> old -> parent_of (map snd g') old = Some new) /\
  (forall n, n <> b -> n <> old -> n <> new -> parent_of (map snd g') n = parent_of (map snd g) n) /\
  (old <> new -> forall n, n <> b -> n <> new -> parent_of (map snd (remove_edge (remove_edge g e1) e2)) n = parent_of (map snd g) n).
Proof.
  intros g old new b e1 e2 W NB F1 F2 g'. apply find_edge_spec in F1. apply find_edge_spec in F2.
  pose proof (remove_wfi e1 W) as W1. pose proof (remove_wfi e2 W1) as W2.
  assert (K : forall n, n <> b -> n <> new -> parent_of (map snd (remove_edge (remove_edge g e1) e2)) n = parent_of (map snd g) n).
  { intros n N1 N2. rewrite remove_parent; auto.
    - rewrite remove_parent; auto. intros p I E. assert (p = (e1, (new, b))) as -> by (eapply idx_unique; eauto; apply W). simpl. auto.
    - intros p I E. apply remove_in in I as [[I D]|(A & I & D)]; [|exfalso|apply W].
      + assert (p = (e2, (old, new))) as -> by (eapply idx_unique; eauto; apply W). simpl. auto.
      + assert (X : e1 = e2) by congruence.
        assert (Y : (e1, (new, b)) = (e2, (old, new))) by (eapply idx_unique; eauto; apply W).
        inversion Y. congruence. }
  split; [apply ins_wfi, ins_wfi; auto|]. subst g'. unfold ins_edge. cbn [map snd].
  unfold parent_of in *. cbn [find snd]. rewrite Nat.eqb_refl. split; auto. split; [|split].
  - intros D. destruct (b =? old) eqn:Q; [apply Nat.eqb_eq in Q; contradiction|]. rewrite Nat.eqb_refl. auto.
  - intros n N1 N2 N3. destruct (b =? n) eqn:Q; [apply Nat.eqb_eq in Q; congruence|].
    destruct (old =? n) eqn:Q2; [apply Nat.eqb_eq in Q2; congruence|]. apply K; auto.
  - intros _. exact K.
Qed.

Lemma hp_branch : forall E i l r, has_parents E (AB i l r) <->
  parent_of E (aid l) = Some i /\ parent_of E (aid r) = Some i /\ has_parents E l /\ has_parents E r.
Proof.
  intros E i l r. split.
  - intros H. destruct (H 0 i l r (sub_refl _)) as [A B]. split; auto. split; auto.
    split; intros k j a b S; eapply H; [apply sub_l|apply sub_r]; eauto.
  - intros (A & B & C & D) k j a b S. inversion S; subst; auto; [eapply C|eapply D]; eauto.
Qed.
(** parents inside a subtree depend only on its inner nodes *)
Lemma hp_ext : forall E E' t, NoDup (ids t) ->
  (forall n, In n (ids t) -> n <> aid t -> parent_of E' n = parent_of E n) -> has_parents E t -> has_parents E' t.
Proof.
  intros E E' t N H P k i l r S. destruct (child_not_root N S) as (A & B & C & D).
  rewrite !H; auto. eapply P; eauto.
Qed.
Lemma aid_in : forall t, In (aid t) (ids t).
Proof. intros. eapply sub_aid_In, sub_refl. Qed.
Lemma nodup3 : forall a x b y c, NoDup (ids a ++ x :: ids b ++ y :: ids c) ->
  NoDup (ids a) /\ NoDup (ids b) /\ NoDup (ids c) /\ x <> y /\
  (forall n, In n (ids a) -> n <> x /\ n <> y /\ ~ In n (ids b) /\ ~ In n (ids c)) /\
  (forall n, In n (ids b) -> n <> x /\ n <> y /\ ~ In n (ids c)) /\
  (forall n, In n (ids c) -> n <> x /\ n <> y).
Proof.
  intros a x b y c N. apply NoDup_split in N as (NA & N & D1). inversion N as [|? ? X N2]; subst.
  apply NoDup_split in N2 as (NB & N3 & D2). inversion N3 as [|? ? Y NC]; subst.
  repeat split; auto.
  - intros ->. apply X, in_or_app. simpl. auto.
  - intros ->. eapply D1; simpl; eauto.
  - intros ->. eapply D1; eauto. simpl. right. apply in_or_app. simpl. auto.
  - intros Z. eapply D1; eauto. simpl. right. apply in_or_app. simpl. auto.
  - intros Z. eapply D1; eauto. simpl. right. apply in_or_app. simpl. auto.
  - intros ->. apply X, in_or_app. auto.
  - intros ->. eapply D2; simpl; eauto.
  - intros Z. eapply D2; simpl; eauto.
  - intros ->. apply X, in_or_app. simpl. auto.
  - intros ->. auto.
Qed.
Lemma nth_lset_same : forall A i (x y : A) l, nth_error l i = Some y -> nth_error (lset i x l) i = Some x.
Proof. induction i as [|i IH]; intros x y [|z l] H; simpl in *; try discriminate; auto. eapply IH; eauto. Qed.
Lemma nth_lset_other : forall A i j (x : A) l, i <> j -> nth_error (lset i x l) j = nth_error l j.
Proof.
  induction i as [|i IH]; intros [|j] x [|z l] H; simpl; auto; congruence.
Qed.

Definition same_tables (a b : vtree) : Prop :=
  vt_vars a = vt_vars b /\ vt_var a = vt_var b /\ vt_pos a = vt_pos b /\ vt_first a = vt_first b /\ vt_last a = vt_last b.

(** Rotating left at the root: the nodes are rearranged as in the picture in
    the source, the in-order sequence of nodes, hence of variables, is kept,
    and [parent] still inverts the child pointers. *)
Theorem C44_rotate_left_root : forall m x a y b c, proper m (AB x a (AB y b c)) ->
  exists m', rotate_left m x = MOk m' /\ proper m' (AB y (AB x a b) c) /\
    inorder (fst m') = inorder (fst m) /\ same_tables (fst m') (fst m).
Proof.
  intros [t g] x a y b c PR. pose proof PR as [R N P RT EG I B].
  assert (OP : inorder t = Some _) by exact (inorder_ok PR). cbn [fst snd] in *.
  cbn [ids] in N. destruct (nodup3 _ _ _ _ _ N) as (NA & NB & NC & XY & DA & DB & DC).
  cbn [repr aid] in R. destruct R as (RX & RA & RY & RB & RC).
  apply hp_branch in P as (PA & PY & HA & P). apply hp_branch in P as (PB & PC & HB & HC). cbn [aid] in *.
  pose proof (aid_in a) as Ia. pose proof (aid_in b) as Ib. pose proof (aid_in c) as Ic.
  destruct (DA _ Ia) as (A1 & A2 & A3 & A4). destruct (DB _ Ib) as (B1 & B2 & B3). destruct (DC _ Ic) as (C1 & C2).
  rewrite EG in PB, PY. destruct (find_edge_ex _ _ _ (parent_in _ _ PB)) as (e1 & F1).
  destruct (find_edge_ex _ _ _ (parent_in _ _ PY)) as (e2 & F2).
  destruct (@relink_edges g x y (aid b) e1 e2 (conj I B) (not_eq_sym B2) F1 F2) as (W & QB & QX & QO & _).
  unfold rotate_left. rewrite RX, RY. unfold relink. rewrite F1. cbn [VTree.obind]. rewrite F2. cbn [VTree.obind].
  rewrite RT, Nat.eqb_refl. cbn [of_opt]. eexists. split; [reflexivity|].
  set (g' := ins_edge _ x (aid b)) in *.
  set (tree' := lset y _ _).
  assert (G : proper (with_graph t tree' g' y) (AB y (AB x a b) c)).
  { constructor; cbn [fst snd with_graph vt_tree vt_edges vt_root]; auto; try apply W.
    - cbn [repr aid]. subst tree'. split; [|split; [split; [|split]|]].
      + eapply nth_lset_same. rewrite nth_lset_other by auto. eauto.
      + rewrite nth_lset_other by auto. eapply nth_lset_same; eauto.
      + apply repr_lset; [|apply repr_lset; auto]; intros Z; apply DA in Z; tauto.
      + apply repr_lset; [|apply repr_lset; auto]; intros Z; apply DB in Z; tauto.
      + apply repr_lset; [|apply repr_lset; auto]; intros Z; apply DC in Z; tauto.
    - cbn [ids]. rewrite app_assoc_reverse. cbn [app]. auto.
    - assert (SUB : forall u, NoDup (ids u) -> has_parents (vt_edges t) u ->
        (forall n, In n (ids u) -> n <> aid u -> n <> aid b /\ n <> x /\ n <> y) -> has_parents (map snd g') u).
      { intros u NU HU D. eapply hp_ext; [auto| |eauto]. intros n In1 In2. destruct (D n In1 In2) as (D1 & D2 & D3).
        rewrite QO, EG; auto. }
      apply hp_branch. cbn [aid]. split; [|split; [|split]].
      + apply QX. auto.
      + rewrite QO, <- EG; auto. intros Z. apply B3. rewrite <- Z. auto.
      + apply hp_branch. split; [|split; [|split]]; auto.
        * rewrite QO, <- EG; auto. intros Z. apply A3. rewrite Z. auto.
        * apply SUB; auto. intros n In1 _. destruct (DA _ In1) as (Z1 & Z2 & Z3 & Z4). split; [|auto].
          intros ->. auto.
        * apply SUB; auto. intros n In1 In2. destruct (DB _ In1) as (Z1 & Z2 & _). auto.
      + apply SUB; auto. intros n In1 _. destruct (DC _ In1) as (Z1 & Z2). split; [|auto].
        intros ->. auto. }
  split; auto. split; [|repeat split].
  rewrite (inorder_ok G), OP. cbn [avars]. now rewrite app_assoc.
Qed.
Theorem C44_rotate_right_root : forall m y x a b c, proper m (AB y (AB x a b) c) ->
  exists m', rotate_right m y = MOk m' /\ proper m' (AB x a (AB y b c)) /\
    inorder (fst m') = inorder (fst m) /\ same_tables (fst m') (fst m).
Proof.
  intros [t g] y x a b c PR. pose proof PR as [R N P RT EG I B].
  assert (OP : inorder t = Some _) by exact (inorder_ok PR). cbn [fst snd] in *.
  cbn [ids] in N. rewrite app_assoc_reverse in N. cbn [app] in N. destruct (nodup3 _ _ _ _ _ N) as (NA & NB & NC & XY & DA & DB & DC).
  cbn [repr aid] in R. destruct R as (RY & (RX & RA & RB) & RC).
  apply hp_branch in P as (PX & PC & P & HC). apply hp_branch in P as (PA & PB & HA & HB). cbn [aid] in *.
  pose proof (aid_in a) as Ia. pose proof (aid_in b) as Ib. pose proof (aid_in c) as Ic.
  destruct (DA _ Ia) as (A1 & A2 & A3 & A4). destruct (DB _ Ib) as (B1 & B2 & B3). destruct (DC _ Ic) as (C1 & C2).
  rewrite EG in PB, PX. destruct (find_edge_ex _ _ _ (parent_in _ _ PB)) as (e1 & F1).
  destruct (find_edge_ex _ _ _ (parent_in _ _ PX)) as (e2 & F2).
  destruct (@relink_edges g y x (aid b) e1 e2 (conj I B) (not_eq_sym B1) F1 F2) as (W & QB & QX & QO & _).
  unfold rotate_right. rewrite RY, RX. unfold relink. rewrite F1. cbn [VTree.obind]. rewrite F2. cbn [VTree.obind].
  rewrite RT, Nat.eqb_refl. cbn [of_opt]. eexists. split; [reflexivity|].
  set (g' := ins_edge _ y (aid b)) in *.
  set (tree' := lset x _ _).
  assert (G : proper (with_graph t tree' g' x) (AB x a (AB y b c))).
  { constructor; cbn [fst snd with_graph vt_tree vt_edges vt_root]; auto; try apply W.
    - cbn [repr aid]. subst tree'. split; [|split; [|split; [|split]]].
      + eapply nth_lset_same. rewrite nth_lset_other by auto. eauto.
      + apply repr_lset; [|apply repr_lset; auto]; intros Z; apply DA in Z; tauto.
      + rewrite nth_lset_other by auto. eapply nth_lset_same; eauto.
      + apply repr_lset; [|apply repr_lset; auto]; intros Z; apply DB in Z; tauto.
      + apply repr_lset; [|apply repr_lset; auto]; intros Z; apply DC in Z; tauto.
    - assert (SUB : forall u, NoDup (ids u) -> has_parents (vt_edges t) u ->
        (forall n, In n (ids u) -> n <> aid u -> n <> aid b /\ n <> x /\ n <> y) -> has_parents (map snd g') u).
      { intros u NU HU D. eapply hp_ext; [auto| |eauto]. intros n In1 In2. destruct (D n In1 In2) as (D1 & D2 & D3).
        rewrite QO, EG; auto. }
      apply hp_branch. cbn [aid]. split; [|split; [|split]].
      + rewrite QO, <- EG; auto. intros Z. apply A3. rewrite Z. auto.
      + apply QX. auto.
      + apply SUB; auto. intros n In1 _. destruct (DA _ In1) as (Z1 & Z2 & Z3 & Z4). split; [|auto].
        intros ->. auto.
      + apply hp_branch. split; [|split; [|split]]; auto.
        * rewrite QO, <- EG; auto. intros Z. apply B3. rewrite <- Z. auto.
        * apply SUB; auto. intros n In1 In2. destruct (DB _ In1) as (Z1 & Z2 & _). auto.
        * apply SUB; auto. intros n In1 _. destruct (DC _ In1) as (Z1 & Z2). split; [|auto].
          intros ->. auto. }
  split; auto. split; [|repeat split].
  rewrite (inorder_ok G), OP. cbn [avars]. now rewrite app_assoc.
Qed.
(** rotating back restores the tree *)
Corollary C44_rotate_back : forall m x a y b c, proper m (AB x a (AB y b c)) ->
  exists m' m'', rotate_left m x = MOk m' /\ rotate_right m' y = MOk m'' /\ proper m'' (AB x a (AB y b c)) /\
    inorder (fst m'') = inorder (fst m).
Proof.
  intros m x a y b c P. destruct (C44_rotate_left_root P) as (m' & E & P' & O & _).
  destruct (C44_rotate_right_root P') as (m'' & E' & P'' & O' & _). exists m', m''. split; auto. split; auto. split; auto. congruence.
Qed.

(** ** swapping two subtrees, at any node *)
Fixpoint rep (i : nat) (u t : atree) : atree :=
  if aid t =? i then u else match t with AL _ _ => t | AB j l r => AB j (rep i u l) (rep i u r) end.
Lemma rep_notin : forall i u t, ~ In i (ids t) -> rep i u t = t.
Proof.
  induction t as [j v|j l IHl r IHr]; simpl; intros H.
  - destruct (j =? i) eqn:Q; auto. apply Nat.eqb_eq in Q. exfalso. auto.
  - destruct (j =? i) eqn:Q.
    + apply Nat.eqb_eq in Q. exfalso. apply H, in_or_app. simpl. auto.
    + rewrite IHl, IHr; auto; intros X; apply H, in_or_app; simpl; auto.
Qed.
Lemma rep_aid : forall u t, aid (rep (aid u) u t) = aid t.
Proof. intros u t. destruct t; simpl; destruct (_ =? _) eqn:Q; auto; apply Nat.eqb_eq in Q; auto. Qed.
Lemma rep_vars : forall t k u, NoDup (ids t) -> sub t k u ->
  exists A B, avars t = A ++ avars u ++ B /\ (forall u', avars (rep (aid u) u' t) = A ++ avars u' ++ B) /\
  exists C D, ids t = C ++ ids u ++ D /\ forall u', ids (rep (aid u) u' t) = C ++ ids u' ++ D.
Proof.
  intros t k u N S. induction S as [t|i l r k u S IH|i l r k u S IH].
  - exists [], []. rewrite app_nil_r. split; auto. split.
    + intros u'. rewrite app_nil_r. destruct t; simpl; rewrite Nat.eqb_refl; auto.
    + exists [], []. rewrite app_nil_r. split; auto. intros u'. rewrite app_nil_r. destruct t; simpl; rewrite Nat.eqb_refl; auto.
  - simpl in N. apply NoDup_split in N as (NL & NR & D). inversion NR as [|? ? X NR']; subst.
    pose proof (sub_aid_In S) as SI.
    assert (Q : (i =? aid u) = false) by (apply Nat.eqb_neq; intros ->; eapply D; simpl; eauto).
    destruct (IH NL) as (A & B & E & F & C & G & E2 & F2).
    exists A, (B ++ avars r). simpl. rewrite E, !app_assoc_reverse. split; auto. rewrite Q. split.
    + intros u'. simpl. rewrite F, (@rep_notin (aid u) u' r), !app_assoc_reverse; auto. intros Z. eapply D; simpl; eauto.
    + exists C, (G ++ i :: ids r). rewrite E2, !app_assoc_reverse. split; auto.
      intros u'. simpl. rewrite F2, (@rep_notin (aid u) u' r), !app_assoc_reverse; auto. intros Z. eapply D; simpl; eauto.
  - simpl in N. apply NoDup_split in N as (NL & NR & D). inversion NR as [|? ? X NR']; subst.
    pose proof (sub_aid_In S) as SI.
    assert (Q : (i =? aid u) = false) by (apply Nat.eqb_neq; intros ->; auto).
    destruct (IH NR') as (A & B & E & F & C & G & E2 & F2).
    exists (avars l ++ A), B. simpl. rewrite E, !app_assoc_reverse. split; auto. rewrite Q. split.
    + intros u'. simpl. rewrite F, (@rep_notin (aid u) u' l), !app_assoc_reverse; auto. intros Z. eapply D; simpl; eauto.
    + exists (ids l ++ i :: C), G. rewrite E2, !app_assoc_reverse. split; auto.
      intros u'. simpl. rewrite F2, (@rep_notin (aid u) u' l), !app_assoc_reverse; auto. intros Z. eapply D; simpl; eauto.
Qed.
Lemma repr_ext : forall tree tree' t, (forall i, In i (ids t) -> nth_error tree' i = nth_error tree i) -> repr tree t -> repr tree' t.
Proof.
  induction t as [j v|j l IHl r IHr]; simpl; intros H R.
  - rewrite H; auto.
  - destruct R as (A & B & C). rewrite H by (apply in_or_app; simpl; auto).
    repeat split; auto; [apply IHl|apply IHr]; auto; intros; apply H, in_or_app; simpl; auto.
Qed.
Lemma repr_rep : forall tree tree' u u' t k, NoDup (ids t) -> repr tree t -> sub t k u -> aid u' = aid u ->
  repr tree' u' -> (forall i, In i (ids t) -> ~ In i (ids u) -> nth_error tree' i = nth_error tree i) ->
  repr tree' (rep (aid u) u' t).
Proof.
  intros tree tree' u u' t k N R S EA RU H. induction S as [t|i l r k u S IH|i l r k u S IH].
  - destruct t; simpl; rewrite Nat.eqb_refl; auto.
  - simpl in N. apply NoDup_split in N as (NL & NR & D). inversion NR as [|? ? X NR']; subst.
    pose proof (sub_aid_In S) as SI. destruct R as (R0 & RL & RR).
    assert (IN : forall j, In j (ids u) -> In j (ids l)).
    { intros j J. destruct (sub_ids S) as (A & B & E & _). rewrite E. apply in_or_app. right. apply in_or_app. auto. }
    cbn [rep aid]. destruct (i =? aid u) eqn:Q; [apply Nat.eqb_eq in Q; exfalso; subst; eapply D; simpl; eauto|].
    rewrite (@rep_notin (aid u) u' r) by (intros Z; eapply D; simpl; eauto).
    cbn [repr]. replace (aid (rep (aid u) u' l)) with (aid l) by (rewrite <- EA, rep_aid; auto). split; [|split].
    + rewrite H; auto; [apply in_or_app; simpl; auto|]. intros J. apply (D i); simpl; auto.
    + apply IH; auto. intros j J1 J2. apply H; auto. apply in_or_app. auto.
    + eapply repr_ext; [|eauto]. intros j J. apply H; [apply in_or_app; simpl; auto|]. intros Z. apply (D j); simpl; auto.
  - simpl in N. apply NoDup_split in N as (NL & NR & D). inversion NR as [|? ? X NR']; subst.
    pose proof (sub_aid_In S) as SI. destruct R as (R0 & RL & RR).
    assert (IN : forall j, In j (ids u) -> In j (ids r)).
    { intros j J. destruct (sub_ids S) as (A & B & E & _). rewrite E. apply in_or_app. right. apply in_or_app. auto. }
    cbn [rep aid]. destruct (i =? aid u) eqn:Q; [apply Nat.eqb_eq in Q; exfalso; subst; auto|].
    rewrite (@rep_notin (aid u) u' l) by (intros Z; eapply D; simpl; eauto).
    cbn [repr]. replace (aid (rep (aid u) u' r)) with (aid r) by (rewrite <- EA, rep_aid; auto). split; [|split].
    + rewrite H; auto. apply in_or_app; simpl; auto.
    + eapply repr_ext; [|eauto]. intros j J. apply H; [apply in_or_app; simpl; auto|]. intros Z. apply (D j); simpl; auto.
    + apply IH; auto. intros j J1 J2. apply H; auto. apply in_or_app. simpl. auto.
Qed.
Lemma hp_rep : forall E u u' t k, NoDup (ids t) -> sub t k u -> aid u' = aid u -> has_parents E u' ->
  has_parents E t -> has_parents E (rep (aid u) u' t).
Proof.
  intros E u u' t k N S EA HU P. induction S as [t|i l r k u S IH|i l r k u S IH].
  - destruct t; simpl; rewrite Nat.eqb_refl; auto.
  - simpl in N. apply NoDup_split in N as (NL & NR & D). inversion NR as [|? ? X NR']; subst.
    pose proof (sub_aid_In S) as SI. apply hp_branch in P as (P1 & P2 & P3 & P4).
    cbn [rep aid]. destruct (i =? aid u) eqn:Q; auto.
    rewrite (@rep_notin (aid u) u' r) by (intros Z; eapply D; simpl; eauto).
    apply hp_branch. replace (aid (rep (aid u) u' l)) with (aid l) by (rewrite <- EA, rep_aid; auto). auto.
  - simpl in N. apply NoDup_split in N as (NL & NR & D). inversion NR as [|? ? X NR']; subst.
    pose proof (sub_aid_In S) as SI. apply hp_branch in P as (P1 & P2 & P3 & P4).
    cbn [rep aid]. destruct (i =? aid u) eqn:Q; auto.
    rewrite (@rep_notin (aid u) u' l) by (intros Z; eapply D; simpl; eauto).
    apply hp_branch. replace (aid (rep (aid u) u' r)) with (aid r) by (rewrite <- EA, rep_aid; auto). auto.
Qed.
Lemma sub_repr : forall tree t k u, sub t k u -> repr tree t -> repr tree u.
Proof. induction 1; simpl; intuition. Qed.
Lemma sub_hp : forall E t k u, sub t k u -> has_parents E t -> has_parents E u.
Proof.
  intros E t k u S P j i l r S'. eapply P. eapply sub_trans; eauto.
Qed.
Lemma sub_nodup : forall t k u, sub t k u -> NoDup (ids t) -> NoDup (ids u).
Proof.
  intros t k u S N. destruct (sub_ids S) as (A & B & E & _). rewrite E in N.
  apply NoDup_split in N as (_ & N & _). apply NoDup_split in N as (N & _ & _). auto.
Qed.

(** Swapping exchanges exactly the two blocks of variables below the node. *)
Theorem C44_swap : forall m t k x l r, proper m t -> sub t k (AB x l r) ->
  exists m' A B, swap m x = MOk m' /\ proper m' (rep x (AB x r l) t) /\
    inorder (fst m) = Some (A ++ (avars l ++ avars r) ++ B) /\
    inorder (fst m') = Some (A ++ (avars r ++ avars l) ++ B) /\ same_tables (fst m') (fst m).
Proof.
  intros [t g] T k x l r PR S. pose proof PR as [R N P RT EG I B].
  assert (OP : inorder t = Some _) by exact (inorder_ok PR). cbn [fst snd] in *.
  pose proof (@sub_repr _ _ _ _ S R) as (RX & RL & RR). pose proof (sub_nodup S N) as NU. cbn [ids] in NU.
  destruct (NoDup_split _ _ NU) as (NL & NR & D). inversion NR as [|? ? X NR']; subst.
  unfold swap. rewrite RX.
  destruct (rep_vars N S) as (A & B' & E & F & C & D' & E2 & F2). cbn [aid] in *.
  eexists. exists A, B'. split; [reflexivity|].
  set (m' := with_graph _ _ _ _).
  assert (G : proper m' (rep x (AB x r l) T)).
  { subst m'. constructor; cbn [fst snd with_graph vt_tree vt_edges vt_root]; auto.
    - apply (@repr_rep (vt_tree t) _ (AB x l r) (AB x r l) T k); auto.
      + cbn [repr]. split; [eapply nth_lset_same; eauto|]. split; apply repr_lset; auto.
        intros Z. eapply D; simpl; eauto.
      + intros i I1 I2. apply nth_lset_other. intros ->. apply I2. cbn [ids]. apply in_or_app. simpl. auto.
    - rewrite F2. rewrite E2 in N. eapply Permutation_NoDup; [|exact N]. apply Permutation_app_head, Permutation_app_tail.
      cbn [ids]. rewrite (Permutation_app_comm (ids l)). simpl. rewrite <- Permutation_middle. auto.
    - rewrite <- EG. apply (@hp_rep _ (AB x l r) (AB x r l) T k); auto.
      pose proof (sub_hp S P) as PS. apply hp_branch in PS as (P1 & P2 & P3 & P4). apply hp_branch. auto.
    - rewrite RT. symmetry. apply (rep_aid (AB x r l) T). }
  split; auto. rewrite OP, (inorder_ok G), E, F. cbn [avars]. repeat split.
Qed.

(** ** rotations below the root lose variables *)

(** Rotating left at a node that is not the root never keeps the variable
    tree: the parent still points to [x], so the right part [c] of the rotated
    node disappears from the tree; and the edge from the parent is kept while
    [y] becomes its own parent. *)
Theorem C44_rotate_left_inner_loses : forall m t k x a y b c, proper m t -> sub t k (AB x a (AB y b c)) -> x <> aid t ->
  exists m' A B, rotate_left m x = MOk m' /\
    inorder (fst m) = Some (A ++ (avars a ++ avars b ++ avars c) ++ B) /\
    inorder (fst m') = Some (A ++ (avars a ++ avars b) ++ B) /\
    inorder (fst m') <> inorder (fst m) /\
    parent_of (vt_edges (fst m')) y = Some y.
Proof.
  intros [t g] T k x a y b c PR S XR. pose proof PR as [R N P RT EG I B].
  assert (OP : inorder t = Some _) by exact (inorder_ok PR). cbn [fst snd] in *.
  pose proof (@sub_repr _ _ _ _ S R) as (RX & RA & RY & RB & RC). pose proof (sub_nodup S N) as NU. cbn [ids] in NU. cbn [aid] in *.
  destruct (nodup3 _ _ _ _ _ NU) as (NA & NB & NC & XY & DA & DB & DC).
  pose proof (sub_hp S P) as PS. apply hp_branch in PS as (PA & PY & HA & PS). apply hp_branch in PS as (PB & PC & HB & HC). cbn [aid] in *.
  pose proof (aid_in b) as Ib. destruct (DB _ Ib) as (B1 & B2 & B3).
  rewrite EG in PB, PY. destruct (find_edge_ex _ _ _ (parent_in _ _ PB)) as (e1 & F1).
  destruct (find_edge_ex _ _ _ (parent_in _ _ PY)) as (e2 & F2).
  destruct (@relink_edges g x y (aid b) e1 e2 (conj I B) (not_eq_sym B2) F1 F2) as (W & QB & QX & QO & _).
  unfold rotate_left. rewrite RX, RY. unfold relink. rewrite F1. cbn [VTree.obind]. rewrite F2. cbn [VTree.obind].
  destruct (vt_root t =? x) eqn:Q; [apply Nat.eqb_eq in Q; congruence|].
  set (g' := ins_edge _ x (aid b)) in *. rewrite QX by auto. cbn [VTree.obind].
  destruct (@find_edge_ex g' y x (parent_in _ _ (QX B1))) as (e3 & ->). cbn [VTree.obind of_opt].
  destruct (rep_vars N S) as (A & B' & E & F & _). cbn [aid] in *.
  eexists. exists A, B'. split; [reflexivity|].
  set (tree' := lset y _ _).
  assert (RR : repr tree' (rep x (AB x a b) T)).
  { apply (@repr_rep (vt_tree t) tree' (AB x a (AB y b c)) (AB x a b) T k); auto.
    - subst tree'. cbn [repr]. split; [rewrite nth_lset_other by auto; eapply nth_lset_same; eauto|].
      split; (apply repr_lset; [|apply repr_lset; auto]); intros Z; try (apply DA in Z; tauto); apply DB in Z; tauto.
    - intros i I1 I2. subst tree'. rewrite !nth_lset_other; auto; intros ->; apply I2; cbn [ids]; apply in_or_app; simpl; auto.
      right. right. apply in_or_app. simpl. auto. }
  assert (II : inorder (fst (with_graph t tree' (ins_edge (remove_edge g' e3) y y) (vt_root t))) = Some (A ++ (avars a ++ avars b) ++ B')).
  { unfold inorder. cbn [with_graph fst vt_tree vt_root]. rewrite RT. pose proof (F (AB x a b)) as FX. cbn [avars] in FX.
    rewrite <- FX. pose proof (rep_aid (AB x a b) T) as RI. cbn [aid] in RI. rewrite <- RI.
    apply walk_repr; auto. rewrite <- (rep_aid (AB x a b) T) in RT. 
    assert (LT : length tree' = length (vt_tree t)) by (subst tree'; rewrite !lset_length; auto). rewrite LT.
    pose proof (@repr_size _ _ R N) as SZ. pose proof (height_vars (rep x (AB x a b) T)) as HV. rewrite FX in HV.
    assert (VS : forall u, length (avars u) <= size u) by (clear; induction u; simpl; auto; rewrite app_length; lia).
    specialize (VS T). rewrite E in VS. cbn [avars] in VS. rewrite !app_length in *. lia. }
  rewrite II, OP, E. cbn [avars]. split; auto. split; auto. split.
  - intros H. inversion H as [H1]. apply (f_equal (@length nat)) in H1. rewrite !app_length in H1.
    pose proof (avars_pos c). lia.
  - unfold parent_of, ins_edge. cbn [with_graph fst vt_edges map snd find]. rewrite Nat.eqb_refl. auto.
Qed.

(** the same for rotating right: the left part [a] of the rotated node is lost *)
Theorem C44_rotate_right_inner_loses : forall m t k y x a b c, proper m t -> sub t k (AB y (AB x a b) c) -> y <> aid t ->
  exists m' A B, rotate_right m y = MOk m' /\
    inorder (fst m) = Some (A ++ (avars a ++ avars b ++ avars c) ++ B) /\
    inorder (fst m') = Some (A ++ (avars b ++ avars c) ++ B) /\
    inorder (fst m') <> inorder (fst m) /\
    parent_of (vt_edges (fst m')) x = Some x.
Proof.
  intros [t g] T k y x a b c PR S XR. pose proof PR as [R N P RT EG I B].
  assert (OP : inorder t = Some _) by exact (inorder_ok PR). cbn [fst snd] in *.
  pose proof (@sub_repr _ _ _ _ S R) as (RY & (RX & RA & RB) & RC). pose proof (sub_nodup S N) as NU. cbn [ids] in NU. cbn [aid] in *.
  rewrite app_assoc_reverse in NU. cbn [app] in NU.
  destruct (nodup3 _ _ _ _ _ NU) as (NA & NB & NC & XY & DA & DB & DC).
  pose proof (sub_hp S P) as PS. apply hp_branch in PS as (PX & PC & PS & HC). apply hp_branch in PS as (PA & PB & HA & HB). cbn [aid] in *.
  pose proof (aid_in b) as Ib. destruct (DB _ Ib) as (B1 & B2 & B3).
  rewrite EG in PB, PX. destruct (find_edge_ex _ _ _ (parent_in _ _ PB)) as (e1 & F1).
  destruct (find_edge_ex _ _ _ (parent_in _ _ PX)) as (e2 & F2).
  destruct (@relink_edges g y x (aid b) e1 e2 (conj I B) (not_eq_sym B1) F1 F2) as (W & QB & QX & QO & _).
  unfold rotate_right. rewrite RY, RX. unfold relink. rewrite F1. cbn [VTree.obind]. rewrite F2. cbn [VTree.obind].
  destruct (vt_root t =? y) eqn:Q; [apply Nat.eqb_eq in Q; congruence|].
  set (g' := ins_edge _ y (aid b)) in *. rewrite QX by auto. cbn [VTree.obind].
  destruct (@find_edge_ex g' x y (parent_in _ _ (QX B2))) as (e3 & ->). cbn [VTree.obind of_opt].
  destruct (rep_vars N S) as (A & B' & E & F & _). cbn [aid] in *.
  eexists. exists A, B'. split; [reflexivity|].
  set (tree' := lset x _ _).
  assert (RR : repr tree' (rep y (AB y b c) T)).
  { apply (@repr_rep (vt_tree t) tree' (AB y (AB x a b) c) (AB y b c) T k); auto.
    - subst tree'. cbn [repr]. split; [rewrite nth_lset_other by auto; eapply nth_lset_same; eauto|].
      split; (apply repr_lset; [|apply repr_lset; auto]); intros Z; try (apply DB in Z; tauto); apply DC in Z; tauto.
    - intros i I1 I2. subst tree'. rewrite !nth_lset_other; auto; intros ->; apply I2; cbn [ids]; apply in_or_app; simpl; auto.
      left. apply in_or_app. simpl. auto. }
  assert (II : inorder (fst (with_graph t tree' (ins_edge (remove_edge g' e3) x x) (vt_root t))) = Some (A ++ (avars b ++ avars c) ++ B')).
  { unfold inorder. cbn [with_graph fst vt_tree vt_root]. rewrite RT. pose proof (F (AB y b c)) as FX. cbn [avars] in FX.
    rewrite <- FX. pose proof (rep_aid (AB y b c) T) as RI. cbn [aid] in RI. rewrite <- RI.
    apply walk_repr; auto.
    assert (LT : length tree' = length (vt_tree t)) by (subst tree'; rewrite !lset_length; auto). rewrite LT.
    pose proof (@repr_size _ _ R N) as SZ. pose proof (height_vars (rep y (AB y b c) T)) as HV. rewrite FX in HV.
    assert (VS : forall u, length (avars u) <= size u) by (clear; induction u; simpl; auto; rewrite app_length; lia).
    specialize (VS T). rewrite E in VS. cbn [avars] in VS. rewrite !app_length in *. lia. }
  rewrite II, OP, E. cbn [avars]. rewrite (app_assoc_reverse (avars a)). split; auto. split; auto. split.
  - intros H. inversion H as [H1]. apply (f_equal (@length nat)) in H1. rewrite !app_length in H1.
    pose proof (avars_pos a). lia.
  - unfold parent_of, ins_edge. cbn [with_graph fst vt_edges map snd find]. rewrite Nat.eqb_refl. auto.
Qed.

(** ** examples and refutations *)

(** the right-linear tree over four variables, its root and the node below *)
Definition ex_vt : option vtree := new_with_type [0; 1; 2; 3] VTRight.
Example C44_example_root :
  match ex_vt with
  | Some t => match rotate_left (start t) (vt_root t) with
              | MOk m => inorder (fst m) = Some [0; 1; 2; 3] /\ vt_root (fst m) <> vt_root t /\
                         inorder t = Some [0; 1; 2; 3]
              | _ => False
              end
  | None => False
  end.
Proof. vm_compute. repeat split; discriminate. Qed.

(** The full claim, for a rotation anywhere, is false: rotating at the node
    below the root loses variable 3. *)
Theorem C44_rotate_refuted : exists t x m', ex_vt = Some t /\ rotate_left (start t) x = MOk m' /\
  inorder t = Some [0; 1; 2; 3] /\ inorder (fst m') = Some [0; 1; 2].
Proof.
  destruct ex_vt as [t|] eqn:E; [|discriminate]. exists t.
  vm_compute in E. inversion E; subst t. exists 4. eexists. vm_compute. repeat split; reflexivity.
Qed.

(** Even at the root the rotation is not complete.  The lookup of the second
    edge is not repeated after the first removal, so the edge from the old to
    the new root stays and the root has a parent. *)
Theorem C44_root_has_parent_refuted : exists t m', ex_vt = Some t /\ parent_of (vt_edges t) (vt_root t) = None /\
  rotate_left (start t) (vt_root t) = MOk m' /\
  parent_of (vt_edges (fst m')) (vt_root (fst m')) = Some (vt_root t).
Proof.
  destruct ex_vt as [t|] eqn:E; [|discriminate]. exists t.
  vm_compute in E. inversion E; subst t. eexists. vm_compute. repeat split; reflexivity.
Qed.
(** The cached maps are not recomputed: after the rotation the lowest common
    ancestor of the leaves of variables 0 and 2 is reported as the old root,
    whose subtree no longer contains variable 2. *)
Theorem C44_lca_stale_refuted : exists t m' l0 l2 p, ex_vt = Some t /\ rotate_left (start t) (vt_root t) = MOk m' /\
  mget (vt_var (fst m')) 0 = Some l0 /\ mget (vt_var (fst m')) 2 = Some l2 /\
  lowest_common_ancestor (fst m') l0 l2 = Some (ADisjoint, p) /\
  walk (vt_tree (fst m')) 9 p = Some [0; 1].
Proof.
  destruct ex_vt as [t|] eqn:E; [|discriminate]. exists t.
  vm_compute in E. inversion E; subst t. do 4 eexists. vm_compute. repeat split; reflexivity.
Qed.

(** What cannot be rotated or swapped is an error. *)
Theorem C44_rotate_errors : forall m t k u, proper m t -> sub t k u ->
  match u with
  | AL x _ => rotate_left m x = MErr /\ rotate_right m x = MErr /\ swap m x = MErr
  | AB x (AL _ _) (AL _ _) => rotate_left m x = MErr /\ rotate_right m x = MErr
  | AB x (AL _ _) _ => rotate_right m x = MErr
  | AB x _ (AL _ _) => rotate_left m x = MErr
  | _ => True
  end.
Proof.
  intros [t g] T k u PR S. pose proof PR as [R N P RT EG I B]. cbn [fst snd] in *. pose proof (@sub_repr _ _ _ _ S R) as RU.
  destruct u as [x v|x [y v|y a b] [z w|z c d]]; cbn [repr aid] in RU; unfold rotate_left, rotate_right, swap.
  - rewrite RU. auto.
  - destruct RU as (-> & -> & ->). auto.
  - destruct RU as (-> & -> & _). auto.
  - destruct RU as (-> & _ & ->). auto.
  - exact Logic.I.
Qed.
Example ex_rotate_errors : exists t, ex_vt = Some t /\ rotate_right (start t) 0 = MErr.
Proof. destruct ex_vt as [t|] eqn:E; [|discriminate]. exists t. vm_compute in E. inversion E; subst t. split; reflexivity. Qed.

Print Assumptions C44_built.
Print Assumptions C44_rotate_left_root.
Print Assumptions C44_rotate_right_root.
Print Assumptions C44_rotate_back.
Print Assumptions C44_swap.
Print Assumptions C44_rotate_left_inner_loses.
Print Assumptions C44_rotate_right_inner_loses.
Print Assumptions C44_rotate_refuted.
Print Assumptions C44_root_has_parent_refuted.
Print Assumptions C44_lca_stale_refuted.
Print Assumptions C44_rotate_errors.
