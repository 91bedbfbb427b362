(** Facts about sorted collections. *)
From Coq Require Import List Arith Bool Lia Sorting.Sorted.
From Verif Require Import Order Value Prov ListAux SortedCol GallopFacts.
Import ListNotations.
Set Implicit Arguments.

Section Specs.
  Variable P : Prov.
  Notation elem := (elem P).

  (** Specification vocabulary. *)
  Definition elt (a b : elem) : Prop := tcmp (fst a) (fst b) = Lt.
  Definition ele (a b : elem) : Prop := tcmp (fst a) (fst b) <> Gt.
  (** strictly sorted by tuple *)
  Definition ssorted (l : list elem) : Prop := StronglySorted elt l.
  (** sorted by tuple, repetitions allowed *)
  Definition wsorted (l : list elem) : Prop := StronglySorted ele l.
  (** tags given to tuple [t], in order of occurrence *)
  Definition tags_of (t : tuple) (l : list elem) : list (ptag P) :=
    map snd (filter (fun e => teqb (fst e) t) l).
  (** sum of a list of tags from left to right *)
  Definition sum_tags (ts : list (ptag P)) : option (ptag P) :=
    match ts with [] => None | t :: r => Some (fold_left (padd P) r t) end.
  (** the tag stored for a tuple *)
  Fixpoint lookup (t : tuple) (l : list elem) : option (ptag P) :=
    match l with
    | [] => None
    | e :: r => if teqb (fst e) t then Some (snd e) else lookup t r
    end.
End Specs.

Section Facts.
  Variable P : Prov.
  Notation elem := (elem P).
  Implicit Types (e x y : elem) (l m : list elem).

  Lemma elt_trans : forall a b c : elem, elt a b -> elt b c -> elt a c.
  Proof. unfold elt; intros; eapply (to_trans tcmp_TOrder); eauto. Qed.
  Lemma ele_trans : forall a b c : elem, ele a b -> ele b c -> ele a c.
  Proof. unfold ele; intros; eapply (to_le_trans tcmp_TOrder); eauto. Qed.
  Lemma elt_ele : forall a b : elem, elt a b -> ele a b.
  Proof. unfold elt, ele; intros; congruence. Qed.

  Lemma ssorted_wsorted : forall l, ssorted l -> wsorted l.
  Proof.
    induction 1; constructor; auto. eapply Forall_impl; [|eauto]. intros; apply elt_ele; auto.
  Qed.

  Lemma teqb_refl : forall t, teqb t t = true.
  Proof. intros; apply teqb_true; auto. Qed.

  Lemma lookup_In : forall t g l, lookup t l = Some g -> In (t, g) l.
  Proof.
    induction l as [|[u h] l IH]; simpl; [discriminate|]. destruct (teqb u t) eqn:E.
    - apply teqb_true in E; subst. intros H; injection H as ->; auto.
    - auto.
  Qed.

  Lemma lookup_None : forall t l, lookup t l = None <-> (forall g, ~ In (t, g) l).
  Proof.
    induction l as [|[u h] l IH]; simpl.
    - split; auto.
    - destruct (teqb u t) eqn:E.
      + apply teqb_true in E; subst. split; [discriminate|]. intros H; exfalso; eapply H; eauto.
      + apply teqb_false in E. rewrite IH. split; intros H g; specialize (H g); intuition congruence.
  Qed.

  Lemma ssorted_cons_inv : forall e l, ssorted (e :: l) -> ssorted l /\ Forall (elt e) l.
  Proof. intros e l H; inversion H; subst; auto. Qed.

  Lemma ssorted_lookup_In : forall t g l, ssorted l -> (In (t, g) l <-> lookup t l = Some g).
  Proof.
    intros t g l S. split; [|apply lookup_In].
    induction S as [|[u h] l S IH F]; simpl; [tauto|].
    intros [E|I].
    - injection E as -> ->. rewrite teqb_refl; auto.
    - rewrite Forall_forall in F. specialize (F _ I). unfold elt in F; simpl in F.
      destruct (teqb u t) eqn:E; auto. apply teqb_true in E; subst.
      rewrite (to_refl tcmp_TOrder) in F; discriminate.
  Qed.

  Lemma ssorted_app : forall l m, ssorted (l ++ m) <->
    ssorted l /\ ssorted m /\ (forall a b, In a l -> In b m -> elt a b).
  Proof.
    induction l; simpl; intros m; split.
    - intros; repeat split; auto; [constructor|tauto].
    - tauto.
    - intros H; apply ssorted_cons_inv in H as (H & F).
      apply IHl in H as (H1 & H2 & H3). rewrite Forall_forall in F. repeat split; auto.
      + constructor; auto. apply Forall_forall; intros; apply F; apply in_or_app; auto.
      + intros a' b [->|I] J; auto. apply F; apply in_or_app; auto.
    - intros (H1 & H2 & H3). apply ssorted_cons_inv in H1 as (H1 & F). rewrite Forall_forall in F.
      constructor.
      + apply IHl; repeat split; auto.
      + apply Forall_forall; intros y I; apply in_app_or in I as [I|I]; auto.
  Qed.

  Lemma lookup_app : forall t l m,
    lookup t (l ++ m) = match lookup t l with Some g => Some g | None => lookup t m end.
  Proof.
    induction l as [|[u h] l IH]; simpl; intros; auto. destruct (teqb u t); auto.
  Qed.

  (** ** Stable sort *)

  Lemma sinsert_In : forall e l x, In x (sinsert e l) <-> x = e \/ In x l.
  Proof.
    induction l; simpl; intros; [intuition|]. destruct (tcmp (fst e) (fst a)); simpl; rewrite ?IHl; intuition.
  Qed.

  Lemma sinsert_wsorted : forall e l, wsorted l -> wsorted (sinsert e l).
  Proof.
    induction 1; simpl; [repeat constructor|].
    destruct (tcmp (fst e) (fst a)) eqn:E.
    - constructor; [constructor; auto|]. constructor; [unfold ele; congruence|].
      eapply Forall_impl; [|eauto]. intros; eapply ele_trans; eauto. unfold ele; congruence.
    - constructor; [constructor; auto|]. constructor; [unfold ele; congruence|].
      eapply Forall_impl; [|eauto]. intros; eapply ele_trans; eauto. unfold ele; congruence.
    - constructor; auto. apply Forall_forall. intros x I. apply sinsert_In in I as [->|I].
      + apply (to_gt_lt tcmp_TOrder) in E. unfold ele; congruence.
      + rewrite Forall_forall in H0; auto.
  Qed.

  Lemma ssort_wsorted : forall l, wsorted (ssort l).
  Proof. induction l; simpl; [constructor|apply sinsert_wsorted; auto]. Qed.

  Lemma ssort_In : forall l x, In x (ssort l) <-> In x l.
  Proof. induction l; simpl; intros; [tauto|]. rewrite sinsert_In, IHl. intuition. Qed.

  Lemma sinsert_length : forall e l, length (sinsert e l) = S (length l).
  Proof. induction l; simpl; auto. destruct (tcmp (fst e) (fst a)); simpl; auto. Qed.
  Lemma ssort_length : forall l, length (ssort l) = length l.
  Proof. induction l; simpl; auto. rewrite sinsert_length; auto. Qed.

  Lemma sinsert_tags : forall t e l,
    tags_of t (sinsert e l) = if teqb (fst e) t then snd e :: tags_of t l else tags_of t l.
  Proof.
    unfold tags_of. induction l; simpl.
    - destruct (teqb (fst e) t); auto.
    - destruct (tcmp (fst e) (fst a)) eqn:E.
      + simpl. destruct (teqb (fst e) t), (teqb (fst a) t); auto.
      + simpl. destruct (teqb (fst e) t), (teqb (fst a) t); auto.
      + simpl. destruct (teqb (fst a) t) eqn:Ea; simpl.
        * rewrite IHl. destruct (teqb (fst e) t) eqn:Ee; auto.
          apply teqb_true in Ea, Ee. rewrite Ee, Ea, (to_refl tcmp_TOrder) in E. discriminate.
        * auto.
  Qed.

  Lemma ssort_tags : forall t l, tags_of t (ssort l) = tags_of t l.
  Proof.
    intros t. induction l; simpl; auto. rewrite sinsert_tags, IHl. unfold tags_of; simpl.
    destruct (teqb (fst a) t); auto.
  Qed.

  (** ** The deduplication loop as a recursive function *)

  Fixpoint dd (last : elem) (rest : list elem) : list elem :=
    match rest with
    | [] => [last]
    | e :: r => if teqb (fst e) (fst last) then dd (fst last, padd P (snd last) (snd e)) r
                else last :: dd e r
    end.

  Lemma dd_nonnil : forall rest last, dd last rest <> [].
  Proof.
    induction rest; simpl; intros; [discriminate|]. destruct (teqb _ _); [apply IHrest|discriminate].
  Qed.

  (** Loop invariant: the vector is [kept ++ [last] ++ junk ++ rest]. *)
  Lemma dedup_loop_dd : forall rest fuel kept last junk,
    length rest <= fuel ->
    let '(els, keep) := dedup_loop fuel (kept ++ last :: junk ++ rest)
                          (length kept + S (length junk)) (length kept) (S (length kept)) in
    firstn keep els = kept ++ dd last rest.
  Proof.
    induction rest as [|e rest IH]; intros fuel kept last junk Hf; cbn [dd].
    - assert (R : dedup_loop fuel (kept ++ last :: junk ++ [])
          (length kept + S (length junk)) (length kept) (S (length kept))
          = (kept ++ last :: junk ++ [], S (length kept))).
      { destruct fuel; cbn [dedup_loop]; auto.
        replace (nth_error (kept ++ last :: junk ++ []) (length kept + S (length junk))) with (@None elem); auto.
        symmetry; apply nth_error_None. rewrite app_length; simpl. rewrite app_length; simpl; lia. }
      rewrite R. rewrite firstn_app. replace (S (length kept) - length kept) with 1 by lia.
      rewrite firstn_all2 by lia. reflexivity.
    - destruct fuel; [simpl in Hf; lia|]. cbn [dedup_loop].
      replace (nth_error (kept ++ last :: junk ++ e :: rest) (length kept + S (length junk))) with (Some e).
      2:{ symmetry. rewrite nth_error_app2 by lia.
          replace (length kept + S (length junk) - length kept) with (S (length junk)) by lia.
          simpl. apply nth_error_app_len. }
      rewrite nth_error_app_len.
      destruct (teqb (fst e) (fst last)) eqn:E.
      + rewrite lset_app_len.
        specialize (IH fuel kept (fst last, padd P (snd last) (snd e)) (junk ++ [e])).
        rewrite app_length in IH; simpl in IH. rewrite <- app_assoc in IH. simpl in IH.
        replace (S (length kept + S (length junk))) with (length kept + S (length junk + 1)) by lia.
        apply IH. simpl in Hf; lia.
      + destruct junk as [|j junk].
        * simpl app. replace (length kept + S (length (@nil elem))) with (S (length kept)) by (simpl; lia).
          rewrite Nat.ltb_irrefl.
          specialize (IH fuel (kept ++ [last]) e []). rewrite app_length in IH; simpl in IH.
          rewrite <- app_assoc in IH. simpl in IH.
          replace (length kept + 1 + 1) with (S (S (length kept))) in IH by lia.
          replace (length kept + 1) with (S (length kept)) in IH by lia.
          destruct (dedup_loop fuel (kept ++ last :: e :: rest) (S (S (length kept))) (S (length kept))
                      (S (S (length kept)))).
          rewrite IH by (simpl in Hf; lia). rewrite <- ?app_assoc. reflexivity.
        * replace (S (length kept) <? length kept + S (length (j :: junk))) with true
            by (symmetry; apply Nat.ltb_lt; simpl; lia).
          pose proof (lswap_mid (kept ++ [last]) junk rest j e) as SW.
          rewrite app_length in SW; simpl length in SW.
          replace (length kept + 1 + S (length junk)) with (length kept + S (length (j :: junk))) in SW
            by (simpl; lia).
          replace (length kept + 1) with (S (length kept)) in SW by lia.
          rewrite <- !app_assoc in SW. simpl app in SW. simpl app. simpl length in SW |- *. rewrite SW.
          specialize (IH fuel (kept ++ [last]) e (junk ++ [j])).
          rewrite !app_length in IH; simpl length in IH.
          rewrite <- !app_assoc in IH. simpl app in IH.
          replace (S (length kept + S (S (length junk)))) with (length kept + 1 + S (length junk + 1)) by lia.
          replace (length kept + 1) with (S (length kept)) in * by lia.
          destruct (dedup_loop fuel (kept ++ last :: e :: junk ++ j :: rest)
             (S (length kept) + S (length junk + 1)) (S (length kept)) (S (S (length kept)))).
          rewrite IH by (simpl in Hf; lia). rewrite <- ?app_assoc. reflexivity.
  Qed.

  Lemma from_vec_dd : forall v, from_vec v = match ssort v with [] => [] | e :: r => dd e r end.
  Proof.
    intros v. unfold from_vec. destruct (ssort v) as [|e [|f r]] eqn:E; try reflexivity.
    replace (1 <? length (e :: f :: r)) with true by reflexivity.
    pose proof (@dedup_loop_dd (f :: r) (length (e :: f :: r)) [] e []) as H.
    cbn [length app Nat.add] in H. cbn [length].
    destruct (dedup_loop (S (S (length r))) (e :: f :: r) 1 0 1).
    rewrite H; [reflexivity|lia].
  Qed.

  Lemma dd_head_le : forall rest last, wsorted (last :: rest) ->
    ssorted (dd last rest) /\
    (forall x, In x (dd last rest) -> tcmp (fst last) (fst x) <> Gt) /\
    (forall t, lookup t (dd last rest) = sum_tags _ (tags_of t (last :: rest))).
  Proof.
    induction rest as [|e rest IH]; intros last W; cbn [dd].
    - split; [repeat constructor|split].
      + intros x [->|[]]. rewrite (to_refl tcmp_TOrder); discriminate.
      + intros t. simpl. unfold tags_of; simpl. destruct (teqb (fst last) t); auto.
    - inversion W; subst. destruct (teqb (fst e) (fst last)) eqn:E.
      + apply teqb_true in E.
        destruct (IH (fst last, padd P (snd last) (snd e))) as (H3 & H4 & H5).
        { inversion H1; subst. constructor; auto. inversion H2; subst. auto. }
        split; [exact H3|]. split; [exact H4|].
        intros t. rewrite H5. unfold tags_of; simpl. rewrite E.
        destruct (teqb (fst last) t); auto.
      + apply teqb_false in E.
        assert (L : tcmp (fst last) (fst e) = Lt).
        { inversion H2; subst. unfold ele in H3. destruct (tcmp (fst last) (fst e)) eqn:C; auto; try congruence.
          apply (to_eq tcmp_TOrder) in C. congruence. }
        destruct (IH e H1) as (H3 & H4 & H5).
        assert (G : forall x, In x (dd e rest) -> elt last x).
        { intros x I. eapply (to_lt_le_trans tcmp_TOrder); eauto. }
        split; [constructor; auto; apply Forall_forall; auto|]. split.
        * intros x [<-|I]; [rewrite (to_refl tcmp_TOrder); discriminate|].
          apply G in I. unfold elt in I; congruence.
        * intros t. simpl lookup. rewrite H5.
          destruct (teqb (fst last) t) eqn:T.
          -- apply teqb_true in T; subst t.
             replace (tags_of (fst last) (last :: e :: rest)) with [snd last]; auto.
             unfold tags_of at 1; cbn [filter]. rewrite teqb_refl. cbn [map]. f_equal.
             change (nil = tags_of (fst last) (e :: rest)). specialize (H5 (fst last)).
             assert (N : lookup (fst last) (dd e rest) = None).
             { apply lookup_None. intros g I. apply G in I. apply (to_lt_irrefl tcmp_TOrder _ I). }
             rewrite N in H5. unfold sum_tags in H5.
             destruct (tags_of (fst last) (e :: rest)); auto; discriminate.
          -- unfold tags_of at 2; cbn [filter]. rewrite T. reflexivity.
  Qed.

  Theorem from_vec_ssorted : forall v : list elem, ssorted (from_vec v).
  Proof.
    intros. rewrite from_vec_dd. pose proof (ssort_wsorted v). destruct (ssort v); [constructor|].
    apply dd_head_le; auto.
  Qed.

  Theorem from_vec_lookup : forall (v : list elem) t, lookup t (from_vec v) = sum_tags _ (tags_of t v).
  Proof.
    intros. rewrite from_vec_dd, <- ssort_tags. pose proof (ssort_wsorted v). destruct (ssort v); [reflexivity|].
    apply dd_head_le; auto.
  Qed.

  Lemma tags_of_In : forall t g l, In g (tags_of t l) <-> In (t, g) l.
  Proof.
    unfold tags_of. intros. rewrite in_map_iff. split.
    - intros ([u h] & H1 & H2). apply filter_In in H2 as [H2 H3]. apply teqb_true in H3. simpl in *; subst; auto.
    - intros H. exists (t, g). split; auto. apply filter_In. split; auto. apply teqb_true; auto.
  Qed.

  (** ** retain *)
  Fixpoint ifilter (f : nat -> elem -> bool) (i : nat) (l : list elem) : list elem :=
    match l with
    | [] => []
    | e :: r => if f i e then e :: ifilter f (S i) r else ifilter f (S i) r
    end.

  Lemma retain_loop_some : forall f rest fuel kept junk j,
    length rest <= fuel ->
    let '(els, keep) := retain_loop fuel f (kept ++ j :: junk ++ rest)
       (length kept + S (length junk)) (length kept) (Some (length kept)) in
    firstn keep els = kept ++ ifilter f (length kept + S (length junk)) rest.
  Proof.
    intros f. induction rest as [|e rest IH]; intros fuel kept junk j Hf.
    - assert (R : forall n, n = length kept + S (length junk) -> retain_loop fuel f (kept ++ j :: junk ++ []) n
             (length kept) (Some (length kept)) = (kept ++ j :: junk ++ [], length kept)).
      { intros n ->. destruct fuel; cbn [retain_loop]; auto.
        replace (nth_error (kept ++ j :: junk ++ []) (length kept + S (length junk))) with (@None elem); auto.
        symmetry; apply nth_error_None. rewrite app_length; simpl; rewrite app_length; simpl; lia. }
      rewrite R by auto. rewrite firstn_app, Nat.sub_diag, firstn_all. reflexivity.
    - destruct fuel; [simpl in Hf; lia|]. cbn [retain_loop].
      replace (nth_error (kept ++ j :: junk ++ e :: rest) (length kept + S (length junk))) with (Some e).
      2:{ symmetry. rewrite nth_error_app2 by lia.
          replace (length kept + S (length junk) - length kept) with (S (length junk)) by lia.
          simpl. apply nth_error_app_len. }
      cbn [ifilter]. destruct (f (length kept + S (length junk)) e).
      + assert (SW : lswap (length kept + S (length junk)) (length kept) (kept ++ j :: junk ++ e :: rest)
                = kept ++ e :: junk ++ j :: rest).
        { unfold lswap. rewrite nth_error_app_len. rewrite nth_error_app2 by lia.
          replace (length kept + S (length junk) - length kept) with (S (length junk)) by lia.
          simpl. rewrite nth_error_app_len. rewrite lset_app_r. simpl. rewrite lset_app_len.
          rewrite lset_app_len. auto. }
        rewrite SW. destruct junk as [|j' junk].
        * specialize (IH fuel (kept ++ [e]) [] j). rewrite app_length in IH; simpl in IH.
          rewrite <- app_assoc in IH. simpl in IH. simpl.
          replace (length kept + 1 + 1) with (S (length kept + 1)) in IH by lia.
          replace (length kept + 1) with (S (length kept)) in * by lia.
          destruct (retain_loop fuel f (kept ++ e :: j :: rest) (S (S (length kept))) (S (length kept))
                      (Some (S (length kept)))).
          rewrite IH by (simpl in Hf; lia). rewrite <- ?app_assoc. auto.
        * specialize (IH fuel (kept ++ [e]) (junk ++ [j]) j'). rewrite !app_length in IH; simpl in IH.
          rewrite <- !app_assoc in IH. simpl in IH. simpl.
          replace (length kept + 1 + S (length junk + 1)) with (S (length kept + S (S (length junk)))) in IH by lia.
          replace (length kept + 1) with (S (length kept)) in * by lia.
          destruct (retain_loop fuel f (kept ++ e :: j' :: junk ++ j :: rest)
                     (S (length kept + S (S (length junk)))) (S (length kept)) (Some (S (length kept)))).
          rewrite IH by (simpl in Hf; lia). rewrite <- ?app_assoc. auto.
      + specialize (IH fuel kept (junk ++ [e]) j). rewrite app_length in IH; simpl in IH.
        rewrite <- app_assoc in IH. simpl in IH.
        replace (length kept + S (length junk + 1)) with (S (length kept + S (length junk))) in IH by lia.
        apply IH. simpl in Hf; lia.
  Qed.

  Lemma retain_loop_none : forall f rest fuel kept,
    length rest <= fuel ->
    let '(els, keep) := retain_loop fuel f (kept ++ rest) (length kept) (length kept) None in
    firstn keep els = kept ++ ifilter f (length kept) rest.
  Proof.
    intros f. induction rest as [|e rest IH]; intros fuel kept Hf.
    - assert (R : retain_loop fuel f (kept ++ []) (length kept) (length kept) None = (kept ++ [], length kept)).
      { destruct fuel; cbn [retain_loop]; auto.
        replace (nth_error (kept ++ []) (length kept)) with (@None elem); auto.
        symmetry; apply nth_error_None. rewrite app_length; simpl; lia. }
      rewrite R. rewrite app_nil_r. rewrite firstn_all. simpl. rewrite app_nil_r; auto.
    - destruct fuel; [simpl in Hf; lia|]. cbn [retain_loop ifilter]. rewrite nth_error_app_len.
      destruct (f (length kept) e).
      + specialize (IH fuel (kept ++ [e])). rewrite app_length in IH; simpl in IH.
        rewrite <- app_assoc in IH; simpl in IH.
        replace (length kept + 1) with (S (length kept)) in IH by lia.
        destruct (retain_loop fuel f (kept ++ e :: rest) (S (length kept)) (S (length kept)) None).
        rewrite IH by (simpl in Hf; lia). rewrite <- ?app_assoc; auto.
      + pose proof (@retain_loop_some f rest fuel kept [] e) as R. simpl in R.
        replace (length kept + 1) with (S (length kept)) in R by lia.
        apply R. simpl in Hf; lia.
  Qed.

  Theorem retain_ifilter : forall f l, retain f l = ifilter f 0 l.
  Proof.
    intros. unfold retain. pose proof (@retain_loop_none f l (length l) []) as R. simpl in R.
    destruct (retain_loop (length l) f l 0 0 None). apply R; auto.
  Qed.

  Lemma ifilter_In : forall f l i x, In x (ifilter f i l) <->
    exists k, nth_error l k = Some x /\ f (i + k) x = true.
  Proof.
    intros f. induction l; simpl; intros i x.
    - split; [tauto|]. intros ([|k] & H & _); discriminate.
    - assert (E : (exists k, nth_error (a :: l) k = Some x /\ f (i + k) x = true) <->
                  (a = x /\ f i x = true) \/ (exists k, nth_error l k = Some x /\ f (S i + k) x = true)).
      { split.
        - intros ([|k] & H1 & H2); simpl in H1.
          + left; rewrite Nat.add_0_r in H2; split; auto; congruence.
          + right; exists k; split; auto. replace (S i + k) with (i + S k) by lia; auto.
        - intros [[-> H]|(k & H1 & H2)]; [exists 0|exists (S k)]; simpl; rewrite ?Nat.add_0_r; auto.
          replace (i + S k) with (S i + k) by lia; auto. }
      rewrite E, <- IHl. destruct (f i a) eqn:F; simpl; intuition congruence.
  Qed.

  Lemma ifilter_sublist_ssorted : forall f l i, ssorted l -> ssorted (ifilter f i l).
  Proof.
    intros f l i S. revert i. induction S; intros i; simpl; [constructor|].
    destruct (f i a); [|apply IHS]. constructor; [apply IHS|]. apply Forall_forall. intros x I.
    apply ifilter_In in I as (k & I & _). apply nth_error_In in I. rewrite Forall_forall in H; auto.
  Qed.

  (** ** insertion *)
  Lemma prefix_len_split : forall (A : Type) (p : A -> bool) (l : list A),
    l = firstn (prefix_len p l) l ++ skipn (prefix_len p l) l.
  Proof. intros; symmetry; apply firstn_skipn. Qed.

  Lemma tlt_monotone : forall t l, wsorted l -> monotone (fun x : elem => tltb (fst x) t) l.
  Proof.
    intros t l S. eapply prefix_len_sorted_monotone; eauto.
    intros x y L H. apply tltb_true in H. apply tltb_true.
    eapply (to_le_lt_trans tcmp_TOrder); eauto.
  Qed.

  Lemma insert_pos : forall t l, wsorted l ->
    gallop_index l 0 (fun x : elem => tltb (fst x) t) = prefix_len (fun x : elem => tltb (fst x) t) l.
  Proof. intros; apply gallop_index_zero. apply tlt_monotone; auto. Qed.

  Lemma ssorted_prefix : forall t l, ssorted l ->
    let n := prefix_len (fun x : elem => tltb (fst x) t) l in
    (forall x, In x (firstn n l) -> tcmp (fst x) t = Lt) /\
    (forall x, In x (skipn n l) -> tcmp (fst x) t <> Lt).
  Proof.
    intros t l S n; subst n. induction S as [|a l S IH F]; simpl; [split; intros ? []|].
    destruct IH as [I1 I2]. destruct (tltb (fst a) t) eqn:E; simpl.
    - apply tltb_true in E. split; [intros x [<-|H]; auto|auto].
    - assert (N : tcmp (fst a) t <> Lt) by (intros X; apply tltb_true in X; congruence).
      split; [tauto|]. intros x [<-|I]; auto. intros X. apply N.
      rewrite Forall_forall in F. apply F in I. eapply (to_trans tcmp_TOrder); eauto.
  Qed.

  Lemma col_insert_unchecked_In : forall e l x, In x (col_insert_unchecked e l) <-> x = e \/ In x l.
  Proof. intros; apply linsert_In. Qed.

  Lemma col_insert_unchecked_ssorted : forall e l, ssorted l -> (forall g, ~ In (fst e, g) l) ->
    ssorted (col_insert_unchecked e l).
  Proof.
    intros e l S N. unfold col_insert_unchecked. rewrite insert_pos by (apply ssorted_wsorted; auto).
    rewrite linsert_app. pose proof (ssorted_prefix (fst e) S) as [A B].
    set (n := prefix_len (fun x : elem => tltb (fst x) (fst e)) l) in *.
    pose proof (firstn_skipn n l) as E. rewrite <- E in S. apply ssorted_app in S as (S1 & S2 & S3).
    apply ssorted_app. split; auto. split.
    - constructor; auto. apply Forall_forall. intros x I. unfold elt.
      specialize (B x I). rewrite (to_opp tcmp_TOrder (fst x) (fst e)).
      destruct (tcmp (fst x) (fst e)) eqn:C; simpl; auto; try congruence.
      exfalso. apply (to_eq tcmp_TOrder) in C. apply (N (snd x)). rewrite <- C.
      rewrite <- surjective_pairing. rewrite <- E. apply in_or_app; auto.
    - intros a b I [<-|J]; auto. apply A; auto.
  Qed.

  Lemma map_fst_lset : forall i (l : list elem) n g, nth_error l i = Some n ->
    map fst (lset i (fst n, g) l) = map fst l.
  Proof.
    induction i; destruct l; simpl; intros n g H; try discriminate.
    - injection H as ->. auto.
    - f_equal; eapply IHi; eauto.
  Qed.

  Lemma ssorted_map_fst : forall l m, map fst l = map fst m -> ssorted l -> ssorted m.
  Proof.
    intros l m E S. revert m E. induction S as [|a l S IH F]; intros [|b m] E; simpl in E; try discriminate;
      [constructor|]. injection E as E1 E2. constructor; [apply IH; auto|].
    apply Forall_forall. intros x I. rewrite Forall_forall in F.
    assert (In (fst x) (map fst l)) as J by (rewrite E2; apply in_map; auto).
    apply in_map_iff in J as (y & J1 & J2). unfold elt. rewrite <- E1, <- J1. apply F; auto.
  Qed.

  Lemma col_insert_spec : forall e l, ssorted l ->
    (exists i n, nth_error l i = Some n /\ fst n = fst e /\
       col_insert e l = lset i (fst e, padd P (snd e) (snd n)) l) \/
    ((forall g, ~ In (fst e, g) l) /\ col_insert e l = col_insert_unchecked e l).
  Proof.
    intros e l S. unfold col_insert, col_insert_unchecked.
    rewrite insert_pos by (apply ssorted_wsorted; auto).
    pose proof (ssorted_prefix (fst e) S) as [A B].
    pose proof (prefix_len_le (fun x : elem => tltb (fst x) (fst e)) l) as L.
    set (n := prefix_len (fun x : elem => tltb (fst x) (fst e)) l) in *.
    destruct (nth_error l n) as [m|] eqn:E.
    - destruct (teqb (fst m) (fst e)) eqn:T.
      + left. apply teqb_true in T. exists n, m. rewrite <- T. auto.
      + right. split; auto. apply teqb_false in T. intros g I.
        rewrite <- (firstn_skipn n l) in I. apply in_app_or in I as [I|I].
        * apply A in I. simpl in I. apply (to_lt_irrefl tcmp_TOrder _ I).
        * assert (K : skipn n l = m :: skipn (1 + n) l).
          { clear -E. clearbody n. revert l E. induction n; destruct l; simpl; intros; try discriminate; [congruence|].
            rewrite IHn; auto. }
          rewrite K in I. destruct I as [I|I]; [apply T; rewrite I; auto|].
          pose proof S as S0. rewrite <- (firstn_skipn n l), K in S0. apply ssorted_app in S0 as (_ & S0 & _).
          apply ssorted_cons_inv in S0 as [_ F]. rewrite Forall_forall in F. apply F in I.
          unfold elt in I; simpl in I. apply (B m); auto. rewrite K; left; auto.
    - right. apply nth_error_None in E. split.
      + intros g I. rewrite <- (firstn_all2 l E) in I. apply A in I. apply (to_lt_irrefl tcmp_TOrder _ I).
      + rewrite linsert_app. rewrite firstn_all2, skipn_all2 by auto. auto.
  Qed.

  Lemma col_insert_ssorted : forall e l, ssorted l -> ssorted (col_insert e l).
  Proof.
    intros e l S. destruct (col_insert_spec e S) as [(i & n & H1 & H2 & ->)|(H1 & ->)].
    - eapply ssorted_map_fst; [|eauto]. rewrite <- H2. symmetry. apply map_fst_lset; auto.
    - apply col_insert_unchecked_ssorted; auto.
  Qed.

  (** ** merge *)

  Definition osum (a b : option (ptag P)) : option (ptag P) :=
    match a, b with
    | Some x, Some y => Some (padd P x y)
    | Some x, None => Some x
    | None, y => y
    end.

  Lemma merge_loop_spec : forall l1 l2, ssorted l1 -> ssorted l2 ->
    ssorted (merge_loop l1 l2) /\
    (forall t, lookup t (merge_loop l1 l2) = osum (lookup t l1) (lookup t l2)) /\
    (forall x, In x (merge_loop l1 l2) -> (exists y, In y l1 /\ fst y = fst x) \/ (exists y, In y l2 /\ fst y = fst x)).
  Proof.
    induction l1 as [|e r1 IH]; intros l2 S1 S2.
    - simpl. split; auto. split; auto. intros x I; right; eauto.
    - apply ssorted_cons_inv in S1 as [S1 F1]. rewrite Forall_forall in F1.
      induction S2 as [|x r2 S2 IH2 F2].
      + destruct (IH [] S1 (SSorted_nil _)) as (A & B & C).
        change (merge_loop (e :: r1) []) with (e :: merge_loop r1 []).
        split; [|split].
        * constructor; auto. apply Forall_forall. intros x I. apply C in I as [(y & I & E)|(y & [] & _)].
          apply F1 in I. unfold elt in *. congruence.
        * intros t. simpl lookup. rewrite B. simpl. destruct (teqb (fst e) t); auto.
        * intros x [<-|I]; [left; exists e; simpl; auto|].
          apply C in I as [(y & I & E)|(y & [] & _)]. left; exists y; simpl; auto.
      + rewrite Forall_forall in F2.
        change (merge_loop (e :: r1) (x :: r2)) with
          (match tcmp (fst x) (fst e) with
           | Lt => x :: merge_loop (e :: r1) r2
           | Eq => (fst e, padd P (snd e) (snd x)) :: merge_loop r1 r2
           | Gt => e :: merge_loop r1 (x :: r2) end).
        destruct (tcmp (fst x) (fst e)) eqn:C.
        * apply (to_eq tcmp_TOrder) in C.
          destruct (IH r2 S1 S2) as (A & B & D).
          assert (G : forall y, In y (merge_loop r1 r2) -> tcmp (fst e) (fst y) = Lt).
          { intros y I. apply D in I as [(z & I & <-)|(z & I & <-)].
            - apply F1 in I; auto.
            - apply F2 in I. unfold elt in I. rewrite C in I; auto. }
          split; [|split].
          -- constructor; auto. apply Forall_forall; auto.
          -- intros t. simpl. rewrite B, C. destruct (teqb (fst e) t); auto.
          -- intros y [<-|I]; [left; exists e; simpl; auto|].
             apply D in I as [(z & I & E)|(z & I & E)]; [left|right]; exists z; simpl; auto.
        * destruct IH2 as (A & B & D).
          split; [|split].
          -- constructor; auto. apply Forall_forall. intros y I.
             apply D in I as [(z & [<-|I] & E)|(z & I & E)]; unfold elt; rewrite <- E; auto.
             ++ eapply (to_trans tcmp_TOrder); eauto. apply F1; auto.
             ++ apply F2; auto.
          -- intros t. cbn [lookup]. rewrite B. cbn [lookup].
             destruct (teqb (fst x) t) eqn:T; auto.
             apply teqb_true in T; subst t.
             assert (N1 : teqb (fst e) (fst x) = false).
             { apply teqb_false. intros E. rewrite E in C. apply (to_lt_irrefl tcmp_TOrder _ C). }
             rewrite N1. replace (lookup (fst x) r1) with (@None (ptag P)); auto.
             symmetry; apply lookup_None. intros g I. apply F1 in I. unfold elt in I; simpl in I.
             apply (to_lt_asym tcmp_TOrder _ _ C I).
          -- intros y [<-|I]; [right; exists x; simpl; auto|].
             apply D in I as [(z & I & E)|(z & I & E)]; [left|right]; exists z; simpl; auto.
        * destruct (IH (x :: r2) S1) as (A & B & D).
          { constructor; auto. apply Forall_forall; auto. }
          apply (to_gt_lt tcmp_TOrder) in C.
          assert (G : forall y, In y (merge_loop r1 (x :: r2)) -> tcmp (fst e) (fst y) = Lt).
          { intros y I. apply D in I as [(z & I & <-)|(z & [<-|I] & <-)]; auto.
            - apply F1 in I; auto.
            - apply F2 in I. eapply (to_trans tcmp_TOrder); eauto. }
          split; [|split].
          -- constructor; auto. apply Forall_forall; auto.
          -- intros t. cbn [lookup] in *. rewrite B. destruct (teqb (fst e) t) eqn:T; auto.
             apply teqb_true in T; subst t.
             replace (teqb (fst x) (fst e)) with false.
             2:{ symmetry; apply teqb_false. intros E. rewrite E in C. apply (to_lt_irrefl tcmp_TOrder _ C). }
             replace (lookup (fst e) r2) with (@None (ptag P)); auto.
             symmetry; apply lookup_None. intros g I. apply F2 in I. unfold elt in I; simpl in I.
             apply (to_lt_asym tcmp_TOrder _ _ C I).
          -- intros y [<-|I]; [left; exists e; simpl; auto|].
             apply D in I as [(z & I & E)|(z & I & E)]; [left|right]; exists z; simpl; auto.
  Qed.

  Lemma merge_loop_ordered : forall x r1 y r2, ssorted (x :: r1) -> ssorted (y :: r2) ->
    tcmp (fst x) (fst y) <> Gt ->
    merge_ordered x r1 y r2 = merge_loop (x :: r1) (y :: r2).
  Proof.
    intros x r1 y r2 S1 S2 H. unfold merge_ordered.
    change (merge_loop (x :: r1) (y :: r2)) with
          (match tcmp (fst y) (fst x) with
           | Lt => y :: merge_loop (x :: r1) r2
           | Eq => (fst x, padd P (snd x) (snd y)) :: merge_loop r1 r2
           | Gt => x :: merge_loop r1 (y :: r2) end).
    destruct (tltb (fst (last (x :: r1) x)) (fst y)) eqn:L.
    - apply tltb_true in L.
      assert (forall l m (S : ssorted (l ++ m)), merge_loop l m = l ++ m) as A.
      { clear. induction l; intros m S; auto.
        simpl in S. pose proof S as S'. apply ssorted_cons_inv in S as [S F]. destruct m as [|b m].
        - change (merge_loop (a :: l) []) with (a :: merge_loop l []). rewrite IHl; auto.
        - change (merge_loop (a :: l) (b :: m)) with
          (match tcmp (fst b) (fst a) with
           | Lt => b :: merge_loop (a :: l) m
           | Eq => (fst a, padd P (snd a) (snd b)) :: merge_loop l m
           | Gt => a :: merge_loop l (b :: m) end).
          rewrite Forall_forall in F. assert (elt a b) as E by (apply F; apply in_or_app; right; left; auto).
          apply (to_gt_lt tcmp_TOrder) in E. rewrite E. rewrite IHl; auto. }
      assert (S : ssorted ((x :: r1) ++ (y :: r2))).
      { apply ssorted_app. split; auto. split; auto. intros a b I J.
        assert (tcmp (fst a) (fst y) = Lt).
        { eapply (to_le_lt_trans tcmp_TOrder); [|eauto].
          clear -S1 I. revert x S1 I. induction r1 as [|z r1 IH]; intros x S1 I.
          - destruct I as [->|[]]. simpl. rewrite (to_refl tcmp_TOrder); discriminate.
          - assert (EL : last (x :: z :: r1) x = last (z :: r1) z).
            { clear. change (last (z :: r1) x = last (z :: r1) z). revert z x.
              induction r1; intros; auto. change (last (a :: r1) x = last (a :: r1) z).
              rewrite (IHr1 a x), (IHr1 a z); auto. }
            rewrite EL. apply ssorted_cons_inv in S1 as [S1 F]. destruct I as [<-|I]; auto.
            assert (In (last (z :: r1) z) (z :: r1)).
            { assert (forall (l : list elem) d, l <> [] -> In (last l d) l) as LI.
              { clear. induction l; intros d H; [congruence|]. destruct l; [left; auto|].
                right. apply IHl. discriminate. }
              apply LI; discriminate. }
            rewrite Forall_forall in F. apply F in H. unfold elt in H. congruence. }
        destruct J as [<-|J]; auto. apply ssorted_cons_inv in S2 as [_ F]. rewrite Forall_forall in F.
        apply F in J. eapply (to_trans tcmp_TOrder); eauto. }
      rewrite <- (A (x :: r1) (y :: r2) S). reflexivity.
    - destruct (teqb (fst x) (fst y)) eqn:T.
      + apply teqb_true in T. rewrite T, (to_refl tcmp_TOrder). auto.
      + apply teqb_false in T. assert (tcmp (fst x) (fst y) = Lt) as E.
        { destruct (tcmp (fst x) (fst y)) eqn:C; auto; try congruence.
          apply (to_eq tcmp_TOrder) in C; congruence. }
        apply (to_gt_lt tcmp_TOrder) in E. rewrite E. auto.
  Qed.

  (** Which operand's tag comes first in the sum is decided by the heads. *)
  Definition swapped (a b : list elem) : bool :=
    match a, b with
    | x :: _, y :: _ => match tcmp (fst x) (fst y) with Gt => true | _ => false end
    | _, _ => false
    end.

  Theorem merge_spec : forall a b : list elem, ssorted a -> ssorted b ->
    ssorted (merge a b) /\
    (forall t, lookup t (merge a b) =
       if swapped a b then osum (lookup t b) (lookup t a) else osum (lookup t a) (lookup t b)).
  Proof.
    intros a b Sa Sb. unfold merge, swapped.
    destruct a as [|x r1]; [split; auto|].
    destruct b as [|y r2].
    { split; auto. intros t. simpl. destruct (teqb (fst x) t); auto. destruct (lookup t r1); auto. }
    destruct (tcmp (fst x) (fst y)) eqn:C.
    - rewrite merge_loop_ordered; auto; [|congruence].
      destruct (merge_loop_spec Sa Sb) as (A & B & _). auto.
    - rewrite merge_loop_ordered; auto; [|congruence].
      destruct (merge_loop_spec Sa Sb) as (A & B & _). auto.
    - rewrite merge_loop_ordered; auto.
      + destruct (merge_loop_spec Sb Sa) as (A & B & _). auto.
      + apply (to_gt_lt tcmp_TOrder) in C. congruence.
  Qed.
End Facts.
