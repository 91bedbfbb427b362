(** Specifications of the merge loops of Dataflow.v on sorted lists. *)
From Coq Require Import List Arith Bool Lia Sorted.
From Verif Require Import Order Value Prov ListAux SortedCol GallopFacts SortedColFacts Dataflow.
Import ListNotations.
Set Implicit Arguments.

Section Ops.
  Variable P : Prov.
  Notation elem := (elem P).
  Implicit Types (l : list elem) (e : elem) (t k : tuple).

  (** ** Keys *)
  Definition key e : option tuple := tnth (fst e) 0.

  Lemma tcmp_key : forall t t' k, tcmp t t' <> Gt -> tnth t 0 = Some k ->
    exists k', tnth t' 0 = Some k' /\ tcmp k k' <> Gt.
  Proof.
    intros [v|[|a l]] [w|[|b m]] k L E; simpl in E; try discriminate; try (exfalso; apply L; reflexivity).
    injection E as <-. rewrite tcmp_tup in L. cbn [lex] in L. exists b. split; auto.
    intros G. rewrite G in L. auto.
  Qed.

  Lemma wsorted_inv : forall e l, wsorted (e :: l) -> wsorted l /\ forall x, In x l -> ele e x.
  Proof. intros e l W. inversion W as [|? ? A B]; subst. rewrite Forall_forall in B. auto. Qed.

  Lemma wsorted_key : forall e l k, wsorted (e :: l) -> key e = Some k ->
    forall x, In x l -> exists k', key x = Some k' /\ tcmp k k' <> Gt.
  Proof.
    intros e l k W K x I. apply wsorted_inv in W as [_ W]. apply W in I.
    eapply tcmp_key; eauto.
  Qed.

  Lemma has_key_iff : forall k e, has_key k e = true <-> key e = Some k.
  Proof.
    intros. unfold has_key, key. destruct (tnth (fst e) 0); [|split; discriminate].
    rewrite teqb_true. split; congruence.
  Qed.

  Lemma take_drop_key : forall k l, l = take_key k l ++ drop_key k l.
  Proof.
    induction l; cbn [take_key drop_key]; auto. destruct (has_key k a); simpl; congruence.
  Qed.
  Lemma take_key_In : forall k l e, In e (take_key k l) -> In e l /\ key e = Some k.
  Proof.
    intros k l e I. split.
    - rewrite (take_drop_key k l). apply in_or_app; auto.
    - induction l; cbn [take_key] in I; [destruct I|]. destruct (has_key k a) eqn:H; [|destruct I].
      destruct I as [<-|I]; auto. apply has_key_iff; auto.
  Qed.
  Lemma wsorted_skip : forall l m, wsorted (l ++ m) -> wsorted m.
  Proof. induction l; simpl; auto. intros. apply IHl. eapply wsorted_inv; eauto. Qed.
  Lemma drop_key_wsorted : forall k l, wsorted l -> wsorted (drop_key k l).
  Proof. intros k l W. rewrite (take_drop_key k l) in W. eapply wsorted_skip; eauto. Qed.
  Lemma drop_key_length : forall k l, length (drop_key k l) <= length l.
  Proof. intros. rewrite (take_drop_key k l) at 2. rewrite app_length. lia. Qed.

  (** In a sorted list starting at key [k], what [drop_key] leaves has larger keys. *)
  Lemma drop_key_gt : forall k l, wsorted l ->
    (forall x, In x l -> exists k', key x = Some k' /\ tcmp k k' <> Gt) ->
    forall x, In x (drop_key k l) -> exists k', key x = Some k' /\ tcmp k k' = Lt.
  Proof.
    induction l as [|a l IH]; cbn [drop_key]; intros W H x I; [destruct I|].
    destruct (has_key k a) eqn:Hk.
    - apply IH; auto. eapply wsorted_inv; eauto. intros; apply H; simpl; auto.
    - destruct (H a) as (ka & Ka & La); simpl; auto.
      assert (tcmp k ka = Lt).
      { destruct (tcmp k ka) eqn:C; auto; try congruence. apply (to_eq tcmp_TOrder) in C; subst.
        exfalso. apply has_key_iff in Ka. congruence. }
      destruct I as [<-|I]; eauto.
      destruct (wsorted_key W Ka _ I) as (k' & K' & L'). exists k'; split; auto.
      eapply (to_lt_le_trans tcmp_TOrder); eauto.
  Qed.

  Lemma take_key_all : forall k l, wsorted l ->
    (forall x, In x l -> exists k', key x = Some k' /\ tcmp k k' <> Gt) ->
    forall x, In x l -> key x = Some k -> In x (take_key k l).
  Proof.
    intros k l W H x I K. rewrite (take_drop_key k l) in I. apply in_app_or in I as [I|I]; auto.
    destruct (drop_key_gt k W H _ I) as (k' & K' & L). exfalso.
    assert (k' = k) by congruence. subst. apply (to_lt_irrefl tcmp_TOrder _ L).
  Qed.

  (** ** [find_batch] *)
  Theorem find_batch_spec : forall k l, wsorted l ->
    find_batch k l = filter (has_key k) l.
  Proof.
    induction l as [|a l IH]; intros W; cbn [find_batch filter]; auto.
    pose proof (wsorted_inv W) as [W' _]. unfold has_key at 1.
    destruct (tnth (fst a) 0) as [k'|] eqn:K; [|apply IH; auto].
    destruct (tcmp k' k) eqn:C.
    - apply (to_eq tcmp_TOrder) in C; subst. replace (teqb k k) with true by (symmetry; apply teqb_true; auto).
      f_equal; auto.
    - replace (teqb k' k) with false; auto. symmetry. apply teqb_false. apply (to_lt_neq tcmp_TOrder); auto.
    - replace (teqb k' k) with false.
      + assert (E : forall x, In x l -> has_key k x = false).
        { intros x I. destruct (has_key k x) eqn:Hk; auto. apply has_key_iff in Hk.
          destruct (wsorted_key W K _ I) as (k2 & K2 & L2). assert (k2 = k) by congruence. subst.
          congruence. }
        clear - E. induction l; cbn [filter]; auto. rewrite E by (simpl; auto). apply IHl.
        intros; apply E; simpl; auto.
      + symmetry. apply teqb_false. intros ->. rewrite (to_refl tcmp_TOrder) in C. discriminate.
  Qed.

  (** ** [advance] *)
  Lemma advance_skip : forall gal (lt : elem -> bool) x l, monotone lt (x :: l) -> lt x = true ->
    exists n, advance gal lt (x :: l) = skipn n l /\ forall y, In y (firstn n l) -> lt y = true.
  Proof.
    intros gal lt x l M H. unfold advance. destruct gal.
    - rewrite (search_ahead_exact M) by lia.
      cbn [prefix_len]. rewrite H. cbn [Nat.leb]. exists (prefix_len lt l). cbn [skipn]. split; auto.
      clear. induction l; cbn [prefix_len]; [simpl; tauto|].
      destruct (lt a) eqn:E; [|simpl; tauto]. cbn [firstn]. intros y [<-|I]; auto.
    - exists 0. simpl. split; auto.
  Qed.

  Lemma skipn_In_split : forall A n (l : list A) x, In x l <-> In x (firstn n l) \/ In x (skipn n l).
  Proof. intros. rewrite <- (firstn_skipn n l) at 1. rewrite in_app_iff. tauto. Qed.
  Lemma ssorted_skipn : forall n l, ssorted l -> ssorted (skipn n l).
  Proof. induction n; destruct l; simpl; auto. intros. apply IHn. apply ssorted_cons_inv in H as [H _]. exact H. Qed.
  Lemma wsorted_skipn : forall n l, wsorted l -> wsorted (skipn n l).
  Proof. intros n l W. rewrite <- (firstn_skipn n l) in W. eapply wsorted_skip; eauto. Qed.

  Lemma ssorted_head_lt : forall e l, ssorted (e :: l) -> forall x, In x l -> tcmp (fst e) (fst x) = Lt.
  Proof. intros e l S x I. apply ssorted_cons_inv in S as [_ F]. rewrite Forall_forall in F. apply F; auto. Qed.

  Lemma ltb_monotone : forall t l, ssorted l -> monotone (fun x : elem => tltb (fst x) t) l.
  Proof. intros. apply tlt_monotone, ssorted_wsorted; auto. Qed.

  Ltac tlt_absurd := match goal with
    | H : tcmp ?a ?a = Lt |- _ => exfalso; exact (to_lt_irrefl tcmp_TOrder _ H)
    end.

  (** ** [inter_loop] *)
  Lemma inter_loop_spec : forall fuel g1 g2 l1 l2, length l1 + length l2 <= fuel ->
    ssorted l1 -> ssorted l2 ->
    let out := inter_loop fuel g1 g2 l1 l2 in
    ssorted out /\ (forall e, In e out -> exists g, In (fst e, g) l1) /\
    forall t g, In (t, g) out <-> exists a b, In (t, a) l1 /\ In (t, b) l2 /\ g = pmult P a b.
  Proof.
    induction fuel as [|f IH]; intros g1 g2 l1 l2 L S1 S2; cbn [inter_loop].
    { destruct l1, l2; simpl in L; try lia. repeat split; try constructor; try (intros ? []).
      - intros []. - intros (? & ? & [] & _). }
    destruct l1 as [|e1 r1]; [repeat split; try constructor; [intros ? []|intros []|intros (? & ? & [] & _)]|].
    destruct l2 as [|e2 r2]; [repeat split; try constructor; [intros ? []|intros []|intros (? & ? & _ & [] & _)]|].
    pose proof (ssorted_head_lt S1) as H1. pose proof (ssorted_head_lt S2) as H2.
    assert (S1' : ssorted r1) by (apply ssorted_cons_inv in S1; tauto).
    assert (S2' : ssorted r2) by (apply ssorted_cons_inv in S2; tauto).
    cbn [length] in L. destruct (tcmp (fst e1) (fst e2)) eqn:C.
    - apply (to_eq tcmp_TOrder) in C.
      destruct (IH g1 g2 r1 r2) as (A & B & D); auto; try lia.
      assert (G : forall x, In x (inter_loop f g1 g2 r1 r2) -> tcmp (fst e1) (fst x) = Lt).
      { intros x I. apply B in I as (g & I). apply H1 in I. exact I. }
      split; [|split].
      + constructor; auto. apply Forall_forall. intros x I. apply G in I. exact I.
      + intros e [<-|I]; [exists (snd e1); left; destruct e1; auto|]. apply B in I as (g & I).
        exists g; right; auto.
      + intros t g. split.
        * intros [E|I].
          -- injection E as <- <-. exists (snd e1), (snd e2). split; [left; destruct e1; auto|].
             split; [left; rewrite C; destruct e2; auto|auto].
          -- apply D in I as (a & b & I & J & ->). exists a, b. repeat split; right; auto.
        * intros (a & b & [E1|I] & [E2|J] & ->).
          -- subst e1 e2. simpl in *. left; auto.
          -- subst e1. apply H2 in J. simpl in *. rewrite <- C in J. tlt_absurd.
          -- subst e2. apply H1 in I. simpl in *. rewrite C in I. tlt_absurd.
          -- right. apply D. eauto.
    - assert (T : tltb (fst e1) (fst e2) = true) by (apply tltb_true; auto).
      destruct (@advance_skip g1 (fun x => tltb (fst x) (fst e2)) e1 r1) as (n & -> & F); auto.
      { apply ltb_monotone; auto. }
      destruct (IH g1 g2 (skipn n r1) (e2 :: r2)) as (A & B & D); auto.
      { rewrite skipn_length. simpl. lia. } { apply ssorted_skipn; auto. }
      assert (Sk : forall x, In x (skipn n r1) -> In x r1) by (intros; apply (skipn_In_split n); auto).
      assert (NB : forall t b, In (t, b) (e2 :: r2) -> forall a, In (t, a) (e1 :: firstn n r1) -> False).
      { intros t b J a I. assert (Q : tcmp t (fst e2) = Lt).
        { destruct I as [->|I]; auto. apply F in I. apply tltb_true in I. exact I. }
        destruct J as [->|J]; simpl in *; [tlt_absurd|]. apply H2 in J; simpl in J.
        apply (to_lt_asym tcmp_TOrder) in J. congruence. }
      split; [auto|split].
      + intros e I. apply B in I as (g & I). exists g. right; auto.
      + intros t g. rewrite D. split.
        * intros (a & b & I & J & ->). exists a, b. repeat split; auto. right; auto.
        * intros (a & b & I & J & ->). exists a, b. repeat split; auto.
          destruct I as [I|I]; [exfalso; eapply NB; eauto; left; eauto|].
          apply (skipn_In_split n) in I as [I|I]; auto. exfalso; eapply NB; eauto. right; eauto.
    - apply (to_gt_lt tcmp_TOrder) in C.
      assert (T : tltb (fst e2) (fst e1) = true) by (apply tltb_true; auto).
      destruct (@advance_skip g2 (fun x => tltb (fst x) (fst e1)) e2 r2) as (n & -> & F); auto.
      { apply ltb_monotone; auto. }
      destruct (IH g1 g2 (e1 :: r1) (skipn n r2)) as (A & B & D); auto.
      { rewrite skipn_length. simpl. lia. } { apply ssorted_skipn; auto. }
      assert (Sk : forall x, In x (skipn n r2) -> In x r2) by (intros; apply (skipn_In_split n); auto).
      assert (NB : forall t b, In (t, b) (e1 :: r1) -> forall a, In (t, a) (e2 :: firstn n r2) -> False).
      { intros t b J a I. assert (Q : tcmp t (fst e1) = Lt).
        { destruct I as [->|I]; auto. apply F in I. apply tltb_true in I. exact I. }
        destruct J as [->|J]; simpl in *; [tlt_absurd|]. apply H1 in J; simpl in J.
        apply (to_lt_asym tcmp_TOrder) in J. congruence. }
      split; [auto|split; [auto|]].
      intros t g. rewrite D. split.
      * intros (a & b & I & J & ->). exists a, b. repeat split; auto. right; auto.
      * intros (a & b & I & J & ->). exists a, b. repeat split; auto.
        destruct J as [J|J]; [exfalso; eapply NB; eauto; left; eauto|].
        apply (skipn_In_split n) in J as [J|J]; auto. exfalso; eapply NB; eauto. right; eauto.
  Qed.

  (** ** [join_loop] *)
  Lemma join_prod_In : forall v1 v2 x, In x (join_prod v1 v2) <->
    exists e1 e2 : elem, In e1 v1 /\ In e2 v2 /\ In x (join_pair e1 e2).
  Proof.
    intros. unfold join_prod. rewrite in_flat_map. split.
    - intros (e1 & I & J). apply in_flat_map in J as (e2 & J & K). eauto.
    - intros (e1 & e2 & I & J & K). exists e1. split; auto. apply in_flat_map. eauto.
  Qed.

  Definition joined l1 l2 (x : elem) : Prop :=
    exists e1 e2 k, In e1 l1 /\ In e2 l2 /\ key e1 = Some k /\ key e2 = Some k /\ In x (join_pair e1 e2).

  Lemma join_loop_spec : forall fuel l1 l2, length l1 + length l2 <= fuel ->
    wsorted l1 -> wsorted l2 -> forall x, In x (join_loop fuel l1 l2) <-> joined l1 l2 x.
  Proof.
    induction fuel as [|f IH]; intros l1 l2 L W1 W2 x; cbn [join_loop].
    { destruct l1; simpl in L; [|lia]. split; [intros []|intros (? & ? & ? & [] & _)]. }
    destruct l1 as [|e1 r1]; [split; [intros []|intros (? & ? & ? & [] & _)]|].
    destruct l2 as [|e2 r2]; [split; [intros []|intros (? & ? & ? & _ & [] & _)]|].
    pose proof (wsorted_inv W1) as [W1' _]. pose proof (wsorted_inv W2) as [W2' _].
    pose proof (fun k => @wsorted_key _ _ k W1) as K1. pose proof (fun k => @wsorted_key _ _ k W2) as K2.
    cbn [length] in L. fold (key e1). fold (key e2).
    assert (SL : (forall k, key e1 = Some k -> forall y, In y (e2 :: r2) -> key y <> Some k) ->
      joined r1 (e2 :: r2) x <-> joined (e1 :: r1) (e2 :: r2) x).
    { intros H. split; intros (a & b & k & I & J & A & B & D).
      - exists a, b, k. repeat split; auto. right; auto.
      - destruct I as [<-|I]; [exfalso; eapply H; eauto|]. exists a, b, k; auto. }
    assert (SR : (forall k, key e2 = Some k -> forall y, In y (e1 :: r1) -> key y <> Some k) ->
      joined (e1 :: r1) r2 x <-> joined (e1 :: r1) (e2 :: r2) x).
    { intros H. split; intros (a & b & k & I & J & A & B & D).
      - exists a, b, k. repeat split; auto. right; auto.
      - destruct J as [<-|J]; [exfalso; eapply H; eauto|]. exists a, b, k; auto. }
    destruct (key e1) as [k1|] eqn:E1.
    2:{ rewrite IH; auto; simpl; try lia. apply SL. discriminate. }
    destruct (key e2) as [k2|] eqn:E2.
    2:{ rewrite IH; auto; simpl; try lia. apply SR. discriminate. }
    destruct (tcmp k1 k2) eqn:C.
    - apply (to_eq tcmp_TOrder) in C; subst k2. rewrite in_app_iff, join_prod_In, IH.
      2:{ cbn [drop_key]. rewrite (proj2 (has_key_iff k1 e1) E1), (proj2 (has_key_iff k1 e2) E2).
          pose proof (drop_key_length k1 r1). pose proof (drop_key_length k1 r2). lia. }
      2:{ apply drop_key_wsorted; auto. } 2:{ apply drop_key_wsorted; auto. }
      assert (A1 : forall y, In y (e1 :: r1) -> exists k', key y = Some k' /\ tcmp k1 k' <> Gt).
      { intros y [<-|I]; eauto. exists k1; split; auto. rewrite (to_refl tcmp_TOrder). discriminate. }
      assert (A2 : forall y, In y (e2 :: r2) -> exists k', key y = Some k' /\ tcmp k1 k' <> Gt).
      { intros y [<-|I]; eauto. exists k1; split; auto. rewrite (to_refl tcmp_TOrder). discriminate. }
      split.
      + intros [(a & b & I & J & D)|(a & b & k & I & J & A & B & D)].
        * apply take_key_In in I as [I KI]. apply take_key_In in J as [J KJ]. exists a, b, k1. auto.
        * exists a, b, k. repeat split; auto.
          -- rewrite (take_drop_key k1 (e1 :: r1)). apply in_or_app; auto.
          -- rewrite (take_drop_key k1 (e2 :: r2)). apply in_or_app; auto.
      + intros (a & b & k & I & J & A & B & D). destruct (tuple_eq_dec k k1) as [->|N].
        * left. exists a, b. repeat split; auto; apply take_key_all; auto.
        * right. exists a, b, k. repeat split; auto.
          -- rewrite (take_drop_key k1 (e1 :: r1)) in I. apply in_app_or in I as [I|I]; auto.
             apply take_key_In in I as [_ I]. congruence.
          -- rewrite (take_drop_key k1 (e2 :: r2)) in J. apply in_app_or in J as [J|J]; auto.
             apply take_key_In in J as [_ J]. congruence.
    - rewrite IH; auto; simpl; try lia. apply SL. intros k [= <-] y [<-|I] Y.
      + assert (k2 = k1) by congruence. subst. tlt_absurd.
      + destruct (K2 _ eq_refl _ I) as (k' & K' & L'). assert (k' = k1) by congruence. subst.
        apply L'. apply (to_gt_lt tcmp_TOrder). auto.
    - rewrite IH; auto; simpl; try lia. apply SR. intros k [= <-] y [<-|I] Y.
      + assert (k2 = k1) by congruence. subst. rewrite (to_refl tcmp_TOrder) in C. discriminate.
      + destruct (K1 _ eq_refl _ I) as (k' & K' & L'). assert (k' = k2) by congruence. subst.
        congruence.
  Qed.

  (** ** [diff_loop] *)
  Definition diffed l1 l2 (x : elem) : Prop :=
    (In x l1 /\ forall g, ~ In (fst x, g) l2) \/
    exists a b, In (fst x, a) l1 /\ In (fst x, b) l2 /\ pminus P a b = Some (snd x).

  Lemma diff_loop_spec : forall fuel g2 l1 l2, length l1 + length l2 <= fuel ->
    ssorted l1 -> ssorted l2 -> forall x, In x (diff_loop fuel g2 l1 l2) <-> diffed l1 l2 x.
  Proof.
    induction fuel as [|f IH]; intros g2 l1 l2 L S1 S2 x; cbn [diff_loop].
    { destruct l1; simpl in L; [|lia]. split; [intros []|intros [[[] _]|(? & ? & [] & _)]]. }
    destruct l1 as [|e1 r1]; [split; [intros []|intros [[[] _]|(? & ? & [] & _)]]|].
    pose proof (ssorted_head_lt S1) as H1.
    assert (S1' : ssorted r1) by (apply ssorted_cons_inv in S1; tauto).
    cbn [length] in L. destruct l2 as [|e2 r2].
    { simpl. rewrite IH; auto; [|simpl in *; lia]. unfold diffed; simpl. split.
      - intros [<-|[[I N]|(a & b & _ & [] & _)]]; left; auto.
      - intros [[[<-|I] N]|(a & b & _ & [] & _)]; auto. }
    pose proof (ssorted_head_lt S2) as H2.
    assert (S2' : ssorted r2) by (apply ssorted_cons_inv in S2; tauto).
    cbn [length] in L. destruct (tcmp (fst e1) (fst e2)) eqn:C.
    - apply (to_eq tcmp_TOrder) in C.
      assert (Q : In x (match pminus P (snd e1) (snd e2) with
                  | Some g => (fst e1, g) :: diff_loop f g2 r1 r2 | None => diff_loop f g2 r1 r2 end) <->
                  (fst x = fst e1 /\ pminus P (snd e1) (snd e2) = Some (snd x)) \/ diffed r1 r2 x).
      { destruct (pminus P (snd e1) (snd e2)) as [g|] eqn:M; [cbn [In]|]; rewrite IH by (auto; lia).
        - destruct x as [xt xg]; simpl. intuition congruence.
        - intuition congruence. }
      rewrite Q. unfold diffed. split.
      + intros [[E M]|[[I N]|(a & b & I & J & M)]].
        * right. exists (snd e1), (snd e2). rewrite E. repeat split; auto.
          -- left; destruct e1; auto.
          -- left. rewrite C. destruct e2; auto.
        * left. split; [right; auto|]. intros g [E|J]; [|eapply N; eauto].
          apply H1 in I. rewrite C in I. subst e2. simpl in I. tlt_absurd.
        * right. exists a, b. repeat split; auto; right; auto.
      + intros [[[<-|I] N]|(a & b & I & J & M)].
        * exfalso. apply (N (snd e2)). left. rewrite C. destruct e2; auto.
        * right. left. split; auto. intros g J. apply (N g). right; auto.
        * destruct I as [I|I], J as [J|J].
          -- left. subst e1 e2. simpl in *. auto.
          -- subst e1. simpl in C. apply H2 in J. simpl in J. rewrite C in J. tlt_absurd.
          -- subst e2. simpl in C. apply H1 in I. simpl in I. rewrite C in I. tlt_absurd.
          -- right. right. eauto.
    - cbn [In]. rewrite IH; auto; [|simpl; lia]. unfold diffed.
      assert (NE : forall g, ~ In (fst e1, g) (e2 :: r2)).
      { intros g [J|J].
        - subst e2. simpl in C. tlt_absurd.
        - apply H2 in J. simpl in J. apply (to_lt_asym tcmp_TOrder) in J. congruence. }
      split.
      + intros [<-|[[I N]|(a & b & I & J & M)]].
        * left. split; auto. left; auto.
        * left. split; auto. right; auto.
        * right. exists a, b. repeat split; auto. right; auto.
      + intros [[[<-|I] N]|(a & b & I & J & M)]; auto.
        destruct I as [I|I]; [|right; right; eauto].
        subst e1. exfalso. eapply NE; eauto.
    - apply (to_gt_lt tcmp_TOrder) in C.
      assert (T : tltb (fst e2) (fst e1) = true) by (apply tltb_true; auto).
      destruct (@advance_skip g2 (fun x => tltb (fst x) (fst e1)) e2 r2) as (n & -> & F); auto.
      { apply ltb_monotone; auto. }
      rewrite IH; auto.
      2:{ rewrite skipn_length. simpl. lia. } 2:{ apply ssorted_skipn; auto. }
      assert (Sk : forall x, In x (skipn n r2) -> In x r2) by (intros; apply (skipn_In_split n); auto).
      assert (NB : forall t b, In (t, b) (e1 :: r1) -> forall a, In (t, a) (e2 :: r2) -> In (t, a) (skipn n r2)).
      { intros t b J a [I|I].
        - subst e2. simpl in *. destruct J as [J|J]; [subst e1; simpl in *; tlt_absurd|].
          apply H1 in J. simpl in J. apply (to_lt_asym tcmp_TOrder) in J. congruence.
        - apply (skipn_In_split n) in I as [I|I]; auto. exfalso. apply F in I. apply tltb_true in I.
          simpl in I. destruct J as [J|J]; [subst e1; simpl in *; tlt_absurd|].
          apply H1 in J. simpl in J. apply (to_lt_asym tcmp_TOrder) in J. congruence. }
      unfold diffed. split.
      + intros [[I N]|(a & b & I & J & M)].
        * left. split; auto. intros g J. apply (N g). destruct x as [xt xg]; simpl in *. eapply NB; eauto.
        * right. exists a, b. repeat split; auto. right; auto.
      + intros [[I N]|(a & b & I & J & M)].
        * left. split; auto. intros g J. apply (N g). right; auto.
        * right. exists a, b. repeat split; auto. eapply NB; eauto.
  Qed.

  (** ** [anti_loop] *)
  Lemma anti_prod_In : forall v1 e2 x, In x (anti_prod v1 e2) <->
    exists a, In (fst x, a) v1 /\ pminus P a (snd e2) = Some (snd x).
  Proof.
    intros. unfold anti_prod. rewrite in_flat_map. split.
    - intros ([t a] & I & J). simpl in J. destruct (pminus P a (snd e2)) as [g|] eqn:M; [|destruct J].
      destruct J as [<-|[]]. exists a. auto.
    - intros (a & I & M). exists (fst x, a). split; auto. simpl. rewrite M. left. destruct x; auto.
  Qed.

  Definition antied l1 l2 (x : elem) : Prop :=
    (In x l1 /\ forall k g, key x = Some k -> ~ In (k, g) l2) \/
    exists k a b, key x = Some k /\ In (fst x, a) l1 /\ In (k, b) l2 /\ pminus P a b = Some (snd x).

  Lemma anti_loop_spec : forall fuel g2 l1 l2, length l1 + length l2 <= fuel ->
    wsorted l1 -> ssorted l2 -> forall x, In x (anti_loop fuel g2 l1 l2) <-> antied l1 l2 x.
  Proof.
    induction fuel as [|f IH]; intros g2 l1 l2 L W1 S2 x; cbn [anti_loop].
    { destruct l1; simpl in L; [|lia]. split; [intros []|intros [[[] _]|(? & ? & ? & _ & [] & _)]]. }
    destruct l1 as [|e1 r1]; [split; [intros []|intros [[[] _]|(? & ? & ? & _ & [] & _)]]|].
    pose proof (wsorted_inv W1) as [W1' _]. pose proof (fun k => @wsorted_key _ _ k W1) as K1.
    cbn [length] in L. destruct l2 as [|e2 r2].
    { simpl. rewrite IH; auto; [|simpl in *; lia]. unfold antied; simpl. split.
      - intros [<-|[[I N]|(k & a & b & _ & _ & [] & _)]]; left; auto.
      - intros [[[<-|I] N]|(k & a & b & _ & _ & [] & _)]; auto. }
    pose proof (ssorted_head_lt S2) as H2.
    assert (S2' : ssorted r2) by (apply ssorted_cons_inv in S2; tauto).
    assert (PASS : (forall k, key e1 = Some k -> forall g, ~ In (k, g) (e2 :: r2)) ->
      (e1 = x \/ antied r1 (e2 :: r2) x <-> antied (e1 :: r1) (e2 :: r2) x)).
    { intros NE. unfold antied. split.
      - intros [<-|[[I N]|(k & a & b & K & I & J & M)]].
        + left. split; auto. left; auto.
        + left. split; auto. right; auto.
        + right. exists k, a, b. repeat split; auto. right; auto.
      - intros [[[<-|I] N]|(k & a & b & K & I & J & M)]; auto.
        destruct I as [I|I]; [|right; right; exists k, a, b; auto].
        subst e1. exfalso. eapply NE; eauto. }
    cbn [length] in L. fold (key e1). destruct (key e1) as [k1|] eqn:E1.
    2:{ cbn [In]. rewrite IH; auto; [|simpl; lia]. apply PASS. discriminate. }
    assert (A1 : forall y, In y (e1 :: r1) -> exists k', key y = Some k' /\ tcmp k1 k' <> Gt).
    { intros y [<-|I]; eauto. exists k1; split; auto. rewrite (to_refl tcmp_TOrder). discriminate. }
    destruct (tcmp k1 (fst e2)) eqn:C.
    - apply (to_eq tcmp_TOrder) in C. rewrite in_app_iff, anti_prod_In, IH; auto.
      2:{ cbn [drop_key]. rewrite (proj2 (has_key_iff k1 e1) E1).
          pose proof (drop_key_length k1 r1). lia. }
      2:{ apply drop_key_wsorted; auto. }
      assert (DK : forall y, In y (drop_key k1 (e1 :: r1)) -> exists k', key y = Some k' /\ tcmp k1 k' = Lt)
        by (apply drop_key_gt; auto).
      assert (DI : forall y, In y (drop_key k1 (e1 :: r1)) -> In y (e1 :: r1)).
      { intros y I. rewrite (take_drop_key k1 (e1 :: r1)). apply in_or_app; auto. }
      unfold antied. split.
      + intros [(a & I & M)|[[I N]|(k & a & b & K & I & J & M)]].
        * apply take_key_In in I as [I KI]. right. exists k1, a, (snd e2). repeat split; auto.
          left. rewrite C. destruct e2; auto.
        * left. split; auto. intros k g K [J|J]; [|eapply N; eauto].
          destruct (DK _ I) as (k' & K' & L'). subst e2. simpl in C. assert (k' = k) by congruence. subst.
          tlt_absurd.
        * right. exists k, a, b. repeat split; auto. right; auto.
      + intros [[I N]|(k & a & b & K & I & J & M)].
        * right. left. split.
          -- rewrite (take_drop_key k1 (e1 :: r1)) in I. apply in_app_or in I as [I|I]; auto.
             apply take_key_In in I as [_ I]. exfalso. apply (N k1 (snd e2)); auto. left.
             rewrite C. destruct e2; auto.
          -- intros k g K J. apply (N k g); auto. right; auto.
        * destruct (tuple_eq_dec k k1) as [->|NK].
          -- left. exists a. split; [apply take_key_all; auto|].
             destruct J as [J|J]; [subst e2; auto|]. exfalso. apply H2 in J. simpl in J. rewrite <- C in J.
             tlt_absurd.
          -- right. right. exists k, a, b. repeat split; auto.
             ++ rewrite (take_drop_key k1 (e1 :: r1)) in I. apply in_app_or in I as [I|I]; auto.
                apply take_key_In in I as [_ I]. unfold key in *. simpl in I. congruence.
             ++ destruct J as [J|J]; auto. subst e2. simpl in C. congruence.
    - cbn [In]. rewrite IH; auto; [|simpl; lia]. apply PASS. intros k [= <-] g [J|J].
      + subst e2. simpl in C. tlt_absurd.
      + apply H2 in J. simpl in J. apply (to_lt_asym tcmp_TOrder) in J. congruence.
    - apply (to_gt_lt tcmp_TOrder) in C.
      assert (T : tltb (fst e2) k1 = true) by (apply tltb_true; auto).
      destruct (@advance_skip g2 (fun x => tltb (fst x) k1) e2 r2) as (n & -> & F); auto.
      { apply ltb_monotone; auto. }
      rewrite IH; auto.
      2:{ rewrite skipn_length. simpl. lia. } 2:{ apply ssorted_skipn; auto. }
      assert (Sk : forall x, In x (skipn n r2) -> In x r2) by (intros; apply (skipn_In_split n); auto).
      assert (NB : forall y k, In y (e1 :: r1) -> key y = Some k -> forall a, In (k, a) (e2 :: r2) -> In (k, a) (skipn n r2)).
      { intros y k J K a I. destruct (A1 _ J) as (k' & K' & L'). assert (k' = k) by congruence. subst.
        assert (Q : tcmp k k1 <> Lt).
        { intros Q. apply L'. apply (to_gt_lt tcmp_TOrder); auto. }
        destruct I as [I|I].
        - subst e2. simpl in *. congruence.
        - apply (skipn_In_split n) in I as [I|I]; auto. exfalso. apply F in I. apply tltb_true in I.
          simpl in I. congruence. }
      unfold antied. split.
      + intros [[I N]|(k & a & b & K & I & J & M)].
        * left. split; auto. intros k g K J. apply (N k g); auto. eapply NB; eauto.
        * right. exists k, a, b. repeat split; auto. right; auto.
      + intros [[I N]|(k & a & b & K & I & J & M)].
        * left. split; auto. intros k g K J. apply (N k g); auto. right; auto.
        * right. exists k, a, b. repeat split; auto. eapply (NB (fst x, a)); eauto.
  Qed.
End Ops.
