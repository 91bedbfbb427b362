(** Permutations of positions that keep the order of tuples (VarTuple.v, permutation.rs
    49-72), used by C56: [order_preserving] is right for sorted batches, and for
    strictly sorted ones when no column is lost. *)
From Coq Require Import List ZArith Bool Arith Lia.
From Verif Require Import Order Value Prov Dataflow View Denote Back Eval Ram BackSem Scc SccFacts Plan PlanFacts VarTuple VarTupleFacts B2R RamSem PermFacts B2RFacts.
Import ListNotations.
Set Implicit Arguments.

Definition comps (t : tuple) : list tuple := match t with TTup l => l | TVal _ => [] end.
Definition slice (c c' : nat) (l : list tuple) : list tuple := firstn (c' - c) (skipn c l).

Lemma skipn_add : forall A a b (l : list A), skipn a (skipn b l) = skipn (b + a) l.
Proof.
  intros A a b. revert a. induction b as [|b IH]; intros a l; cbn [skipn Nat.add]; auto.
  destruct l; cbn [skipn]; [destruct a; reflexivity|apply IH].
Qed.
Lemma firstn_app_skipn : forall A a b (l : list A), firstn a l ++ firstn b (skipn a l) = firstn (a + b) l.
Proof. induction a as [|a IH]; intros b l; cbn; auto. destruct l; cbn; [destruct b; reflexivity|]. rewrite IH. reflexivity. Qed.
Lemma slice_app : forall c c' c'' l, c <= c' -> c' <= c'' -> slice c c' l ++ slice c' c'' l = slice c c'' l.
Proof.
  intros c c' c'' l A B. unfold slice. replace (skipn c' l) with (skipn (c' - c) (skipn c l)) by (rewrite skipn_add; f_equal; lia).
  rewrite firstn_app_skipn. f_equal. lia.
Qed.
Lemma slice_length : forall c c' l, c' <= length l -> length (slice c c' l) = c' - c.
Proof. intros. unfold slice. rewrite firstn_length, skipn_length. lia. Qed.
Lemma slice_one : forall c l x, nth_error l c = Some x -> slice c (S c) l = [x].
Proof.
  intros c l x H. unfold slice. replace (S c - c) with 1 by lia. revert l H.
  induction c as [|c IH]; intros [|y l] H; cbn in *; try discriminate; [congruence|]. apply IH; auto.
Qed.
Lemma slice_0 : forall c l, slice c c l = [].
Proof. intros. unfold slice. rewrite Nat.sub_diag. reflexivity. Qed.

Lemma lex_app : forall (a a' b b' : list tuple), length a = length a' ->
  lex tcmp (a ++ b) (a' ++ b') = match lex tcmp a a' with Eq => lex tcmp b b' | c => c end.
Proof.
  induction a as [|x a IH]; intros [|y a'] b b' L; cbn in *; try discriminate; auto.
  destruct (tcmp x y); auto.
Qed.
Lemma lex_refl : forall l, lex tcmp l l = Eq.
Proof. intros l. rewrite <- tcmp_tup. apply (to_refl tcmp_TOrder). Qed.
Lemma lex_eq : forall l m, lex tcmp l m = Eq -> l = m.
Proof. intros l m H. rewrite <- tcmp_tup in H. apply (proj1 (to_eq tcmp_TOrder _ _)) in H. congruence. Qed.

Lemma nth_firstn : forall A (l : list A) i k, i < k -> nth_error (firstn k l) i = nth_error l i.
Proof.
  intros A l i k. revert l i. induction k as [|k IH]; intros l i L; [lia|]. destruct l; cbn; [destruct i; reflexivity|].
  destruct i; cbn; auto. apply IH. lia.
Qed.
Lemma nth_ext' : forall A (l l' : list A), (forall i, nth_error l i = nth_error l' i) -> l = l'.
Proof.
  induction l as [|x l IH]; intros [|y l'] H; auto; [discriminate (H 0)|discriminate (H 0)|].
  pose proof (H 0) as H0. cbn in H0. injection H0 as ->. f_equal. apply IH. intros i. exact (H (S i)).
Qed.
Section Order.
  Variable E : renv.

  Definition op_go := (fix go (l : list (gt nat)) (counter : nat) {struct l} : option nat :=
    match l with [] => Some counter | t :: l => obnd (op_helper t counter) (go l) end).
  Lemma op_mono : forall g c c', op_helper g c = Some c' -> c <= c' /\ forall i, In i (leaves g) -> c <= i < c'.
  Proof.
    induction g as [x|l IH] using gt_ind'; intros c c' H.
    - cbn in H. destruct (Nat.eqb_spec x c) as [->|]; [|discriminate]. injection H as <-. split; [lia|]. intros i [<-|[]]. lia.
    - change (op_go l c = Some c') in H. cbn [leaves]. revert c H. induction l as [|g l IHl]; intros c H; cbn [op_go] in H.
      + injection H as <-. split; [lia|intros i []].
      + destruct (op_helper g c) as [c1|] eqn:Eg; [|discriminate]. cbn [obnd] in H. inversion IH as [|? ? Hg Hl]; subst.
        destruct (Hg _ _ Eg) as [A A']. destruct (IHl Hl _ H) as [B B']. split; [lia|]. intros i I. cbn [flat_map] in I.
        apply in_app_iff in I. destruct I as [I|I]; [apply A' in I|apply B' in I]; lia.
  Qed.

  Lemma perm_tuple_eval : forall l t u, eval E (perm_expr (GT l)) t = EOk u ->
    exists us, u = TTup us /\ Forall2 (fun g x => eval E (perm_expr g) t = EOk x) l us.
  Proof.
    intros l t u H. cbn [perm_expr eval] in H. destruct (emap (fun x => eval E x t) (map perm_expr l)) as [us| |] eqn:M; try discriminate.
    cbn in H. injection H as <-. exists us. split; auto. apply emap_Forall2 in M. clear -M.
    remember (map perm_expr l) as es eqn:Q. revert l Q. induction M as [|e x es us H M IH]; intros [|g l] Q; try discriminate; constructor.
    - injection Q as -> ->. auto.
    - injection Q as -> ->. auto.
  Qed.
  (** The images compare like the columns read. *)
  Lemma perm_cmp : forall g c c' t t' u u', op_helper g c = Some c' -> c <= length (comps t) -> c <= length (comps t') ->
    eval E (perm_expr g) t = EOk u -> eval E (perm_expr g) t' = EOk u' ->
    c' <= length (comps t) /\ c' <= length (comps t') /\ tcmp u u' = lex tcmp (slice c c' (comps t)) (slice c c' (comps t')).
  Proof.
    induction g as [x|l IH] using gt_ind'; intros c c' t t' u u' H Lt Lt' Eu Eu'.
    - cbn in H. destruct (Nat.eqb_spec x c) as [->|]; [|discriminate]. injection H as <-.
      cbn [perm_expr eval] in Eu, Eu'. unfold index, acc_index, acc_iter in Eu, Eu'. cbn [firstn ac_len ac_0 ac_1 ac_2 index_path] in Eu, Eu'.
      destruct t as [v|ts]; [discriminate|]. destruct t' as [v|ts']; [discriminate|]. cbn [comps] in *.
      destruct (nth_error ts c) as [a|] eqn:Na; [|discriminate]. destruct (nth_error ts' c) as [a'|] eqn:Na'; [|discriminate].
      injection Eu as <-. injection Eu' as <-.
      assert (c < length ts) by (apply nth_error_Some; congruence). assert (c < length ts') by (apply nth_error_Some; congruence).
      split; [assumption|]. split; [assumption|]. rewrite (slice_one _ _ Na), (slice_one _ _ Na'). cbn. destruct (tcmp a a'); auto.
    - change (op_go l c = Some c') in H. apply perm_tuple_eval in Eu. destruct Eu as (us & -> & Fu).
      apply perm_tuple_eval in Eu'. destruct Eu' as (us' & -> & Fu'). rewrite tcmp_tup.
      revert c us us' H Lt Lt' Fu Fu'. induction l as [|g l IHl]; intros c us us' H Lt Lt' Fu Fu'; cbn [op_go] in H.
      + injection H as <-. inversion Fu; subst. inversion Fu'; subst. rewrite !slice_0. auto.
      + destruct (op_helper g c) as [c1|] eqn:Eg; [|discriminate]. cbn [obnd] in H. inversion IH as [|? ? Hg Hl]; subst.
        inversion Fu as [|? x ? us1 Ex Fu1]; subst. inversion Fu' as [|? x' ? us1' Ex' Fu1']; subst.
        destruct (Hg _ _ _ _ _ _ Eg Lt Lt' Ex Ex') as (A & A' & Q). destruct (IHl Hl _ _ _ H A A' Fu1 Fu1') as (B & B' & R).
        split; [auto|]. split; [auto|]. cbn [lex]. rewrite Q, R.
        assert (M1 : c <= c1) by exact (proj1 (op_mono _ _ Eg)).
        assert (M2 : c1 <= c') by exact (proj1 (op_mono (GT l) _ H)).
        rewrite <- (slice_app (comps t) M1 M2), <- (slice_app (comps t') M1 M2). rewrite lex_app; auto. rewrite !slice_length; auto.
  Qed.

  Lemma prefix_le : forall k l l', k <= length l -> k <= length l' -> lex tcmp l l' <> Gt -> lex tcmp (slice 0 k l) (slice 0 k l') <> Gt.
  Proof.
    intros k l l' A A' H K. apply H. unfold slice in K. cbn [skipn] in K. rewrite Nat.sub_0_r in K.
    rewrite <- (firstn_skipn k l), <- (firstn_skipn k l'), lex_app; [rewrite K; auto|]. rewrite !firstn_length. lia.
  Qed.
  Lemma cmp_comps : forall t t' k, k <= length (comps t) -> k <= length (comps t') -> tcmp t t' <> Gt ->
    lex tcmp (slice 0 k (comps t)) (slice 0 k (comps t')) <> Gt.
  Proof.
    intros t t' [|k] A A' H; [rewrite !slice_0; discriminate|].
    destruct t as [v|l]; [cbn in A; lia|]. destruct t' as [v|l']; [cbn in A'; lia|]. cbn [comps] in *. apply prefix_le; auto.
  Qed.
  Theorem perm_mono : forall g, order_preserving g = true -> mono (proj_fn E (perm_expr g)).
  Proof.
    intros g H t t' u u' Q Hu Hu'. unfold order_preserving in H. destruct (op_helper g 0) as [k|] eqn:Eg; [|discriminate].
    unfold proj_fn in Hu, Hu'. destruct (eval E (perm_expr g) t) as [x| |] eqn:Ex; try discriminate. injection Hu as ->.
    destruct (eval E (perm_expr g) t') as [x'| |] eqn:Ex'; try discriminate. injection Hu' as ->.
    destruct (perm_cmp _ t t' Eg ltac:(lia) ltac:(lia) Ex Ex') as (A & A' & R). rewrite R. apply cmp_comps; auto.
  Qed.

  (** The positions that a permutation keeps. *)
  Lemma perm_leaves : forall g args vis pm vis', perm_helper g args vis = Some (pm, vis') ->
    (forall i, In i vis' <-> In i vis \/ In i (leaves pm)) /\
    (forall v, In v (leaves g) -> exists i, position v args = Some i /\ In i vis').
  Proof.
    induction g as [w|l IH] using gt_ind'; intros args vis pm vis' H.
    - cbn in H. destruct (position w args) as [i|] eqn:Ei; [|discriminate]. cbn in H. destruct (memb i vis) eqn:Em; injection H as <- <-.
      + split; [intros j; cbn; tauto|]. intros v [<-|[]]. exists i. split; auto. apply memb_In; auto.
      + split; [intros j; cbn; tauto|]. intros v [<-|[]]. exists i. split; auto. left; auto.
    - cbn [perm_helper] in H.
      assert (K : forall vis pms vis',
        (fix go (l : list (gt var)) (visited : list nat) {struct l} : option (list (gt nat) * list nat) :=
          match l with
          | [] => Some ([], visited)
          | e :: l => obnd (perm_helper e args visited) (fun x =>
                      obnd (go l (snd x)) (fun y => Some (fst x :: fst y, snd y)))
          end) l vis = Some (pms, vis') ->
        (forall i, In i vis' <-> In i vis \/ In i (flat_map leaves pms)) /\
        (forall v, In v (flat_map leaves l) -> exists i, position v args = Some i /\ In i vis')).
      { clear H vis pm vis'. induction l as [|e l IHl]; intros vis pms vis' Q.
        - injection Q as <- <-. split; [intros i; cbn; tauto|intros v []].
        - destruct (perm_helper e args vis) as [[pe v1]|] eqn:Pe; [|discriminate]. cbn [obnd snd fst] in Q.
          match type of Q with obnd ?a _ = _ => destruct a as [[pl v2]|] eqn:Pl; [|discriminate] end.
          cbn [obnd snd fst] in Q. injection Q as <- <-. inversion IH as [|? ? He Hl]; subst.
          destruct (He _ _ _ _ Pe) as [A1 A2]. destruct (IHl Hl _ _ _ Pl) as [B1 B2]. split.
          + intros i. rewrite B1, A1. cbn [flat_map]. rewrite in_app_iff. tauto.
          + intros v Iv. cbn [flat_map] in Iv. apply in_app_iff in Iv. destruct Iv as [Iv|Iv]; [|auto].
            destruct (A2 v Iv) as (i & Pi & Ii). exists i. split; auto. apply B1. auto. }
      match type of H with obnd ?a _ = _ => destruct a as [[pl v2]|] eqn:Pl; [|discriminate] end.
      cbn [obnd fst snd] in H. injection H as <- <-. apply (K _ _ _ Pl).
  Qed.

  Lemma eq_expr_true : forall x l, tt_ E (eq_expr x) (TTup l) -> nth_error l (fst x) = nth_error l (snd x) /\ fst x < length l.
  Proof.
    intros [j k] l H. unfold tt_, eq_expr in H. cbn [fst snd eval] in *. unfold index, acc_index, acc_iter in H.
    cbn [firstn ac_len ac_0 ac_1 ac_2 index_path] in H. destruct (nth_error l j) as [a|] eqn:Ea; [|discriminate].
    destruct (nth_error l k) as [b|] eqn:Eb; [|discriminate]. cbn [ebind] in H.
    assert (j < length l) by (apply nth_error_Some; congruence). split; auto.
    destruct a as [v|]; [|discriminate]. destruct b as [w|]; [|discriminate]. cbn [bin_tuple bin_value cmp_op] in H.
    destruct (same_variant v w && eq_able v); [|discriminate]. cbn in H. injection H as H. apply veqb_eq in H. congruence.
  Qed.

  (** The tuples of an atom: of its length, and equal where variables repeat. *)
  Definition tlen (n : nat) (t : tuple) : Prop := exists ts, t = TTup ts /\ length ts = n.
  Definition atom_tuple (ws : list var) (t : tuple) : Prop :=
    tlen (length ws) t /\ match atom_filter (map TVar ws) with Some f => tt_ E f t | None => True end.
  Lemma first_pos : forall ws v i j, position v (map TVar ws) = Some i -> nth_error ws j = Some v -> i <= j.
  Proof.
    intros ws v i j P N. destruct (le_lt_dec i j); auto. exfalso. exact (@position_first ws v i P j l N).
  Qed.
  Lemma atom_tuple_eq : forall ws l, atom_tuple ws (TTup l) -> forall i v j, nth_error ws i = Some v -> position v (map TVar ws) = Some j ->
    nth_error l j = nth_error l i.
  Proof.
    intros ws l [(ts & Q & L) F] i. injection Q as <-.
    assert (PR : forall x, In x (eq_vars 0 [] (map TVar ws)) -> nth_error l (fst x) = nth_error l (snd x)).
    { intros x Ix. unfold atom_filter in F. destruct (eq_vars 0 [] (map TVar ws)) as [|y ys]; [destruct Ix|].
      apply and_all_true in F. destruct F as [F1 F2]. apply eq_expr_true. destruct Ix as [<-|Ix]; auto.
      rewrite Forall_forall in F2. apply F2. apply in_map; auto. }
    clear F. induction i as [i IH] using lt_wf_ind. intros v j Ni Pj.
    pose proof (position_spec _ _ Pj) as Nj. destruct (eq_vars_cover _ _ Ni) as [(j' & Lj & K & Nj')|Z].
    - pose proof (PR _ K) as Q. cbn [fst snd] in Q. rewrite <- Q. eapply IH; eauto.
    - assert (j <= i) by (eapply first_pos; eauto). assert (j = i); [|congruence].
      destruct (Nat.eq_dec j i); auto. exfalso. apply (Z j); [lia|auto].
  Qed.
  (** A permutation that keeps every variable of the atom is strictly monotone on
      its tuples. *)
  Theorem perm_smono : forall ws goal pm, permutation goal (map TVar ws) = Some pm -> order_preserving pm = true -> incl ws (leaves goal) ->
    smono (atom_tuple ws) (proj_fn E (perm_expr pm)).
  Proof.
    intros ws goal pm PM OP CV t t' u u' Qt Qt' LT Hu Hu'. pose proof (perm_mono _ OP) as MO.
    assert (NG : tcmp u u' <> Gt) by (apply (MO t t'); auto; rewrite LT; discriminate).
    destruct (tcmp u u') eqn:EQ; auto; [|congruence]. exfalso. clear NG MO.
    unfold order_preserving in OP. destruct (op_helper pm 0) as [k|] eqn:Eg; [|discriminate].
    unfold proj_fn in Hu, Hu'. destruct (eval E (perm_expr pm) t) as [x| |] eqn:Ex; try discriminate. injection Hu as ->.
    destruct (eval E (perm_expr pm) t') as [x'| |] eqn:Ex'; try discriminate. injection Hu' as ->.
    destruct (perm_cmp _ t t' Eg (Nat.le_0_l _) (Nat.le_0_l _) Ex Ex') as (A & A' & R). rewrite EQ in R. symmetry in R. apply lex_eq in R.
    destruct (proj1 Qt) as (l & -> & Ll). destruct (proj1 Qt') as (l' & -> & Ll'). cbn [comps] in *.
    assert (FE : forall i, i < k -> nth_error l i = nth_error l' i).
    { intros i Li. unfold slice in R. cbn [skipn] in R. rewrite Nat.sub_0_r in R.
      rewrite <- (nth_firstn l Li), <- (nth_firstn l' Li). exact (f_equal (fun x => nth_error x i) R). }
    assert (l = l'); [|subst l'; rewrite (to_refl tcmp_TOrder) in LT; discriminate].
    apply nth_ext'. intros i. destruct (nth_error ws i) as [v|] eqn:Ni.
    - unfold permutation in PM. destruct (perm_helper goal (map TVar ws) []) as [[pm' vis]|] eqn:PH; [|discriminate].
      cbn in PM. injection PM as ->. destruct (perm_leaves _ _ _ PH) as [P1 P2].
      destruct (P2 v (CV v (nth_error_In _ _ Ni))) as (j & Pj & Ij). apply P1 in Ij. destruct Ij as [[]|Ij].
      apply (proj2 (op_mono _ _ Eg)) in Ij. rewrite <- (atom_tuple_eq Qt _ Ni Pj), <- (atom_tuple_eq Qt' _ Ni Pj). apply FE. lia.
    - apply nth_error_None in Ni. rewrite !(proj2 (nth_error_None _ _)); auto; unfold var, pred in *; lia.
  Qed.
End Order.
