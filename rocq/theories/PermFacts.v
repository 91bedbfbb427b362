(** Facts about permutations of positions (VarTuple.v), used by C53. *)
From Coq Require Import List ZArith Bool Arith Lia Permutation.
From Verif Require Import Order Value Back Eval BackSem Scc SccFacts Plan PlanSem PlanFacts VarTuple VarTupleFacts B2R RamSem.
Import ListNotations.
Set Implicit Arguments.

(** The instance of a tuple of variables where repetitions become the empty
    tuple. *)
Section Wt.
  Variable s : subst.
  Fixpoint wt (seen : list var) (g : gt var) {struct g} : tuple :=
    match g with
    | GV v => if memb v seen then TTup [] else TVal (s v)
    | GT l => TTup ((fix go seen l := match l with [] => [] | e :: l => wt seen e :: go (seen ++ leaves e) l end) seen l)
    end.
  Fixpoint wts (seen : list var) (l : list (gt var)) {struct l} : list tuple :=
    match l with [] => [] | e :: l => wt seen e :: wts (seen ++ leaves e) l end.
  Lemma wt_tuple : forall seen l, wt seen (GT l) = TTup (wts seen l).
  Proof. reflexivity. Qed.

  Lemma wts_nth : forall l seen j e, nth_error l j = Some e ->
    nth_error (wts seen l) j = Some (wt (seen ++ flat_map leaves (firstn j l)) e).
  Proof.
    induction l as [|x l IH]; intros seen [|j] e N; cbn in *; try discriminate.
    - injection N as ->. rewrite app_nil_r. reflexivity.
    - rewrite IH with (e := e); auto. rewrite <- app_assoc. reflexivity.
  Qed.
  Lemma wts_length : forall l seen, length (wts seen l) = length l.
  Proof. induction l; intros; cbn; auto. Qed.

  Lemma firstn_nth : forall A (l : list A) j x, In x (firstn j l) -> exists i, i < j /\ nth_error l i = Some x.
  Proof.
    induction l as [|y l IH]; intros [|j] x I; cbn in I; try tauto. destruct I as [->|I].
    - exists 0. split; [lia|reflexivity].
    - apply IH in I. destruct I as (i & L & N). exists (S i). split; [lia|auto].
  Qed.

  Lemma holds_wt : forall g seen v a, accessor_of g v = EOk a -> ~ In v seen -> index (wt seen g) a = EOk (TVal (s v)).
  Proof.
    induction g as [w|l IH] using gt_ind'; intros seen v a A N.
    - cbn in A. destruct (Nat.eqb_spec v w) as [->|]; [|discriminate]. injection A as <-. cbn.
      apply memb_nIn in N. rewrite N. reflexivity.
    - rewrite accessor_tuple in A. apply acc_go_spec in A. destruct A as (j & e & b & Ne & A & It & Z).
      unfold index. rewrite It, wt_tuple. cbn [index_path Nat.add].
      match goal with |- match ?x with _ => _ end = _ => change x with (nth_error (wts seen l) j) end.
      rewrite (wts_nth l seen j Ne). rewrite Forall_forall in IH. apply (IH e (nth_error_In _ _ Ne)); auto.
      intros I. apply in_app_iff in I. destruct I as [I|I]; [tauto|]. apply in_flat_map in I. destruct I as (x & Ix & Iv).
      apply firstn_nth in Ix. destruct Ix as (i & L & Ni). apply (Z i x); auto.
  Qed.
  Lemma holds_wtup : forall g, holds g s (wt [] g).
  Proof. intros g v a A. apply holds_wt; auto. Qed.

  Lemma wt_nodup : forall g seen, NoDup (leaves g) -> (forall v, In v (leaves g) -> ~ In v seen) -> wt seen g = gtup g s.
  Proof.
    induction g as [w|l IH] using gt_ind'; intros seen ND D.
    - cbn in *. assert (K : ~ In w seen) by auto. apply memb_nIn in K. rewrite K. reflexivity.
    - rewrite wt_tuple. cbn [gtup leaves] in *. f_equal. revert seen ND D. induction l as [|e l IHl]; intros seen ND D; auto.
      cbn [wts map flat_map] in *. inversion IH as [|? ? H F]; subst. apply NoDup_app_iff in ND. destruct ND as (N1 & N2 & N3).
      f_equal.
      + apply H; auto. intros v I. apply D. apply in_app_iff; auto.
      + apply IHl; auto. intros v I J. apply in_app_iff in J. destruct J as [J|J].
        * apply (D v); auto. apply in_app_iff; auto.
        * apply (N3 v); auto.
  Qed.
  Lemma wtup_nodup : forall g, NoDup (leaves g) -> wt [] g = gtup g s.
  Proof. intros. apply wt_nodup; auto. Qed.
End Wt.

Lemma position_spec : forall ws v i, position v (map TVar ws) = Some i -> nth_error ws i = Some v.
Proof.
  induction ws as [|w ws IH]; intros v i P; cbn in P; [discriminate|]. destruct (Nat.eqb_spec v w) as [->|].
  - injection P as <-. reflexivity.
  - destruct (position v (map TVar ws)) as [j|] eqn:Ej; [|discriminate]. injection P as <-. cbn. auto.
Qed.
Lemma position_total : forall ws v, In v ws -> exists i, position v (map TVar ws) = Some i.
Proof.
  induction ws as [|w ws IH]; intros v I; [destruct I|]. cbn. destruct (Nat.eqb_spec v w) as [->|D]; [eauto|].
  destruct I as [->|I]; [tauto|]. destruct (IH v I) as [i Ei]. rewrite Ei. cbn. eauto.
Qed.

Section PermEval.
  Variables (E : renv) (s : subst) (ws : list var).

  Lemma nth_values : forall i v, nth_error ws i = Some v -> index (vtup (map s ws)) (acc_index i) = EOk (TVal (s v)).
  Proof.
    intros i v N. unfold index, acc_index, acc_iter, vtup. cbn [firstn ac_len ac_0 ac_1 ac_2 index_path].
    rewrite map_map, nth_error_map'. unfold var in *. rewrite N. reflexivity.
  Qed.

  Definition seen_ok (visited : list nat) (seen : list var) : Prop :=
    forall v i, position v (map TVar ws) = Some i -> (In i visited <-> In v seen).
  Lemma perm_helper_eval : forall g visited seen pm visited',
    perm_helper g (map TVar ws) visited = Some (pm, visited') -> seen_ok visited seen ->
    eval E (perm_expr pm) (vtup (map s ws)) = EOk (wt s seen g) /\ seen_ok visited' (seen ++ leaves g).
  Proof.
    induction g as [w|l IH] using gt_ind'; intros visited seen pm visited' P S0.
    - cbn in P. destruct (position w (map TVar ws)) as [i|] eqn:Ei; [|discriminate]. cbn in P.
      pose proof (position_spec _ _ Ei) as Ni. cbn [wt leaves].
      assert (K : memb i visited = memb w seen).
      { destruct (memb w seen) eqn:Ew.
        - apply memb_In. apply (S0 w i Ei). apply memb_In; auto.
        - apply memb_nIn. intros I. apply (S0 w i Ei) in I. apply memb_nIn in Ew. tauto. }
      rewrite K in P. destruct (memb w seen) eqn:Ew.
      + injection P as <- <-. split; [reflexivity|]. intros v j Ej. rewrite in_app_iff, (S0 v j Ej). split; [auto|].
        intros [I|[<-|[]]]; auto. apply memb_In; auto.
      + injection P as <- <-. split; [apply nth_values; auto|]. intros v j Ej. cbn [In]. rewrite in_app_iff, (S0 v j Ej).
        split.
        * intros [<-|I]; auto. right; left. pose proof (position_spec _ _ Ej) as Nj. congruence.
        * intros [I|[<-|[]]]; auto. left. congruence.
    - cbn [perm_helper] in P.
      assert (K : forall visited seen pms visited',
        (fix go (l : list (gt var)) (visited : list nat) {struct l} : option (list (gt nat) * list nat) :=
          match l with
          | [] => Some ([], visited)
          | e :: l => obnd (perm_helper e (map TVar ws) visited) (fun x =>
                      obnd (go l (snd x)) (fun y => Some (fst x :: fst y, snd y)))
          end) l visited = Some (pms, visited') -> seen_ok visited seen ->
        emap (fun x => eval E x (vtup (map s ws))) (map perm_expr pms) = EOk (wts s seen l) /\ seen_ok visited' (seen ++ flat_map leaves l)).
      { clear P S0. induction l as [|e l IHl]; intros vis sn pms vis' Q S1.
        - injection Q as <- <-. split; [reflexivity|]. cbn. rewrite app_nil_r. auto.
        - inversion IH as [|? ? H F]; subst. destruct (perm_helper e (map TVar ws) vis) as [[pe v1]|] eqn:Ep; [|discriminate].
          cbn [obnd] in Q. cbn [snd fst] in Q. destruct (H _ _ _ _ Ep S1) as [E1 S2].
          match type of Q with obnd ?g _ = _ => destruct g as [[pr v2]|] eqn:Er; [|discriminate] end.
          cbn in Q. injection Q as <- <-. destruct (IHl F _ _ _ _ Er S2) as [E2 S3].
          split.
          + cbn [map wts]. rewrite emap_cons, E1. cbn [ebind]. rewrite E2. reflexivity.
          + cbn [flat_map]. rewrite app_assoc. exact S3. }
      match type of P with obnd ?g _ = _ => destruct g as [[pms v1]|] eqn:Er; [|discriminate] end.
      cbn in P. injection P as <- <-. destruct (K _ _ _ _ Er S0) as [E1 S1]. split; [|exact S1].
      cbn [perm_expr eval]. rewrite E1. reflexivity.
  Qed.
  Lemma permutation_eval : forall g pm, permutation g (map TVar ws) = Some pm ->
    eval E (perm_expr pm) (vtup (map s ws)) = EOk (wt s [] g).
  Proof.
    intros g pm P. unfold permutation in P. destruct (perm_helper g (map TVar ws) []) as [[p v]|] eqn:Ep; [|discriminate].
    injection P as <-. destruct (@perm_helper_eval g [] [] p v Ep) as [K _]; auto. intros v' i _. tauto.
  Qed.
End PermEval.
