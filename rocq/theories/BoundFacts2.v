(** Facts about the boundness analysis (Bound.v), continued: the locations that are
    bound against the variables that the flattened literals give values to.
    Used by C60. *)
From Coq Require Import List ZArith Bool Arith Lia.
From Verif Require Import Value Back Eval BackSem Plan PlanSem Scc SccFacts Front FrontSem FrontFacts Bound BoundSem BoundFacts.
Import ListNotations.
Set Implicit Arguments.

Section Equiv.
  Variables (N : penv) (ar : pred -> nat) (fr : nat -> var).
  Variables (fs : list formula) (c : lctx) (lits : list lit) (ts : list top) (ns : list node) (n n1 : loc) (k k1 : nat).
  Hypothesis F : forms (pe_foreign N) (pe_bounded N) ar fr fs c lits ts ns n n1 k k1.
  Let D := derivable (lc_deps c) (lc_vars c) [].
  Lemma node_at : forall x d, In x ns -> at_node fr ns d -> nd_loc x = cloc d -> nd_term fr x = cterm d /\ nd_expr x = cexpr d.
  Proof. intros x d I (y & J & E1 & E2 & E3) E. assert (x = y) as -> by (apply (sg_uniq (fm_seg F)); congruence). auto. Qed.
  Lemma node_of : forall d, at_node fr ns d -> exists y, In y ns /\ nd_loc y = cloc d /\ nd_term fr y = cterm d /\ nd_expr y = cexpr d.
  Proof. auto. Qed.

  (** The nodes that a dependency comes from. *)
  Inductive origin : dep -> Prop :=
  | or_arg p cs d : In (PAtom p cs) ts -> pe_foreign N p = false -> In d cs -> origin (DArg (cloc d))
  | or_foreign p cs : In (PAtom p cs) ts -> pe_foreign N p = true -> length cs = ar p ->
      origin (DForeign (map cloc (firstn (pe_bounded N p) cs)) (map cloc (skipn (pe_bounded N p) cs)))
  | or_const x v : In x ns -> nd_expr x = EConst v -> origin (DConst (nd_loc x))
  | or_bin x op e1 e2 a b : In x ns -> nd_expr x = EBin op e1 e2 -> nd_kids x = [a; b] -> is_add_sub op = false -> origin (DBin (cloc a) (cloc b) (nd_loc x))
  | or_cmp op o a b l : In (PCmp op o a b l) ts -> origin (DBin (cloc a) (cloc b) l)
  | or_eq o a b l : In (PCmp OEq o a b l) ts -> origin (DEq (cloc a) (cloc b))
  | or_as x op e1 e2 a b : In x ns -> nd_expr x = EBin op e1 e2 -> nd_kids x = [a; b] -> is_add_sub op = true -> origin (DAddSub (cloc a) (cloc b) (nd_loc x))
  | or_un x op e1 a : In x ns -> nd_expr x = EUn op e1 -> nd_kids x = [a] -> origin (DUn (cloc a) (nd_loc x))
  | or_not a l : In (PNot a l) ts -> origin (DUn (cloc a) l)
  | or_ite x e1 e2 e3 a b d : In x ns -> nd_expr x = EIte e1 e2 e3 -> nd_kids x = [a; b; d] -> origin (DIte (cloc a) (cloc b) (cloc d) (nd_loc x))
  | or_call x f l cs : In x ns -> nd_expr x = ECall f l -> nd_kids x = cs -> origin (DCall (map cloc cs) (nd_loc x)).
  Lemma origin_iff : forall d, In d (lc_deps c) <-> origin d.
  Proof.
    intros d. rewrite (fm_deps F). split.
    - intros [(t & It & J)|(x & Ix & J)].
      + destruct t as [p cs|op o a b l|a l]; cbn [top_deps] in J.
        * unfold atom_deps in J. rewrite map_length in J. destruct (pe_foreign N p) eqn:Ef.
          -- destruct (Nat.eqb (length cs) (ar p)) eqn:Ea; [|destruct J]. destruct J as [<-|[]]. rewrite firstn_map, skipn_map. apply or_foreign; auto. apply Nat.eqb_eq. auto.
          -- rewrite map_map in J. apply in_map_iff in J. destruct J as (d' & <- & J). eapply or_arg; eauto.
        * apply in_app_or in J. destruct J as [J|[<-|[]]]; [|eapply or_cmp; eauto]. destruct op; try (destruct J; fail). destruct J as [<-|[]]. eapply or_eq; eauto.
        * destruct J as [<-|[]]. apply or_not. auto.
      + pose proof (sg_shape (fm_seg F) x Ix) as Sh. unfold node_deps in J. destruct (nd_expr x) eqn:E; cbn [kids] in Sh;
          repeat (match goal with J : In _ (match ?K with _ => _ end) |- _ => destruct K eqn:? end); try discriminate Sh; try (destruct J; fail);
          destruct J as [<-|[]]; try destruct (is_add_sub op) eqn:As; econstructor; eauto.
    - intros O. destruct O as [p cs d I Ef J|p cs I Ef Ea|x v I E|x op e1 e2 a b I E K As|op o a b l I|o a b l I|x op e1 e2 a b I E K As|x op e1 a I E K|a l I|x e1 e2 e3 a b d I E K|x f l cs I E K].
      + left. exists (PAtom p cs). split; auto. cbn [top_deps]. unfold atom_deps. rewrite Ef, map_map. apply in_map_iff. eauto.
      + left. exists (PAtom p cs). split; auto. cbn [top_deps]. unfold atom_deps. rewrite Ef, map_length, (proj2 (Nat.eqb_eq _ _) Ea), firstn_map, skipn_map. left. auto.
      + right. exists x. split; auto. unfold node_deps. rewrite E. left. auto.
      + right. exists x. split; auto. unfold node_deps. rewrite E, K, As. left. auto.
      + left. eexists. split; [exact I|]. apply in_or_app. right. left. auto.
      + left. eexists. split; [exact I|]. left. auto.
      + right. exists x. split; auto. unfold node_deps. rewrite E, K, As. left. auto.
      + right. exists x. split; auto. unfold node_deps. rewrite E, K. left. auto.
      + left. eexists. split; [exact I|]. left. auto.
      + right. exists x. split; auto. unfold node_deps. rewrite E, K. left. auto.
      + right. exists x. split; auto. unfold node_deps. rewrite E, K. left. auto.
  Qed.
  Lemma kid_node : forall x d, In x ns -> In d (nd_kids x) -> at_node fr ns d.
  Proof. intros x d I J. eapply (sg_kids (fm_seg F)); eauto. Qed.
  Lemma top_node : forall t d, In t ts -> In d (top_kids t) -> at_node fr ns d.
  Proof. intros t d I J. eapply (fm_kids F); eauto. Qed.
  Lemma own_node : forall t l, In t ts -> In l (top_locs t) -> forall x, In x ns -> nd_loc x = l -> False.
  Proof. intros t l I J x Ix E. destruct (fm_own F _ _ I J) as [_ Q]. apply (Q x Ix E). Qed.
  Lemma node_lit : forall x l, In x ns -> In l (node_lits fr x) -> In l lits.
  Proof. intros x l I J. apply (fm_lits F). right. eauto. Qed.
  Lemma top_in : forall t, In t ts -> In (top_lit t) lits.
  Proof. intros t I. apply (fm_lits F). left. eauto. Qed.
  Lemma same_node : forall x y, In x ns -> In y ns -> nd_loc x = nd_loc y -> x = y.
  Proof. exact (sg_uniq (fm_seg F)). Qed.

  (** What is bound has a term whose variables get values. *)
  Definition term_lim (l : loc) : Prop := forall x v, In x ns -> nd_loc x = l -> In v (tvar (nd_term fr x)) -> elimited N lits v.
  Lemma lim_kid : forall d, at_node fr ns d -> term_lim (cloc d) -> forall v, In v (tvar (cterm d)) -> elimited N lits v.
  Proof. intros d (y & I & E1 & E2 & E3) H v J. apply (H y v); auto. rewrite E2. auto. Qed.
  Lemma kid_lim : forall d, at_node fr ns d -> (forall v, In v (tvar (cterm d)) -> elimited N lits v) -> term_lim (cloc d).
  Proof. intros d A H x v I E J. destruct (node_at x I A E) as [E2 _]. rewrite E2 in J. auto. Qed.
  Lemma nonleaf_term : forall x, leaf (nd_expr x) = false -> nd_term fr x = TVar (fr (nd_num x)).
  Proof. intros x. unfold nd_term, term_of. destruct (nd_expr x); intros H; try discriminate H; reflexivity. Qed.
  Lemma inv_left : forall left op t1 t2 v, is_add_sub op = true -> In v (tvar t1) -> exists inv, In (LAssign v (ABin inv (TVar left) t2)) (inverses left op t1 t2).
  Proof.
    intros left op t1 t2 v A J. destruct t1 as [w|w]; [|destruct J]. destruct J as [<-|[]].
    destruct op; try discriminate A; [exists OSub|exists OAdd]; left; reflexivity.
  Qed.
  Lemma inv_right : forall left op t1 t2 v, is_add_sub op = true -> In v (tvar t2) -> exists inv, In (LAssign v (ABin inv (TVar left) t1)) (inverses left op t1 t2).
  Proof.
    intros left op t1 t2 v A J. destruct t2 as [w|w]; [|destruct J]. destruct J as [<-|[]].
    destruct op; try discriminate A; [exists OSub|exists OAdd]; (unfold inverses; cbn [add_sub_inv]; apply in_or_app; right; left; reflexivity).
  Qed.
  Lemma derivable_limited : forall l, D l -> term_lim l.
  Proof.
    intros l H. induction H as [l I|l I|l I|b f l I Hb IH If|a b e I Ha IHa Hb IHb|a b I Ha IHa|a b I Ha IHa|a b e I Ha IHa Hb IHb|a b e I Ha IHa Hb IHb|a b e I Ha IHa Hb IHb|a e I Ha IHa|d a b e I Hd IHd Ha IHa Hb IHb|l e I Hl IHl|v l l' I I' Hl IHl].
    - destruct I.
    - apply origin_iff in I. inversion I as [p cs d It Ef Jd E| | | | | | | | | |]; subst. apply kid_lim; [eapply top_node; [exact It|exact Jd]|]. intros v Jv.
      apply elim with (l := LAtom (mkAtom p (map cterm cs))); auto.
      + exact (top_in _ It).
      + cbn [lit_binds a_pred a_args]. rewrite Ef. unfold avars. cbn [a_args]. apply in_flat_map. exists (cterm d). split; auto. apply in_map. auto.
      + cbn [lit_needs a_pred]. rewrite Ef. intros w [].
    - apply origin_iff in I. inversion I as [| |x v Ix E El| | | | | | | |]; subst. intros y w Iy Ey Jw. assert (y = x) as -> by (apply same_node; auto).
      unfold nd_term in Jw. rewrite E in Jw. destruct Jw.
    - apply origin_iff in I. inversion I as [|p cs It Ef Ea E1| | | | | | | | |]; subst. apply in_map_iff in If. destruct If as (d & <- & Jd).
      assert (Jd' : In d cs) by (rewrite <- (firstn_skipn (pe_bounded N p) cs); apply in_or_app; auto).
      apply kid_lim; [eapply top_node; [exact It|exact Jd']|]. intros v Jv.
      apply elim with (l := LAtom (mkAtom p (map cterm cs))); auto.
      + exact (top_in _ It).
      + cbn [lit_binds a_pred a_args]. rewrite Ef, skipn_map. apply in_flat_map. exists (cterm d). split; auto. apply in_map. auto.
      + cbn [lit_needs a_pred a_args]. rewrite Ef, firstn_map. intros w Jw. apply in_flat_map in Jw. destruct Jw as (t & Jt & Jw). apply in_map_iff in Jt. destruct Jt as (d' & <- & Jd2).
        assert (Jd2' : In d' cs) by (rewrite <- (firstn_skipn (pe_bounded N p) cs); apply in_or_app; auto).
        apply lim_kid with (d := d'); auto; [eapply top_node; [exact It|exact Jd2']|]. apply IH. apply in_map. auto.
    - apply origin_iff in I. inversion I as [| | |x op e1 e2 a' b' Ix E K As|op o a' b' l It| | | | | |]; subst.
      + intros y w Iy Ey Jw. assert (y = x) as -> by (apply same_node; auto). rewrite nonleaf_term in Jw by (rewrite E; auto). destruct Jw as [<-|[]].
        apply elim with (l := LAssign (fr (nd_num x)) (ABin op (cterm a') (cterm b'))).
        * apply node_lit with (x := x); auto. unfold node_lits. rewrite E, K. left. auto.
        * reflexivity.
        * left. auto.
        * cbn. intros w Jw. apply in_app_or in Jw. destruct Jw as [Jw|Jw]; [eapply lim_kid with (d := a')|eapply lim_kid with (d := b')]; eauto; eapply kid_node; eauto; rewrite K; cbn; auto.
      + intros y w Iy Ey Jw. exfalso. eapply own_node; [exact It|left; reflexivity|exact Iy|auto].
    - apply origin_iff in I. inversion I as [| | | | |o a' b' l It| | | | |]; subst. pose proof (fm_ok F _ It) as Eo. cbn in Eo. injection Eo as <-.
      apply kid_lim; [eapply top_node; [exact It|cbn; auto]|]. intros v Jv. eapply elim_l; [exact (top_in _ It)| |exact Jv].
      intros w Jw. apply lim_kid with (d := a'); auto. eapply top_node; [exact It|cbn; auto].
    - apply origin_iff in I. inversion I as [| | | | |o a' b' l It| | | | |]; subst. pose proof (fm_ok F _ It) as Eo. cbn in Eo. injection Eo as <-.
      apply kid_lim; [eapply top_node; [exact It|cbn; auto]|]. intros v Jv. eapply elim_r; [exact (top_in _ It)| |exact Jv].
      intros w Jw. apply lim_kid with (d := b'); auto. eapply top_node; [exact It|cbn; auto].
    - apply origin_iff in I. inversion I as [| | | | | |x op e1 e2 a' b' Ix E K As| | | |]; subst.
      intros y w Iy Ey Jw. assert (y = x) as -> by (apply same_node; auto). rewrite nonleaf_term in Jw by (rewrite E; auto). destruct Jw as [<-|[]].
      apply elim with (l := LAssign (fr (nd_num x)) (ABin op (cterm a') (cterm b'))).
      + apply node_lit with (x := x); auto. unfold node_lits. rewrite E, K. left. auto.
      + reflexivity.
      + left. auto.
      + cbn. intros w Jw. apply in_app_or in Jw. destruct Jw as [Jw|Jw]; [eapply lim_kid with (d := a')|eapply lim_kid with (d := b')]; eauto; eapply kid_node; eauto; rewrite K; cbn; auto.
    - apply origin_iff in I. inversion I as [| | | | | |x op e1 e2 a' b' Ix E K As| | | |]; subst.
      apply kid_lim; [eapply kid_node; eauto; rewrite K; cbn; auto|]. intros v Jv. destruct (@inv_right (fr (nd_num x)) op (cterm a') (cterm b') v As Jv) as (inv & Ji).
      apply elim with (l := LAssign v (ABin inv (TVar (fr (nd_num x))) (cterm a'))).
      + apply node_lit with (x := x); auto. unfold node_lits. rewrite E, K. right. exact Ji.
      + reflexivity.
      + left. auto.
      + cbn. intros w [<-|Jw].
        * apply (IHb x); auto. rewrite nonleaf_term by (rewrite E; auto). left. auto.
        * apply lim_kid with (d := a'); auto. eapply kid_node; eauto; rewrite K; cbn; auto.
    - apply origin_iff in I. inversion I as [| | | | | |x op e1 e2 a' b' Ix E K As| | | |]; subst.
      apply kid_lim; [eapply kid_node; eauto; rewrite K; cbn; auto|]. intros v Jv. destruct (@inv_left (fr (nd_num x)) op (cterm a') (cterm b') v As Jv) as (inv & Ji).
      apply elim with (l := LAssign v (ABin inv (TVar (fr (nd_num x))) (cterm b'))).
      + apply node_lit with (x := x); auto. unfold node_lits. rewrite E, K. right. exact Ji.
      + reflexivity.
      + left. auto.
      + cbn. intros w [<-|Jw].
        * apply (IHb x); auto. rewrite nonleaf_term by (rewrite E; auto). left. auto.
        * apply lim_kid with (d := b'); auto. eapply kid_node; eauto; rewrite K; cbn; auto.
    - apply origin_iff in I. inversion I as [| | | | | | |x op e1 a' Ix E K|a' l It| |]; subst.
      + intros y w Iy Ey Jw. assert (y = x) as -> by (apply same_node; auto). rewrite nonleaf_term in Jw by (rewrite E; auto). destruct Jw as [<-|[]].
        apply elim with (l := LAssign (fr (nd_num x)) (AUn op (cterm a'))).
        * apply node_lit with (x := x); auto. unfold node_lits. rewrite E, K. left. auto.
        * reflexivity.
        * left. auto.
        * cbn. intros w Jw. eapply lim_kid with (d := a'); eauto; eapply kid_node; eauto; rewrite K; cbn; auto.
      + intros y w Iy Ey Jw. exfalso. eapply own_node; [exact It|left; reflexivity|exact Iy|auto].
    - apply origin_iff in I. inversion I as [| | | | | | | | |x e1 e2 e3 a' b' d' Ix E K|]; subst.
      intros y w Iy Ey Jw. assert (y = x) as -> by (apply same_node; auto). rewrite nonleaf_term in Jw by (rewrite E; auto). destruct Jw as [<-|[]].
      apply elim with (l := LAssign (fr (nd_num x)) (AIte (cterm a') (cterm b') (cterm d'))).
      + apply node_lit with (x := x); auto. unfold node_lits. rewrite E, K. left. auto.
      + reflexivity.
      + left. auto.
      + cbn. intros w Jw. apply in_app_or in Jw. destruct Jw as [Jw|Jw]; [eapply lim_kid with (d := a')|apply in_app_or in Jw; destruct Jw as [Jw|Jw]; [eapply lim_kid with (d := b')|eapply lim_kid with (d := d')]]; eauto; eapply kid_node; eauto; rewrite K; cbn; auto.
    - apply origin_iff in I. inversion I as [| | | | | | | | | |x f l' cs Ix E K]; subst.
      intros y w Iy Ey Jw. assert (y = x) as -> by (apply same_node; auto). rewrite nonleaf_term in Jw by (rewrite E; auto). destruct Jw as [<-|[]].
      apply elim with (l := LAssign (fr (nd_num x)) (ACall f (map cterm (nd_kids x)))).
      + apply node_lit with (x := x); auto. unfold node_lits. rewrite E. destruct (nd_kids x); left; auto.
      + reflexivity.
      + left. auto.
      + cbn. intros w Jw. apply in_flat_map in Jw. destruct Jw as (t & Jt & Jw). apply in_map_iff in Jt. destruct Jt as (d & <- & Jd).
        eapply lim_kid with (d := d); eauto; [eapply kid_node; eauto|]. apply IHl. apply in_map. auto.
    - apply (fm_vars F) in I. apply (fm_vars F) in I'. destruct I as (x & Ix & Ex & El). destruct I' as (x' & Ix' & Ex' & El'). intros y w Iy Ey Jw.
      assert (y = x') as -> by (apply same_node; auto; congruence). apply (IHl x w); auto. unfold nd_term in *. rewrite Ex in *. rewrite Ex' in *. exact Jw.
  Qed.

  (** And conversely. *)
  Hypothesis Hinj : forall i j, fr i = fr j -> i = j.
  Hypothesis Hnew : forall x v i, In x ns -> nd_expr x = EVar v -> v <> fr i.
  Hypothesis Har : forall p cs, In (PAtom p cs) ts -> pe_foreign N p = true -> length cs = ar p.
  Lemma same_var : forall x y v, In x ns -> In y ns -> nd_term fr x = TVar v -> nd_term fr y = TVar v -> D (nd_loc x) -> D (nd_loc y).
  Proof.
    intros x y v Ix Iy Ex Ey Hx. destruct (leaf (nd_expr x)) eqn:Lx, (leaf (nd_expr y)) eqn:Ly.
    - unfold nd_term, term_of in *. destruct (nd_expr x) as [w| | | | | | |] eqn:E1; try discriminate Lx; try discriminate Ex. destruct (nd_expr y) as [w'| | | | | | |] eqn:E2; try discriminate Ly; try discriminate Ey.
      injection Ex as ->. injection Ey as ->. apply (@dv_var (lc_deps c) (lc_vars c) [] v (nd_loc x) (nd_loc y)); auto; apply (fm_vars F); eauto.
    - exfalso. rewrite (nonleaf_term y Ly) in Ey. unfold nd_term, term_of in Ex. destruct (nd_expr x) as [w| | | | | | |] eqn:E1; try discriminate Lx; try discriminate Ex. injection Ex as ->. injection Ey as <-. exact (@Hnew x _ (nd_num y) Ix E1 eq_refl).
    - exfalso. rewrite (nonleaf_term x Lx) in Ex. unfold nd_term, term_of in Ey. destruct (nd_expr y) as [w| | | | | | |] eqn:E1; try discriminate Ly; try discriminate Ey. injection Ey as ->. injection Ex as <-. exact (@Hnew y _ (nd_num x) Iy E1 eq_refl).
    - rewrite (nonleaf_term x Lx) in Ex. rewrite (nonleaf_term y Ly) in Ey. assert (x = y) as -> by (apply (sg_nums (fm_seg F)); auto; apply Hinj; congruence). auto.
  Qed.
  Definition var_der (v : var) : Prop := forall x, In x ns -> nd_term fr x = TVar v -> D (nd_loc x).
  Lemma const_der : forall x v, In x ns -> nd_term fr x = TConst v -> D (nd_loc x).
  Proof.
    intros x v I E. assert (E' : nd_expr x = EConst v) by (unfold nd_term, term_of in E; destruct (nd_expr x); try discriminate E; injection E as ->; auto).
    apply dv_const. apply origin_iff. eapply or_const; eauto.
  Qed.
  Lemma der_kid : forall d, at_node fr ns d -> (forall v, In v (tvar (cterm d)) -> var_der v) -> D (cloc d).
  Proof.
    intros d (y & I & E1 & E2 & E3) H. rewrite <- E1. destruct (cterm d) as [v|v]; [|eapply const_der; eauto]. apply (H v); [left; auto|auto|auto].
  Qed.
  Lemma kid_der : forall d v, at_node fr ns d -> D (cloc d) -> In v (tvar (cterm d)) -> var_der v.
  Proof.
    intros d v (y & I & E1 & E2 & E3) H J x Ix Ex. assert (E : cterm d = TVar v) by (destruct (cterm d); [destruct J as [->|[]]; auto|destruct J]).
    apply (@same_var y x v); auto; congruence.
  Qed.
  Lemma node_der : forall x, In x ns -> leaf (nd_expr x) = false -> D (nd_loc x) -> var_der (fr (nd_num x)).
  Proof. intros x I L H y Iy Ey. apply (@same_var x y (fr (nd_num x))); auto. apply nonleaf_term. auto. Qed.
  Lemma node_assign : forall x l, In l (node_lits fr x) -> exists v e, l = LAssign v e.
  Proof.
    intros x l J. assert (G : forall left op t1 t2, In l (inverses left op t1 t2) -> exists v e, l = LAssign v e).
    { intros left op t1 t2 H. unfold inverses in H. destruct (add_sub_inv op); [|destruct H]. apply in_app_or in H. destruct t1, t2, H as [H|H]; cbn in H; intuition eauto. }
    unfold node_lits in J. destruct (nd_expr x), (nd_kids x) as [|? [|? [|? [|? ?]]]]; cbn [In] in J; intuition eauto.
  Qed.
  Lemma limited_derivable : forall v, elimited N lits v -> var_der v.
  Proof.
    intros v H. induction H as [l v I Hn Hb Hd IH|a b v I Hd IH J|a b v I Hd IH J].
    - apply (fm_lits F) in I. destruct I as [(t & It & ->)|(x & Ix & J)].
      + destruct t as [p cs|op o a b l|a l]; [|destruct Hb|destruct Hb]. cbn [lit_binds lit_needs top_lit a_pred a_args] in *. destruct (pe_foreign N p) eqn:Ef.
        * rewrite skipn_map in Hb. apply in_flat_map in Hb. destruct Hb as (t & Jt & Jv). apply in_map_iff in Jt. destruct Jt as (d & <- & Jd).
          assert (Jd' : In d cs) by (rewrite <- (firstn_skipn (pe_bounded N p) cs); apply in_or_app; auto).
          apply kid_der with (d := d); auto; [eapply top_node; [exact It|exact Jd']|].
          refine (@dv_foreign (lc_deps c) (lc_vars c) [] _ _ _ (proj2 (origin_iff _) (@or_foreign p cs It Ef (@Har p cs It Ef))) _ _); [|apply in_map; auto].
          intros x Jx. apply in_map_iff in Jx. destruct Jx as (d' & <- & Jd2).
          assert (Jd2' : In d' cs) by (rewrite <- (firstn_skipn (pe_bounded N p) cs); apply in_or_app; auto).
          apply der_kid; [eapply top_node; [exact It|exact Jd2']|]. intros w Jw. apply IH. rewrite firstn_map. apply in_flat_map. exists (cterm d'). split; auto. apply in_map. auto.
        * unfold avars in Hb. cbn [a_args] in Hb. apply in_flat_map in Hb. destruct Hb as (t & Jt & Jv). apply in_map_iff in Jt. destruct Jt as (d & <- & Jd).
          apply kid_der with (d := d); auto; [eapply top_node; [exact It|exact Jd]|]. apply dv_arg. apply origin_iff. eapply or_arg; eauto.
      + pose proof (sg_shape (fm_seg F) x Ix) as Sh. pose proof (fun d => @kid_node x d Ix) as Kn. unfold node_lits in J. destruct (nd_expr x) as [| | |op e1 e2|op e1|e1 e2 e3|f l0|f l0] eqn:E; cbn [kids] in Sh; try (destruct J; fail).
        * destruct (nd_kids x) as [|a [|b [|? ?]]] eqn:K; try discriminate Sh. destruct J as [<-|J].
          -- destruct Hb as [<-|[]]. apply node_der; [auto|rewrite E; auto|]. cbn [lit_needs aexpr_vars] in IH.
             assert (Da : D (cloc a)) by (apply der_kid; [apply Kn; left; auto|intros w Jw; apply IH; apply in_or_app; auto]).
             assert (Db : D (cloc b)) by (apply der_kid; [apply Kn; right; left; auto|intros w Jw; apply IH; apply in_or_app; auto]).
             destruct (is_add_sub op) eqn:As.
             ++ eapply dv_as1; [apply origin_iff; eapply or_as; eauto|auto|auto].
             ++ eapply dv_bin; [apply origin_iff; eapply or_bin; eauto|auto|auto].
          -- unfold inverses in J. destruct (add_sub_inv op) as [inv|] eqn:As; [|destruct J]. assert (As' : is_add_sub op = true) by (destruct op; try discriminate As; auto).
             apply in_app_or in J. destruct J as [J|J].
             ++ destruct (cterm a) as [w|w] eqn:Ea; [|destruct J]. destruct J as [<-|[]]. destruct Hb as [<-|[]]. cbn in IH.
                apply kid_der with (d := a); [apply Kn; left; auto| |rewrite Ea; left; auto].
                eapply dv_as3; [apply origin_iff; eapply or_as; eauto| |].
                ** apply der_kid; [apply Kn; right; left; auto|]. intros w' Jw. apply IH. right. auto.
                ** apply (IH (fr (nd_num x))); auto. apply nonleaf_term. rewrite E. auto.
             ++ destruct (cterm b) as [w|w] eqn:Eb; [|destruct J]. destruct J as [<-|[]]. destruct Hb as [<-|[]]. cbn in IH.
                apply kid_der with (d := b); [apply Kn; right; left; auto| |rewrite Eb; left; auto].
                eapply dv_as2; [apply origin_iff; eapply or_as; eauto| |].
                ** apply der_kid; [apply Kn; left; auto|]. intros w' Jw. apply IH. right. auto.
                ** apply (IH (fr (nd_num x))); auto. apply nonleaf_term. rewrite E. auto.
        * destruct (nd_kids x) as [|a [|? ?]] eqn:K; try discriminate Sh. destruct J as [<-|[]]. destruct Hb as [<-|[]]. apply node_der; [auto|rewrite E; auto|]. cbn in IH.
          eapply dv_un; [apply origin_iff; eapply or_un; eauto|]. apply der_kid; [apply Kn; left; auto|auto].
        * destruct (nd_kids x) as [|a [|b [|d [|? ?]]]] eqn:K; try discriminate Sh. destruct J as [<-|[]]. destruct Hb as [<-|[]]. apply node_der; [auto|rewrite E; auto|]. cbn in IH.
          eapply dv_ite; [apply origin_iff; eapply or_ite; eauto| | |]; (apply der_kid; [apply Kn; cbn; auto|intros w Jw; apply IH; rewrite !in_app_iff; auto]).
        * destruct J as [<-|[]]. destruct Hb as [<-|[]]. apply node_der; [auto|rewrite E; auto|]. cbn in IH.
          eapply dv_call; [apply origin_iff; eapply or_call; eauto|]. intros y Jy. apply in_map_iff in Jy. destruct Jy as (d & <- & Jd). apply der_kid; [apply Kn; auto|].
          intros w Jw. apply IH. apply in_flat_map. exists (cterm d). split; auto. apply in_map. auto.
        * destruct J as [<-|[]]. discriminate Hn.
    - apply (fm_lits F) in I. destruct I as [(t & It & E)|(x & Ix & J')].
      + destruct t as [p cs|op o a' b' l|a' l]; try discriminate E. injection E as <- -> ->. pose proof (fm_ok F _ It) as Eo. cbn in Eo. destruct op; try discriminate Eo.
        apply kid_der with (d := b'); [eapply top_node; [exact It|cbn; auto]| |auto]. eapply dv_eq1; [apply origin_iff; eapply or_eq; exact It|].
        apply der_kid; auto. eapply top_node; [exact It|cbn; auto].
      + exfalso. destruct (node_assign _ _ J') as (v' & e' & E). discriminate E.
    - apply (fm_lits F) in I. destruct I as [(t & It & E)|(x & Ix & J')].
      + destruct t as [p cs|op o a' b' l|a' l]; try discriminate E. injection E as <- -> ->. pose proof (fm_ok F _ It) as Eo. cbn in Eo. destruct op; try discriminate Eo.
        apply kid_der with (d := a'); [eapply top_node; [exact It|cbn; auto]| |auto]. eapply dv_eq2; [apply origin_iff; eapply or_eq; exact It|].
        apply der_kid; auto. eapply top_node; [exact It|cbn; auto].
      + exfalso. destruct (node_assign _ _ J') as (v' & e' & E). discriminate E.
  Qed.
  (** An expression without new entities and wildcards is bound as soon as its
      variables are. *)
  Lemma vars_derivable : forall e, no_new e = true -> no_wild e = true -> (forall v x, In v (expr_vars e) -> In x ns -> nd_expr x = EVar v -> D (nd_loc x)) ->
    forall x, In x ns -> nd_expr x = e -> D (nd_loc x).
  Proof.
    induction e using expr_ind2; intros Nn Nw V x Ix Ex; pose proof (sg_shape (fm_seg F) x Ix) as Sh; rewrite Ex in Sh; cbn [kids] in Sh;
      assert (KD : forall d, In d (nd_kids x) -> (forall y, In y ns -> nd_expr y = cexpr d -> D (nd_loc y)) -> D (cloc d)) by
        (intros d Jd Hy; destruct (kid_node _ _ Ix Jd) as (y & Iy & <- & _ & Ey); auto).
    - apply (V v x); [left; auto|auto|auto].
    - discriminate Nw.
    - apply dv_const. apply origin_iff. eapply or_const; eauto.
    - cbn in Nn, Nw. apply andb_true_iff in Nn. apply andb_true_iff in Nw. destruct (nd_kids x) as [|a [|b [|? ?]]] eqn:K; try discriminate Sh. injection Sh as Sa Sb.
      assert (Da : D (cloc a)) by (apply KD; [left; auto|]; rewrite Sa; apply IHe1; [tauto|tauto|]; intros v y Jv; apply V; cbn; apply in_or_app; auto).
      assert (Db : D (cloc b)) by (apply KD; [right; left; auto|]; rewrite Sb; apply IHe2; [tauto|tauto|]; intros v y Jv; apply V; cbn; apply in_or_app; auto).
      destruct (is_add_sub op) eqn:As.
      + eapply dv_as1; [apply origin_iff; eapply or_as; eauto|auto|auto].
      + eapply dv_bin; [apply origin_iff; eapply or_bin; eauto|auto|auto].
    - cbn in Nn, Nw. destruct (nd_kids x) as [|a [|? ?]] eqn:K; try discriminate Sh. injection Sh as Sa.
      eapply dv_un; [apply origin_iff; eapply or_un; eauto|]. apply KD; [left; auto|]. rewrite Sa. apply IHe; auto.
    - cbn in Nn, Nw. rewrite !andb_true_iff in Nn, Nw. destruct (nd_kids x) as [|a [|b [|d [|? ?]]]] eqn:K; try discriminate Sh. injection Sh as Sa Sb Sd.
      eapply dv_ite; [apply origin_iff; eapply or_ite; eauto| | |].
      + apply KD; [cbn; auto|]. rewrite Sa. apply IHe1; [tauto|tauto|]. intros v y Jv. apply V. cbn. rewrite !in_app_iff. auto.
      + apply KD; [cbn; auto|]. rewrite Sb. apply IHe2; [tauto|tauto|]. intros v y Jv. apply V. cbn. rewrite !in_app_iff. auto.
      + apply KD; [cbn; auto|]. rewrite Sd. apply IHe3; [tauto|tauto|]. intros v y Jv. apply V. cbn. rewrite !in_app_iff. auto.
    - cbn in Nn, Nw. rewrite forallb_forall in Nn, Nw. rewrite Forall_forall in H. eapply dv_call; [apply origin_iff; eapply or_call; eauto|].
      intros z Jz. apply in_map_iff in Jz. destruct Jz as (d & <- & Jd). assert (Je : In (cexpr d) l) by (rewrite <- Sh; apply in_map; auto).
      apply KD; auto. apply H; auto. intros v y Jv. apply V. cbn. apply in_flat_map. eauto.
    - discriminate Nn.
  Qed.
End Equiv.
