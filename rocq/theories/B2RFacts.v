(** Facts about the lowering of plans (B2R.v), used by C53: atoms. *)
From Coq Require Import List ZArith Bool Arith Lia Permutation.
From Verif Require Import Order Value Back Eval Ram Dataflow BackSem Scc SccFacts Plan PlanSem PlanFacts
  VarTuple VarTupleFacts B2R RamSem PermFacts.
Import ListNotations.
Set Implicit Arguments.

(** ** Lowering only adds to the state *)
Definition ext (z z' : bstate) : Prop :=
  incl (z_temps z) (z_temps z') /\ incl (z_perms z) (z_perms z') /\ incl (z_negs z) (z_negs z').
Lemma ext_refl : forall z, ext z z.
Proof. intros; repeat split; apply incl_refl. Qed.
Lemma ext_trans : forall a b c, ext a b -> ext b c -> ext a c.
Proof. intros a b c (A1 & A2 & A3) (B1 & B2 & B3). repeat split; eapply incl_tran; eauto. Qed.
Definition grows {A} (m : step A) : Prop := forall z a z', m z = Some (a, z') -> ext z z'.

Section Grows.
  Variable C : cenv.
  Lemma grows_ret : forall A (a : A), grows (sret a).
  Proof. intros A a z b z' H. injection H as _ <-. apply ext_refl. Qed.
  Lemma grows_opt : forall A (o : option A), grows (sopt o).
  Proof. intros A [a|] z b z' H; [|discriminate]. injection H as _ <-. apply ext_refl. Qed.
  Lemma grows_bind : forall A B (m : step A) (f : A -> step B), grows m -> (forall a, grows (f a)) -> grows (sbind m f).
  Proof.
    intros A B m f Hm Hf z b z' H. unfold sbind in H. destruct (m z) as [[a z1]|] eqn:Em; [|discriminate].
    eapply ext_trans; [eapply Hm|eapply Hf]; eauto.
  Qed.
  Lemma grows_temp : forall d, grows (create_temp C d).
  Proof. intros d z b z' H. injection H as _ <-. repeat split; cbn; try apply incl_refl. apply incl_appl, incl_refl. Qed.
  Lemma grows_ntemp : forall d, grows (create_ntemp C d).
  Proof. intros d z b z' H. injection H as _ <-. repeat split; cbn; try apply incl_refl. apply incl_appl, incl_refl. Qed.
  Lemma grows_perm : forall p g, grows (add_perm p g).
  Proof. intros p g z b z' H. injection H as _ <-. repeat split; cbn; try apply incl_refl. apply incl_appl, incl_refl. Qed.
  Lemma grows_process : forall d pr, grows (process C d pr).
  Proof.
    intros d pr. unfold process. destruct (d_sorted pr); [|apply grows_ret]. destruct (d_neg pr); [apply grows_ntemp|].
    destruct (d_inplace pr); [apply grows_ret|apply grows_temp].
  Qed.
  Ltac grow := repeat first
    [ apply grows_ret | apply grows_opt | apply grows_temp | apply grows_ntemp | apply grows_perm | apply grows_process
    | apply grows_bind; [|intro]
    | match goal with
      | |- grows (if ?b then _ else _) => destruct b
      | |- grows (match ?x with _ => _ end) => destruct x
      end ].
  Lemma grows_no_const : forall goal a pr, grows (no_const_ground C goal a pr).
  Proof. intros. unfold no_const_ground. grow. Qed.
  Lemma grows_ground : forall goal a pr, grows (ground_df C goal a pr).
  Proof.
    intros. unfold ground_df, empty_ground, static_ground, dynamic_ground.
    grow; try apply grows_no_const; grow.
  Qed.
  Definition grows_sub (s : sub) : Prop := forall goal pr, grows (s goal pr).
  Lemma grows_project : forall fuel s bv l goal pr, grows_sub s -> grows (project_df C fuel s bv l goal pr).
  Proof.
    induction fuel as [|fuel IH]; intros s bv l goal pr G; cbn [project_df].
    - grow. apply G.
    - grow; [apply G|apply IH; auto].
  Qed.
  Lemma grows_plan : forall p, grows_sub (plan_df C p).
  Proof.
    induction p as [bv|bv r|bv a|bv p IH l|bv p IH cs|bv p IHp q IHq|bv p IHp q IHq|bv a|bv p IH a|bv p IH a];
      intros goal pr; cbn [plan_df].
    - grow.
    - unfold reduce_df. grow.
    - apply grows_ground.
    - apply grows_project; auto.
    - unfold filter_df. grow. apply IH.
    - unfold join_plan_df, product_df, intersect_df, join_df. grow; try apply IHp; try apply IHq; grow.
    - unfold anti_plan_df, difference_df, antijoin_df. grow; try apply IHp; try apply IHq; grow.
    - unfold fp_ground_df. grow.
    - unfold fp_constr_df. grow. apply IH.
    - unfold fp_join_df. grow. apply IH.
  Qed.
End Grows.

(** ** Conjunctions and comparisons *)
Section Tests.
  Variable E : renv.
  Definition tt_ (e : expr) (t : tuple) : Prop := eval E e t = EOk (TVal (VBool true)).

  Lemma and_true : forall a b t, tt_ (XBin OAnd a b) t <-> tt_ a t /\ tt_ b t.
  Proof.
    intros a b t. unfold tt_. cbn [eval]. destruct (eval E a t) as [u| |]; cbn [ebind]; [|split; [discriminate|intros [? _]; discriminate]..].
    destruct (eval E b t) as [w| |]; cbn [ebind]; [|split; [discriminate|intros [_ ?]; discriminate]..].
    destruct u as [u|us]; [|split; [discriminate|intros [K _]; discriminate]].
    destruct w as [w|ws]; [|split; [discriminate|intros [_ K]; discriminate]].
    cbn [bin_tuple bin_value]. unfold logic. destruct u; cbn; try (split; [discriminate|intros [K _]; discriminate]).
    destruct w; cbn; try (split; [discriminate|intros [_ K]; discriminate]).
    split.
    - intros K. injection K as K. apply andb_true_iff in K. destruct K as [-> ->]. auto.
    - intros [K1 K2]. injection K1 as ->. injection K2 as ->. reflexivity.
  Qed.
  Lemma and_all_true : forall es e t, tt_ (and_all e es) t <-> tt_ e t /\ Forall (fun x => tt_ x t) es.
  Proof.
    induction es as [|x es IH]; intros e t; cbn [and_all fold_left].
    - split; [intros; split; auto|tauto].
    - change (tt_ (and_all (XBin OAnd e x) es) t <-> tt_ e t /\ Forall (fun x => tt_ x t) (x :: es)).
      rewrite IH, and_true, Forall_cons_iff. tauto.
  Qed.

  Lemma veqb_eq : forall v w, veqb v w = true <-> v = w.
  Proof.
    intros v w. unfold veqb. split.
    - destruct (vcmp v w) eqn:Ev; try discriminate. intros _. apply vcmp_TOrder; auto.
    - intros ->. rewrite (proj2 (to_eq vcmp_TOrder w w)); auto.
  Qed.
  Lemma eq_true : forall a b t v w, eval E a t = EOk (TVal v) -> eval E b t = EOk (TVal w) -> (v = w -> eq_able v = true) ->
    (tt_ (XBin OEq a b) t <-> v = w).
  Proof.
    intros a b t v w Ea Eb Q. unfold tt_. cbn [eval]. rewrite Ea, Eb. cbn [ebind bin_tuple bin_value cmp_op].
    split.
    - destruct (same_variant v w && eq_able v); [|discriminate]. cbn. intros K. injection K as K. apply veqb_eq; auto.
    - intros <-. unfold same_variant. rewrite Nat.eqb_refl, Q by auto. cbn. repeat f_equal. apply veqb_eq; auto.
  Qed.
End Tests.

(** ** Repeated variables of an atom *)
Section EqVars.
  Variable ws : list var.
  Definition known (i : nat) (m : list (var * nat)) : Prop :=
    (forall v j, In (v, j) m -> j < i /\ nth_error ws j = Some v) /\
    (forall v j, j < i -> nth_error ws j = Some v -> exists j', In (v, j') m).
  Lemma eq_vars_sound : forall l i m, known i m -> (forall k, nth_error ws (i + k) = nth_error l k) ->
    forall x, In x (eq_vars i m (map TVar l)) -> exists v, nth_error ws (fst x) = Some v /\ nth_error ws (snd x) = Some v.
  Proof.
    induction l as [|v l IH]; intros i m K N x I; [destruct I|]. cbn in I.
    pose proof (N 0) as N0. rewrite Nat.add_0_r in N0. cbn in N0.
    assert (N' : forall k, nth_error ws (S i + k) = nth_error l k) by (intros k; specialize (N (S k)); cbn in N; rewrite <- N; f_equal; lia).
    destruct K as [K1 K2]. destruct (find (fun x => fst x =? v) m) as [[w j]|] eqn:F.
    - apply find_some in F. destruct F as [Im Ev]. cbn in Ev. apply Nat.eqb_eq in Ev. subst w.
      destruct (K1 _ _ Im) as [L Nj]. destruct I as [<-|I]; [exists v; auto|]. apply (IH (S i) m); auto. split.
      + intros w j' J. destruct (K1 _ _ J). split; auto; lia.
      + intros w j' L' J. destruct (Nat.eq_dec j' i) as [->|]; [|apply (K2 w j'); auto; lia].
        exists j. assert (w = v) by congruence. subst; auto.
    - apply (IH (S i) ((v, i) :: m)); auto. split.
      + intros w j' [J|J]; [injection J as <- <-; auto|]. destruct (K1 _ _ J). split; auto; lia.
      + intros w j' L' J. destruct (Nat.eq_dec j' i) as [->|].
        * exists i. left. congruence.
        * destruct (K2 w j') as [x' Ix]; auto; [lia|]. exists x'. right; auto.
  Qed.
  Lemma eq_vars_complete : forall l i m, known i m -> (forall k, nth_error ws (i + k) = nth_error l k) ->
    forall k v, i <= k -> nth_error ws k = Some v ->
      (exists j, j < k /\ In (j, k) (eq_vars i m (map TVar l)) /\ nth_error ws j = Some v) \/ (forall j, j < k -> nth_error ws j <> Some v).
  Proof.
    induction l as [|u l IH]; intros i m K N k v L Nk.
    - specialize (N (k - i)). replace (i + (k - i)) with k in N by lia. rewrite Nk in N. destruct (k - i); discriminate.
    - pose proof (N 0) as N0. rewrite Nat.add_0_r in N0. cbn in N0.
      assert (N' : forall k, nth_error ws (S i + k) = nth_error l k) by (intros k'; specialize (N (S k')); cbn in N; rewrite <- N; f_equal; lia).
      destruct K as [K1 K2]. cbn. destruct (find (fun x => fst x =? u) m) as [[w j]|] eqn:F.
      + apply find_some in F. destruct F as [Im Ev]. cbn in Ev. apply Nat.eqb_eq in Ev. subst w.
        destruct (K1 _ _ Im) as [Lj Nj]. destruct (Nat.eq_dec k i) as [->|D].
        * left. exists j. assert (u = v) by congruence. subst. split; [auto|]. split; [left; auto|auto].
        * destruct (IH (S i) m) with (k := k) (v := v) as [(j' & A1 & A2 & A3)|A]; auto; [|lia|].
          -- split.
             ++ intros w j' J. destruct (K1 _ _ J). split; auto; lia.
             ++ intros w j' L' J. destruct (Nat.eq_dec j' i) as [->|]; [|apply (K2 w j'); auto; lia].
                exists j. assert (w = u) by congruence. subst; auto.
          -- left. exists j'. split; [auto|]. split; [right; auto|auto].
      + destruct (Nat.eq_dec k i) as [->|D].
        * right. intros j L' J. assert (u = v) by congruence. subst u. destruct (K2 v j) as [j' Ij]; auto.
          apply (find_none _ _ F) in Ij. cbn in Ij. rewrite Nat.eqb_refl in Ij. discriminate.
        * apply (IH (S i) ((u, i) :: m)); auto; [|lia]. split.
          -- intros w j' [J|J]; [injection J as <- <-; auto|]. destruct (K1 _ _ J). split; auto; lia.
          -- intros w j' L' J. destruct (Nat.eq_dec j' i) as [->|].
             ++ exists i. left. congruence.
             ++ destruct (K2 w j') as [x' Ix]; auto; [lia|]. exists x'. right; auto.
  Qed.
  Lemma known_nil : known 0 [].
  Proof. split; [intros ? ? []|intros; lia]. Qed.
  Lemma eq_vars_In : forall j k, In (j, k) (eq_vars 0 [] (map TVar ws)) -> exists v, nth_error ws j = Some v /\ nth_error ws k = Some v.
  Proof. intros j k I. apply (@eq_vars_sound ws 0 [] known_nil (fun _ => eq_refl) (j, k) I). Qed.
  Lemma eq_vars_cover : forall k v, nth_error ws k = Some v ->
    (exists j, j < k /\ In (j, k) (eq_vars 0 [] (map TVar ws)) /\ nth_error ws j = Some v) \/ (forall j, j < k -> nth_error ws j <> Some v).
  Proof. intros k v N. apply (@eq_vars_complete ws 0 [] known_nil (fun _ => eq_refl)); auto. lia. Qed.

  Lemma eq_vars_nil : eq_vars 0 [] (map TVar ws) = [] -> NoDup ws.
  Proof.
    intros H. apply NoDup_nth_error. intros i j Li Eij.
    destruct (nth_error ws i) as [v|] eqn:Ei; [|apply nth_error_None in Ei; lia]. symmetry in Eij.
    destruct (lt_eq_lt_dec i j) as [[L|L]|L]; auto; exfalso.
    - destruct (eq_vars_cover _ Eij) as [(? & _ & I & _)|K]; [rewrite H in I; destruct I|]. apply (K i); auto.
    - destruct (eq_vars_cover _ Ei) as [(? & _ & I & _)|K]; [rewrite H in I; destruct I|]. apply (K j); auto.
  Qed.

  (** Values that agree where variables do come from an assignment. *)
  Definition assign_of (vs : list value) : subst := fun v =>
    match position v (map TVar ws) with Some i => nth i vs (VBool false) | None => VBool false end.
  Lemma position_first : forall l v i, position v (map TVar l) = Some i -> forall j, j < i -> nth_error l j <> Some v.
  Proof.
    induction l as [|w l IH]; intros v i P j L; cbn in P; [discriminate|]. destruct (Nat.eqb_spec v w) as [->|D].
    - injection P as <-. lia.
    - destruct (position v (map TVar l)) as [i'|] eqn:Ep; [|discriminate]. injection P as <-. destruct j as [|j]; cbn; [congruence|].
      apply (IH _ _ Ep). lia.
  Qed.
  Lemma assign_of_spec : forall vs, length vs = length ws ->
    (forall j k, In (j, k) (eq_vars 0 [] (map TVar ws)) -> nth_error vs j = nth_error vs k) -> map (assign_of vs) ws = vs.
  Proof.
    intros vs L H.
    assert (K : forall k v, nth_error ws k = Some v -> nth_error vs k = Some (assign_of vs v)).
    { intros k. induction k as [k IH] using lt_wf_ind. intros v Nk. destruct (eq_vars_cover _ Nk) as [(j & Lj & I & Nj)|F].
      - rewrite <- (H _ _ I). apply IH; auto.
      - unfold assign_of. destruct (@position_total ws v (nth_error_In _ _ Nk)) as [i Ei]. rewrite Ei.
        pose proof (position_spec _ _ Ei) as Ni. assert (i = k).
        { destruct (lt_eq_lt_dec i k) as [[A|A]|A]; auto; exfalso; [apply (F i); auto|apply (@position_first ws v i Ei k A); auto]. }
        subst i. apply nth_error_nth'. rewrite L. apply nth_error_Some. congruence. }
    apply nth_ext with (d := VBool false) (d' := VBool false); [rewrite map_length; auto|].
    intros k Lk. rewrite map_length in Lk. destruct (nth_error ws k) as [v|] eqn:Nk; [|apply nth_error_None in Nk; lia].
    specialize (K _ _ Nk). erewrite nth_error_nth by (rewrite nth_error_map', Nk; reflexivity).
    erewrite nth_error_nth by eauto. reflexivity.
  Qed.
End EqVars.

(** ** What a lowered plan stands for *)
Section Specs.
  Variables (goal : gt var) (Dd : tuple -> Prop) (P : subst -> Prop).
  Definition weak : Prop := (forall t, Dd t -> exists s, P s /\ holds goal s t) /\ (forall s, P s -> exists t, Dd t /\ holds goal s t).
  Definition strong : Prop := forall t, Dd t <-> exists s, P s /\ t = gtup goal s.
  Definition spec : Prop := weak /\ (NoDup (leaves goal) -> strong).
  Lemma strong_weak : strong -> weak.
  Proof.
    intros H. split.
    - intros t K. apply H in K. destruct K as (s & Ps & ->). exists s. split; auto. apply holds_gtup.
    - intros s K. exists (gtup goal s). split; [apply H; eauto|apply holds_gtup].
  Qed.
  Lemma strong_spec : strong -> spec.
  Proof. intros H. split; [apply strong_weak|]; auto. Qed.
  Lemma wt_spec : (forall t, Dd t <-> exists s, P s /\ t = wt s [] goal) -> spec.
  Proof.
    intros H. split; [split|].
    - intros t K. apply H in K. destruct K as (s & Ps & ->). exists s. split; auto. apply holds_wtup.
    - intros s K. exists (wt s [] goal). split; [apply H; eauto|apply holds_wtup].
    - intros ND t. rewrite H. split; intros (s & Ps & ->); exists s; split; auto; rewrite wtup_nodup; auto.
  Qed.
End Specs.
Lemma spec_iff : forall goal (Dd Dd' : tuple -> Prop) (P P' : subst -> Prop), (forall t, Dd t <-> Dd' t) -> (forall s, P s <-> P' s) ->
  spec goal Dd P -> spec goal Dd' P'.
Proof.
  intros goal Dd Dd' P P' H K [[W1 W2] S0]. split; [split|].
  - intros t T. apply H in T. destruct (W1 _ T) as (s & Ps & Hs). exists s. split; [apply K|]; auto.
  - intros s Ps. apply K in Ps. destruct (W2 _ Ps) as (t & T & Hs). exists t. split; [apply H|]; auto.
  - intros ND t. rewrite <- H, (S0 ND t). split; intros (s & Ps & E0); exists s; split; auto; apply K; auto.
Qed.

Lemma vtup_inj : forall a b, vtup a = vtup b -> a = b.
Proof.
  unfold vtup. intros a b H. injection H as H. revert b H. induction a as [|x a IH]; intros [|y b] H; try discriminate; auto.
  injection H as -> H. f_equal; auto.
Qed.
Lemma one_or_inj : forall a b, length a = length b -> one_or_vtup a = one_or_vtup b -> a = b.
Proof.
  intros a b L H. destruct a as [|x [|x' a]], b as [|y [|y' b]]; try discriminate; auto.
  - cbn in H. congruence.
  - apply vtup_inj in H. auto.
Qed.
Lemma one_or_leaves : forall l, leaves (one_or_tuple l) = l.
Proof. intros [|x [|y l]]; try reflexivity. unfold one_or_tuple. cbn [leaves]. apply leaves_map. Qed.
Lemma one_or_gtup : forall l s, gtup (one_or_tuple l) s = one_or_vtup (map s l).
Proof. intros [|x [|y l]] s; try reflexivity. unfold one_or_tuple. cbn [gtup]. rewrite gtup_map. reflexivity. Qed.
Lemma index_vtup : forall vs i v, nth_error vs i = Some v -> index (vtup vs) (acc_index i) = EOk (TVal v).
Proof.
  intros vs i v N. unfold index, acc_index, acc_iter, vtup. cbn [firstn ac_len ac_0 ac_1 ac_2 index_path].
  rewrite nth_error_map'. change (match option_map TVal (nth_error vs i) with Some u => EOk u | None => EPanic end = EOk (TVal v)). rewrite N. reflexivity.
Qed.

Section World.
  Variables (C : cenv) (B : benv) (ag : nat -> nat -> rgrp -> tuple -> Prop).
  Variables (JI JM : rels) (I M : interp) (Z : bstate).
  Notation E := (b_env B).
  Definition D (J : rels) (d : rdf) (t : tuple) : Prop := rden (b_env B) (b_fp B) ag JM J d t.
  Definition jr (b : bool) : rels := if b then JM else JI.
  Definition ir (b : bool) : interp := if b then M else I.

  Hypothesis TEMPS : forall n d, In (n, d) (z_temps Z) -> forall t, JI n t <-> D JI d t.
  Hypothesis NEGS : forall n d, In (n, d) (z_negs Z) -> forall t, JM n t <-> D JM d t.
  Hypothesis PERMS : forall b p g, In (p, g) (z_perms Z) -> forall t,
    jr b (ce_perm C p g) t <-> exists u, jr b p u /\ eval E (perm_expr g) u = EOk t.
  Hypothesis CINJ : forall i j c c', ce_const C i c = ce_const C j c' -> i = j.

  Lemma temp_ok : forall d z d' z', create_temp C d z = Some (d', z') -> ext z' Z -> forall t, D JI d' t <-> D JI d t.
  Proof.
    intros d z d' z' H (X & _) t. injection H as <- <-. cbn [z_temps] in X. unfold D at 1. cbn [rden].
    apply TEMPS. apply X. apply in_app_iff. right; left; auto.
  Qed.
  Lemma ntemp_ok : forall d z d' z', create_ntemp C d z = Some (d', z') -> ext z' Z -> forall t, D JM d' t <-> D JM d t.
  Proof.
    intros d z d' z' H (_ & _ & X) t. injection H as <- <-. cbn [z_negs] in X. unfold D at 1. cbn [rden].
    apply NEGS. apply X. apply in_app_iff. right; left; auto.
  Qed.
  Lemma process_ok : forall d pr z d' z', process C d pr z = Some (d', z') -> ext z' Z ->
    forall t, D (jr (d_neg pr)) d' t <-> D (jr (d_neg pr)) d t.
  Proof.
    intros d pr z d' z' H X t. unfold process in H. destruct (d_sorted pr); [|injection H as <- <-; tauto].
    destruct (d_neg pr); [eapply ntemp_ok; eauto|]. destruct (d_inplace pr); [injection H as <- <-; unfold D; cbn [rden]; tauto|].
    eapply temp_ok; eauto.
  Qed.

  (** A relation holds the facts of its predicate. *)
  Definition enc (J : rels) (X : interp) (p : pred) : Prop := forall t, J p t <-> exists vs, X p vs /\ t = vtup vs.
  Definition rel_ok (b : bool) (p : pred) (n : nat) : Prop := enc (jr b) (ir b) p /\
    forall vs, ir b p vs -> length vs = n /\ Forall (fun v => eq_able v = true) vs.

  Definition pairs_ok (ws : list var) (vs : list value) : Prop :=
    forall j k, In (j, k) (eq_vars 0 [] (map TVar ws)) -> nth_error vs j = nth_error vs k.
  Lemma pairs_map : forall (s : subst) ws, pairs_ok ws (map s ws).
  Proof.
    intros s ws j k K. apply eq_vars_In in K. destruct K as (v & Nj & Nk). rewrite !nth_error_map', Nj, Nk. reflexivity.
  Qed.
  Lemma filter_pairs : forall ws vs f, length vs = length ws -> Forall (fun v => eq_able v = true) vs ->
    atom_filter (map TVar ws) = Some f -> (tt_ E f (vtup vs) <-> pairs_ok ws vs).
  Proof.
    intros ws vs f L Q H. unfold atom_filter in H. unfold pairs_ok.
    assert (K : forall x, In x (eq_vars 0 [] (map TVar ws)) -> (tt_ E (eq_expr x) (vtup vs) <-> nth_error vs (fst x) = nth_error vs (snd x))).
    { intros [j k] K. apply eq_vars_In in K. destruct K as (v & Nj & Nk). cbn [fst snd].
      destruct (nth_error vs j) as [a|] eqn:Ea; [|apply nth_error_None in Ea; assert (j < length ws) by (apply nth_error_Some; congruence); lia].
      destruct (nth_error vs k) as [b|] eqn:Eb; [|apply nth_error_None in Eb; assert (k < length ws) by (apply nth_error_Some; congruence); lia].
      unfold eq_expr. cbn [fst snd]. rewrite eq_true with (v := a) (w := b); [split; congruence|apply index_vtup; auto|apply index_vtup; auto|].
      intros _. rewrite Forall_forall in Q. apply Q. apply nth_error_In in Ea. auto. }
    destruct (eq_vars 0 [] (map TVar ws)) as [|x xs]; [discriminate|]. injection H as <-. rewrite and_all_true. split.
    - intros [H1 H2] j k Ij. rewrite Forall_forall in H2. apply (proj1 (K (j, k) Ij)). destruct Ij as [->|Ij]; auto.
      apply H2. apply in_map; auto.
    - intros H. split.
      + apply K; [left; auto|]. destruct x as [j k]. apply H. left; auto.
      + apply Forall_forall. intros e Ie. apply in_map_iff in Ie. destruct Ie as ([j k] & <- & Ij).
        apply K; [right; auto|]. apply H. right; auto.
  Qed.
  Lemma no_filter : forall ws, atom_filter (map TVar ws) = None -> NoDup ws.
  Proof. intros ws H. apply eq_vars_nil. unfold atom_filter in H. destruct (eq_vars 0 [] (map TVar ws)); auto; discriminate. Qed.
  Lemma NoDup_pairs : forall ws vs, NoDup ws -> pairs_ok ws vs.
  Proof.
    intros ws vs ND j k K. apply eq_vars_In in K. destruct K as (v & Nj & Nk).
    assert (j = k); [|congruence]. rewrite NoDup_nth_error in ND. apply ND; [|congruence]. apply nth_error_Some. congruence.
  Qed.
  Lemma filt_iff : forall b p ws vs, rel_ok b p (length ws) -> ir b p vs ->
    (match atom_filter (map TVar ws) with Some f => tt_ E f (vtup vs) | None => True end <-> exists s, vs = map s ws).
  Proof.
    intros b p ws vs [_ L] H. destruct (L _ H) as [L1 L2]. destruct (atom_filter (map TVar ws)) as [f|] eqn:F.
    - rewrite filter_pairs; eauto. split.
      + intros K. exists (assign_of ws vs). symmetry. apply assign_of_spec; auto.
      + intros (s & ->). apply pairs_map.
    - split; auto. intros _. exists (assign_of ws vs). symmetry. apply assign_of_spec; auto. apply (NoDup_pairs vs). apply no_filter; auto.
  Qed.
  Lemma project_perm : forall b p ws goal perm, rel_ok b p (length ws) -> permutation goal (map TVar ws) = Some perm ->
    forall t, (exists u, (jr b p u /\ match atom_filter (map TVar ws) with Some f => tt_ E f u | None => True end) /\
               eval E (perm_expr perm) u = EOk t) <-> exists s, ir b p (map s ws) /\ t = wt s [] goal.
  Proof.
    intros b p ws goal perm R P t. pose proof R as [Ec _]. split.
    - intros (u & (Hu & F) & Ev). apply Ec in Hu. destruct Hu as (vs & Hv & ->).
      apply (proj1 (@filt_iff b p ws vs R Hv)) in F. destruct F as (s & ->). exists s. split; auto.
      rewrite (permutation_eval E s ws _ P) in Ev. congruence.
    - intros (s & Hv & ->). exists (vtup (map s ws)). split; [split|].
      + apply Ec. eauto.
      + apply (proj2 (@filt_iff b p ws (map s ws) R Hv)). eauto.
      + apply permutation_eval; auto.
  Qed.

  Lemma map_TVar_inj : forall a b, map TVar a = map TVar b -> a = b.
  Proof. induction a as [|x a IH]; intros [|y b] H; try discriminate; auto. injection H as -> H. f_equal; auto. Qed.

  Lemma no_const_ok : forall goal a ws pr z d z', a_args a = map TVar ws ->
    no_const_ground C goal a pr z = Some (d, z') -> ext z' Z -> rel_ok (d_neg pr) (a_pred a) (length ws) ->
    (matches goal (a_args a) = true -> NoDup ws) ->
    forall t, D (jr (d_neg pr)) d t <-> exists s, ir (d_neg pr) (a_pred a) (map s ws) /\ t = wt s [] goal.
  Proof.
    intros goal a ws pr z d z' Ea H X R ND t. unfold no_const_ground in H. rewrite Ea in *. pose proof R as [Ec L].
    destruct (matches goal (map TVar ws)) eqn:Em.
    - injection H as <- <-. apply matches_spec in Em. destruct Em as (ws' & -> & Ew). apply map_TVar_inj in Ew. subst ws'.
      unfold D. cbn [rden]. rewrite (Ec t). split.
      + intros (vs & Hv & ->). exists (assign_of ws vs).
        assert (K : map (assign_of ws vs) ws = vs) by (apply assign_of_spec; [apply L; auto|apply NoDup_pairs; auto]).
        rewrite K. split; auto. rewrite wtup_nodup; [|cbn [leaves]; rewrite leaves_map; auto]. cbn [gtup]. rewrite gtup_map, K. reflexivity.
      + intros (s & Hv & ->). exists (map s ws). split; auto. rewrite wtup_nodup; [|cbn [leaves]; rewrite leaves_map; auto].
        cbn [gtup]. rewrite gtup_map. reflexivity.
    - unfold sbind at 1 in H. unfold sopt at 1 in H. destruct (permutation goal (map TVar ws)) as [perm|] eqn:Ep; [|discriminate].
      pose proof (@project_perm _ _ _ _ _ R Ep t) as K. destruct (atom_filter (map TVar ws)) as [f|] eqn:Ef.
      + set (d0 := RProject (RFilter (RRel (a_pred a)) f) (perm_expr perm)) in *.
        assert (G : D (jr (d_neg pr)) d0 t <-> exists s, ir (d_neg pr) (a_pred a) (map s ws) /\ t = wt s [] goal) by exact K.
        destruct (d_sorted pr && negb (order_preserving perm)); [|injection H as <- <-; exact G].
        unfold sbind, add_perm in H. rewrite <- G. clear R Ec L K G. destruct (d_neg pr); [eapply ntemp_ok; eauto|eapply temp_ok; eauto].
      + assert (G : D (jr (d_neg pr)) (RProject (RRel (a_pred a)) (perm_expr perm)) t <->
                    exists s, ir (d_neg pr) (a_pred a) (map s ws) /\ t = wt s [] goal).
        { rewrite <- K. unfold D. cbn [rden]. split; intros (u & A1 & A2); exists u; tauto. }
        destruct (d_sorted pr && negb (order_preserving perm)); [|injection H as <- <-; exact G].
        unfold sbind, add_perm, sret in H. injection H as <- <-. rewrite <- G. unfold D. cbn [rden]. destruct X as (_ & X & _).
        apply PERMS. apply X. cbn. apply in_app_iff. right; left; auto.
  Qed.

  (** ** Constants *)
  Definition fresh_consts (a : atom) : Prop :=
    forall i c, nth_error (a_args a) i = Some (TConst c) -> ~ In (ce_const C i c) (avars a).
  Lemma const_part_In : forall a i c, In (i, c) (const_part a) <-> nth_error (a_args a) i = Some (TConst c).
  Proof.
    intros a i c. unfold const_part. rewrite in_flat_map. split.
    - intros ([j x] & Ij & K). apply enum_In in Ij. destruct x as [v|c']; cbn in K; [destruct K|]. destruct K as [K|[]]. congruence.
    - intros N. exists (i, TConst c). split; [apply enum_In; auto|]. left; auto.
  Qed.
  Definition cname (x : nat * value) : var := ce_const C (fst x) (snd x).
  Lemma const_names_NoDup : forall a, NoDup (map cname (const_part a)).
  Proof.
    intros a. unfold const_part.
    assert (K : forall (l : list (nat * term)), NoDup (map fst l) ->
      NoDup (map cname (flat_map (fun x => match snd x with TConst c => [(fst x, c)] | TVar _ => [] end) l)) /\
      forall v, In v (map cname (flat_map (fun x => match snd x with TConst c => [(fst x, c)] | TVar _ => [] end) l)) ->
        exists i c, In i (map fst l) /\ v = ce_const C i c).
    { induction l as [|[i x] l IH]; intros ND; cbn in ND; [split; [constructor|intros ? []]|]. inversion ND as [|? ? N1 N2]; subst.
      destruct (IH N2) as [H1 H2]. destruct x as [v|c]; cbn.
      - split; auto. intros v' I'. destruct (H2 _ I') as (i' & c' & A & ->). exists i', c'. auto.
      - split.
        + constructor; auto. intros I'. destruct (H2 _ I') as (i' & c' & A & Ec). unfold cname in Ec. cbn in Ec. apply CINJ in Ec. subst. tauto.
        + intros v' [<-|I']; [exists i, c; auto|]. destruct (H2 _ I') as (i' & c' & A & ->). exists i', c'. auto. }
    apply K. rewrite enum_fst. apply seq_NoDup.
  Qed.
  Definition consts_hold (a : atom) (s : subst) : Prop := forall i c, In (i, c) (const_part a) -> s (ce_const C i c) = c.
  Lemma consts_values : forall a s, consts_hold a s -> map s (sub_vars C a) = tvals s (a_args a).
  Proof.
    intros a s H. unfold sub_vars, tvals. rewrite map_map.
    transitivity (map (fun x => tval s (snd x)) (enum (a_args a))); [|rewrite <- (map_map snd (tval s)), enum_snd; auto].
    apply map_ext_in. intros [i x] Ii. unfold sub_var. cbn [fst snd]. destruct x as [v|c]; auto. cbn. apply H. apply const_part_In.
    apply enum_In; auto.
  Qed.
  Definition with_consts (a : atom) (s : subst) : subst := fun v =>
    match find (fun x => Nat.eqb (cname x) v) (const_part a) with Some x => snd x | None => s v end.
  Lemma with_consts_hold : forall a s, consts_hold a (with_consts a s).
  Proof.
    intros a s i c Ii. unfold with_consts. destruct (find (fun x => cname x =? ce_const C i c) (const_part a)) as [[j c']|] eqn:F.
    - apply find_some in F. destruct F as [Ij Ec]. apply Nat.eqb_eq in Ec. unfold cname in Ec. cbn in Ec. apply CINJ in Ec. subst j.
      apply const_part_In in Ij, Ii. cbn. congruence.
    - apply (find_none _ _ F) in Ii. unfold cname in Ii. cbn in Ii. rewrite Nat.eqb_refl in Ii. discriminate.
  Qed.
  Lemma with_consts_agree : forall a s, fresh_consts a -> agree (avars a) s (with_consts a s).
  Proof.
    intros a s F v Iv. unfold with_consts. destruct (find (fun x => cname x =? v) (const_part a)) as [[j c']|] eqn:Fi; auto.
    apply find_some in Fi. destruct Fi as [Ij Ec]. apply Nat.eqb_eq in Ec. apply const_part_In in Ij. exfalso.
    apply (F _ _ Ij). unfold cname in Ec. cbn in Ec. rewrite Ec. exact Iv.
  Qed.
  Lemma sub_vars_length : forall a, length (sub_vars C a) = length (a_args a).
  Proof. intros a. unfold sub_vars, enum. rewrite map_length, combine_length, seq_length. lia. Qed.

  Lemma consts_iff : forall a s, consts_hold a s <-> map s (map cname (const_part a)) = map snd (const_part a).
  Proof.
    intros a s. unfold consts_hold. induction (const_part a) as [|[i c] l IH]; cbn; [split; auto; intros _ ? ? []|].
    split.
    - intros H. f_equal; [apply H; auto|apply IH; auto].
    - intros H. injection H as H1 H2. intros i' c' [K|K]; [injection K as <- <-; auto|]. apply IH; auto.
  Qed.
  Lemma find_tuple_eq : forall a, find_tuple a = one_or_vtup (map snd (const_part a)).
  Proof. intros a. unfold find_tuple. destruct (const_part a) as [|[i c] [|[j c'] l]]; try reflexivity. cbn [map one_or_vtup]. unfold vtup. cbn. rewrite map_map. reflexivity. Qed.

  Lemma dynamic_ok : forall goal a pr z d z', dynamic_ground C goal a pr z = Some (d, z') -> ext z' Z ->
    rel_ok (d_neg pr) (a_pred a) (length (a_args a)) -> fresh_consts a -> incl (leaves goal) (avars a) ->
    strong goal (D (jr (d_neg pr)) d) (fun s => ir (d_neg pr) (a_pred a) (tvals s (a_args a))).
  Proof.
    intros goal a pr z d z' H X R F G. unfold dynamic_ground in H. unfold sbind at 1 in H.
    destruct (no_const_ground C (dynamic_goal C a) (sub_atom C a) (with_sorted true pr) z) as [[d1 z1]|] eqn:H1; [|discriminate].
    unfold sbind, sopt in H. destruct (projection (dynamic_goal C a) goal) as [pe|] eqn:Ep; [|discriminate].
    intros t. rewrite (process_ok _ _ _ H X t).
    pose proof (ext_trans (@grows_process C _ _ _ _ _ H) X) as X1.
    assert (K := @no_const_ok _ (sub_atom C a) (sub_vars C a) _ _ _ _ eq_refl H1 X1).
    cbn [d_neg with_sorted a_pred sub_atom] in K. rewrite sub_vars_length in K. specialize (K R).
    assert (ND : matches (dynamic_goal C a) (a_args (sub_atom C a)) = true -> NoDup (sub_vars C a)).
    { intros Hm. apply matches_spec in Hm. destruct Hm as (vs & Eg & Es). cbn [sub_atom a_args] in Es. apply map_TVar_inj in Es.
      rewrite Es. unfold dynamic_goal in Eg. injection Eg as Eg. destruct vs as [|x [|y [|w vs]]]; try discriminate.
      injection Eg as E1 E2. pose proof (f_equal leaves E1) as L1. pose proof (f_equal leaves E2) as L2.
      rewrite one_or_leaves in L1, L2. cbn [leaves] in L1, L2. repeat constructor; [|intros []].
      intros [<-|[]]. destruct (const_part a) as [|[i c] l] eqn:Ec; [discriminate|].
      assert (Hc : nth_error (a_args a) i = Some (TConst c)) by (apply const_part_In; rewrite Ec; left; auto).
      apply (F _ _ Hc). rewrite L2. injection L1 as L1 _. rewrite <- L1. left; auto. }
    specialize (K ND). clear ND.
    assert (W : forall s, tnth (wt s [] (dynamic_goal C a)) 0 = Some (find_tuple a) <-> consts_hold a s).
    { intros s. unfold dynamic_goal. rewrite wt_tuple. cbn [wts]. unfold tnth. cbn [nth_error].
      rewrite wtup_nodup by (rewrite one_or_leaves; apply const_names_NoDup).
      rewrite one_or_gtup, find_tuple_eq, consts_iff. change (map (fun x => ce_const C (fst x) (snd x)) (const_part a)) with (map cname (const_part a)).
      split; [|intros ->; auto]. intros Q. injection Q as Q. apply one_or_inj in Q; auto. rewrite !map_length. auto. }
    unfold D in *. cbn [rden]. split.
    - intros (u & (Hu & Hf) & Ev). apply K in Hu. destruct Hu as (s & Hs & ->). apply W in Hf.
      exists s. rewrite <- consts_values by auto. split; auto. rewrite (@projection_eval E _ s _ _ _ Ep (holds_wtup s _)) in Ev. congruence.
    - intros (s & Hs & ->). pose proof (with_consts_agree s F) as A. pose proof (with_consts_hold a s) as Hc. set (s' := with_consts a s) in *.
      exists (wt s' [] (dynamic_goal C a)). split; [split|].
      + apply K. exists s'. split; auto. rewrite consts_values by auto. rewrite <- (tvals_agree _ _ _ A). exact Hs.
      + apply W; auto.
      + rewrite (@projection_eval E _ s' _ _ _ Ep (holds_wtup s' _)). f_equal. symmetry. apply gtup_agree. eapply agree_incl; eauto.
  Qed.

  Lemma sub_vars_NoDup : forall a, fresh_consts a -> NoDup (avars a) -> NoDup (sub_vars C a).
  Proof.
    intros a F ND. unfold sub_vars, enum. unfold fresh_consts in F. unfold avars in *.
    assert (K : forall l k, NoDup (flat_map tvar l) -> incl (flat_map tvar l) (flat_map tvar (a_args a)) ->
      (forall i c, nth_error l i = Some (TConst c) -> nth_error (a_args a) (k + i) = Some (TConst c)) ->
      NoDup (map (sub_var C) (combine (seq k (length l)) l)) /\
      forall v, In v (map (sub_var C) (combine (seq k (length l)) l)) -> In v (flat_map tvar l) \/
        exists i c, k <= i /\ nth_error (a_args a) i = Some (TConst c) /\ v = ce_const C i c).
    { induction l as [|x l IH]; intros k N1 I1 N2; cbn; [split; [constructor|intros ? []]|].
      assert (N3 : forall i c, nth_error l i = Some (TConst c) -> nth_error (a_args a) (S k + i) = Some (TConst c)).
      { intros i c Hi. rewrite <- (N2 (S i) c Hi). f_equal. lia. }
      cbn in N1, I1. destruct (IH (S k)) as [H1 H2]; auto.
      { destruct x; cbn in N1; auto. inversion N1; auto. }
      { intros v Iv. apply I1. apply in_app_iff; auto. }
      destruct x as [v|c]; cbn in *.
      - inversion N1 as [|? ? A1 A2]; subst. split.
        + constructor; auto. intros Iv. destruct (H2 _ Iv) as [J|(i & c & L & Hc & Ev)]; [tauto|].
          unfold sub_var in Ev. cbn in Ev. apply (F _ _ Hc). rewrite <- Ev. apply I1. left; auto.
        + intros w [<-|Iw]; [left; left; auto|]. destruct (H2 _ Iw) as [J|(i & c & L & Hc & Ev)]; [left; right; auto|].
          right. exists i, c. repeat split; auto; lia.
      - pose proof (N2 0 c eq_refl) as Hk. rewrite Nat.add_0_r in Hk. split.
        + constructor; auto. unfold sub_var at 1. cbn. intros Iv. destruct (H2 _ Iv) as [J|(i & c' & L & Hc & Ev)].
          * apply (F _ _ Hk). apply I1; auto.
          * apply CINJ in Ev. lia.
        + intros w [<-|Iw]; [right; exists k, c; unfold sub_var; cbn; auto|].
          destruct (H2 _ Iw) as [J|(i & c' & L & Hc & Ev)]; [left; auto|]. right. exists i, c'. repeat split; auto; lia. }
    apply K; auto; [apply incl_refl].
  Qed.

  Lemma not_upfront : forall args, upfront false args = false -> 2 <= length args.
  Proof. intros [|[v|c] [|y l]]; cbn; try discriminate; lia. Qed.
  Lemma matches_self : forall ws, matches (GT (map GV ws)) (map TVar ws) = true.
  Proof.
    intros ws. cbn. rewrite !map_length, Nat.eqb_refl. cbn. induction ws as [|w ws IH]; auto. cbn. rewrite Nat.eqb_refl. auto.
  Qed.
  Lemma static_ok : forall goal a pr z d z', static_ground C goal a pr z = Some (d, z') -> ext z' Z ->
    rel_ok (d_neg pr) (a_pred a) (length (a_args a)) -> fresh_consts a -> NoDup (avars a) -> upfront false (a_args a) = false ->
    incl (leaves goal) (avars a) ->
    strong goal (D (jr (d_neg pr)) d) (fun s => ir (d_neg pr) (a_pred a) (tvals s (a_args a))).
  Proof.
    intros goal a pr z d z' H X R F ND U G. unfold static_ground in H. unfold sbind at 1 in H.
    pose proof (sub_vars_NoDup F ND) as N1. pose proof (not_upfront _ U) as L2.
    assert (Eg : from_vars (sub_vars C a) true = GT (map GV (sub_vars C a))).
    { unfold from_vars. rewrite dedup_id by auto. rewrite <- (sub_vars_length a) in L2. destruct (sub_vars C a) as [|x [|y l]]; cbn in L2; try lia. reflexivity. }
    rewrite Eg in H.
    destruct (no_const_ground C (GT (map GV (sub_vars C a))) (sub_atom C a) (with_sorted false pr) z) as [[d1 z1]|] eqn:H1; [|discriminate].
    destruct (map (fun x => XBin OEq (XAccess (acc_index (fst x))) (XConst (snd x))) (const_part a)) as [|e es] eqn:Ee; [discriminate|].
    unfold sbind, sopt in H. destruct (projection (GT (map GV (sub_vars C a))) goal) as [pe|] eqn:Ep; [|discriminate].
    intros t. rewrite (process_ok _ _ _ H X t).
    pose proof (ext_trans (@grows_process C _ _ _ _ _ H) X) as X1.
    assert (K := @no_const_ok _ (sub_atom C a) (sub_vars C a) _ _ _ _ eq_refl H1 X1).
    cbn [d_neg with_sorted a_pred sub_atom] in K. rewrite sub_vars_length in K. specialize (K R (fun _ => N1)).
    assert (Wv : forall s, wt s [] (GT (map GV (sub_vars C a))) = vtup (map s (sub_vars C a))).
    { intros s. rewrite wtup_nodup by (cbn [leaves]; rewrite leaves_map; auto). cbn [gtup]. rewrite gtup_map. reflexivity. }
    assert (W : forall s, ir (d_neg pr) (a_pred a) (map s (sub_vars C a)) ->
              (tt_ E (and_all e es) (wt s [] (GT (map GV (sub_vars C a)))) <-> consts_hold a s)).
    { intros s Hs. destruct R as [_ R]. destruct (R _ Hs) as [_ Q]. rewrite Forall_forall in Q. rewrite Wv, and_all_true.
      assert (Q1 : forall i c, In (i, c) (const_part a) ->
        (tt_ E (XBin OEq (XAccess (acc_index i)) (XConst c)) (vtup (map s (sub_vars C a))) <-> s (ce_const C i c) = c)).
      { intros i c Ii. apply const_part_In in Ii.
        assert (Nv : nth_error (map s (sub_vars C a)) i = Some (s (ce_const C i c))).
        { rewrite nth_error_map'. unfold sub_vars. rewrite nth_error_map'. 
          assert (Ni : nth_error (enum (a_args a)) i = Some (i, TConst c)).
          { unfold enum. clear - Ii. assert (Q : forall (l : list term) k, nth_error l i = Some (TConst c) -> nth_error (combine (seq k (length l)) l) i = Some (k + i, TConst c)).
            { revert Ii. generalize i. clear. intros i _. revert i. induction i as [|i IH]; intros [|x l] k N; cbn in *; try discriminate.
              - injection N as ->. rewrite Nat.add_0_r. reflexivity.
              - rewrite IH; auto. f_equal. f_equal. lia. }
            rewrite Q; auto. }
          rewrite Ni. reflexivity. }
        apply eq_true; [cbn [eval]; apply index_vtup; auto|reflexivity|]. intros _. apply Q. apply nth_error_In in Nv. auto. }
      split.
      - intros [A1 A2] i c Ii. apply (Q1 i c Ii). apply (in_map (fun x => XBin OEq (XAccess (acc_index (fst x))) (XConst (snd x)))) in Ii.
        rewrite Ee in Ii. cbn [fst snd] in Ii. rewrite Forall_forall in A2. destruct Ii as [<-|Ii]; auto.
      - intros Hc. assert (Q2 : Forall (fun x => tt_ E x (vtup (map s (sub_vars C a)))) (e :: es)); [|inversion Q2; auto].
        rewrite <- Ee. apply Forall_forall. intros x Ix. apply in_map_iff in Ix. destruct Ix as ([i c] & <- & Ii).
        cbn [fst snd]. apply (Q1 i c Ii). apply Hc; auto. }
    unfold D in *. cbn [rden]. split.
    - intros (u & (Hu & Hf) & Ev). apply K in Hu. destruct Hu as (s & Hs & ->). apply W in Hf; auto.
      exists s. rewrite <- consts_values by auto. split; auto. rewrite (@projection_eval E _ s _ _ _ Ep (holds_wtup s _)) in Ev. congruence.
    - intros (s & Hs & ->). pose proof (with_consts_agree s F) as A. pose proof (with_consts_hold a s) as Hc. set (s' := with_consts a s) in *.
      assert (Hs' : ir (d_neg pr) (a_pred a) (map s' (sub_vars C a))) by (rewrite consts_values by auto; rewrite <- (tvals_agree _ _ _ A); exact Hs).
      exists (wt s' [] (GT (map GV (sub_vars C a)))). split; [split|].
      + apply K. exists s'. split; auto.
      + apply W; auto.
      + rewrite (@projection_eval E _ s' _ _ _ Ep (holds_wtup s' _)). f_equal. symmetry. apply gtup_agree. eapply agree_incl; eauto.
  Qed.

  (** What lowering an atom asks for. *)
  Definition atom_ok (b : bool) (a : atom) : Prop :=
    rel_ok b (a_pred a) (length (a_args a)) /\ fresh_consts a /\
    (ce_static C (a_pred a) = true -> existsb is_const (a_args a) = true -> upfront false (a_args a) = false -> NoDup (avars a)).

  Lemma no_consts : forall args, existsb is_const args = false -> args = map TVar (flat_map tvar args).
  Proof.
    induction args as [|[v|c] args IH]; intros H; cbn in *; auto; [|discriminate]. f_equal; auto.
  Qed.
  Lemma ground_ok : forall goal a pr z d z', ground_df C goal a pr z = Some (d, z') -> ext z' Z ->
    atom_ok (d_neg pr) a -> incl (leaves goal) (avars a) -> NoDup (leaves goal) \/ NoDup (avars a) ->
    spec goal (D (jr (d_neg pr)) d) (fun s => ir (d_neg pr) (a_pred a) (tvals s (a_args a))).
  Proof.
    intros goal a pr z d z' H X (R & F & St) G ND. unfold ground_df in H. destruct (a_args a) as [|x0 xs] eqn:Ea.
    - apply strong_spec. destruct R as [Ec L]. unfold empty_ground in H. rewrite Ea in H.
      assert (N : forall s vs, ir (d_neg pr) (a_pred a) vs -> vs = tvals s []).
      { intros s vs K. destruct (L _ K) as [L1 _]. destruct vs; auto; discriminate. }
      intros t. destruct (matches goal []) eqn:Em.
      + injection H as <- <-. apply matches_spec in Em. destruct Em as (vs & -> & Ev). symmetry in Ev. apply map_eq_nil in Ev. subst vs.
        unfold D. cbn [rden]. rewrite (Ec t). split.
        * intros (vs & K & ->). exists (fun _ => VBool false). pose proof (N (fun _ => VBool false) _ K) as ->. auto.
        * intros (s & K & ->). exists []. auto.
      + unfold sbind, sopt in H. destruct (projection (GT []) goal) as [pe|] eqn:Ep; [|discriminate]. injection H as <- <-.
        assert (Hh : forall s u, holds (GT []) s u) by (intros s u v acc A; discriminate A).
        unfold D. cbn [rden]. split.
        * intros (u & K & Ev). apply Ec in K. destruct K as (vs & K & ->). exists (fun _ => VBool false).
          pose proof (N (fun _ => VBool false) _ K) as ->. split; auto.
          erewrite projection_eval with (s := fun _ => VBool false) in Ev; eauto. congruence.
        * intros (s & K & ->). exists (vtup []). split; [apply Ec; eauto|]. eapply projection_eval; eauto.
    - rewrite <- Ea in *. clear x0 xs Ea. destruct (existsb is_const (a_args a)) eqn:Ec.
      + apply strong_spec. destruct (ce_static C (a_pred a) && negb (upfront false (a_args a))) eqn:Es.
        * apply andb_true_iff in Es. destruct Es as [E1 E2]. apply negb_true_iff in E2. eapply static_ok; eauto.
        * eapply dynamic_ok; eauto.
      + pose proof (no_consts _ Ec) as En. fold (avars a) in En.
        assert (Ln : length (a_args a) = length (avars a)) by (rewrite En at 1; apply map_length).
        rewrite Ln in R. apply wt_spec. intros t. rewrite (@no_const_ok _ _ _ _ _ _ _ En H X R).
        * split; intros (s & K & ->); exists s; split; auto.
          -- rewrite En. unfold tvals. rewrite map_map. exact K.
          -- rewrite En in K. unfold tvals in K. rewrite map_map in K. exact K.
        * intros Hm. destruct ND as [ND|ND]; auto. apply matches_spec in Hm. destruct Hm as (vs & -> & Ev). rewrite En in Ev.
          apply map_TVar_inj in Ev. cbn [leaves] in ND. rewrite leaves_map in ND. congruence.
  Qed.
End World.
