(** Facts about tuples of variables (VarTuple.v), used by C53 and C54. *)
From Coq Require Import List ZArith Bool Arith Lia Permutation.
From Verif Require Import Order Value Back Eval BackSem Scc SccFacts Plan PlanSem PlanFacts VarTuple.
Import ListNotations.
Set Implicit Arguments.

(** ** Leaves and instances *)
Fixpoint leaves {A} (g : gt A) : list A := match g with GV a => [a] | GT l => flat_map leaves l end.
Fixpoint gdepth {A} (g : gt A) : nat := match g with GV _ => 0 | GT l => S (list_max (map gdepth l)) end.
(** The tuple with the values of the variables. *)
Fixpoint gtup (g : gt var) (s : subst) : tuple :=
  match g with GV v => TVal (s v) | GT l => TTup (map (fun x => gtup x s) l) end.
(** Every variable has its value at its first occurrence. *)
Definition holds (g : gt var) (s : subst) (t : tuple) : Prop :=
  forall v a, accessor_of g v = EOk a -> index t a = EOk (TVal (s v)).

Lemma gtup_agree : forall g s s', agree (leaves g) s s' -> gtup g s = gtup g s'.
Proof.
  intros g s s'. induction g as [v|l IH] using gt_ind'; intros A; cbn in *.
  - f_equal. apply A. left; auto.
  - f_equal. apply map_ext_in. intros x I. rewrite Forall_forall in IH. apply IH; auto.
    intros v J. apply A. apply in_flat_map. exists x; auto.
Qed.
Lemma gtup_inj : forall g s s', gtup g s = gtup g s' -> agree (leaves g) s s'.
Proof.
  intros g s s'. induction g as [v|l IH] using gt_ind'; cbn; intros E w I.
  - destruct I as [->|[]]. congruence.
  - injection E as E. apply in_flat_map in I. destruct I as (x & Ix & Iw). rewrite Forall_forall in IH.
    apply IH with x; auto. clear - E Ix. revert E Ix. induction l as [|y l IHl]; cbn; [tauto|].
    intros E [->|Ix]; injection E as E1 E2; auto.
Qed.

Fixpoint var_go (visited : list var) (l : list (gt var)) {struct l} : list var :=
  match l with
  | [] => []
  | e :: l => filter (fun v => negb (memb v visited)) (variables e)
              ++ var_go (visited ++ filter (fun v => negb (memb v visited)) (variables e)) l
  end.
Lemma variables_tuple : forall l, variables (GT l) = var_go [] l.
Proof. reflexivity. Qed.
Lemma variables_go : forall l visited, Forall (fun g => forall v, In v (variables g) <-> In v (leaves g)) l ->
  forall v, In v (var_go visited l) <-> In v (flat_map leaves l) /\ ~ In v visited.
Proof.
  induction l as [|e l IH]; intros visited F v; [cbn; tauto|]. inversion F as [|? ? H F']; subst. cbn [var_go flat_map].
  rewrite !in_app_iff. rewrite (IH _ F'). rewrite !in_app_iff. rewrite !filter_In, H, negb_true_iff, memb_nIn.
  split; [tauto|]. intros [[K|K] V]; [tauto|]. destruct (in_dec Nat.eq_dec v (leaves e)); [tauto|]. right. tauto.
Qed.
Lemma variables_In : forall g v, In v (variables g) <-> In v (leaves g).
Proof.
  induction g as [w|l IH] using gt_ind'; intros v; [cbn; tauto|]. rewrite variables_tuple, variables_go; auto. cbn. tauto.
Qed.
Lemma NoDup_app_iff : forall A (a b : list A), NoDup (a ++ b) <-> NoDup a /\ NoDup b /\ (forall x, In x a -> ~ In x b).
Proof.
  induction a as [|x a IH]; intros b; cbn; [intuition; constructor|]. rewrite !NoDup_cons_iff, IH, in_app_iff.
  split.
  - intros (H & H1 & H2 & H3). repeat split; auto. intros y [->|I]; [tauto|]. apply H3; auto.
  - intros ((H & H1) & H2 & H3). repeat split; auto. intros [I|I]; [tauto|]. apply (H3 x); auto.
Qed.
Lemma variables_NoDup : forall g, NoDup (variables g).
Proof.
  induction g as [w|l IH] using gt_ind'; [repeat constructor; auto|]. rewrite variables_tuple.
  generalize (@nil var) as visited. revert IH. induction l as [|e l IHl]; intros F visited; [constructor|].
  inversion F as [|? ? H F']; subst. cbn [var_go]. apply NoDup_app_iff. split; [apply NoDup_filter; auto|]. split; [apply IHl; auto|].
  intros x I J. apply variables_go in J; [|apply Forall_forall; intros; apply variables_In]. destruct J as [_ J]. apply J.
  apply in_app_iff. right. exact I.
Qed.

Lemma from_vars_leaves : forall vs b, leaves (from_vars vs b) = dedup vs.
Proof.
  intros vs b. unfold from_vars. destruct (dedup vs) as [|x [|y l]]; [reflexivity|destruct b; reflexivity|].
  change (leaves (GT (map GV (x :: y :: l)))) with (flat_map leaves (map (@GV var) (x :: y :: l))).
  generalize (x :: y :: l) as m. induction m as [|z m IH]; auto. cbn. f_equal. exact IH.
Qed.
Lemma leaves_map : forall (vs : list var), flat_map leaves (map GV vs) = vs.
Proof. induction vs; cbn; congruence. Qed.
Lemma gtup_map : forall vs s, map (fun x => gtup x s) (map GV vs) = map TVal (map s vs).
Proof. intros. rewrite !map_map. reflexivity. Qed.

Lemma from_vars_depth : forall vs b, gdepth (from_vars vs b) <= 1.
Proof.
  intros vs b. assert (K : forall l : list var, list_max (map gdepth (map GV l)) = 0).
  { induction l as [|z l IH]; auto. }
  unfold from_vars. destruct (dedup vs) as [|x [|y l]]; [cbn; lia|destruct b; cbn; lia|].
  specialize (K (x :: y :: l)). change (S (list_max (map gdepth (map (@GV var) (x :: y :: l)))) <= 1). rewrite K. lia.
Qed.

(** ** Accessors *)
Lemma prepend_iter : forall i a b, acc_prepend i a = EOk b -> acc_iter b = i :: acc_iter a.
Proof.
  intros i [n x y z] b H. unfold acc_prepend in H. cbn [ac_len ac_0 ac_1] in H. destruct (Nat.ltb_spec n 3); [|discriminate].
  injection H as <-. unfold acc_iter. cbn. destruct n as [|[|[|n]]]; try reflexivity. lia.
Qed.
Lemma prepend_len : forall i a, ac_len a < 3 -> exists b, acc_prepend i a = EOk b /\ ac_len b = S (ac_len a).
Proof.
  intros i a H. unfold acc_prepend. destruct (Nat.ltb_spec (ac_len a) 3); [|lia]. eexists; split; eauto.
Qed.

Section AccGo.
  Variable v : var.
  Fixpoint acc_go (i : nat) (l : list (gt var)) {struct l} : ev accessor :=
    match l with
    | [] => ENone
    | e :: l => match accessor_of e v with
                | EOk a => acc_prepend i a
                | ENone => acc_go (S i) l
                | EPanic => EPanic
                end
    end.
End AccGo.
Lemma accessor_tuple : forall l v, accessor_of (GT l) v = acc_go v 0 l.
Proof. reflexivity. Qed.

Lemma accessor_none : forall g v, accessor_of g v = ENone <-> ~ In v (leaves g).
Proof.
  induction g as [w|l IH] using gt_ind'; intros v.
  - cbn. destruct (Nat.eqb_spec v w) as [->|D]; split; try discriminate; try tauto.
    intros _ [->|[]]; auto.
  - rewrite accessor_tuple. cbn [leaves]. generalize 0 as i. induction l as [|e l IHl]; intros i; [cbn; tauto|].
    inversion IH as [|? ? H F']; subst. cbn [acc_go flat_map]. rewrite in_app_iff. specialize (IHl F' (S i)).
    destruct (accessor_of e v) eqn:Ea.
    + unfold acc_prepend. destruct (ac_len a <? 3); split; try discriminate;
        intros K; exfalso; apply K; left; destruct (in_dec Nat.eq_dec v (leaves e)) as [|N]; auto; apply H in N; congruence.
    + rewrite IHl. apply H in Ea. tauto.
    + split; [discriminate|]. intros K; exfalso; apply K; left.
      destruct (in_dec Nat.eq_dec v (leaves e)) as [|N]; auto; apply H in N; congruence.
Qed.
Lemma accessor_In : forall g v a, accessor_of g v = EOk a -> In v (leaves g).
Proof.
  intros g v a H. destruct (in_dec Nat.eq_dec v (leaves g)) as [|N]; auto. apply accessor_none in N. congruence.
Qed.
Lemma accessor_some : forall g v, gdepth g <= 3 -> In v (leaves g) ->
  exists a, accessor_of g v = EOk a /\ ac_len a <= gdepth g.
Proof.
  induction g as [w|l IH] using gt_ind'; intros v D I.
  - cbn in *. destruct I as [->|[]]. rewrite Nat.eqb_refl. exists acc_empty; auto.
  - rewrite accessor_tuple. cbn [leaves gdepth] in *.
    enough (K : forall i, exists a, acc_go v i l = EOk a /\ ac_len a <= S (list_max (map gdepth l))) by apply K.
    revert IH D I. induction l as [|e l IHl]; intros F D I i; [destruct I|]. inversion F as [|? ? H F']; subst.
    cbn [acc_go]. change (list_max (map gdepth (e :: l))) with (Nat.max (gdepth e) (list_max (map gdepth l))) in *.
    cbn [flat_map] in I. apply in_app_iff in I.
    destruct (in_dec Nat.eq_dec v (leaves e)) as [J|N].
    + destruct (H v) as (a & Ea & La); [lia|auto|]. rewrite Ea.
      destruct (@prepend_len i a) as (b & Eb & Lb); [lia|]. exists b. split; auto. lia.
    + pose proof (proj2 (accessor_none e v) N) as En. rewrite En. destruct I as [I|I]; [tauto|].
      destruct (IHl F') with (i := S i) as (a & Ea & La); auto; [lia|]. exists a. split; auto. lia.
Qed.

Lemma nth_error_map' : forall A B (f : A -> B) l i, nth_error (map f l) i = option_map f (nth_error l i).
Proof. induction l as [|x l IH]; intros [|i]; cbn; auto. Qed.

Lemma acc_go_spec : forall v l i a, acc_go v i l = EOk a ->
  exists j e b, nth_error l j = Some e /\ accessor_of e v = EOk b /\ acc_iter a = (i + j) :: acc_iter b /\
    (forall j' e', j' < j -> nth_error l j' = Some e' -> ~ In v (leaves e')).
Proof.
  induction l as [|e l IH]; intros i a H; [discriminate|]. cbn [acc_go] in H.
  destruct (accessor_of e v) as [b| |] eqn:Ea; [| |discriminate].
  - exists 0, e, b. rewrite Nat.add_0_r. repeat split; auto; [apply prepend_iter; auto|]. intros; lia.
  - apply IH in H. destruct H as (j & e' & b & N & A & It & Z). exists (S j), e', b. repeat split; auto.
    + rewrite It. f_equal. lia.
    + intros [|j'] e'' L N'; [cbn in N'; injection N' as <-; apply accessor_none; auto|]. apply (Z j'); auto. lia.
Qed.

Lemma holds_gtup : forall g s, holds g s (gtup g s).
Proof.
  intros g s. induction g as [w|l IH] using gt_ind'; intros v a H.
  - cbn in H. destruct (Nat.eqb_spec v w) as [->|]; [|discriminate]. injection H as <-. reflexivity.
  - rewrite accessor_tuple in H. apply acc_go_spec in H. destruct H as (j & e & b & N & A & It & _).
    unfold index. rewrite It. cbn [gtup index_path]. rewrite nth_error_map'. cbn [Nat.add]. rewrite N. cbn [option_map].
    rewrite Forall_forall in IH. apply (IH e (nth_error_In _ _ N) v b); auto.
Qed.

Lemma holds_tuple : forall l ts s, length ts = length l ->
  (forall j e u, nth_error l j = Some e -> nth_error ts j = Some u ->
     forall v b, accessor_of e v = EOk b -> (forall j' e', j' < j -> nth_error l j' = Some e' -> ~ In v (leaves e')) ->
     index u b = EOk (TVal (s v))) ->
  holds (GT l) s (TTup ts).
Proof.
  intros l ts s L H v a A. rewrite accessor_tuple in A. apply acc_go_spec in A.
  destruct A as (j & e & b & N & A & It & Z). unfold index. rewrite It. cbn [index_path Nat.add].
  destruct (nth_error ts j) as [u|] eqn:Eu; [|apply nth_error_None in Eu; assert (j < length l) by (apply nth_error_Some; congruence); lia].
  match goal with |- match ?x with _ => _ end = _ => change x with (nth_error ts j) end. rewrite Eu.
  apply (H j e u N Eu v b A Z).
Qed.

(** The value at the accessor determines the values of the leaves. *)
Lemma holds_inj : forall g s s' t, gdepth g <= 3 -> holds g s t -> holds g s' t -> agree (leaves g) s s'.
Proof.
  intros g s s' t D H H' v I. destruct (@accessor_some g v D I) as (a & A & _).
  specialize (H _ _ A). specialize (H' _ _ A). congruence.
Qed.

(** ** Expressions *)
Section Exprs.
  Variable E : renv.

  Lemma omap_cons : forall A B (f : A -> option B) a l,
    omap f (a :: l) = match f a, omap f l with Some b, Some bs => Some (b :: bs) | _, _ => None end.
  Proof. reflexivity. Qed.
  Lemma emap_cons : forall A B (f : A -> ev B) a l,
    emap f (a :: l) = ebind (f a) (fun b => ebind (emap f l) (fun bs => EOk (b :: bs))).
  Proof. reflexivity. Qed.
  Lemma omap_Forall2 : forall A B (f : A -> option B) l m, omap f l = Some m -> Forall2 (fun a b => f a = Some b) l m.
  Proof.
    induction l as [|a l IH]; intros m H.
    - injection H as <-. constructor.
    - rewrite omap_cons in H. destruct (f a) as [b|] eqn:Ea; [|discriminate].
      destruct (omap f l) as [m'|]; [|discriminate]. injection H as <-. constructor; auto.
  Qed.
  Lemma omap_ext : forall A B (f g : A -> option B) l, (forall x, In x l -> f x = g x) -> omap f l = omap g l.
  Proof.
    induction l as [|a l IH]; intros H; auto. rewrite !omap_cons, (H a (or_introl eq_refl)), IH; auto.
    intros; apply H; right; auto.
  Qed.
  Lemma omap_total : forall A B (f : A -> option B) l, (forall x, In x l -> exists y, f x = Some y) -> exists m, omap f l = Some m.
  Proof.
    induction l as [|a l IH]; intros H; [exists []; auto|].
    destruct (H a (or_introl eq_refl)) as [b Eb]. destruct IH as [m Em]; [intros; apply H; right; auto|].
    exists (b :: m). rewrite omap_cons, Eb, Em. reflexivity.
  Qed.
  Lemma emap_Forall2 : forall A B (f : A -> ev B) l m, emap f l = EOk m <-> Forall2 (fun a b => f a = EOk b) l m.
  Proof.
    induction l as [|a l IH]; intros m.
    - split; [intros H; injection H as <-; constructor|]. inversion 1; auto.
    - rewrite emap_cons. split.
      + intros H. destruct (f a) as [b| |] eqn:Ea; try discriminate. cbn [ebind] in H.
        destruct (emap f l) as [m'| |]; try discriminate. injection H as <-. constructor; auto. apply IH; auto.
      + inversion 1 as [|? b ? m' Ea F]; subst. rewrite Ea. cbn [ebind]. apply IH in F. rewrite F. reflexivity.
  Qed.

  Lemma access_eval : forall g s t v e, access g v = Some e -> holds g s t -> eval E e t = EOk (TVal (s v)).
  Proof.
    intros g s t v e A H. unfold access in A. destruct (accessor_of g v) as [a| |] eqn:Ea; try discriminate.
    injection A as <-. cbn [eval]. apply H; auto.
  Qed.
  Lemma term_expr_eval : forall g s t x e, term_expr g x = Some e -> holds g s t -> eval E e t = EOk (TVal (tval s x)).
  Proof.
    intros g s t [v|c] e A H; cbn in A; [eapply access_eval; eauto|]. injection A as <-. reflexivity.
  Qed.
  Lemma term_exprs_eval : forall g s t l es, omap (term_expr g) l = Some es -> holds g s t ->
    emap (fun x => ebind (eval E x t) as_value) es = EOk (tvals s l).
  Proof.
    intros g s t l es A H. apply omap_Forall2 in A. induction A as [|x e l es Ex A IH]; auto.
    change (emap (fun x => ebind (eval E x t) as_value) (e :: es)) with
      (ebind (ebind (eval E e t) as_value) (fun b => ebind (emap (fun x => ebind (eval E x t) as_value) es) (fun bs => EOk (b :: bs)))).
    erewrite term_expr_eval by eauto. cbn [ebind as_value]. rewrite IH. reflexivity.
  Qed.

  Lemma projection_eval : forall g s t args e, projection g args = Some e -> holds g s t -> eval E e t = EOk (gtup args s).
  Proof.
    intros g s t. induction args as [v|l IH] using gt_ind'; intros e P H.
    - cbn in P. eapply access_eval; eauto.
    - cbn in P. destruct (omap (projection g) l) as [es|] eqn:Eo; [|discriminate]. cbn in P. injection P as <-.
      cbn [eval gtup]. apply omap_Forall2 in Eo.
      assert (K : emap (fun x => eval E x t) es = EOk (map (fun x => gtup x s) l)).
      { apply emap_Forall2. clear - IH Eo H. induction Eo as [|x e l es Ex Eo IHo]; cbn; constructor.
        - inversion IH; subst; auto.
        - inversion IH; subst; auto. }
      rewrite K. reflexivity.
  Qed.
  Lemma projection_incl : forall g args e, projection g args = Some e -> incl (leaves args) (leaves g).
  Proof.
    intros g. induction args as [v|l IH] using gt_ind'; intros e P w I.
    - cbn in *. destruct I as [->|[]]. unfold access in P. destruct (accessor_of g w) eqn:Ea; try discriminate.
      eapply accessor_In; eauto.
    - cbn in P. destruct (omap (projection g) l) as [es|] eqn:Eo; [|discriminate]. apply omap_Forall2 in Eo.
      cbn in I. apply in_flat_map in I. destruct I as (x & Ix & Iw). clear P. induction Eo as [|y e' l es Ex Eo IHo]; [destruct Ix|].
      inversion IH as [|? ? H1 H2]; subst. destruct Ix as [->|Ix]; [apply (H1 _ Ex w Iw)|auto].
  Qed.
  Lemma projection_total : forall g args, gdepth g <= 3 -> incl (leaves args) (leaves g) -> exists e, projection g args = Some e.
  Proof.
    intros g args D. induction args as [v|l IH] using gt_ind'; intros I; cbn.
    - unfold access. destruct (@accessor_some g v D) as (a & A & _); [apply I; left; auto|]. rewrite A. eauto.
    - destruct (omap_total (projection g) l) as [es Es].
      + intros x Ix. rewrite Forall_forall in IH. apply IH; auto. intros w J. apply I. cbn. apply in_flat_map. exists x; auto.
      + rewrite Es. cbn. eauto.
  Qed.

  Definition tev (x : ev value) : ev tuple := ebind x (fun v => EOk (TVal v)).
  Lemma aexpr_eval : forall g s t a e, aexpr_expr g a = Some e -> holds g s t -> eval E e t = tev (aeval E s a).
  Proof.
    intros g s t a e A H. destruct a as [op x y|op x|c x y|f l|f l]; cbn in A.
    - destruct (term_expr g x) eqn:Ex; [|discriminate]. cbn in A. destruct (term_expr g y) eqn:Ey; [|discriminate]. cbn in A.
      injection A as <-. cbn [eval aeval]. erewrite !term_expr_eval by eauto. reflexivity.
    - destruct (term_expr g x) eqn:Ex; [|discriminate]. cbn in A. injection A as <-. cbn [eval aeval].
      erewrite term_expr_eval by eauto. reflexivity.
    - destruct (term_expr g c) eqn:Ec; [|discriminate]. cbn in A. destruct (term_expr g x) eqn:Ex; [|discriminate]. cbn in A.
      destruct (term_expr g y) eqn:Ey; [|discriminate]. cbn in A. injection A as <-. cbn [eval aeval].
      erewrite !term_expr_eval by eauto. cbn [ebind as_bool]. destruct (tval s c); try reflexivity.
      cbn. destruct b; reflexivity.
    - destruct (omap (term_expr g) l) as [es|] eqn:El; [|discriminate]. cbn in A. injection A as <-. cbn [eval aeval].
      erewrite term_exprs_eval by eauto. reflexivity.
    - destruct (omap (term_expr g) l) as [es|] eqn:El; [|discriminate]. cbn in A. injection A as <-. cbn [eval aeval].
      erewrite term_exprs_eval by eauto. reflexivity.
  Qed.

  (** The values an assigning projection gives. *)
  Definition upd_assigns (g : gt var) (l : list (var * aexpr)) (s : subst) : subst := fun v =>
    match accessor_of g v with
    | ENone => match last_assign v l with
               | Some e => match aeval E s e with EOk x => x | _ => s v end
               | None => s v
               end
    | _ => s v
    end.
  Definition assigned (g : gt var) (l : list (var * aexpr)) (s : subst) (v : var) : Prop :=
    accessor_of g v = ENone -> exists e x, last_assign v l = Some e /\ aeval E s e = EOk x.
  Lemma projection_assigns_eval : forall g s t l args e, projection_assigns g args l = Some e -> holds g s t ->
    (forall v, In v (leaves args) -> assigned g l s v) -> eval E e t = EOk (gtup args (upd_assigns g l s)).
  Proof.
    intros g s t l. induction args as [v|ts IH] using gt_ind'; intros e P H A.
    - cbn in P. specialize (A v (or_introl eq_refl)). unfold assigned in A.
      destruct (accessor_of g v) as [a| |] eqn:Ea; try discriminate.
      + injection P as <-. cbn [eval gtup]. rewrite (H _ _ Ea). unfold upd_assigns. rewrite Ea. reflexivity.
      + destruct (A eq_refl) as (a & x & La & Ax). rewrite La in P. cbn in P.
        erewrite aexpr_eval by eauto. rewrite Ax. cbn. unfold upd_assigns. rewrite Ea, La, Ax. reflexivity.
    - cbn in P. destruct (omap (fun x => projection_assigns g x l) ts) as [es|] eqn:Eo; [|discriminate]. cbn in P. injection P as <-.
      cbn [eval gtup]. apply omap_Forall2 in Eo.
      assert (K : emap (fun x => eval E x t) es = EOk (map (fun x => gtup x (upd_assigns g l s)) ts)).
      { apply emap_Forall2. cbn [leaves] in A. clear - IH Eo H A. induction Eo as [|x e ts es Ex Eo IHo]; cbn; constructor.
        - inversion IH; subst. cbn beta in *. match goal with K : forall e, projection_assigns g x l = Some e -> _ |- _ => apply K; auto end.
          intros v I. apply A. cbn. apply in_app_iff; auto.
        - inversion IH; subst. apply IHo; auto. intros v I. apply A. cbn. apply in_app_iff; auto. }
      rewrite K. reflexivity.
  Qed.
  Lemma projection_assigns_inv : forall g s t l args e u, projection_assigns g args l = Some e -> holds g s t ->
    eval E e t = EOk u -> forall v, In v (leaves args) -> assigned g l s v.
  Proof.
    intros g s t l. induction args as [v|ts IH] using gt_ind'; intros e u P H R w I.
    - cbn in P, I. destruct I as [->|[]]. intros An. rewrite An in P. destruct (last_assign w l) as [a|] eqn:La; [|discriminate].
      cbn in P. erewrite aexpr_eval in R by eauto. destruct (aeval E s a) as [x| |] eqn:Ax; try discriminate. eauto.
    - cbn in P. destruct (omap (fun x => projection_assigns g x l) ts) as [es|] eqn:Eo; [|discriminate]. cbn in P. injection P as <-.
      cbn [eval] in R. destruct (emap (fun x => eval E x t) es) as [us| |] eqn:Em; try discriminate. apply emap_Forall2 in Em.
      apply omap_Forall2 in Eo. cbn [leaves] in I. apply in_flat_map in I. destruct I as (x & Ix & Iw). clear R.
      revert us Em. induction Eo as [|y e ts es Ex Eo IHo]; intros us Em; [destruct Ix|]. inversion IH; subst. inversion Em; subst.
      destruct Ix as [->|Ix]; [|eapply IHo; eauto]. cbn beta in *. eauto.
  Qed.
  Lemma projection_assigns_incl : forall g l args e, projection_assigns g args l = Some e ->
    forall v, In v (leaves args) -> In v (leaves g) \/ exists a, last_assign v l = Some a.
  Proof.
    intros g l. induction args as [v|ts IH] using gt_ind'; intros e P w I.
    - cbn in P, I. destruct I as [->|[]]. destruct (accessor_of g w) eqn:Ea; [left; eapply accessor_In; eauto| |discriminate].
      right. destruct (last_assign w l); [eauto|discriminate].
    - cbn in P. destruct (omap (fun x => projection_assigns g x l) ts) as [es|] eqn:Eo; [|discriminate]. apply omap_Forall2 in Eo.
      cbn in I. apply in_flat_map in I. destruct I as (x & Ix & Iw). clear P. induction Eo as [|y e' ts es Ex Eo IHo]; [destruct Ix|].
      inversion IH; subst. destruct Ix as [->|Ix]; eauto.
  Qed.
End Exprs.

Lemma last_assign_In : forall v l e, last_assign v l = Some e -> In (v, e) l.
Proof.
  intros v l e H. unfold last_assign in H. destruct (find (fun x => fst x =? v) (rev l)) as [[w a]|] eqn:F; [|discriminate].
  apply find_some in F. destruct F as [I K]. cbn in *. apply Nat.eqb_eq in K. injection H as <-. subst. apply in_rev; auto.
Qed.
Lemma last_assign_some : forall v l, In v (map fst l) -> exists e, last_assign v l = Some e.
Proof.
  intros v l I. unfold last_assign. destruct (find (fun x => fst x =? v) (rev l)) as [x|] eqn:F; [eauto|].
  apply in_map_iff in I. destruct I as (x & <- & I). apply in_rev in I. apply (find_none _ _ F) in I. rewrite Nat.eqb_refl in I. discriminate.
Qed.

(** ** Goals *)
Lemma matches_spec : forall g args, matches g args = true -> exists vs, g = GT (map GV vs) /\ args = map TVar vs.
Proof.
  intros [v|ts] args H; cbn in H; [discriminate|]. apply andb_true_iff in H. destruct H as [L F].
  apply Nat.eqb_eq in L. revert args L F. induction ts as [|t ts IH]; intros [|a args] L F; cbn in *; try discriminate.
  - exists []; auto.
  - apply andb_true_iff in F. destruct F as [F1 F2]. destruct (IH args) as (vs & E1 & E2); auto.
    injection E1 as ->. subst args. destruct a as [w|c]; [|discriminate]. destruct t as [x|]; [|discriminate].
    apply Nat.eqb_eq in F1. subst. exists (x :: vs); auto.
Qed.

Lemma expand_spec : forall g vs h, expand g vs = Some h ->
  exists l, incl l vs /\ (forall v, In v vs -> In v (leaves g) \/ In v l) /\ (forall v, In v l -> ~ In v (leaves g)) /\
    (NoDup vs -> NoDup l) /\
    (h = GT (map GV l) /\ leaves g = [] \/ h = match g with GV v => GT (GV v :: map GV l) | GT m => GT (m ++ map GV l) end).
Proof.
  intros g vs h H. unfold expand in H.
  destruct (omap (fun v => match accessor_of g v with EOk _ => Some [] | ENone => Some [GV v] | EPanic => None end) vs) as [more|] eqn:Em; [|discriminate].
  cbn in H. injection H as <-.
  assert (K : exists l, concat more = map GV l /\ incl l vs /\ (forall v, In v vs -> In v (leaves g) \/ In v l) /\ (forall v, In v l -> ~ In v (leaves g)) /\ (NoDup vs -> NoDup l)).
  { apply omap_Forall2 in Em. induction Em as [|v m vs more Ev Em IH].
    - exists []. repeat split; auto; intros ? [].
    - destruct IH as (l & E1 & I1 & C1 & D1 & N1). destruct (accessor_of g v) as [a| |] eqn:Ea; try discriminate; injection Ev as <-.
      + exists l. split; [auto|]. split; [|split; [|split]].
        * intros x I. right; apply I1; auto.
        * intros x [->|I]; [left; eapply accessor_In; eauto|]. auto.
        * exact D1.
        * intros ND. inversion ND; subst; auto.
      + exists (v :: l). cbn. rewrite E1. split; [auto|]. split; [|split; [|split]].
        * intros x [->|I]; [left; auto|right; apply I1; auto].
        * intros x [->|I]; [tauto|]. destruct (C1 x I); tauto.
        * intros x [->|I]; [apply accessor_none; auto|auto].
        * intros ND. inversion ND; subst. constructor; auto. }
  destruct K as (l & E1 & K). exists l. decompose [and] K. repeat split; auto. right. rewrite E1. reflexivity.
Qed.
Lemma expand_leaves : forall g vs h, expand g vs = Some h ->
  exists l, leaves h = leaves g ++ l /\ incl l vs /\ (forall v, In v vs -> In v (leaves g) \/ In v l) /\
    (forall v, In v l -> ~ In v (leaves g)) /\ (NoDup vs -> NoDup l).
Proof.
  intros g vs h H. destruct (expand_spec _ _ H) as (l & I & Cv & D & N & [[-> L]| ->]).
  - exists l. repeat split; auto. cbn. rewrite leaves_map, L. reflexivity.
  - exists l. repeat split; auto. destruct g as [v|m]; cbn; rewrite ?flat_map_app, leaves_map; reflexivity.
Qed.

Lemma subtuple_leaves : forall g vs v, In v (leaves (subtuple g vs)) <-> In v vs /\ In v (leaves g).
Proof.
  intros. unfold subtuple. cbn [leaves]. rewrite leaves_map, filter_In, memb_In, variables_In. tauto.
Qed.
Lemma subtuple_NoDup : forall g vs, NoDup vs -> NoDup (leaves (subtuple g vs)).
Proof. intros. unfold subtuple. cbn [leaves]. rewrite leaves_map. apply NoDup_filter; auto. Qed.

Lemma gt_eqb_eq : forall g h, gt_eqb g h = true <-> g = h.
Proof.
  induction g as [v|l IH] using gt_ind'; intros [w|m]; cbn; try (split; discriminate).
  - rewrite Nat.eqb_eq. split; congruence.
  - revert m. induction l as [|x l IHl]; intros [|y m]; try (split; discriminate); [split; auto|].
    inversion IH as [|? ? H F]; subst. rewrite andb_true_iff, H. specialize (IHl F m).
    split; [intros [-> K]; apply IHl in K; congruence|]. intros K. injection K as -> ->. split; auto. apply IHl; auto.
Qed.
