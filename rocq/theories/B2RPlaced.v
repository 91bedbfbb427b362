(** Where the relations made for negation read; used by C55. *)
From Coq Require Import List ZArith Bool Arith Lia Permutation.
From Verif Require Import Value Back Eval Ram Dataflow BackSem Scc SccFacts Plan PlanSem PlanFacts PlanFacts2
  VarTuple VarTupleFacts B2R RamSem B2RFacts B2RFacts2 B2RSpec B2RRule B2RStrata B2RTotal.
Import ListNotations.
Set Implicit Arguments.

Section Flat.
  Variable C : cenv.
  (** The predicates of the program. *)
  Variable P : pred -> Prop.

  Definition flatname (z : bstate) (r : nat) : Prop := P r \/ exists p g, P p /\ In (p, g) (z_perms z) /\ r = ce_perm C p g.
  Definition flat (z : bstate) : Prop := forall n d, In (n, d) (z_negs z) -> forall r, In r (sources d) -> flatname z r.
  Lemma flatname_mono : forall z z' r, incl (z_perms z) (z_perms z') -> flatname z r -> flatname z' r.
  Proof. intros z z' r I [H|(p & g & H1 & H2 & H3)]; [left; auto|right; exists p, g; auto]. Qed.
  Lemma flat_keep : forall z z', z_negs z' = z_negs z -> incl (z_perms z) (z_perms z') -> flat z -> flat z'.
  Proof. intros z z' E I F n d J r K. rewrite E in J. eapply flatname_mono; eauto. Qed.

  Definition fstep {A} (m : step A) : Prop := forall z a z', m z = Some (a, z') -> flat z -> flat z'.
  Lemma fs_bind : forall A B (m : step A) (f : A -> step B), fstep m -> (forall a, fstep (f a)) -> fstep (sbind m f).
  Proof. intros A B m f Hm Hf z b z' E F. unfold sbind in E. destruct (m z) as [[a z1]|] eqn:Em; [|discriminate]. eapply Hf; eauto. Qed.
  Lemma fs_opt : forall A (o : option A), fstep (sopt o).
  Proof. intros A [a|] z b z' E F; cbn in E; [injection E as <- <-; auto|discriminate]. Qed.
  Lemma fs_ret : forall A (a : A), fstep (sret a).
  Proof. intros A a z b z' E F. injection E as <- <-. auto. Qed.
  Lemma fs_perm : forall p g, fstep (add_perm p g).
  Proof. intros p g z a z' E F. injection E as <- <-. eapply flat_keep; [| |exact F]; cbn; auto. apply incl_appl, incl_refl. Qed.
  Lemma fs_temp : forall d, fstep (create_temp C d).
  Proof. intros d z a z' E F. injection E as <- <-. eapply flat_keep; [| |exact F]; cbn; auto. apply incl_refl. Qed.
  Lemma fs_process : forall d pr, d_neg pr = false -> fstep (process C d pr).
  Proof. intros d pr E. unfold process. rewrite E. destruct (d_sorted pr); [destruct (d_inplace pr); [apply fs_ret|apply fs_temp]|apply fs_ret]. Qed.
  Lemma fs_ntemp : forall d z a z', create_ntemp C d z = Some (a, z') -> (forall r, In r (sources d) -> flatname z r) -> flat z -> flat z'.
  Proof.
    intros d z a z' E D F n e J r K. injection E as <- <-. cbn in J. apply in_app_iff in J. destruct J as [J|[J|[]]].
    - exact (F n e J r K).
    - injection J as <- <-. exact (D r K).
  Qed.
  Lemma fs_nprocess : forall d pr z a z', process C d pr z = Some (a, z') -> (forall r, In r (sources d) -> flatname z r) -> flat z -> flat z'.
  Proof.
    intros d pr z a z' E D F. destruct (d_neg pr) eqn:En; [|exact (@fs_process d pr En _ _ _ E F)].
    unfold process in E. rewrite En in E. destruct (d_sorted pr); [eapply fs_ntemp; eauto|injection E as <- <-; auto].
  Qed.

  (** ** Atoms *)
  Lemma atom_filter_none : forall vs, NoDup vs -> atom_filter (map TVar vs) = None.
  Proof.
    intros vs ND. unfold atom_filter. destruct (eq_vars 0 [] (map TVar vs)) as [|[j k] l] eqn:E; auto. exfalso.
    assert (J : In (j, k) (eq_vars 0 [] (map TVar vs))) by (rewrite E; left; auto).
    enough (K : forall l i m x, In x (eq_vars i m (map TVar l)) -> (forall v j, In (v, j) m -> ~ In v l) -> ~ NoDup l) by (exact (K _ _ _ _ J (fun _ _ F => match F with end) ND)).
    clear. induction l as [|v l IH]; intros i m x H M ND; cbn in H; [destruct H|]. inversion ND as [|? ? N1 N2]; subst.
    destruct (find (fun x => Nat.eqb (fst x) v) m) as [[w j]|] eqn:F.
    - apply find_some in F. destruct F as [F1 F2]. apply Nat.eqb_eq in F2. cbn in F2. subst w. apply (M _ _ F1). left; auto.
    - apply IH in H; auto. intros w k [E|E]; [injection E as <- <-; auto|]. intros K. apply (M _ _ E). right; auto.
  Qed.
  Lemma no_const_flat : forall goal a pr z d z', P (a_pred a) -> no_const_ground C goal a pr z = Some (d, z') -> flat z ->
    flat z' /\ (atom_filter (a_args a) = None \/ d_sorted pr = false -> forall r, In r (sources d) -> flatname z' r).
  Proof.
    intros goal a pr z d z' Pa E F. unfold no_const_ground in E. destruct (matches goal (a_args a)).
    { injection E as <- <-. split; auto. intros _ r [<-|[]]. left; auto. }
    unfold sbind at 1 in E. unfold sopt in E. destruct (permutation goal (a_args a)) as [g|]; [|discriminate].
    destruct (atom_filter (a_args a)) as [f|] eqn:Ef; destruct (d_sorted pr) eqn:Es; cbn [andb] in E.
    - destruct (negb (order_preserving g)).
      + unfold sbind in E. destruct (add_perm (a_pred a) g z) as [[u z1]|] eqn:Ea; [|discriminate]. pose proof (@fs_perm _ _ _ _ _ Ea F) as F1.
        split; [|intros [K|K]; discriminate]. destruct (d_neg pr); [|exact (@fs_temp _ _ _ _ E F1)].
        eapply fs_ntemp; eauto. intros r [<-|[]]. left; auto.
      + injection E as <- <-. split; auto. intros _ r [<-|[]]. left; auto.
    - injection E as <- <-. split; auto. intros _ r [<-|[]]. left; auto.
    - destruct (negb (order_preserving g)).
      + unfold sbind in E. destruct (add_perm (a_pred a) g z) as [[u z1]|] eqn:Ea; [|discriminate]. pose proof (@fs_perm _ _ _ _ _ Ea F) as F1.
        injection E as <- <-. split; auto. intros _ r [<-|[]]. right. exists (a_pred a), g. split; auto. split; auto. injection Ea as <- <-. cbn. apply in_or_app. right. left. auto.
      + injection E as <- <-. split; auto. intros _ r [<-|[]]. left; auto.
    - injection E as <- <-. split; auto. intros _ r [<-|[]]. left; auto.
  Qed.
  (** No constants, or no repeated variables. *)
  Definition simple (a : atom) : Prop := existsb is_const (a_args a) = false \/ NoDup (sub_vars C a).
  Lemma ground_flat : forall goal a pr, P (a_pred a) -> simple a -> fstep (ground_df C goal a pr).
  Proof.
    intros goal a pr Pa SA z d z' E F. unfold ground_df in E. destruct (a_args a) as [|x0 xs] eqn:Ea.
    { revert E F. unfold empty_ground. destruct (matches goal (a_args a)); [apply fs_ret|]. apply fs_bind; [apply fs_opt|intros; apply fs_ret]. }
    rewrite <- Ea in *. destruct (existsb is_const (a_args a)) eqn:Ec; [|eapply no_const_flat; eauto].
    destruct SA as [K|ND]; [congruence|]. destruct (ce_static C (a_pred a) && negb (upfront false (a_args a))).
    - unfold static_ground in E. unfold sbind at 1 in E.
      destruct (no_const_ground C (from_vars (sub_vars C a) true) (sub_atom C a) (with_sorted false pr) z) as [[e z1]|] eqn:E1; [|discriminate].
      destruct (@no_const_flat _ (sub_atom C a) _ _ _ _ Pa E1 F) as [F1 D1]. destruct (map _ (const_part a)) as [|e0 es]; [discriminate|].
      unfold sbind, sopt in E. destruct (projection _ goal) as [pe|]; [|discriminate]. eapply fs_nprocess; [exact E| |exact F1].
      cbn [sources]. apply D1. right. reflexivity.
    - unfold dynamic_ground in E. unfold sbind at 1 in E.
      destruct (no_const_ground C (dynamic_goal C a) (sub_atom C a) (with_sorted true pr) z) as [[e z1]|] eqn:E1; [|discriminate].
      destruct (@no_const_flat _ (sub_atom C a) _ _ _ _ Pa E1 F) as [F1 D1].
      unfold sbind, sopt in E. destruct (projection _ goal) as [pe|]; [|discriminate]. eapply fs_nprocess; [exact E| |exact F1].
      cbn [sources]. apply D1. left. apply atom_filter_none, ND.
  Qed.
  Lemma ground_pos : forall goal a pr, d_neg pr = false -> fstep (ground_df C goal a pr).
  Proof.
    intros goal a pr En.
    assert (NC : forall goal a pr, d_neg pr = false -> fstep (no_const_ground C goal a pr)).
    { clear. intros goal a pr En. unfold no_const_ground. destruct (matches goal (a_args a)); [apply fs_ret|]. apply fs_bind; [apply fs_opt|]. intros g.
      destruct (atom_filter (a_args a)) as [f|]; destruct (d_sorted pr && negb (order_preserving g)); try apply fs_ret;
        apply fs_bind; try apply fs_perm; intros _; [rewrite En; apply fs_temp|apply fs_ret]. }
    unfold ground_df. destruct (a_args a) as [|x0 xs] eqn:Ea.
    - unfold empty_ground. destruct (matches goal (a_args a)); [apply fs_ret|]. apply fs_bind; [apply fs_opt|intros; apply fs_ret].
    - rewrite <- Ea. destruct (existsb is_const (a_args a)); [|apply NC; auto]. destruct (ce_static C (a_pred a) && negb (upfront false (a_args a))).
      + unfold static_ground. apply fs_bind; [apply NC; auto|]. intros d. destruct (map _ (const_part a)); [apply fs_opt|].
        apply fs_bind; [apply fs_opt|]. intros; apply fs_process; auto.
      + unfold dynamic_ground. apply fs_bind; [apply NC; auto|]. intros d. apply fs_bind; [apply fs_opt|]. intros; apply fs_process; auto.
  Qed.

  (** ** Plans: negated parts are simple atoms. *)
  Fixpoint nflat (p : plan) : Prop :=
    match p with
    | PUnit _ | PReduce _ _ | PGround _ _ | PFpGround _ _ => True
    | PProject _ q _ | PFilter _ q _ | PFpConstr _ q _ | PFpJoin _ q _ => nflat q
    | PJoin _ q r => nflat q /\ nflat r
    | PAnti _ q (PGround _ a) => nflat q /\ P (a_pred a) /\ simple a
    | PAnti _ _ _ => False
    end.
  Lemma plan_flat : forall p, nflat p -> forall goal pr, d_neg pr = false -> fstep (plan_df C p goal pr).
  Proof.
    induction p as [bv|bv r|bv a|bv p IH l|bv p IH cs|bv p1 IH1 p2 IH2|bv p1 IH1 p2 IH2|bv a|bv p IH a|bv p IH a]; intros S goal pr En; cbn [nflat] in S; cbn [plan_df].
    - apply fs_bind; [apply fs_opt|intros; apply fs_ret].
    - apply fs_bind; [apply fs_opt|intros; apply fs_process; auto].
    - apply ground_pos; auto.
    - specialize (IH S). generalize (Datatypes.S (Datatypes.S (length l))). intros fuel. revert l goal pr En. induction fuel as [|fuel IHf]; intros l goal pr En; cbn [project_df].
      + match goal with |- context [filter ?f (variables goal)] => destruct (filter f (variables goal)) end; [apply IH; auto|]. destruct l; apply fs_opt.
      + match goal with |- context [filter ?f (variables goal)] => destruct (filter f (variables goal)) end; [apply IH; auto|]. destruct l; [apply fs_opt|].
        apply fs_bind; [apply IHf; auto|]. intros d. apply fs_bind; [apply fs_opt|]. intros; apply fs_process; auto.
    - unfold filter_df. apply fs_bind; [apply fs_opt|]. intros g. apply fs_bind; [apply IH; auto|]. intros d.
      apply fs_bind; [apply fs_opt|]. intros e. apply fs_bind; [apply fs_opt|]. intros; apply fs_process; auto.
    - destruct S as [S1 S2]. unfold join_plan_df. destruct (join_vars p1 p2).
      + unfold product_df. apply fs_bind; [apply IH1; auto|]. intros d1. apply fs_bind; [apply IH2; auto|]. intros d2.
        apply fs_bind; [apply fs_opt|]. intros; apply fs_process; auto.
      + destruct (set_eqb _ _).
        * unfold intersect_df. apply fs_bind; [apply IH1; auto|]. intros d1. apply fs_bind; [apply IH2; auto|]. intros d2.
          destruct (gt_eqb _ _); [apply fs_ret|]. apply fs_bind; [apply fs_opt|]. intros; apply fs_process; auto.
        * unfold join_df. apply fs_bind; [apply IH1; auto|]. intros d1. apply fs_bind; [apply IH2; auto|]. intros d2.
          apply fs_bind; [apply fs_opt|]. intros; apply fs_process; auto.
    - destruct p2; try tauto. destruct S as (S1 & S2 & S3). unfold anti_plan_df. destruct (set_eqb _ _).
      + unfold difference_df. apply fs_bind; [apply IH1; auto|]. intros d1. apply fs_bind; [apply ground_flat; auto|]. intros d2.
        destruct (gt_eqb _ _); [apply fs_ret|]. apply fs_bind; [apply fs_opt|]. intros; apply fs_process; auto.
      + unfold antijoin_df. apply fs_bind; [apply IH1; auto|]. intros d1. apply fs_bind; [apply ground_flat; auto|]. intros d2.
        apply fs_bind; [apply fs_opt|]. intros; apply fs_process; auto.
    - apply fs_bind; [apply fs_opt|]. intros ins. apply fs_bind; [apply fs_opt|]. intros vs. apply fs_bind; [apply fs_opt|]. intros; apply fs_process; auto.
    - unfold fp_constr_df. apply fs_bind; [apply IH; auto|]. intros d. apply fs_bind; [apply fs_opt|]. intros es. apply fs_bind; [apply fs_opt|]. intros; apply fs_process; auto.
    - unfold fp_join_df. apply fs_bind; [apply IH; auto|]. intros d. apply fs_bind; [apply fs_opt|]. intros es. apply fs_bind; [apply fs_opt|]. intros vs.
      apply fs_bind; [apply fs_opt|]. intros; apply fs_process; auto.
  Qed.
  Lemma update_flat : forall h p inplace, nflat p -> fstep (update_df C h p inplace).
  Proof.
    intros h p inplace S. unfold update_df. apply fs_bind; [apply fs_opt|]. intros x. apply fs_bind; [apply plan_flat; auto|]. intros d.
    apply fs_bind; [|intros; apply fs_ret]. destruct (snd x); [|destruct (gt_eqb _ _); [apply fs_ret|]]; (apply fs_bind; [apply fs_opt|intros; apply fs_ret]).
  Qed.

  (** ** The plans of rules *)
  Lemma built_flat : forall N body q L p, q_ok N body q -> (forall a, In (LNeg a) body -> P (a_pred a) /\ simple a) -> built N q L p -> nflat p.
  Proof.
    intros N body q L p QO NG. induction 1 as [|a J|r J|a J Ga|L p f bv l H1 IH E HX Ebv|L p f cs H1 IH E HX NE|L p L' r H1 IH1 H2 IH2|L p bv a H1 IH J Nb Eb Ia|L p a H1 IH J Ia|L p a H1 IH J Ia]; cbn; auto.
    - unfold fp_ground. destruct (rename_free N a []) as [vs es]. destruct (const_cons N (a_pred a) (fp_free N a) ++ eq_cons es); exact Logic.I.
    - unfold fp_join. destruct (rename_free N a (bvars p)) as [vs es]. destruct (const_cons N (a_pred a) (fp_free N a) ++ eq_cons es); exact IH.
    - split; auto. apply NG. apply (qo_neg QO). auto.
  Qed.
End Flat.

(** The strata: relations whose sources all occur are placed. *)
Lemma place_rest_In : forall ss acc negs ss' rest x, place_negs acc negs ss = (ss', rest) -> In x rest ->
  In x negs /\ (ss <> [] -> ~ incl (sources (snd x)) (acc ++ flat_map rs_rels ss)).
Proof.
  induction ss as [|s ss IH]; intros acc negs ss' rest x H J; cbn [place_negs] in H.
  - injection H as <- <-. split; auto.
  - set (fits := fun x : nat * rdf => forallb (fun r => memb r (acc ++ rs_rels s)) (sources (snd x))) in *.
    destruct (place_negs _ _ ss) as [ss1 rest1] eqn:R. injection H as <- <-.
    destruct (IH _ _ _ _ _ R J) as [K1 K2]. apply filter_In in K1. destruct K1 as [K1 K3]. split; auto. intros _ I.
    destruct ss as [|s2 ss].
    + cbn [flat_map] in I. rewrite app_nil_r in I. apply negb_true_iff in K3. unfold fits in *. match type of K3 with ?b = false => enough (T : b = true) by (rewrite T in K3; discriminate) end.
      apply forallb_forall. intros r Hr. apply memb_In. auto.
    + apply K2; [discriminate|]. cbn [flat_map] in *. rewrite <- app_assoc. exact I.
Qed.
