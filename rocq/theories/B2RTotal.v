(** Lowering a plan does not panic; used by C54 and C55. *)
From Coq Require Import List ZArith Bool Arith Lia Permutation.
From Verif Require Import Value Back Eval Ram Dataflow BackSem Scc SccFacts Plan PlanSem PlanFacts PlanFacts2
  VarTuple VarTupleFacts B2R RamSem B2RFacts B2RFacts2 B2RSpec B2RRule.
Import ListNotations.
Set Implicit Arguments.

Section Total.
  Variable C : cenv.
  Hypothesis SORT : forall l, Permutation (ce_sort C l) l.
  Hypothesis HASH : forall l, Permutation (ce_hash C l) l.

  (** The variables of the parts of a plan. *)
  Fixpoint pshape (p : plan) : Prop :=
    match p with
    | PUnit bv => bv = []
    | PGround bv a => incl bv (avars a)
    | PFilter bv q cs => incl bv (bvars q) /\ cs <> [] /\ (forall c, In c cs -> incl (con_vars c) (bvars q)) /\ pshape q
    | PProject bv q l => incl bv (bvars q ++ map fst l) /\ (forall x, In x l -> incl (aexpr_vars (snd x)) (bvars q)) /\ pshape q
    | PJoin bv q r => incl bv (bvars q ++ bvars r) /\ atom_bound q /\ atom_bound r /\ pshape q /\ pshape r
    | PAnti bv q r => incl bv (bvars q) /\ atom_bound q /\ atom_bound r /\ pshape q /\ pshape r
    | PReduce bv r => incl bv (leaves (reduce_goal r))
    | PFpGround bv a => exists cs vs, a_args a = map TConst cs ++ map TVar vs /\ length cs = ce_bounded C (a_pred a) /\ incl bv vs
    | PFpConstr bv q a => incl bv (bvars q) /\ incl (avars a) (bvars q) /\ pshape q
    | PFpJoin bv q a => exists bs vs, a_args a = bs ++ map TVar vs /\ length bs = ce_bounded C (a_pred a) /\
        incl (flat_map tvar bs) (bvars q) /\ incl bv (bvars q ++ vs) /\ pshape q
    end.

  Definition runs {A} (m : step A) : Prop := forall z, exists a z', m z = Some (a, z').
  Lemma runs_bind : forall A B (m : step A) (f : A -> step B), runs m -> (forall a, runs (f a)) -> runs (sbind m f).
  Proof. intros A B m f Hm Hf z. destruct (Hm z) as (a & z' & E). destruct (Hf a z') as (b & z2 & E2). exists b, z2. unfold sbind. rewrite E. exact E2. Qed.
  Lemma runs_opt : forall A (o : option A), (exists a, o = Some a) -> runs (sopt o).
  Proof. intros A o (a & ->) z. exists a, z. reflexivity. Qed.
  Lemma runs_bind_opt : forall A B (o : option A) (f : A -> step B), (exists a, o = Some a) -> (forall a, o = Some a -> runs (f a)) -> runs (sbind (sopt o) f).
  Proof. intros A B o f (a & Ea) Hf z. destruct (Hf a Ea z) as (b & z' & E). exists b, z'. unfold sbind, sopt. rewrite Ea. exact E. Qed.
  Lemma runs_ret : forall A (a : A), runs (sret a).
  Proof. intros A a z. exists a, z. reflexivity. Qed.
  Lemma runs_process : forall d pr, runs (process C d pr).
  Proof.
    intros d pr z. unfold process, create_ntemp, create_temp, sret. destruct (d_sorted pr), (d_neg pr), (d_inplace pr); eauto.
  Qed.
  Lemma runs_ntemp : forall d, runs (create_ntemp C d). Proof. intros d z. unfold create_ntemp. eauto. Qed.
  Lemma runs_temp : forall d, runs (create_temp C d). Proof. intros d z. unfold create_temp. eauto. Qed.
  Lemma runs_perm : forall p g, runs (add_perm p g). Proof. intros p g z. unfold add_perm. eauto. Qed.

  (** ** Tuples *)
  Lemma position_some : forall v args, In v (flat_map tvar args) -> exists i, position v args = Some i.
  Proof.
    induction args as [|[w|c] args IH]; intros H; cbn in *; [destruct H| |].
    - destruct (Nat.eqb_spec v w) as [->|]; [eauto|]. destruct H as [->|H]; [tauto|]. destruct (IH H) as [i ->]. cbn. eauto.
    - destruct (IH H) as [i ->]. cbn. eauto.
  Qed.
  Lemma permutation_some : forall g args, incl (leaves g) (flat_map tvar args) -> exists x, permutation g args = Some x.
  Proof.
    intros g args H. enough (K : forall visited, exists x, perm_helper g args visited = Some x).
    { unfold permutation. destruct (K []) as [x ->]. cbn. eauto. }
    revert H. induction g as [v|l IH] using gt_ind'; intros H visited.
    - cbn. destruct (@position_some v args) as [i ->]; [apply H; left; auto|]. cbn. destruct (memb i visited); eauto.
    - cbn [perm_helper]. match goal with |- exists x, obnd (?go l visited) _ = _ =>
        enough (K : forall visited, exists x, go l visited = Some x) by (destruct (K visited) as [x ->]; cbn; eauto) end.
      clear visited. cbn [leaves] in H. revert H. induction IH as [|e l He Hl IHl]; intros H visited; [eauto|].
      destruct (He (fun v Hv => H v (in_or_app _ _ _ (or_introl Hv))) visited) as [x Ex]. cbn [flat_map] in H.
      destruct (IHl (fun v Hv => H v (in_or_app _ _ _ (or_intror Hv))) (snd x)) as [y Ey]. rewrite Ex. cbn [obnd]. rewrite Ey. cbn. eauto.
  Qed.
  Lemma access_some : forall g v, gdepth g <= 3 -> In v (leaves g) -> exists e, access g v = Some e.
  Proof. intros g v D H. unfold access. destruct (@accessor_some g v D H) as (a & -> & _). eauto. Qed.
  Lemma term_some : forall g t, gdepth g <= 3 -> incl (tvar t) (leaves g) -> exists e, term_expr g t = Some e.
  Proof. intros g [v|c] D H; cbn; [apply access_some; auto; apply H; left; auto|eauto]. Qed.
  Lemma terms_some : forall g l, gdepth g <= 3 -> incl (flat_map tvar l) (leaves g) -> exists es, omap (term_expr g) l = Some es.
  Proof.
    intros g l D H. apply omap_total. intros t Ht. apply term_some; auto. intros v Hv. apply H, in_flat_map. eauto.
  Qed.
  Lemma con_some : forall g c, gdepth g <= 3 -> incl (con_vars c) (leaves g) -> exists e, con_expr g c = Some e.
  Proof.
    intros g [c a b|a] D H; cbn in *.
    - destruct (@term_some g a D) as [x ->]; [intros v Hv; apply H, in_or_app; auto|].
      destruct (@term_some g b D) as [y ->]; [intros v Hv; apply H, in_or_app; auto|]. cbn. eauto.
    - destruct (@term_some g a D) as [x ->]; [auto|]. cbn. eauto.
  Qed.
  Lemma cons_some : forall g cs, gdepth g <= 3 -> cs <> [] -> (forall c, In c cs -> incl (con_vars c) (leaves g)) -> exists e, cons_expr g cs = Some e.
  Proof.
    intros g cs D NE H. unfold cons_expr. destruct (omap_total (con_expr g) cs) as [es Ees]; [intros; apply con_some; auto|].
    rewrite Ees. cbn. destruct es as [|e es]; [|eauto]. destruct cs as [|c cs]; [tauto|]. apply omap_Forall2 in Ees. inversion Ees.
  Qed.
  Lemma aexpr_some : forall g e, gdepth g <= 3 -> incl (aexpr_vars e) (leaves g) -> exists x, aexpr_expr g e = Some x.
  Proof.
    intros g e D H. assert (K : forall t, (forall v, In v (tvar t) -> In v (aexpr_vars e)) -> exists x, term_expr g t = Some x).
    { intros t Ht. apply term_some; auto. intros v Hv. auto. }
    destruct e as [op a b|op a|c a b|f l|f l]; cbn [aexpr_expr aexpr_vars] in *.
    - destruct (K a) as [x ->]; [intros; apply in_or_app; auto|]. destruct (K b) as [y ->]; [intros; apply in_or_app; auto|]. cbn. eauto.
    - destruct (K a) as [x ->]; [auto|]. cbn. eauto.
    - destruct (K c) as [z ->]; [intros; rewrite ?in_app_iff; auto|]. destruct (K a) as [x ->]; [intros; rewrite ?in_app_iff; auto|].
      destruct (K b) as [y ->]; [intros; rewrite ?in_app_iff; auto|]. cbn. eauto.
    - destruct (@terms_some g l D H) as [es ->]. cbn. eauto.
    - destruct (@terms_some g l D H) as [es ->]. cbn. eauto.
  Qed.
  Lemma assigns_some : forall g l args, gdepth g <= 3 ->
    (forall v, In v (leaves args) -> In v (leaves g) \/ In v (map fst l)) -> (forall x, In x l -> incl (aexpr_vars (snd x)) (leaves g)) ->
    exists e, projection_assigns g args l = Some e.
  Proof.
    intros g l args D H HL. induction args as [v|ts IH] using gt_ind'; cbn [projection_assigns].
    - destruct (in_dec Nat.eq_dec v (leaves g)) as [J|J].
      + destruct (@accessor_some g v D J) as (a & -> & _). eauto.
      + rewrite (proj2 (accessor_none g v) J). destruct (H v) as [K|K]; [left; auto|tauto|]. destruct (last_assign_some _ _ K) as [e Ee].
        rewrite Ee. cbn. apply aexpr_some; auto. apply (HL (v, e)). apply last_assign_In; auto.
    - destruct (omap_total (fun x => projection_assigns g x l) ts) as [m Em]; [|rewrite Em; cbn; eauto].
      intros x Ix. rewrite Forall_forall in IH. apply IH; auto. intros v Hv. apply H. cbn. apply in_flat_map. eauto.
  Qed.
  Lemma unit_some : forall g, leaves g = [] -> exists u, unit_tuple g = Some u.
  Proof.
    induction g as [v|l IH] using gt_ind'; intros H; cbn in *; [discriminate|].
    destruct (omap_total unit_tuple l) as [m Em]; [|rewrite Em; cbn; eauto].
    intros x Ix. rewrite Forall_forall in IH. apply IH; auto. destruct (leaves x) as [|v vs] eqn:E; auto. exfalso.
    assert (K : In v (flat_map leaves l)) by (apply in_flat_map; exists x; rewrite E; cbn; auto). rewrite H in K. destruct K.
  Qed.
  Lemma depth_map : forall (l : list var), list_max (map gdepth (map GV l)) = 0.
  Proof. induction l; auto. Qed.
  Lemma list_max_app' : forall a b, list_max (a ++ b) = Nat.max (list_max a) (list_max b).
  Proof. apply list_max_app. Qed.
  Lemma expand_some : forall g vs, gdepth g <= 2 -> exists h, expand g vs = Some h /\ gdepth h <= 2.
  Proof.
    intros g vs D. unfold expand.
    destruct (omap_total (fun v => match accessor_of g v with EOk _ => Some [] | ENone => Some [GV v] | EPanic => None end) vs) as [m Em].
    { intros v Iv. destruct (in_dec Nat.eq_dec v (leaves g)) as [J|J].
      - destruct (@accessor_some g v) as (a & -> & _); [lia|auto|]. eauto.
      - rewrite (proj2 (accessor_none g v) J). eauto. }
    rewrite Em. cbn [obnd].
    assert (K : list_max (map gdepth (concat m)) = 0).
    { apply omap_Forall2 in Em. clear - Em. induction Em as [|v x vs m E F IH]; auto. cbn [concat]. rewrite map_app, list_max_app', IH.
      destruct (accessor_of g v); try discriminate; injection E as <-; reflexivity. }
    eexists. split; [reflexivity|]. destruct g as [v|l]; cbn [gdepth map] in *.
    - change (list_max (0 :: map gdepth (concat m))) with (Nat.max 0 (list_max (map gdepth (concat m)))). lia.
    - rewrite map_app, list_max_app'. lia.
  Qed.
  Lemma pair_depth : forall a b : gt var, gdepth a <= 1 -> gdepth b <= 1 -> gdepth (GT [a; b]) <= 2.
  Proof. intros a b Ha Hb. cbn. lia. Qed.
  Lemma subtuple_depth : forall g vs, gdepth (subtuple g vs) <= 1.
  Proof. intros. unfold subtuple. cbn [gdepth]. rewrite depth_map. lia. Qed.
  Lemma sub_tuple_depth : forall g p, gdepth (sub_tuple C g p) <= 1.
  Proof. intros. unfold sub_tuple. destruct (direct_atom p); [destruct (is_pure a)|]; apply subtuple_depth. Qed.
  Lemma one_or_tuple_depth : forall l, gdepth (one_or_tuple l) <= 1.
  Proof. intros [|v [|w l]]; cbn [one_or_tuple gdepth]; try lia; rewrite ?depth_map; lia. Qed.
  Lemma one_or_tuple_leaves : forall l, leaves (one_or_tuple l) = l.
  Proof. intros [|v [|w l]]; try reflexivity. unfold one_or_tuple. cbn [leaves]. apply leaves_map. Qed.

  (** ** Atoms *)
  Lemma runs_no_const : forall goal a pr, incl (leaves goal) (avars a) -> runs (no_const_ground C goal a pr).
  Proof.
    intros goal a pr H. unfold no_const_ground. destruct (matches goal (a_args a)); [apply runs_ret|].
    apply runs_bind; [apply runs_opt, permutation_some; exact H|]. intros g.
    destruct (atom_filter (a_args a)) as [f|]; destruct (d_sorted pr && negb (order_preserving g)); try apply runs_ret;
      apply runs_bind; try apply runs_perm; intros _; [destruct (d_neg pr); [apply runs_ntemp|apply runs_temp]|apply runs_ret].
  Qed.
  Lemma const_part_some : forall a, existsb is_const (a_args a) = true -> const_part a <> [].
  Proof.
    intros a H E. apply existsb_exists in H. destruct H as (t & It & Ht). destruct t as [v|c]; [discriminate|].
    apply In_nth_error in It. destruct It as [i Ei]. assert (K : In (i, c) (const_part a)) by (apply const_part_In; auto).
    rewrite E in K. destruct K.
  Qed.
  Lemma sub_atom_vars : forall a, avars (sub_atom C a) = sub_vars C a.
  Proof. intros a. unfold sub_atom, avars. cbn [a_args]. induction (sub_vars C a); cbn; congruence. Qed.
  Lemma sub_vars_avars : forall a, incl (avars a) (sub_vars C a).
  Proof.
    intros a v Hv. unfold avars in Hv. apply in_flat_map in Hv. destruct Hv as (t & It & Hv). destruct t as [w|c]; [|destruct Hv].
    destruct Hv as [->|[]]. apply In_nth_error in It. destruct It as [i Ei]. apply enum_In in Ei.
    apply in_map_iff. exists (i, TVar v). split; auto.
  Qed.
  Lemma sub_vars_const : forall a i c, In (i, c) (const_part a) -> In (ce_const C i c) (sub_vars C a).
  Proof.
    intros a i c H. apply const_part_In in H. apply enum_In in H. apply in_map_iff. exists (i, TConst c). auto.
  Qed.
  Lemma runs_ground : forall goal a pr, gdepth goal <= 2 -> incl (leaves goal) (avars a) -> runs (ground_df C goal a pr).
  Proof.
    intros goal a pr D H. unfold ground_df. destruct (a_args a) as [|x0 xs] eqn:Ea.
    - unfold empty_ground. destruct (matches goal (a_args a)); [apply runs_ret|]. apply runs_bind; [apply runs_opt|intros; apply runs_ret].
      apply projection_total; [cbn; lia|]. intros v Hv. apply H in Hv. unfold avars in Hv. rewrite Ea in Hv. exact Hv.
    - rewrite <- Ea. destruct (existsb is_const (a_args a)) eqn:Ec; [|apply runs_no_const; auto].
      pose proof (const_part_some _ Ec) as NC. destruct (ce_static C (a_pred a) && negb (upfront false (a_args a))).
      + unfold static_ground. apply runs_bind; [apply runs_no_const; rewrite from_vars_leaves, sub_atom_vars; intros v Hv; apply (proj1 (dedup_In _ _)) in Hv; exact Hv|].
        intros d. destruct (map _ (const_part a)) as [|e es] eqn:Em; [apply map_eq_nil in Em; tauto|].
        apply runs_bind; [apply runs_opt|intros; apply runs_process]. apply projection_total.
        * pose proof (from_vars_depth (sub_vars C a) true). lia.
        * rewrite from_vars_leaves. intros v Hv. apply dedup_In, sub_vars_avars, H, Hv.
      + unfold dynamic_ground. assert (DL : leaves (dynamic_goal C a) = map (fun x => ce_const C (fst x) (snd x)) (const_part a) ++ avars a).
        { unfold dynamic_goal. cbn [leaves flat_map]. rewrite !one_or_tuple_leaves, app_nil_r. reflexivity. }
        apply runs_bind; [apply runs_no_const|].
        * rewrite DL, sub_atom_vars. intros v Hv. apply in_app_iff in Hv. destruct Hv as [Hv|Hv]; [|apply sub_vars_avars; auto].
          apply in_map_iff in Hv. destruct Hv as ([i c] & <- & Hv). apply sub_vars_const; auto.
        * intros d. apply runs_bind; [apply runs_opt|intros; apply runs_process]. apply projection_total.
          -- pose proof (one_or_tuple_depth (map (fun x => ce_const C (fst x) (snd x)) (const_part a))). pose proof (one_or_tuple_depth (avars a)).
             pose proof (pair_depth _ _ H0 H1). unfold dynamic_goal. lia.
          -- rewrite DL. intros v Hv. apply in_or_app. right. auto.
  Qed.

  (** ** The other nodes *)
  Definition total (p : plan) (s : sub) : Prop := forall goal pr, gdepth goal <= 2 -> incl (leaves goal) (bvars p) -> runs (s goal pr).
  Lemma uniq_In : forall vs v, In v (uniq C vs) <-> In v vs.
  Proof.
    intros vs v. unfold uniq. rewrite <- (dedup_In vs v). split; apply Permutation_in; [|apply Permutation_sym]; apply SORT.
  Qed.
  Lemma from_sort_In : forall l b v, In v (leaves (from_vars (ce_sort C l) b)) <-> In v l.
  Proof. intros. apply from_sort_leaves; auto. Qed.
  Lemma runs_project : forall q s l, total q s -> (forall x, In x l -> incl (aexpr_vars (snd x)) (bvars q)) ->
    forall goal pr n, gdepth goal <= 2 -> incl (leaves goal) (bvars q ++ map fst l) -> runs (project_df C (S (S n)) s (bvars q) l goal pr).
  Proof.
    intros q s l Ts HL goal pr n D H.
    assert (ONE : forall fuel l goal pr, gdepth goal <= 2 -> incl (leaves goal) (bvars q) -> runs (project_df C fuel s (bvars q) l goal pr)).
    { intros fuel l' goal' pr' D' H'. destruct fuel; cbn [project_df].
      all: replace (filter (fun v => negb (memb v (bvars q))) (variables goal')) with (@nil var); [apply Ts; auto|].
      all: symmetry; destruct (filter _ _) as [|v vs] eqn:E; auto; exfalso.
      all: assert (K : In v (filter (fun v => negb (memb v (bvars q))) (variables goal'))) by (rewrite E; left; auto).
      all: apply filter_In in K; rewrite variables_In, negb_true_iff, memb_nIn in K; destruct K as [K1 K2]; apply K2, H', K1. }
    change (project_df C (S (S n)) s (bvars q) l goal pr) with
      (let to_bound := filter (fun v => negb (memb v (bvars q))) (variables goal) in
       match to_bound with
       | [] => s goal pr
       | _ :: _ => match l with
          | [] => sopt None
          | _ :: _ =>
            let cur := filter (fun x => memb (fst x) to_bound) l in
            let rest := filter (fun x => negb (memb (fst x) to_bound)) l in
            let sub_goal := from_vars (ce_hash C (filter (fun v => memb v (bvars q)) (variables goal))
                                       ++ flat_map (fun x => aexpr_vars (snd x)) cur) false in
            d <- project_df C (S n) s (bvars q) rest sub_goal (with_sorted false pr) ;;
            pe <- sopt (projection_assigns sub_goal goal cur) ;;
            process C (RProject d pe) pr
          end
       end).
    cbv zeta. set (tb := filter (fun v => negb (memb v (bvars q))) (variables goal)). set (cur := filter (fun x => memb (fst x) tb) l).
    assert (TB : forall v, In v tb <-> In v (leaves goal) /\ ~ In v (bvars q)).
    { intros v. unfold tb. rewrite filter_In, variables_In, negb_true_iff, memb_nIn. tauto. }
    set (sg := from_vars (ce_hash C (filter (fun v => memb v (bvars q)) (variables goal)) ++ flat_map (fun x => aexpr_vars (snd x)) cur) false).
    assert (SG : forall v, In v (leaves sg) <-> (In v (leaves goal) /\ In v (bvars q)) \/ exists x, In x cur /\ In v (aexpr_vars (snd x))).
    { intros v. unfold sg. rewrite from_vars_leaves. rewrite (dedup_In _ v), in_app_iff, in_flat_map.
      assert (HI : In v (ce_hash C (filter (fun v => memb v (bvars q)) (variables goal))) <-> In v (filter (fun v => memb v (bvars q)) (variables goal))).
      { split; apply Permutation_in; [|apply Permutation_sym]; apply HASH. }
      rewrite HI, filter_In, variables_In, memb_In. tauto. }
    assert (CB : forall x, In x cur -> In x l) by (intros x Hx; apply filter_In in Hx; tauto).
    destruct tb as [|t0 tb0] eqn:Et.
    - apply Ts; auto. intros v Hv. destruct (in_dec Nat.eq_dec v (bvars q)) as [|K]; auto. destruct (proj2 (TB v) (conj Hv K)).
    - destruct l as [|l0 ls].
      + exfalso. destruct (proj1 (TB t0) (or_introl eq_refl)) as [K1 K2]. apply K2. specialize (H _ K1). cbn in H. rewrite app_nil_r in H. exact H.
      + set (l := l0 :: ls) in *. apply runs_bind.
        * apply ONE; [pose proof (from_vars_depth (ce_hash C (filter (fun v => memb v (bvars q)) (variables goal)) ++ flat_map (fun x => aexpr_vars (snd x)) cur) false); unfold sg; lia|].
          intros v Hv. apply SG in Hv. destruct Hv as [[_ Hv]|(x & Ix & Hv)]; auto. eapply HL; eauto.
        * intros d. apply runs_bind; [apply runs_opt|intros; apply runs_process]. apply assigns_some.
          -- pose proof (from_vars_depth (ce_hash C (filter (fun v => memb v (bvars q)) (variables goal)) ++ flat_map (fun x => aexpr_vars (snd x)) cur) false). unfold sg. lia.
          -- intros v Hv. destruct (in_dec Nat.eq_dec v (bvars q)) as [K|K]; [left; apply SG; auto|]. right.
             specialize (H v Hv). apply in_app_iff in H. destruct H as [H|H]; [tauto|]. apply in_map_iff in H. destruct H as (x & <- & Ix).
             apply in_map. apply filter_In. split; auto. apply memb_In, TB. auto.
          -- intros x Ix v Hv. apply SG. right. eauto.
  Qed.

  Lemma own_depth : forall goal bv jv, gdepth (own_vars C goal bv jv) <= 1.
  Proof. intros. apply from_vars_depth. Qed.
  Lemma inter_goal_In : forall p q goal, atom_bound p -> atom_bound q -> (forall v, In v (bvars p) <-> In v (bvars q)) -> incl (leaves goal) (bvars p) ->
    gdepth goal <= 2 -> gdepth (inter_goal C p q goal) <= 2 /\ incl (leaves (inter_goal C p q goal)) (bvars p) /\ incl (leaves goal) (leaves (inter_goal C p q goal)).
  Proof.
    intros p q goal [_ Ap] [_ Aq] S G D. unfold inter_goal.
    destruct (direct_atom p) as [a|]; [|destruct (direct_atom q) as [a|]; [|split; [auto|split; [auto|apply incl_refl]]]].
    - split; [etransitivity; [apply from_vars_depth|lia]|]. split; intros v Hv.
      + rewrite from_vars_leaves in Hv. apply (proj1 (dedup_In _ _)) in Hv. apply (proj1 (uniq_In _ _)) in Hv. apply (Ap a eq_refl), Hv.
      + rewrite from_vars_leaves. apply dedup_In, uniq_In, (Ap a eq_refl), G, Hv.
    - split; [etransitivity; [apply from_vars_depth|lia]|]. split; intros v Hv.
      + rewrite from_vars_leaves in Hv. apply (proj1 (dedup_In _ _)) in Hv. apply (proj1 (uniq_In _ _)) in Hv. apply S, (Aq a eq_refl), Hv.
      + rewrite from_vars_leaves. apply dedup_In, uniq_In, (Aq a eq_refl), S, G, Hv.
  Qed.
  Lemma proj3_depth : forall a b c : gt var, gdepth a <= 1 -> gdepth b <= 1 -> gdepth c <= 1 -> gdepth (GT [a; b; c]) <= 3.
  Proof. intros a b c Ha Hb Hc. cbn. lia. Qed.

  Lemma runs_plan : forall p, pshape p -> total p (plan_df C p).
  Proof.
    induction p as [bv|bv r|bv a|bv p IH l|bv p IH cs|bv p1 IH1 p2 IH2|bv p1 IH1 p2 IH2|bv a|bv p IH a|bv p IH a]; intros S goal pr D G; cbn [pshape bvars] in S, G; cbn [plan_df].
    - subst bv. apply runs_bind; [apply runs_opt, unit_some|intros; apply runs_ret]. destruct (leaves goal) as [|v l]; auto. destruct (G v (or_introl eq_refl)).
    - apply runs_bind; [apply runs_opt, projection_total|intros; apply runs_process]; [|eapply incl_tran; eauto].
      unfold reduce_goal. pose proof (from_vars_depth (rd_left r) true). pose proof (from_vars_depth (rd_group r) true). pose proof (from_vars_depth (rd_other r) true).
      destruct (rd_group r) eqn:Eg; [lia|]. rewrite <- Eg in *. destruct (rd_groupby r); [apply proj3_depth; auto|]. etransitivity; [apply pair_depth; auto|lia].
    - apply runs_ground; auto. eapply incl_tran; eauto.
    - destruct S as (S1 & S2 & S3). apply runs_project; auto. eapply incl_tran; eauto.
    - destruct S as (S1 & S2 & S3 & S4). unfold filter_df. destruct (@expand_some goal (flat_map (fun c => uniq C (con_vars c)) cs) D) as (g & Eg & Dg).
      destruct (@expand_leaves _ _ _ Eg) as (l & L1 & L2 & L3 & _). apply runs_bind_opt; [eauto|]. intros g' Eg'.
      assert (g' = g) as -> by congruence. apply runs_bind; [apply IH; auto|].
      + rewrite L1. intros v Hv. apply in_app_iff in Hv. destruct Hv as [Hv|Hv]; auto. apply L2 in Hv. apply in_flat_map in Hv.
        destruct Hv as (c & Ic & Hv). apply (proj1 (uniq_In _ _)) in Hv. eapply S3; eauto.
      + intros d. apply runs_bind; [apply runs_opt, cons_some; [lia|auto|]|].
        * intros c Ic v Hv. rewrite L1. apply in_or_app. apply L3. apply in_flat_map. exists c. split; auto. apply uniq_In; auto.
        * intros e. apply runs_bind; [apply runs_opt, projection_total; [lia|]|intros; apply runs_process]. rewrite L1. intros v Hv. apply in_or_app; auto.
    - destruct S as (S1 & S2 & S3 & S4 & S5). assert (G' : incl (leaves goal) (bvars p1 ++ bvars p2)) by (eapply incl_tran; eauto).
      unfold join_plan_df. destruct (join_vars p1 p2) as [|j0 js] eqn:Ej.
      + unfold product_df. pose proof (sub_tuple_depth goal p1). pose proof (sub_tuple_depth goal p2).
        apply runs_bind; [apply IH1; [solve [auto]|lia|intros v Hv; apply sub_tuple_leaves in Hv; tauto]|]. intros d1.
        apply runs_bind; [apply IH2; [solve [auto]|lia|intros v Hv; apply sub_tuple_leaves in Hv; tauto]|]. intros d2.
        apply runs_bind; [apply runs_opt, projection_total|intros; apply runs_process].
        * pose proof (pair_depth _ _ H H0). lia.
        * intros v Hv. cbn [leaves flat_map]. rewrite app_nil_r, in_app_iff. pose proof (G' v Hv) as K. apply in_app_iff in K.
          destruct K as [K|K]; [left|right]; apply sub_tuple_leaves; auto.
      + clear Ej. destruct (set_eqb (bvars p1) (bvars p2)) eqn:Es.
        * pose proof (proj1 (set_eqb_spec _ _) Es) as Es2. clear Es. rename Es2 into Es. unfold intersect_df.
          destruct (@inter_goal_In p1 p2 goal S2 S3 Es) as (I1 & I2 & I3); auto.
          { intros v Hv. apply G' in Hv. apply in_app_iff in Hv. destruct Hv as [Hv|Hv]; auto. apply Es; auto. }
          apply runs_bind; [apply IH1; auto|]. intros d1. apply runs_bind; [apply IH2; auto; intros v Hv; apply Es, I2, Hv|]. intros d2.
          destruct (gt_eqb _ goal); [apply runs_ret|]. apply runs_bind; [apply runs_opt, projection_total; [lia|auto]|intros; apply runs_process].
        * unfold join_df. pose proof (from_vars_depth (ce_sort C (join_vars p1 p2)) true) as DK.
          pose proof (own_depth goal (bvars p1) (join_vars p1 p2)) as D1. pose proof (own_depth goal (bvars p2) (join_vars p1 p2)) as D2.
          apply runs_bind; [apply IH1; [solve [auto]|apply pair_depth; auto|]|].
          { intros v Hv. apply key_leaves in Hv; auto. rewrite join_vars_In in Hv. tauto. }
          intros d1. apply runs_bind; [apply IH2; [solve [auto]|apply pair_depth; auto|]|].
          { intros v Hv. apply key_leaves in Hv; auto. rewrite join_vars_In in Hv. tauto. }
          intros d2. apply runs_bind; [apply runs_opt, projection_total; [apply proj3_depth; auto|]|intros; apply runs_process].
          intros v Hv. cbn [leaves flat_map]. rewrite app_nil_r, !in_app_iff, from_sort_In, !own_vars_leaves by auto.
          pose proof (G' v Hv) as K. apply in_app_iff in K. destruct (in_dec Nat.eq_dec v (join_vars p1 p2)); tauto.
    - destruct S as (S1 & S2 & S3 & S4 & S5). assert (G' : incl (leaves goal) (bvars p1)) by (eapply incl_tran; eauto).
      unfold anti_plan_df. destruct (set_eqb (bvars p1) (bvars p2)) eqn:Es.
      + pose proof (proj1 (set_eqb_spec _ _) Es) as Es2. clear Es. rename Es2 into Es. unfold difference_df. destruct (@inter_goal_In p1 p2 goal S2 S3 Es G' D) as (I1 & I2 & I3).
        apply runs_bind; [apply IH1; auto|]. intros d1. apply runs_bind; [apply IH2; auto; intros v Hv; apply Es, I2, Hv|]. intros d2.
        destruct (gt_eqb _ goal); [apply runs_ret|]. apply runs_bind; [apply runs_opt, projection_total; [lia|auto]|intros; apply runs_process].
      + unfold antijoin_df. pose proof (from_vars_depth (ce_sort C (join_vars p1 p2)) true) as DK.
        pose proof (own_depth goal (bvars p1) (join_vars p1 p2)) as D1. pose proof (pair_depth _ _ DK D1) as DP.
        apply runs_bind; [apply IH1; auto|].
        { intros v Hv. apply key_leaves in Hv; auto. rewrite join_vars_In in Hv. tauto. }
        intros d1. apply runs_bind; [apply IH2; [solve [auto]|lia|]|].
        { intros v Hv. apply (proj1 (from_sort_In _ _ _)) in Hv. rewrite join_vars_In in Hv. tauto. }
        intros d2. apply runs_bind; [apply runs_opt, projection_total; [lia|]|intros; apply runs_process].
        intros v Hv. apply key_leaves; auto. pose proof (G' v Hv). destruct (in_dec Nat.eq_dec v (join_vars p1 p2)); tauto.
    - destruct S as (cs & vs & Ea & Lc & S). unfold fp_ground_df, fp_split. cbn [fst snd]. rewrite Ea, <- Lc.
      rewrite <- (map_length TConst cs). rewrite firstn_app, skipn_app, firstn_all, skipn_all, Nat.sub_diag. cbn [firstn skipn app]. rewrite app_nil_r.
      apply runs_bind; [apply runs_opt, omap_total; intros t Ht; apply in_map_iff in Ht; destruct Ht as (c & <- & _); cbn; eauto|]. intros ins.
      apply runs_bind_opt; [apply omap_total; intros t Ht; apply in_map_iff in Ht; destruct Ht as (c & <- & _); cbn; eauto|].
      intros ws Ew. apply as_var_map in Ew. assert (ws = vs) as ->.
      { clear - Ew. revert ws Ew. induction vs as [|v vs IH]; intros [|w ws] E; cbn in E; try discriminate; auto. injection E as -> E. f_equal; auto. }
      apply runs_bind; [apply runs_opt, projection_total|intros; apply runs_process].
      + pose proof (from_vars_depth vs false). lia.
      + rewrite from_vars_leaves. intros v Hv. apply dedup_In, S, G, Hv.
    - destruct S as (S1 & S2 & S3). unfold fp_constr_df. pose proof (from_vars_depth (ce_hash C (bvars p)) false) as DH.
      apply runs_bind; [apply IH; [solve [auto]|lia|intros v Hv; apply hash_leaves in Hv; auto]|]. intros d.
      apply runs_bind; [apply runs_opt, terms_some; [lia|intros v Hv; apply hash_leaves; auto]|]. intros es.
      apply runs_bind; [apply runs_opt, projection_total; [lia|intros v Hv; apply hash_leaves; auto]|intros; apply runs_process].
    - destruct S as (bs & vs & Ea & Lb & S1 & S2 & S3). unfold fp_join_df, fp_split. cbn [fst snd]. rewrite Ea, <- Lb.
      rewrite firstn_app, skipn_app, firstn_all, skipn_all, Nat.sub_diag. cbn [firstn skipn app]. rewrite app_nil_r.
      pose proof (from_vars_depth (ce_hash C (bvars p)) false) as DH. pose proof (from_vars_depth vs false) as DV.
      apply runs_bind; [apply IH; [solve [auto]|lia|intros v Hv; apply hash_leaves in Hv; auto]|]. intros d.
      apply runs_bind; [apply runs_opt, terms_some; [lia|intros v Hv; apply hash_leaves; auto]|]. intros es.
      apply runs_bind_opt; [apply omap_total; intros t Ht; apply in_map_iff in Ht; destruct Ht as (c & <- & _); cbn; eauto|].
      intros ws Ew. apply as_var_map in Ew. assert (ws = vs) as ->.
      { clear - Ew. revert ws Ew. induction vs as [|v vs IH]; intros [|w ws] E; cbn in E; try discriminate; auto. injection E as -> E. f_equal; auto. }
      apply runs_bind; [apply runs_opt, projection_total|intros; apply runs_process].
      + pose proof (pair_depth _ _ DH DV). lia.
      + intros v Hv. cbn [leaves flat_map]. rewrite app_nil_r, in_app_iff, hash_leaves, from_vars_leaves by auto.
        rewrite (dedup_In vs v). apply in_app_iff, S2, G, Hv.
  Qed.

  (** ** Heads *)
  Definition head_fits (h : atom) : Prop :=
    match ce_shape C (a_pred h) with SPlain => True | SBody n | SGroup n => n <= length (avars h) end.
  Lemma runs_update : forall h p inplace, pshape p -> head_fits h -> incl (avars h) (bvars p) -> runs (update_df C h p inplace).
  Proof.
    intros h p inplace S HF HI. unfold update_df.
    assert (HT : exists x, head_tuple C h = Some x).
    { unfold head_fits in HF. unfold head_tuple, cut. destruct (ce_shape C (a_pred h)) as [|n|n]; [eauto| |].
      - destruct n as [|n]; [eauto|]. destruct (Nat.leb_spec (Datatypes.S n) (length (avars h))); [cbn; eauto|lia].
      - destruct (Nat.leb_spec n (length (avars h))); [cbn; eauto|lia]. }
    apply runs_bind_opt; [exact HT|]. intros [g c] Eg. cbn [fst snd]. pose proof (head_tuple_vars C h Eg) as HV.
    assert (DG : gdepth (gdedup g) <= 1) by apply from_vars_depth.
    apply runs_bind; [apply runs_plan; [exact S|lia|]|].
    - intros v Hv. apply HI, HV, gdedup_incl, Hv.
    - intros d. apply runs_bind; [|intros; apply runs_ret]. destruct c; [|destruct (gt_eqb g (gdedup g)); [apply runs_ret|]].
      + apply runs_bind; [apply runs_opt|intros; apply runs_ret]. unfold head_proj.
        destruct (@terms_some (gdedup g) (a_args h)) as [es ->]; [lia| |cbn; eauto].
        intros v Hv. apply gdedup_incl, HV, Hv.
      + apply runs_bind; [apply runs_opt, projection_total|intros; apply runs_ret]; [lia|]. intros v Hv. apply gdedup_incl, Hv.
  Qed.
End Total.

(** ** The plans of rules *)
Section Shape.
  Variables (C : cenv) (N : penv) (g : registry) (body : list lit) (q : qctx).
  Hypothesis QO : q_ok N body q.
  Hypothesis BOUND : forall a, In (LAtom a) body -> pe_foreign N (a_pred a) = true ->
    ce_bounded C (a_pred a) = pe_bounded N (a_pred a) /\ pe_bounded N (a_pred a) <= length (a_args a).
  Hypothesis RED : forall r, In (LReduce r) body -> rd_arg r = [] /\ rd_other r = [].
  Notation built := (built N q).

  Lemma fp_length : forall a, In a (q_fp q) -> length (fp_bound N a) = ce_bounded C (a_pred a).
  Proof. intros a H. apply (qo_fp QO) in H. destruct H as [H F]. destruct (BOUND _ H F) as [-> L]. unfold fp_bound. apply firstn_length_le; auto. Qed.
  Lemma fp_ground_shape : forall a, In a (q_fp q) -> forallb is_const (fp_bound N a) = true -> pshape C (fp_ground N a).
  Proof.
    intros a J Ga. unfold fp_ground. destruct (rename_free N a []) as [vs es] eqn:R. unfold rename_free in R. cbn [map] in R.
    assert (G : pshape C (PFpGround (dedup vs) (mkAtom (a_pred a) (fp_bound N a ++ map TVar vs)))).
    { cbn [pshape a_args a_pred]. destruct (consts_split _ Ga) as [cs Ecs]. exists cs, vs. rewrite <- Ecs. split; auto.
      split; [rewrite <- (fp_length _ J), Ecs, map_length; auto|]. intros v Iv; exact (proj1 (dedup_In _ _) Iv). }
    destruct (const_cons N (a_pred a) (fp_free N a) ++ eq_cons es) as [|c0 cs0] eqn:E; [exact G|]. rewrite <- E.
    assert (NE : const_cons N (a_pred a) (fp_free N a) ++ eq_cons es <> []) by (rewrite E; discriminate). clear E.
    change (incl (dedup (fp_free_vars N a)) (dedup vs) /\ const_cons N (a_pred a) (fp_free N a) ++ eq_cons es <> [] /\
      (forall c, In c (const_cons N (a_pred a) (fp_free N a) ++ eq_cons es) -> incl (con_vars c) (dedup vs)) /\
      pshape C (PFpGround (dedup vs) (mkAtom (a_pred a) (fp_bound N a ++ map TVar vs)))).
    split; [|split; [exact NE|split; [|exact G]]].
    - intros v Iv. apply (proj1 (dedup_In _ _)) in Iv. apply dedup_In. eapply rename_var; eauto.
    - intros c Ic v Iv. apply dedup_In. apply in_app_iff in Ic. destruct Ic as [Ic|Ic].
      + apply const_cons_In in Ic. destruct Ic as (i & d & Id & ->). cbn in Iv. destruct Iv as [<-|[]]. eapply rename_consts; eauto.
      + unfold eq_cons in Ic. apply in_map_iff in Ic. destruct Ic as ([o n] & <- & Ic). destruct (@rename_eqs N _ _ _ _ _ R _ _ Ic) as [K1 K2].
        cbn in Iv. destruct Iv as [<-|[<-|[]]]; auto. destruct K2 as [K2|(v & k & K2)]; [auto|discriminate].
  Qed.
  Lemma fp_join_shape : forall p a, In a (q_fp q) -> incl (flat_map tvar (fp_bound N a)) (bvars p) -> pshape C p -> pshape C (fp_join N p a).
  Proof.
    intros p a J IB Hp. unfold fp_join. destruct (rename_free N a (bvars p)) as [vs es] eqn:R. unfold rename_free in R.
    assert (G : pshape C (PFpJoin (vunion (bvars p) vs) p (mkAtom (a_pred a) (fp_bound N a ++ map TVar vs)))).
    { cbn [pshape a_args a_pred]. exists (fp_bound N a), vs. split; auto. split; [apply fp_length; auto|]. split; [exact IB|].
      split; [|exact Hp]. intros v Iv. apply (proj1 (vunion_In _ _ _)) in Iv. apply in_or_app. exact Iv. }
    destruct (const_cons N (a_pred a) (fp_free N a) ++ eq_cons es) as [|c0 cs0] eqn:E; [exact G|]. rewrite <- E.
    assert (NE : const_cons N (a_pred a) (fp_free N a) ++ eq_cons es <> []) by (rewrite E; discriminate). clear E.
    change (incl (vunion (bvars p) (fp_free_vars N a)) (vunion (bvars p) vs) /\ const_cons N (a_pred a) (fp_free N a) ++ eq_cons es <> [] /\
      (forall c, In c (const_cons N (a_pred a) (fp_free N a) ++ eq_cons es) -> incl (con_vars c) (vunion (bvars p) vs)) /\
      pshape C (PFpJoin (vunion (bvars p) vs) p (mkAtom (a_pred a) (fp_bound N a ++ map TVar vs)))).
    split; [|split; [exact NE|split; [|exact G]]].
    - intros v Iv. apply (proj1 (vunion_In _ _ _)) in Iv. apply vunion_In. destruct Iv as [Iv|Iv]; auto.
      destruct (mget v (map (fun v => (v, (v, 0))) (bvars p))) as [x|] eqn:Gv; [left; eapply mget_in; eauto|right; eapply rename_var; eauto].
    - intros c Ic v Iv. apply vunion_In. apply in_app_iff in Ic. destruct Ic as [Ic|Ic].
      + apply const_cons_In in Ic. destruct Ic as (i & d & Id & ->). cbn in Iv. destruct Iv as [<-|[]]. right. eapply rename_consts; eauto.
      + unfold eq_cons in Ic. apply in_map_iff in Ic. destruct Ic as ([o n] & <- & Ic). destruct (@rename_eqs N _ _ _ _ _ R _ _ Ic) as [K1 K2].
        cbn in Iv. destruct Iv as [<-|[<-|[]]]; auto. destruct K2 as [K2|(v & k & K2)]; auto. left.
        rewrite (mget_self _ _ K2). eapply mget_in; eauto.
  Qed.
  Lemma built_shape : forall L p, built L p -> pshape C p.
  Proof.
    induction 1 as [|a J|r J|a J Ga|L p f bv l H1 IH E HX Ebv|L p f cs H1 IH E HX NE|L p L' r H1 IH1 H2 IH2|L p bv a H1 IH J Nb Eb Ia|L p a H1 IH J Ia|L p a H1 IH J Ia].
    - reflexivity.
    - cbn. intros v Iv. exact (proj1 (dedup_In _ _) Iv).
    - apply (qo_red QO) in J. destruct (RED _ J) as [E1 E2]. cbn. intros v Iv. apply (proj1 (dedup_In _ _)) in Iv. unfold reduce_vars in Iv. rewrite E1 in Iv. cbn in Iv.
      unfold reduce_goal. destruct (rd_group r) as [|x xs] eqn:Eg; [rewrite app_nil_r in Iv; rewrite from_vars_leaves; apply dedup_In; auto|]. rewrite <- Eg in *.
      destruct (rd_groupby r); cbn [leaves flat_map]; rewrite !from_vars_leaves, ?in_app_iff, ?app_nil_r, ?in_app_iff;
        rewrite (dedup_In (rd_group r) v), (dedup_In (rd_left r) v); apply in_app_iff in Iv; tauto.
    - apply fp_ground_shape; auto.
    - cbn. subst bv. split; [intros v Iv; apply (proj1 (vunion_In _ _ _)) in Iv; apply in_or_app; auto|]. split; auto. intros x Ix. apply HX; auto.
    - cbn. split; [apply incl_refl|]. auto.
    - cbn. split; [intros v Iv; apply (proj1 (vunion_In _ _ _)) in Iv; apply in_or_app; auto|].
      split; [eapply built_atom; eauto|]. split; [eapply built_atom; eauto|]. auto.
    - cbn. split; [intros v Iv; apply Eb; auto|]. split; auto. intros v Iv. apply Eb; auto.
    - apply fp_join_shape; auto.
    - cbn. split; [apply incl_refl|]. split; [eapply built_atom; eauto|]. split; [split; [apply dedup_NoDup|]|split; [auto|]].
      + intros a' E v. injection E as <-. symmetry. apply dedup_In.
      + intros v Iv. exact (proj1 (dedup_In _ _) Iv).
  Qed.
End Shape.
