(** Properties C21, C22, C23, C43: decision diagrams and weighted model
    counting. *)
From Coq Require Import List Arith Bool Lia Ring QArith Qcanon.
From Verif Require Import Order OSet ListAux VTree VTreeFacts VTreeBuild Formula FormulaFacts Sdd SddFacts SddBuild SddWmc.
Import ListNotations.
Set Implicit Arguments.
Local Close Scope Q_scope.
Local Open Scope nat_scope.

(** ** Specification *)

(** [bf_sem w f] (SddBuild) is the truth value of [f] under [w].  The weighted
    model count is written out as a sum over the list of all assignments. *)
Fixpoint worlds (vars : list nat) : list (list (nat * bool)) :=
  match vars with
  | [] => [[]]
  | v :: r => map (cons (v, true)) (worlds r) ++ map (cons (v, false)) (worlds r)
  end.
Definition asg (a : list (nat * bool)) (w : nat -> bool) : nat -> bool :=
  fold_left (fun w p => upd w (fst p) (snd p)) a w.
Section Count.
  Variables (S : semiring) (wt : nat -> sr_t S).
  Definition lweight (p : nat * bool) : sr_t S := if snd p then wt (fst p) else sr_negate S (wt (fst p)).
  Definition weight (a : list (nat * bool)) : sr_t S := fold_right (fun p x => sr_mult S (lweight p) x) (sr_one S) a.
  Definition sum (l : list (sr_t S)) : sr_t S := fold_right (sr_add S) (sr_zero S) l.
  (** the sum, over all assignments of [vars] satisfying [F], of the product of
      the weights of the literals *)
  Definition count (vars : list nat) (F : (nat -> bool) -> bool) : sr_t S :=
    sum (map weight (filter (fun a => F (asg a (fun _ => false))) (worlds vars))).
End Count.

(** ** from the recursive sum to the explicit one *)
Section CountFacts.
  Variables (S : semiring) (RL : ring_like S) (wt : nat -> sr_t S).
  Add Ring RR2 : (rl_ring RL).
  Lemma sum_app : forall a b : list (sr_t S), sum S (a ++ b) = sr_add S (sum S a) (sum S b).
  Proof. induction a; intros; simpl; [ring|]. rewrite IHa. ring. Qed.
  Lemma sum_scale : forall c (l : list (sr_t S)), sum S (map (sr_mult S c) l) = sr_mult S c (sum S l).
  Proof. induction l; simpl; [ring|]. rewrite IHl. ring. Qed.
  Lemma filter_map_cons : forall (x : nat * bool) (P : list (nat * bool) -> bool) l,
    filter P (map (cons x) l) = map (cons x) (filter (fun a => P (x :: a)) l).
  Proof. induction l; simpl; auto. destruct (P (x :: a)); simpl; congruence. Qed.
  Lemma filter_app' : forall A (P : A -> bool) a b, filter P (a ++ b) = filter P a ++ filter P b.
  Proof. induction a; simpl; intros; auto. destruct (P a); simpl; rewrite IHa; auto. Qed.
  Lemma wsum_count : forall vars F w,
    wsum S wt vars F w = sum S (map (weight S wt) (filter (fun a => F (asg a w)) (worlds vars))).
  Proof.
    induction vars as [|v vars IH]; intros F w.
    - simpl. destruct (F w); simpl; ring.
    - cbn [wsum worlds]. rewrite filter_app', !filter_map_cons, map_app, sum_app, !map_map, !IH.
      rewrite <- !sum_scale, !map_map. reflexivity.
  Qed.
End CountFacts.

(** ** the store after a build *)
Lemma hT_lt : forall vt T fuel, vt_ok vt T -> length (vt_vars vt) < fuel -> hT T < fuel.
Proof.
  intros vt T fuel OK L. unfold hT. pose proof (ok_vars OK) as E. destruct T as [t|]; [|lia].
  pose proof (height_vars t). rewrite E in H. lia.
Qed.

Lemma start : forall vars ty, NoDup vars -> (vars <> [] \/ ty = VTBalanced) ->
  exists vt T B st, new_with_type vars ty = Some vt /\ vt_vars vt = vars /\ with_config vt = Some (B, st) /\
    b_vt B = vt /\ vt_ok (b_vt B) T /\ Inv B T st /\
    (forall v, In v (vt_vars (b_vt B)) -> exists i, mget (b_pos B) v = Some i /\ i < size_of st /\ forall w, V st w i = w v) /\
    (forall v, In v (vt_vars (b_vt B)) -> exists i, mget (b_negv B) v = Some i /\ i < size_of st /\ forall w, V st w i = negb (w v)).
Proof.
  intros vars ty N NE. destruct (new_with_type_ok N NE) as (vt & T & E & OK & VV).
  destruct (with_config_ok OK) as (B & st & EC & EB & I & HP & HN & LP & LN).
  exists vt, T, B, st. split; auto. split; auto. split; auto. split; auto. rewrite EB. split; auto. split; auto.
  split; intros v Hv; [destruct (HP v Hv) as (i & M & W)|destruct (HN v Hv) as (i & M & W)]; exists i; eauto.
Qed.

Lemma gc_ok : forall B T st roots, Inv B T st -> (forall r, In r roots -> r < size_of st) ->
  exists ns, garbage_collect (s_nodes st) roots = Some ns /\ length ns = size_of st /\
    forall r j, In r roots -> reach (s_nodes st) r j -> get_node ns j = get_node (s_nodes st) j.
Proof.
  intros B T st roots I H. destruct roots as [|r0 rs] eqn:ER.
  - exists (s_nodes st). split; auto.
  - rewrite <- ER in *.
    assert (C : forall i cs p s, get_node (s_nodes st) i = Some (SOr cs) -> In (p, s) cs ->
              get_node (s_nodes st) p <> None /\ get_node (s_nodes st) s <> None).
    { intros i cs p s E Hin. destruct (I_or I _ E) as (id & l & r & k & _ & _ & Cc & _).
      destruct (Cc p s Hin) as (_ & _ & [Lp _] & [Ls _]).
      destruct (I_nodes I Lp) as (x & Ex). destruct (I_nodes I Ls) as (y & Ey). split; congruence. }
    assert (M : forall rs vis, (forall r, In r rs -> r < size_of st) ->
              exists vis', mark_roots (s_nodes st) (S (length (s_nodes st))) rs vis = Some vis').
    { induction rs0 as [|r rs0 IH]; intros vis Hr; [simpl; eauto|]. cbn [mark_roots].
      assert (Lr : r < size_of st) by (apply Hr; simpl; auto).
      destruct (@mark_total (s_nodes st) (Inv_acyc I) C (S (length (s_nodes st))) r vis) as (v' & E).
      - unfold size_of in Lr. lia.
      - destruct (I_nodes I Lr) as (x & Ex). congruence.
      - rewrite E. ob. apply IH. intros; apply Hr; simpl; auto. }
    destruct (M roots [] H) as (vis & EM).
    assert (EG : exists ns, garbage_collect (s_nodes st) roots = Some ns).
    { unfold garbage_collect. rewrite EM. rewrite ER. simpl. eauto. }
    destruct EG as (ns & EG). exists ns. split; auto.
    assert (NE : roots <> []) by (rewrite ER; discriminate).
    destruct (gc_spec _ NE EG) as (L & K & _). split; auto. intros r j Hr R. apply K. eauto.
Qed.

(** The result of [build_arena], with everything needed about it. *)
Lemma arena_ok : forall vars ty gc fuel fs, NoDup vars -> (vars <> [] \/ ty = VTBalanced) -> length vars < fuel ->
  (forall f, In f fs -> incl (bf_vars f) vars) ->
  exists vt T B st rs ns, new_with_type vars ty = Some vt /\ b_vt B = vt /\ vt_vars vt = vars /\ vt_ok (b_vt B) T /\
    Inv B T st /\ build_arena fuel vt gc fs = Some (ns, rs) /\ length ns = size_of st /\
    Forall2 (fun f r => r < size_of st /\ forall w, V st w r = bf_sem w f) fs rs /\
    (forall r j, In r rs -> reach (s_nodes st) r j -> get_node ns j = get_node (s_nodes st) j) /\
    (forall st1 B0, with_config vt = Some (B0, st1) -> B0 = B /\ add_formulas B fuel st1 fs = Some (st, rs)).
Proof.
  intros vars ty gc fuel fs N NE F HV.
  destruct (start N NE) as (vt & T & B & st0 & E1 & E2 & E3 & E4 & OK & I & HP & HN).
  assert (HF : hT T < fuel) by (eapply hT_lt; eauto; rewrite E4, E2; auto).
  destruct (add_formulas_ok OK I HP HN fs HF I (ext_refl st0)) as (st & rs & E5 & I' & X & FA).
  { intros f Hf. rewrite E4, E2. auto. }
  assert (Hr : forall r, In r rs -> r < size_of st).
  { clear -FA. induction FA as [|f r fs rs [H _] _ IH]; intros x []; subst; auto. }
  destruct (gc_ok rs I' Hr) as (ns & EG & L & K).
  assert (EA : exists ns', build_arena fuel vt gc fs = Some (ns', rs) /\ length ns' = size_of st /\
            forall r j, In r rs -> reach (s_nodes st) r j -> get_node ns' j = get_node (s_nodes st) j).
  { unfold build_arena. rewrite E3. simpl. rewrite E5. simpl. destruct gc.
    - exists ns. rewrite EG. auto.
    - exists (s_nodes st). auto. }
  destruct EA as (ns' & EA & L' & K'). exists vt, T, B, st, rs, ns'.
  repeat (split; [solve [auto]|]). intros st1 B0 H. rewrite E3 in H. injection H as <- <-. auto.
Qed.

(** a single formula is an arena with one root *)
Lemma build_one : forall fuel vt gc f, build fuel vt gc f = build_arena fuel vt gc [f].
Proof.
  intros. unfold build, build_arena. destruct (with_config vt) as [[B st]|]; simpl; auto.
  destruct (build_sdd B fuel st f) as [[st1 r]|]; simpl; auto.
Qed.

(** ** C21 *)

(** For every formula, every kind of variable tree over any distinct variables
    that include those of the formula, with or without garbage collection: the
    construction succeeds (no panic) and the diagram evaluates, under every
    assignment and without violating mutual exclusion, to the value of the
    formula.  The only requirement on the recursion bound is that it exceeds the
    number of variables. *)
Theorem C21_build_eval : forall f vars ty gc fuel,
  NoDup vars -> (vars <> [] \/ ty = VTBalanced) -> incl (bf_vars f) vars -> length vars < fuel ->
  exists vt d, new_with_type vars ty = Some vt /\ build fuel vt gc f = Some d /\
    forall w, sdd_eval d w = Some (bf_sem w f).
Proof.
  intros f vars ty gc fuel N NE HV F.
  destruct (@arena_ok vars ty gc fuel [f] N NE F) as (vt & T & B & st & rs & ns & E1 & E2 & E3 & OK & I & E4 & L & FA & K & _).
  { intros g [<-|[]]. auto. }
  inversion FA as [|? r ? rs' [Lr W] FA']; subst. inversion FA'; subst.
  exists (b_vt B), (ns, [r]). split; auto. split; [rewrite build_one; auto|].
  intros w. unfold sdd_eval. cbn [fst snd].
  rewrite (@eval_gc (s_nodes st)) by (intros j R; apply (K r j); simpl; auto).
  rewrite (eval_node_ok w I) by (rewrite ?L; lia). rewrite W. auto.
Qed.

(** the variables chosen by [with_formula] *)
Lemma collect_In : forall f s v, In v (collect_helper f s) <-> In v (bf_vars f) \/ In v s.
Proof.
  induction f; intros s x; simpl; try tauto.
  - rewrite (oins_In nat_TOrder). intuition.
  - rewrite (oins_In nat_TOrder). intuition.
  - apply IHf.
  - rewrite IHf2, IHf1, in_app_iff. tauto.
  - rewrite IHf2, IHf1, in_app_iff. tauto.
Qed.
Lemma collect_sorted : forall f s, osorted Nat.compare s -> osorted Nat.compare (collect_helper f s).
Proof. induction f; intros s H; simpl; auto using (oins_sorted nat_TOrder). Qed.
Lemma sorted_NoDup : forall s, osorted Nat.compare s -> NoDup s.
Proof.
  induction 1 as [|x s _ IH F]; constructor; auto. intros I. rewrite Forall_forall in F. specialize (F x I).
  rewrite Nat.compare_refl in F. discriminate.
Qed.
Theorem collect_vars_spec : forall f, NoDup (collect_vars f) /\ forall v, In v (collect_vars f) <-> In v (bf_vars f).
Proof.
  intros f. split; [apply sorted_NoDup, collect_sorted; constructor|]. intros v. unfold collect_vars.
  rewrite collect_In. simpl. tauto.
Qed.

(** The whole pipeline of [with_formula]: collect the variables, balanced tree,
    garbage collection. *)
Theorem C21_with_formula : forall f fuel, length (collect_vars f) < fuel ->
  exists vt d, new_with_type (collect_vars f) VTBalanced = Some vt /\ build fuel vt true f = Some d /\
    forall w, sdd_eval d w = Some (bf_sem w f).
Proof.
  intros f fuel F. destruct (collect_vars_spec f) as [N C]. apply C21_build_eval; auto.
  intros v H. apply C; auto.
Qed.

(** Several formulas built one after the other in the same store (the caches
    are shared): every root evaluates to its own formula. *)
Theorem C21_arena : forall fs vars ty gc fuel,
  NoDup vars -> (vars <> [] \/ ty = VTBalanced) -> (forall f, In f fs -> incl (bf_vars f) vars) -> length vars < fuel ->
  exists vt ns roots, new_with_type vars ty = Some vt /\ build_arena fuel vt gc fs = Some (ns, roots) /\
    Forall2 (fun f r => forall w, eval_node ns w (S (length ns)) r = Some (bf_sem w f)) fs roots.
Proof.
  intros fs vars ty gc fuel N NE HV F.
  destruct (@arena_ok vars ty gc fuel fs N NE F HV) as (vt & T & B & st & rs & ns & E1 & E2 & E3 & OK & I & E4 & L & FA & K & _).
  exists vt, ns, rs. split; auto. split; auto.
  assert (G : forall fs0 rs0, Forall2 (fun f r => r < size_of st /\ forall w, V st w r = bf_sem w f) fs0 rs0 ->
            (forall r, In r rs0 -> In r rs) ->
            Forall2 (fun f r => forall w, eval_node ns w (S (length ns)) r = Some (bf_sem w f)) fs0 rs0).
  { induction 1 as [|f r fs0 rs0 [Lr W] FA' IH]; intros H; constructor; [|apply IH; intros; apply H; simpl; auto].
    intros w. rewrite (@eval_gc (s_nodes st)) by (intros j R; apply (K r j); simpl; auto; apply H; simpl; auto).
    rewrite (eval_node_ok w I) by (rewrite ?L; lia). rewrite W. auto. }
  apply G; auto.
Qed.

(** ** C22 *)
Theorem C22_weighted_model_count : forall S, ring_like S -> forall f vars ty gc fuel wt,
  NoDup vars -> (vars <> [] \/ ty = VTBalanced) -> incl (bf_vars f) vars -> length vars < fuel ->
  exists vt d, new_with_type vars ty = Some vt /\ build fuel vt gc f = Some d /\
    sdd_eval_t S d wt = Some (count S wt vars (fun w => bf_sem w f)).
Proof.
  intros S RL f vars ty gc fuel wt N NE HV F.
  destruct (@arena_ok vars ty gc fuel [f] N NE F) as (vt & T & B & st & rs & ns & E1 & E2 & E3 & OK & I & E4 & L & FA & K & _).
  { intros g [<-|[]]. auto. }
  inversion FA as [|? r ? rs' [Lr W] FA']; subst. inversion FA'; subst.
  exists (b_vt B), (ns, [r]). split; auto. split; [rewrite build_one; auto|].
  unfold sdd_eval_t. cbn [fst snd].
  rewrite (@eval_t_gc S (s_nodes st)) by (intros j R; apply (K r j); simpl; auto).
  unfold count. rewrite <- (wsum_count RL wt (vt_vars (b_vt B)) (fun w => bf_sem w f) (fun _ => false)).
  assert (U : all_under T st r) by (eapply all_under_lt; eauto). unfold all_under in U. pose proof (ok_vars OK) as EV.
  destruct T as [t|].
  - rewrite <- EV.
    rewrite (@eval_t_ok S RL wt B (Some t) OK st I (Datatypes.S (length ns)) r t 0 (fun _ => false)); auto;
      [|rewrite L; lia|apply sub_refl].
    f_equal. rewrite (wsum_esum RL). apply esum_ext. intros w. rewrite W. auto.
  - rewrite EV. cbn [wsum]. rewrite <- W. cbn [eval_node_t].
    destruct r as [|[|r]]; [| |lia].
    + rewrite (I_false I), (V_0 _ I). auto.
    + rewrite (I_true I), (V_1 _ I). auto.
Qed.

Theorem C22_wmc : forall S, ring_like S -> forall f fuel wt, length (collect_vars f) < fuel ->
  wmc_bf fuel S f wt = Some (count S wt (collect_vars f) (fun w => bf_sem w f)).
Proof.
  intros S RL f fuel wt F. destruct (collect_vars_spec f) as [N C].
  destruct (@C22_weighted_model_count S RL f (collect_vars f) VTBalanced true fuel wt) as (vt & d & E1 & E2 & E3); auto.
  { intros v H. apply C; auto. }
  unfold wmc_bf. rewrite E1. simpl. rewrite E2. simpl. auto.
Qed.

(** ** tags *)
Lemma bf_conj_sem : forall w l, bf_sem w (bf_conjunction l) = forallb (bf_sem w) l.
Proof.
  intros w [|a l]; auto. simpl. revert a. induction l as [|b l IH]; intros a; simpl; [rewrite andb_true_r; auto|].
  rewrite IH. simpl. rewrite andb_assoc. auto.
Qed.
Lemma bf_disj_sem : forall w l, bf_sem w (bf_disjunction l) = existsb (bf_sem w) l.
Proof.
  intros w [|a l]; auto. simpl. revert a. induction l as [|b l IH]; intros a; simpl; [rewrite orb_false_r; auto|].
  rewrite IH. simpl. rewrite orb_assoc. auto.
Qed.
Lemma lit_bf_sem : forall w l, bf_sem w (lit_bf l) = lholds w l.
Proof. intros w [n|n]; auto. Qed.
Lemma forallb_map : forall A B (f : B -> bool) (g : A -> B) l, forallb f (map g l) = forallb (fun x => f (g x)) l.
Proof. induction l; simpl; congruence. Qed.
Lemma existsb_map : forall A B (f : B -> bool) (g : A -> B) l, existsb f (map g l) = existsb (fun x => f (g x)) l.
Proof. induction l; simpl; congruence. Qed.
Lemma forallb_eq : forall A (f g : A -> bool) l, (forall x, f x = g x) -> forallb f l = forallb g l.
Proof. induction l; simpl; intros H; auto. rewrite H, IHl; auto. Qed.
Lemma existsb_eq : forall A (f g : A -> bool) l, (forall x, f x = g x) -> existsb f l = existsb g l.
Proof. induction l; simpl; intros H; auto. rewrite H, IHl; auto. Qed.
Lemma dnf_bf_sem : forall w f, bf_sem w (dnf_bf f) = dnf_sem w f.
Proof.
  intros w f. unfold dnf_bf, dnf_sem, conj. rewrite bf_disj_sem, existsb_map. apply existsb_eq. intros c.
  rewrite bf_conj_sem, forallb_map. apply forallb_eq. intros l. apply lit_bf_sem.
Qed.
Lemma cnf_bf_sem : forall w f, bf_sem w (cnf_bf f) = cnf_sem w f.
Proof.
  intros w f. unfold cnf_bf, cnf_sem, disjn. rewrite bf_conj_sem, forallb_map. apply forallb_eq. intros c.
  rewrite bf_disj_sem, existsb_map. apply existsb_eq. intros l. apply lit_bf_sem.
Qed.
Lemma filter_eq : forall A (f g : A -> bool) l, (forall x, f x = g x) -> filter f l = filter g l.
Proof. induction l; simpl; intros H; auto. rewrite H, IHl; auto. Qed.
Lemma count_ext : forall S wt vars F G, (forall w, F w = G w) -> count S wt vars F = count S wt vars G.
Proof. intros S wt vars F G H. unfold count. f_equal. f_equal. apply filter_eq. intros a. apply H. Qed.

(** The probability reported for a DNF tag (top-k-proofs, sample-k-proofs), a
    CNF/DNF tag (top-bottom-k-clauses) and a proof set (prob-proofs). *)
Theorem C22_tag_dnf : forall S, ring_like S -> forall t fuel wt, length (collect_vars (dnf_bf t)) < fuel ->
  wmc_bf fuel S (dnf_bf t) wt = Some (count S wt (collect_vars (dnf_bf t)) (fun w => dnf_sem w t)).
Proof.
  intros S RL t fuel wt F. rewrite (C22_wmc RL) by auto. f_equal. apply count_ext. intros; apply dnf_bf_sem.
Qed.
Theorem C22_tag_cnf_dnf : forall S, ring_like S -> forall t fuel wt, length (collect_vars (cd_bf t)) < fuel ->
  wmc_bf fuel S (cd_bf t) wt = Some (count S wt (collect_vars (cd_bf t))
    (fun w => match fkind t with CNF => cnf_sem w (fcls t) | DNF => dnf_sem w (fcls t) end)).
Proof.
  intros S RL t fuel wt F. rewrite (C22_wmc RL) by auto. f_equal. apply count_ext. intros w. unfold cd_bf.
  destruct (fkind t); [apply cnf_bf_sem|apply dnf_bf_sem].
Qed.
Theorem C22_tag_proofs : forall S, ring_like S -> forall t fuel wt, length (collect_vars (proofs_bf t)) < fuel ->
  wmc_bf fuel S (proofs_bf t) wt = Some (count S wt (collect_vars (proofs_bf t)) (fun w => existsb (forallb w) t)).
Proof.
  intros S RL t fuel wt F. rewrite (C22_wmc RL) by auto. f_equal. apply count_ext. intros w.
  unfold proofs_bf. rewrite bf_disj_sem, existsb_map. apply existsb_eq. intros c.
  rewrite bf_conj_sem, forallb_map. apply forallb_eq. auto.
Qed.

(** real.rs: [RealSemiring], over the rationals; [negate] is [1.0 - a] *)
Definition real_sr : semiring := mkSR 0%Qc 1%Qc Qcplus Qcmult (fun x => (1 - x)%Qc).
Definition real_ring : ring_like real_sr.
Proof. refine (@Build_ring_like real_sr Qcminus Qcopp Qcrt _). intros; reflexivity. Defined.

(** ** C23 *)

(** Whatever the store, if marking succeeds then every root keeps its value
    under every assignment and every weighting in every semiring (no laws
    needed), exactly the nodes reachable from the roots stay, and indices do not
    change. *)
Theorem C23_garbage_collect : forall ns roots ns', garbage_collect ns roots = Some ns' ->
  (forall r w fuel, In r roots -> eval_node ns' w fuel r = eval_node ns w fuel r) /\
  (forall S r wt fuel, In r roots -> eval_node_t S ns' wt fuel r = eval_node_t S ns wt fuel r) /\
  length ns' = length ns /\
  (roots <> [] -> forall i n, get_node ns' i = Some n <->
     get_node ns i = Some n /\ exists r, In r roots /\ reach ns r i).
Proof.
  intros ns roots ns' H. destruct roots as [|r0 rs].
  - injection H as <-. split; [intros r w fuel []|]. split; [intros S r wt fuel []|]. split; auto. congruence.
  - assert (NE : r0 :: rs <> []) by discriminate. destruct (gc_spec _ NE H) as (L & K & D).
    split; [|split; [|split; [auto|]]].
    + intros r w fuel Hr. apply eval_gc. intros j R. apply K. eauto.
    + intros S r wt fuel Hr. apply eval_t_gc. intros j R. apply K. eauto.
    + intros _ i n. split.
      * intros E. destruct (nth_error ns i) as [[m|]|] eqn:Q.
        -- assert (X : {exists r, In r (r0 :: rs) /\ reach ns r i} + {~ exists r, In r (r0 :: rs) /\ reach ns r i}).
           { unfold garbage_collect in H. destruct (mark_roots ns (S (length ns)) (r0 :: rs) []) as [vis|] eqn:EM; [|discriminate].
             destruct (in_dec Nat.eq_dec i vis) as [Y|Y]; [left|right].
             - apply (mark_roots_spec _ _ _ _ EM) in Y as [[]|Y]; auto.
             - intros Z. apply Y. apply (mark_roots_spec _ _ _ _ EM). auto. }
           destruct X as [X|X]; [rewrite (K i X) in E; auto|rewrite (D i X) in E; discriminate].
        -- exfalso. assert (get_node ns i = None) by (unfold get_node; rewrite Q; auto).
           unfold garbage_collect in H. destruct (mark_roots ns (S (length ns)) (r0 :: rs) []) as [vis|]; [|discriminate].
           simpl in H. injection H as <-. unfold get_node in E. rewrite retain_nth, Q in E. simpl in E.
           destruct (existsb (Nat.eqb i) vis); discriminate.
        -- exfalso. apply get_len in E. apply nth_error_None in Q. lia.
      * intros [E X]. rewrite (K i X). auto.
Qed.
(** Marking succeeds on every store left by the builder. *)
Theorem C23_total : forall fs vars ty fuel,
  NoDup vars -> (vars <> [] \/ ty = VTBalanced) -> (forall f, In f fs -> incl (bf_vars f) vars) -> length vars < fuel ->
  exists vt d ns', new_with_type vars ty = Some vt /\ build_arena fuel vt false fs = Some d /\
    garbage_collect (fst d) (snd d) = Some ns' /\ build_arena fuel vt true fs = Some (ns', snd d).
Proof.
  intros fs vars ty fuel N NE HV F.
  destruct (start N NE) as (vt & T & B & st0 & E1 & E2 & E3 & E4 & OK & I & HP & HN).
  assert (HF : hT T < fuel) by (eapply hT_lt; eauto; rewrite E4, E2; auto).
  destruct (add_formulas_ok OK I HP HN fs HF I (ext_refl st0)) as (st & rs & E5 & I' & X & FA).
  { intros f Hf. rewrite E4, E2. auto. }
  assert (Hr : forall r, In r rs -> r < size_of st).
  { clear -FA. induction FA as [|f r fs rs [H _] _ IH]; intros x []; subst; auto. }
  destruct (gc_ok rs I' Hr) as (ns & EG & L & K).
  exists vt, (s_nodes st, rs), ns. split; auto. unfold build_arena. rewrite E3. simpl. rewrite E5. simpl.
  split; auto. split; auto. rewrite EG. auto.
Qed.

(** ** C43 *)

(** what one group contributes: it is not the case that exactly one of its
    facts is true *)
Definition exactly_one (w : nat -> bool) (g : list nat) : Prop :=
  exists n, In n g /\ w n = true /\ forall m, In m g -> w m = true -> m = n.
Lemma disj_bf_sem : forall w g, bf_sem w (disj_bf g) = true <-> ~ exactly_one w g.
Proof.
  intros w g. unfold disj_bf. rewrite bf_conj_sem, forallb_map, forallb_forall. split.
  - intros H (n & I & Wn & U). specialize (H n I). rewrite bf_disj_sem, existsb_map in H.
    apply existsb_exists in H as (m & Im & Hm). destruct (m =? n) eqn:E.
    + apply Nat.eqb_eq in E. subst m. simpl in Hm. rewrite Wn in Hm. discriminate.
    + simpl in Hm. apply Nat.eqb_neq in E. apply E. auto.
  - intros H n I. rewrite bf_disj_sem, existsb_map. destruct (w n) eqn:Wn.
    + destruct (existsb (fun m => w m && negb (m =? n)) g) eqn:Q.
      * apply existsb_exists in Q as (m & Im & Hm). apply andb_true_iff in Hm as [Wm NE].
        apply existsb_exists. exists m. split; auto. apply negb_true_iff in NE. rewrite NE. auto.
      * exfalso. apply H. exists n. split; auto. split; auto. intros m Im Wm.
        destruct (m =? n) eqn:E; [apply Nat.eqb_eq; auto|].
        assert (X : existsb (fun m => w m && negb (m =? n)) g = true)
          by (apply existsb_exists; exists m; rewrite Wm, E; auto). congruence.
    + apply existsb_exists. exists n. split; auto. rewrite Nat.eqb_refl. simpl. rewrite Wn. auto.
Qed.

(** [wmc_with_disjunctions] *)
Definition wmc_disj (fuel : nat) (S : semiring) (f : bform) (ds : list (list nat)) (v : nat -> sr_t S) : option (sr_t S) :=
  wmc_bf fuel S (with_disj f ds) v.

(** What is counted: the worlds satisfying the formula *or* violating the
    exactly-one condition of some group. *)
Theorem C43_what_is_counted : forall S, ring_like S -> forall f ds fuel wt,
  length (collect_vars (with_disj f ds)) < fuel ->
  exists F, wmc_disj fuel S f ds wt = Some (count S wt (collect_vars (with_disj f ds)) F) /\
    forall w, F w = true <-> bf_sem w f = true \/ exists g, In g ds /\ ~ exactly_one w g.
Proof.
  intros S RL f ds fuel wt F. exists (fun w => bf_sem w (with_disj f ds)). split; [apply (C22_wmc RL); auto|].
  intros w. unfold with_disj. rewrite bf_disj_sem. simpl. rewrite orb_true_iff, existsb_map, existsb_exists. split.
  - intros [H|(g & I & H)]; auto. right. exists g. split; auto. apply disj_bf_sem; auto.
  - intros [H|(g & I & H)]; auto. right. exists g. split; auto. apply disj_bf_sem; auto.
Qed.

(** The intended count: worlds satisfying the formula in which no group has two
    true facts. *)
Definition at_most_one (w : nat -> bool) (g : list nat) : bool :=
  length (filter w g) <=? 1.
Definition intended (f : bform) (ds : list (list nat)) (w : nat -> bool) : bool :=
  bf_sem w f && forallb (at_most_one w) ds.
Lemma qc_some : forall (o : option Qc) q, option_map (fun x => Qeq_bool (this x) q) o = Some true -> o = Some (Q2Qc q).
Proof.
  intros [x|] q H; [|discriminate]. injection H as H. apply Qeq_bool_iff in H. f_equal. apply Qc_is_canon.
  rewrite H. symmetry. apply Qred_correct.
Qed.
Lemma qc_eq : forall (x : Qc) q, Qeq_bool (this x) q = true -> x = Q2Qc q.
Proof. intros x q H. apply Qeq_bool_iff in H. apply Qc_is_canon. rewrite H. symmetry. apply Qred_correct. Qed.
Lemma qc_neq : forall (o : option Qc) y, option_map (fun x => Qeq_bool (this x) (this y)) o = Some false -> o <> Some y.
Proof. intros o y H ->. simpl in H. rewrite (Qeq_bool_refl (this y)) in H. discriminate. Qed.
Definition half : Qc := Q2Qc (1#2).
(** A single group of two facts: the false formula gets probability 1/2, and
    fact 0 gets 3/4 instead of 1/4. *)
Theorem C43_refuted : exists f g wt,
  wmc_disj 10 real_sr f [g] wt <> Some (count real_sr wt (collect_vars (with_disj f [g])) (intended f [g])) /\
  wmc_disj 10 real_sr BFalse [g] wt = Some half /\
  wmc_disj 10 real_sr f [g] wt = Some (Q2Qc (3#4)) /\
  count real_sr wt (collect_vars (with_disj f [g])) (intended f [g]) = Q2Qc (1#4).
Proof.
  exists (BPos 0), [0; 1], (fun _ => half). split; [apply qc_neq; vm_compute; reflexivity|].
  split; [apply qc_some; vm_compute; reflexivity|]. split; [apply qc_some; vm_compute; reflexivity|].
  apply qc_eq; vm_compute; reflexivity.
Qed.

(** ** Examples *)

(** (x0 and x1) or (not x0 and x2), with a left-linear tree whose order differs
    from the numbering. *)
Definition ex_f : bform := BOr (BAnd (BPos 0) (BPos 1)) (BNot (BOr (BPos 0) (BNeg 2))).
Example C21_example :
  NoDup [2; 0; 1] /\ incl (bf_vars ex_f) [2; 0; 1] /\
  (forall ty, exists vt d, new_with_type [2; 0; 1] ty = Some vt /\ build 4 vt true ex_f = Some d /\
     sdd_eval d (fun v => v =? 2) = Some true /\ sdd_eval d (fun v => v =? 0) = Some false) /\
  collect_vars ex_f = [0; 1; 2].
Proof.
  split; [repeat constructor; simpl; intuition discriminate|].
  split; [intros x; simpl; intuition|]. split; [|reflexivity].
  intros [| |]; eexists; eexists; (split; [vm_compute; reflexivity|]); (split; [vm_compute; reflexivity|]); split; vm_compute; reflexivity.
Qed.
Example C22_example :
  wmc_bf 4 real_sr ex_f (fun v => if v =? 0 then half else Q2Qc (1#3)) = Some (Q2Qc (1#3)) /\
  count real_sr (fun v => if v =? 0 then half else Q2Qc (1#3)) [0; 1; 2] (fun w => bf_sem w ex_f) = Q2Qc (1#3) /\
  wmc_bf 4 real_sr (dnf_bf [[Pos 0; Neg 1]; [Pos 1]]) (fun _ => half) = Some (Q2Qc (3#4)).
Proof.
  split; [apply qc_some; vm_compute; reflexivity|]. split; [apply qc_eq; vm_compute; reflexivity|].
  apply qc_some; vm_compute; reflexivity.
Qed.
(** an unreachable node is dropped, the value stays *)
Example C23_example : exists vt d d', new_with_type [0; 1; 2] VTRight = Some vt /\
  build 4 vt false ex_f = Some d /\ build 4 vt true ex_f = Some d' /\
  length (filter (fun n => match n with Some _ => true | None => false end) (fst d')) <
  length (filter (fun n => match n with Some _ => true | None => false end) (fst d)) /\
  sdd_eval d' (fun v => v =? 2) = Some true.
Proof.
  eexists; eexists; eexists. split; [vm_compute; reflexivity|]. split; [vm_compute; reflexivity|].
  split; [vm_compute; reflexivity|]. split; [vm_compute; lia|vm_compute; reflexivity].
Qed.
Example C43_example : ~ exactly_one (fun _ => false) [0; 1] /\ exactly_one (fun v => v =? 1) [0; 1].
Proof.
  split.
  - intros (n & _ & H & _). discriminate.
  - exists 1. simpl. split; auto. split; auto. intros m _ H. apply Nat.eqb_eq; auto.
Qed.

Print Assumptions C21_build_eval.
Print Assumptions C21_with_formula.
Print Assumptions C21_arena.
Print Assumptions C22_weighted_model_count.
Print Assumptions C22_wmc.
Print Assumptions C22_tag_dnf.
Print Assumptions C22_tag_cnf_dnf.
Print Assumptions C22_tag_proofs.
Print Assumptions C23_garbage_collect.
Print Assumptions C23_total.
Print Assumptions C43_what_is_counted.
Print Assumptions C43_refuted.
