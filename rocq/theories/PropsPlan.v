(** C52: the plan of a rule means the body of the rule. *)
From Coq Require Import List ZArith Bool Arith Lia Permutation.
From Verif Require Import Value Back Eval BackSem Scc SccFacts Plan PlanSem PlanFacts PlanFacts2 PropsOpt.
Import ListNotations.
Set Implicit Arguments.

(** ** Statement *)
(** A foreign atom with no free argument only tests. *)
Definition only_tests (N : penv) (a : atom) : Prop := length (a_args a) <= pe_bounded N (a_pred a).
(** The names the planner makes up are new; the registries agree; aggregations
    have no group-by variables besides the joined ones. *)
Record plannable (N : penv) (g : registry) (body : list lit) : Prop := {
  pl_fresh : fresh_names N (rule_vars body);
  pl_foreign : forall p, g_foreign g p = pe_foreign N p;
  pl_other : forall r, In (LReduce r) body -> rd_other r = [] }.
Definition no_neg_foreign (N : penv) (body : list lit) : Prop :=
  forall a, In (LNeg a) body -> pe_foreign N (a_pred a) = false.
(** Foreign atoms that only test come before those that give values. *)
Definition tests_before (N : penv) (body : list lit) : Prop :=
  forall l1 a l2 b, body = l1 ++ LAtom a :: l2 -> In (LAtom b) l2 ->
    pe_foreign N (a_pred a) = true -> pe_foreign N (a_pred b) = true -> only_tests N b -> only_tests N a.

(** Literals that do not matter when [K] is what the plan checks: true, and
    assignments of variables that get their values elsewhere. *)
Definition droppable (N : penv) (K : list lit) (l : lit) : Prop :=
  l = LTrue \/ exists v e l', l = LAssign v e /\ is_new e = false /\ In l' K /\ In v (lit_binds N l').

(** ** The context *)
Lemma from_body_ok : forall N body q, from_body N body = Some q -> q_ok N body q /\ ~ In LFalse body.
Proof.
  intros N. induction body as [|l body IH]; intros q H; cbn [from_body] in H.
  - injection H as <-. split; [|auto]. constructor; cbn; tauto.
  - destruct (from_body N body) as [q0|] eqn:E; [|discriminate]. destruct (IH _ eq_refl) as [[H1 H2 H3 H4 H5 H6] NF].
    destruct l as [a|a|v e|c a b|a|r| |].
    1: destruct (pe_foreign N (a_pred a)) eqn:F.
    all: try discriminate.
    all: injection H as <-; split; [constructor; cbn [q_reduces q_pos q_neg q_assigns q_cons q_fp In]|
         cbn [In]; intros [K|K]; [discriminate|auto]].
    all: intros; rewrite ?H1, ?H2, ?H3, ?H4, ?H5, ?H6.
    all: try (intuition congruence).
    all: try (match goal with x : var * aexpr |- _ => destruct x; unfold asg; cbn; intuition congruence end).
    all: match goal with |- context [clit ?c] => destruct c; cbn; intuition congruence end.
Qed.

Lemma fp_free_nil : forall N a, fp_free N a = [] <-> only_tests N a.
Proof.
  intros N a. unfold fp_free, only_tests. split; intros H.
  - apply (f_equal (@length _)) in H. rewrite skipn_length in H. unfold enum in H.
    rewrite combine_length, seq_length, Nat.min_id in H. cbn in H. lia.
  - apply length_zero_iff_nil. rewrite skipn_length. unfold enum. rewrite combine_length, seq_length, Nat.min_id. lia.
Qed.
Lemma from_body_tests : forall N body q, from_body N body = Some q ->
  tests_before N body -> tests_first N (q_fp q).
Proof.
  intros N. induction body as [|l body IH]; intros q H T; cbn [from_body] in H.
  - injection H as <-. exact I.
  - destruct (from_body N body) as [q0|] eqn:E; [|discriminate].
    assert (Q : tests_first N (q_fp q0)).
    { apply IH; auto. intros l1 a l2 b Eb. apply (T (l :: l1) a l2 b). rewrite Eb. reflexivity. }
    destruct l as [a|a|v e|c a b|a|r| |]; try discriminate; try (injection H as <-; exact Q).
    destruct (pe_foreign N (a_pred a)) eqn:F; injection H as <-; [|exact Q].
    cbn [q_fp tests_first]. split; auto. intros Fa b Ib Fb. apply Fa. apply fp_free_nil.
    destruct (from_body_ok _ _ E) as [QO _]. apply (qo_fp QO) in Ib. destruct Ib as [Ib Gb].
    apply (T [] a body b); auto. apply fp_free_nil; auto.
Qed.

(** ** The search *)
Section Search.
  Variable order : list state -> list state.
  Hypothesis ORD : forall l, Permutation (order l) l.
  Variable q : qctx.
  Notation n := (length (q_pos q)).

  Record st_ok (k : nat) (s : state) : Prop := {
    so_arcs : map snd (s_arcs s) = s_visited s;
    so_nd : NoDup (s_visited s);
    so_lt : forall i, In i (s_visited s) -> i < n;
    so_len : length (s_visited s) = k }.

  Lemma ord_In : forall l x, In x (order l) <-> In x l.
  Proof. intros. split; apply Permutation_in; [apply ORD|apply Permutation_sym, ORD]. Qed.

  Lemma next_ok : forall beam k s s', st_ok k s -> In s' (next_states order q beam s) -> st_ok (S k) s' /\ k < n.
  Proof.
    intros beam k s s' [H1 H2 H3 H4] I. unfold next_states in I.
    destruct (Nat.leb_spec (length (q_pos q)) (length (s_visited s))); [destruct I|].
    apply In_firstn in I. rewrite ord_In in I. apply in_flat_map in I. destruct I as (id & Iid & I).
    apply filter_In in Iid. destruct Iid as [Is Nid]. apply in_seq in Is. rewrite negb_true_iff in Nid. apply memb_nIn in Nid.
    apply in_map_iff in I. destruct I as (set & <- & _). split; [|lia]. constructor; cbn [s_arcs s_visited].
    - rewrite map_app. apply (f_equal (fun l => l ++ [id])) in H1. exact H1.
    - apply Permutation_NoDup with (l := id :: s_visited s); [apply Permutation_cons_append|constructor; auto].
    - intros i J. apply in_app_iff in J. destruct J as [J|[<-|[]]]; auto. lia.
    - rewrite app_length. cbn. lia.
  Qed.

  Definition covers (s : state) : Prop := forall i, i < n -> In i (map snd (s_arcs s)).
  Lemma full_covers : forall s, st_ok n s -> covers s.
  Proof.
    intros s [H1 H2 H3 H4] i Li. rewrite H1.
    assert (I : incl (seq 0 n) (s_visited s)).
    { apply NoDup_length_incl; auto; [rewrite seq_length; lia|]. intros j J. apply in_seq. specialize (H3 j J). lia. }
    apply I. apply in_seq. lia.
  Qed.
  Definition st_full (s : state) : Prop := st_ok n s.

  Lemma search_ok : forall fuel beam k queue finals s, search order fuel beam q queue finals = Some s ->
    (forall s, In s queue -> st_ok k s) -> (forall s, In s finals -> st_full s) -> st_full s.
  Proof.
    induction fuel as [|fuel IH]; intros beam k queue finals s R HQ HF; destruct queue as [|s0 queue]; cbn [search] in R.
    - destruct (order finals) as [|f fs] eqn:E; [discriminate|]. injection R as <-. apply HF. apply ord_In. rewrite E. left; auto.
    - discriminate.
    - destruct (order finals) as [|f fs] eqn:E; [discriminate|]. injection R as <-. apply HF. apply ord_In. rewrite E. left; auto.
    - apply (IH beam (S k)) in R; auto.
      + intros s1 I. apply In_firstn in I. rewrite ord_In in I. apply filter_In in I. destruct I as [I _].
        apply in_flat_map in I. destruct I as (s2 & I2 & I). rewrite ord_In in I2. eapply next_ok; eauto.
      + intros s1 I. apply in_app_iff in I. destruct I as [I|I]; auto. apply filter_In in I. destruct I as [I BA].
        apply in_flat_map in I. destruct I as (s2 & I2 & I). rewrite ord_In in I2.
        destruct (next_ok _ _ (HQ _ I2) I) as [K _]. unfold bounded_all in BA. apply Nat.eqb_eq in BA.
        destruct K as [K1 K2 K3 K4]. constructor; auto.
  Qed.
  Lemma init_ok : st_ok 0 (mkState [] []).
  Proof. constructor; cbn; auto; [constructor|intros i []]. Qed.
  Lemma pos_atom_arcs_ok : forall beam s, pos_atom_arcs order beam q = Some s -> st_full s.
  Proof.
    intros beam s R. unfold pos_atom_arcs in R. unfold st_full. revert R. case_eq (q_pos q); [intros E R|intros a0 l0 E R].
    - injection R as <-. apply init_ok.
    - rewrite <- E in *. eapply search_ok; [exact R| |].
      + intros s1 [<-|[]]. apply init_ok.
      + intros s1 [].
  Qed.

  Lemma combinations_0 : forall A (l : list A), combinations 0 l = [[]].
  Proof. intros A []; auto. Qed.
  Lemma next_nonempty : forall beam k s, st_ok k s -> k < n -> 0 < beam -> next_states order q beam s <> [].
  Proof.
    intros beam k s H Lk Lb E. unfold next_states in E. pose proof (so_len H) as SL.
    destruct (Nat.leb_spec (length (q_pos q)) (length (s_visited s))) as [L0|L0]; [lia|].
    destruct beam as [|beam]; [lia|].
    match type of E with firstn _ (order ?l) = [] => assert (Z : l <> []) end.
    { assert (X : exists id, id < n /\ ~ In id (s_visited s)).
      { destruct (existsb (fun i => negb (memb i (s_visited s))) (seq 0 n)) eqn:X.
        - apply existsb_exists in X. destruct X as (i & Ii & Ni). apply in_seq in Ii. rewrite negb_true_iff in Ni. apply memb_nIn in Ni.
          exists i. split; auto; lia.
        - exfalso. assert (I : incl (seq 0 n) (s_visited s)).
          { intros i Ii. apply memb_In. destruct (memb i (s_visited s)) eqn:M; auto.
            assert (Y : existsb (fun i => negb (memb i (s_visited s))) (seq 0 n) = true).
            { apply existsb_exists. exists i. rewrite M. auto. }
            congruence. }
          apply NoDup_incl_length in I; [|apply seq_NoDup]. rewrite seq_length in I. lia. }
      destruct X as (id & Lid & Nid).
      intros Z. match type of Z with ?l = [] => assert (J : In (mkState (s_visited s ++ [id]) (s_arcs s ++ [([], id)])) l) end.
      { apply in_flat_map. exists id. split.
        - apply filter_In. split; [apply in_seq; lia|]. apply negb_true_iff, memb_nIn; auto.
        - apply in_map_iff. exists []. split; auto. unfold powerset. apply in_flat_map. exists 0. split; [apply in_seq; lia|].
          rewrite combinations_0. left; auto. }
      rewrite Z in J. exact J. }
    match type of E with firstn _ (order ?l) = [] => destruct (order l) eqn:O; [|discriminate]; pose proof (ORD l) as P end.
    rewrite O in P. apply Permutation_nil in P. auto.
  Qed.

  Lemma search_total : forall fuel beam k queue finals, 0 < beam -> n < fuel + k ->
    (forall s, In s queue -> st_ok k s) -> k < n \/ finals <> [] -> (finals <> [] \/ queue <> []) ->
    (queue <> [] -> k < n) ->
    search order fuel beam q queue finals <> None.
  Proof.
    induction fuel as [|fuel IH]; intros beam k queue finals Lb Lf HQ H1 H2 H3; destruct queue as [|s0 queue]; cbn [search].
    - destruct H2 as [H2|H2]; [|tauto]. destruct (order finals) eqn:O; [|discriminate].
      pose proof (ORD finals) as P. rewrite O in P. apply Permutation_nil in P. tauto.
    - assert (k < n) by (apply H3; discriminate). lia.
    - destruct H2 as [H2|H2]; [|tauto]. destruct (order finals) eqn:O; [|discriminate].
      pose proof (ORD finals) as P. rewrite O in P. apply Permutation_nil in P. tauto.
    - assert (Lk : k < n) by (apply H3; discriminate).
      set (nexts := flat_map (next_states order q beam) (order (s0 :: queue))).
      assert (HN : forall s, In s nexts -> st_ok (S k) s).
      { intros s1 I. apply in_flat_map in I. destruct I as (s2 & I2 & I). rewrite ord_In in I2. eapply next_ok; eauto. }
      assert (NE : exists s, In s nexts).
      { assert (S0 : st_ok k s0) by (apply HQ; left; auto). pose proof (next_nonempty S0 Lk Lb) as Z.
        destruct (next_states order q beam s0) as [|s1 l] eqn:E; [tauto|]. exists s1. apply in_flat_map. exists s0.
        split; [apply ord_In; left; auto|]. rewrite E. left; auto. }
      destruct NE as (s1 & I1).
      destruct (Nat.eq_dec (S k) n) as [D|D].
      + assert (F : filter (bounded_all q) nexts <> []).
        { intros Z. assert (J : In s1 (filter (bounded_all q) nexts)).
          { apply filter_In. split; auto. unfold bounded_all. apply Nat.eqb_eq. rewrite (so_len (HN _ I1)). exact D. }
          rewrite Z in J. exact J. }
        assert (F2 : filter (fun s => negb (bounded_all q s)) nexts = []).
        { destruct (filter (fun s => negb (bounded_all q s)) nexts) as [|s2 l] eqn:E; auto. exfalso.
          assert (J : In s2 (filter (fun s => negb (bounded_all q s)) nexts)) by (rewrite E; left; auto).
          apply filter_In in J. destruct J as [J B]. rewrite negb_true_iff in B. unfold bounded_all in B. apply Nat.eqb_neq in B.
          apply B. rewrite (so_len (HN _ J)). exact D. }
        rewrite F2.
        assert (FN : finals ++ filter (bounded_all q) nexts <> []) by (intros Z; apply app_eq_nil in Z; tauto).
        assert (ON : order [] = []) by (apply Permutation_nil, Permutation_sym, ORD). rewrite ON, firstn_nil.
        apply IH with (k := S k); auto; try lia; try (intros s2 []; fail); tauto.
      + apply IH with (k := S k); auto; try lia.
        * intros s2 I. apply In_firstn in I. rewrite ord_In in I. apply filter_In in I. apply HN, I.
        * right. intros Z.
          assert (J : In s1 (order (filter (fun s => negb (bounded_all q s)) nexts))).
          { apply ord_In. apply filter_In. split; auto. apply negb_true_iff. unfold bounded_all. apply Nat.eqb_neq.
            rewrite (so_len (HN _ I1)). exact D. }
          destruct beam; [lia|]. destruct (order (filter (fun s => negb (bounded_all q s)) nexts)); [destruct J|discriminate].
  Qed.
  Lemma pos_atom_arcs_total : forall beam, 0 < beam -> pos_atom_arcs order beam q <> None.
  Proof.
    intros beam Lb. unfold pos_atom_arcs. destruct (q_pos q) eqn:E; [discriminate|].
    rewrite <- E. apply search_total with (k := 0); auto.
    - lia.
    - intros s1 [<-|[]]. apply init_ok.
    - left. rewrite E. cbn. lia.
    - right. discriminate.
    - intros _. rewrite E. cbn. lia.
  Qed.
End Search.

(** ** Planning does not run out of fuel *)
Section Fuel.
  Variables (N : penv) (q : qctx).
  Definition idx_ok (n : nat) (l : list nat) : Prop := NoDup l /\ forall i, In i l -> i < n.
  Lemma idx_len : forall n l, idx_ok n l -> length l <= n.
  Proof.
    intros n l [ND H]. rewrite <- (seq_length n 0). apply NoDup_incl_length; auto. intros i I. apply in_seq. specialize (H i I). lia.
  Qed.
  Lemma idx_step : forall A (l : list A) P ap, idx_ok (length l) ap -> (forall x, P x = true -> memb (fst x) ap = false) ->
    idx_ok (length l) (ap ++ map fst (filter P (enum l))).
  Proof.
    intros A l P ap [ND H] HP.
    assert (F : forall i, In i (map fst (filter P (enum l))) -> i < length l /\ ~ In i ap).
    { intros i I. apply in_map_iff in I. destruct I as ([j x] & <- & I). apply filter_In in I. destruct I as [I Px].
      apply HP in Px. cbn in *. apply memb_nIn in Px. apply enum_In in I. split; auto. apply nth_error_Some. congruence. }
    split.
    - assert (ND2 : NoDup (map fst (filter P (enum l)))).
      { assert (NE : NoDup (map fst (enum l))) by (rewrite enum_fst; apply seq_NoDup).
        clear -NE. induction (enum l) as [|x m IH]; cbn; [constructor|]. cbn in NE. inversion NE as [|? ? NI NE']; subst.
        destruct (P x); auto. cbn. constructor; auto. intros J. apply NI. apply in_map_iff in J. destruct J as (y & <- & J).
        apply filter_In in J. apply in_map, J. }
      clear H. induction ap as [|x ap IH]; cbn; auto. inversion ND as [|? ? NI ND']; subst. constructor.
      + rewrite in_app_iff. intros [J|J]; [auto|]. apply F in J. destruct J as [_ J]. apply J. left; auto.
      + apply IH; auto.
        * intros y Py. apply HP in Py. apply memb_nIn in Py. apply memb_nIn. intros J. apply Py. right; auto.
        * intros i J. destruct (F i J) as [J1 J2]. split; auto. intros J3. apply J2. right; auto.
    - intros i I. apply in_app_iff in I. destruct I as [I|I]; auto. apply F; auto.
  Qed.

  Lemma try_assigns_total : forall fuel bv ap p, idx_ok (length (q_assigns q)) ap -> length (q_assigns q) < fuel + length ap ->
    exists aa p', try_assigns fuel q bv ap p = Some (aa, p') /\ idx_ok (length (q_assigns q)) aa /\ length ap <= length aa.
  Proof.
    induction fuel as [|fuel IH]; intros bv ap p H L; cbn [try_assigns].
    - pose proof (idx_len H). lia.
    - match goal with |- context [filter ?f ?l] => set (P := f); change l with (enum (q_assigns q)) end.
      pose proof (@idx_step _ (q_assigns q) P ap H) as HS.
      destruct (filter P (enum (q_assigns q))) as [|x0 todo0] eqn:E; [eauto 6|].
      rewrite <- E in *. set (todo := filter P (enum (q_assigns q))) in *.
      assert (L2 : length todo = S (length todo0)) by (rewrite E; reflexivity).
      destruct (IH (vunion bv (map (fun x => fst (snd x)) todo)) (ap ++ map fst todo)
                   (PProject (vunion bv (map (fun x => fst (snd x)) todo)) p (map snd todo))) as (aa & p' & K1 & K2 & K3).
      + apply HS. intros x Px. unfold P in Px. rewrite !andb_true_iff, !negb_true_iff in Px. tauto.
      + rewrite app_length, map_length. lia.
      + exists aa, p'. split; [exact K1|]. split; [exact K2|]. rewrite app_length in K3. lia.
  Qed.
  Lemma try_constraint_idx : forall ap p ac p', try_constraint q ap p = (ac, p') -> idx_ok (length (q_cons q)) ap ->
    idx_ok (length (q_cons q)) ac /\ length ap <= length ac.
  Proof.
    intros ap p ac p' R H. unfold try_constraint in R.
    match type of R with context [filter ?f ?l] => set (P := f) in R; change l with (enum (q_cons q)) in R end.
    destruct (filter P (enum (q_cons q))) as [|x l] eqn:E; injection R as <- <-; [auto|].
    split; [|rewrite app_length; lia]. change (fst x :: map fst l) with (map fst (x :: l)). rewrite <- E.
    apply idx_step; auto. intros y Px. unfold P in Px. rewrite !andb_true_iff, !negb_true_iff in Px. tauto.
  Qed.
  Lemma fp_pass_idx : forall bv l ap p any ap' p' any', fp_pass N bv l ap p any = (ap', p', any') ->
    idx_ok (length (q_fp q)) ap -> (forall x, In x l -> fst x < length (q_fp q)) -> idx_ok (length (q_fp q)) ap'.
  Proof.
    intros bv. induction l as [|[i a] l IH]; intros ap p any ap' p' any' R H HL; cbn [fp_pass] in R.
    - injection R as <- <- <-. auto.
    - destruct (negb (memb i ap) && forallb (term_bounded bv) (fp_bound N a)) eqn:E.
      + apply IH in R; auto; [|intros; apply HL; right; auto]. rewrite andb_true_iff, negb_true_iff in E. destruct E as [E _].
        apply memb_nIn in E. destruct H as [ND H]. split.
        * apply Permutation_NoDup with (l := i :: ap); [apply Permutation_cons_append|constructor; auto].
        * intros j J. apply in_app_iff in J. destruct J as [J|[<-|[]]]; auto. apply (HL (i, a)). left; auto.
      + apply IH in R; auto. intros; apply HL; right; auto.
  Qed.
  Lemma enum_lt : forall A (l : list A) x, In x (enum l) -> fst x < length l.
  Proof. intros A l [i x] I. apply enum_In in I. cbn. apply nth_error_Some. congruence. Qed.

  Definition ap_ok (ap : applied) : Prop := idx_ok (length (q_assigns q)) (ap_assigns ap) /\
    idx_ok (length (q_cons q)) (ap_cons ap) /\ idx_ok (length (q_fp q)) (ap_fp ap).
  Definition ap_size (ap : applied) : nat := length (ap_assigns ap) + length (ap_cons ap) + length (ap_fp ap).
  Lemma try_apply_total : forall fuel ap p, ap_ok ap -> n_lits q < fuel + ap_size ap ->
    exists ap' p', try_apply N fuel q ap p = Some (ap', p') /\ ap_ok ap'.
  Proof.
    induction fuel as [|fuel IH]; intros ap p (H1 & H2 & H3) L.
    - pose proof (idx_len H1). pose proof (idx_len H2). pose proof (idx_len H3). unfold n_lits, ap_size in L. lia.
    - cbn [try_apply].
      destruct (@try_assigns_total (S (n_lits q)) (bvars p) (ap_assigns ap) p H1) as (aa & p1 & E1 & K1 & L1).
      { unfold n_lits. lia. }
      rewrite E1. destruct (try_constraint q (ap_cons ap) p1) as [ac p2] eqn:E2.
      destruct (@try_constraint_idx _ _ _ _ E2 H2) as [K2 L2].
      destruct (fp_pass N (bvars p2) (enum (q_fp q)) (ap_fp ap) p2 false) as [[af p3] any] eqn:E3.
      rewrite (@fp_loop_eq _ _ _ _ _ _ _ _ _ E3).
      pose proof (@fp_pass_idx _ _ _ _ _ _ _ _ E3 H3 (@enum_lt _ (q_fp q))) as K3.
      destruct (@fp_pass_sat _ _ _ _ _ _ _ _ _ E3) as (_ & _ & L3 & _).
      match goal with |- context [if ?b then _ else _] => destruct b eqn:EQ end.
      + apply IH; [split; auto|]. unfold ap_size in *. cbn [ap_assigns ap_cons ap_fp].
        rewrite !orb_true_iff, !negb_true_iff, !Nat.eqb_neq in EQ. lia.
      + eexists _, _. split; [reflexivity|]. split; auto.
  Qed.
  Lemma apply_all_total : forall ap p, ap_ok ap -> exists ap' p', apply_all N q ap p = Some (ap', p') /\ ap_ok ap'.
  Proof. intros ap p H. apply try_apply_total; auto. lia. Qed.
  Lemma add_arcs_total : forall arcs ap p, ap_ok ap -> (forall i, In i (map snd arcs) -> i < length (q_pos q)) ->
    exists ap' p', add_arcs N q arcs ap p = Some (ap', p').
  Proof.
    induction arcs as [|[l0 i] arcs IH]; intros ap p H HI; cbn [add_arcs]; [eauto|].
    destruct (nth_error (q_pos q) i) as [a|] eqn:E.
    - destruct (apply_all_total (join p (ground a)) H) as (ap' & p' & -> & K). apply IH; auto. intros; apply HI; right; auto.
    - exfalso. apply nth_error_None in E. specialize (HI i (or_introl eq_refl)). lia.
  Qed.
End Fuel.

(** ** C52 *)
Section C52.
  Variables (N : penv) (g : registry) (order : list state -> list state).
  Hypothesis ORD : forall l, Permutation (order l) l.

  (** The plan of a body is the conjunction of a part of it; what is left out is
      [LTrue] and assignments of variables that also get values elsewhere. *)
  Theorem C52_plan_partial : forall body p, plannable N g body -> safe N body -> no_neg_foreign N body -> tests_before N body -> query_plan N order body = Some p ->
    exists K, incl K body /\ (forall l, In l body -> In l K \/ droppable N K l) /\
      (forall v, In v (bvars p) <-> exists l, In l K /\ In v (lit_vars l)) /\
      forall B X M s, psem B M X p s <-> body_sat B g X M s K.
  Proof.
    intros body p [P1 P2 P3] P6 P4 P5 R. unfold query_plan in R.
    destruct (from_body N body) as [q|] eqn:E1; [|discriminate].
    destruct (pos_atom_arcs order 5 q) as [st|] eqn:E2; [|discriminate].
    destruct (@from_body_ok _ _ _ E1) as [QO NF].
    destruct (@get_query_plan_inv g N body P1 P2 P3 q QO (@from_body_tests _ _ _ E1 P5) P6 P4 _ _ R) as (K & H & _ & HK).
    { apply (full_covers (@pos_atom_arcs_ok _ ORD _ _ _ E2)). }
    exists K. split; [apply (i_body H)|]. split; [|split].
    - intros l Il. destruct (HK l Il) as [J|[->|[->|(v & e & -> & J & l' & J1 & J2)]]]; auto.
      + right. left; auto.
      + tauto.
      + right. right. exists v, e, l'. auto.
    - intros v. split.
      + intros Iv. destruct (i_down H _ Iv) as (l & Il & Bl). exists l. split; auto. eapply binds_vars; eauto.
      + intros (l & Il & Iv). apply (i_up H _ Il), Iv.
    - intros B X M s. rewrite (i_sem H). reflexivity.
  Qed.

  (** Exact when nothing else gives values to the assigned variables. *)
  Theorem C52_plan_exact : forall body p, plannable N g body -> safe N body -> no_neg_foreign N body -> tests_before N body -> query_plan N order body = Some p ->
    (forall v e l, In (LAssign v e) body -> is_new e = false -> In l body -> In v (lit_binds N l) -> l = LAssign v e) ->
    forall B X M s, psem B M X p s <-> body_sat B g X M s body.
  Proof.
    intros body p PL P4 P5 P6 R U B X M s. destruct (C52_plan_partial PL P4 P5 P6 R) as (K & K1 & K2 & _ & K3). rewrite K3.
    split; intros H l Il; [|auto]. destruct (K2 l Il) as [J|[->|(v & e & l' & -> & Ne & I' & Bl)]].
    - auto.
    - exact I.
    - rewrite <- (U v e l' Il Ne (K1 _ I') Bl). auto.
  Qed.

  (** In general the plan accepts at least what the body accepts. *)
  Theorem C52_plan_complete : forall body p, plannable N g body -> safe N body -> no_neg_foreign N body -> tests_before N body -> query_plan N order body = Some p ->
    forall B X M s, body_sat B g X M s body -> psem B M X p s.
  Proof.
    intros body p PL P4 P5 P6 R B X M s H. destruct (C52_plan_partial PL P4 P5 P6 R) as (K & K1 & K2 & _ & K3). apply K3.
    intros l Il. auto.
  Qed.

  (** Planning succeeds: on bodies without false literals that have a relation
      atom or an aggregation, or no foreign atom, or a foreign atom whose bounded
      arguments are constants. *)
  Theorem C52_total : forall body, ~ In LFalse body ->
    ((exists a, In (LAtom a) body /\ pe_foreign N (a_pred a) = false) \/ (exists r, In (LReduce r) body) \/
     (forall a, In (LAtom a) body -> pe_foreign N (a_pred a) = false) \/
     (exists a, In (LAtom a) body /\ pe_foreign N (a_pred a) = true /\ forallb is_const (fp_bound N a) = true)) ->
    query_plan N order body <> None.
  Proof.
    intros body NF H. unfold query_plan.
    assert (E1 : exists q, from_body N body = Some q).
    { clear H. induction body as [|l body IH]; cbn [from_body]; [eauto|]. destruct IH as (q & ->); [intros J; apply NF; right; auto|].
      destruct l; eauto; [destruct (pe_foreign N (a_pred a)); eauto|]. exfalso. apply NF. left; auto. }
    destruct E1 as (q & E1). rewrite E1. destruct (@from_body_ok _ _ _ E1) as [QO _].
    pose proof (@pos_atom_arcs_total _ ORD q 5 ltac:(lia)) as E2.
    destruct (pos_atom_arcs order 5 q) as [st|] eqn:E3; [|tauto]. clear E2.
    pose proof (@pos_atom_arcs_ok _ ORD _ _ _ E3) as SF. pose proof (full_covers SF) as CV.
    assert (LT : forall i, In i (map snd (s_arcs st)) -> i < length (q_pos q)).
    { intros i I. rewrite (so_arcs SF) in I. apply (so_lt SF), I. }
    assert (A0 : ap_ok q no_ap) by (split; [|split]; split; try constructor; intros i []).
    assert (ST : exists ap p n, start_plan N q (s_arcs st) = Some (ap, p, n) /\ ap_ok q ap).
    { unfold start_plan. destruct (q_reduces q) as [|r rs] eqn:ER.
      - destruct (s_arcs st) as [|[l0 i] arcs] eqn:EA.
        + destruct (q_fp q) as [|a0 fps] eqn:EF.
          * destruct (apply_all_total N (PUnit []) A0) as (ap' & p' & -> & K). cbn. eauto 6.
          * rewrite <- EF. destruct (find (fun x => is_ground_fp N (snd x)) (enum (q_fp q))) as [[i a]|] eqn:FI.
            -- apply find_some in FI. destruct FI as [FI _].
               destruct (@apply_all_total N q (mkAp [] [] [i]) (fp_ground N a)) as (ap' & p' & -> & K); [|cbn; eauto 6].
               split; [split; [constructor|intros j []]|]. split; [split; [constructor|intros j []]|].
               split; [repeat constructor; auto|]. intros j [<-|[]]. apply (@enum_lt _ _ _ FI).
            -- exfalso. destruct H as [(a & Ia & Fa)|[(r & Ir)|[H|(a & Ia & Fa & Ca)]]].
               ++ assert (J : In a (q_pos q)) by (apply (qo_pos QO); auto). apply In_nth_error in J. destruct J as (i & J).
                  assert (i < length (q_pos q)) by (apply nth_error_Some; congruence). specialize (CV i). unfold covers in CV. rewrite EA in CV. apply CV; auto.
               ++ apply (qo_red QO) in Ir. rewrite ER in Ir. exact Ir.
               ++ assert (J : In a0 (q_fp q)) by (rewrite EF; left; auto). apply (qo_fp QO) in J. destruct J as [J1 J2].
                  rewrite H in J2; auto. discriminate.
               ++ assert (J : In a (q_fp q)) by (apply (qo_fp QO); auto). apply In_nth_error in J. destruct J as (i & J).
                  apply enum_In in J. eapply find_none in FI; [|exact J]. cbn in FI. unfold is_ground_fp in FI. congruence.
        + destruct (nth_error (q_pos q) i) as [a|] eqn:Ea.
          * cbn [obnd]. destruct (apply_all_total N (ground a) A0) as (ap' & p' & -> & K). cbn. eauto 6.
          * exfalso. apply nth_error_None in Ea. specialize (LT i (or_introl eq_refl)). lia.
      - destruct (apply_all_total N (fold_left (fun p r => join p (red r)) rs (red r)) A0) as (ap' & p' & -> & K). cbn. eauto 6. }
    destruct ST as (ap & p & n & ES & AP). unfold get_query_plan. rewrite ES.
    destruct (@add_arcs_total N q (skipn n (s_arcs st)) ap p AP) as (ap' & p' & ->); [|discriminate].
    intros i I. apply LT. rewrite map_skipn in I. eapply In_skipn; eauto.
  Qed.
End C52.

(** ** Examples and refutations *)
(** Names: variables below 100 are the rule's, [c#p#i] is [100 + 2 i], [v#k] is
    [101 + 2 (v + 100 k)].  Predicate 5 is the test [g(x)], 6 is [f(x; y)], 7 the
    ternary [range(a, b; y)]. *)
Definition N1 : penv := mkPenv (fun p i c => 100 + 2 * i) (fun v k => 101 + 2 * (v + 100 * k))
  (fun p => match p with 5 => 1 | 6 => 1 | 7 => 2 | _ => 0 end)
  (fun p => match p with 5 | 6 | 7 => true | _ => false end).
Definition g1 : registry := mkReg (fun p => match p with 5 | 6 | 7 => true | _ => false end) (fun _ => false) (fun _ => false) [].
Definition id_order : list state -> list state := fun l => l.
Lemma id_order_ok : forall l, Permutation (id_order l) l.
Proof. intros. apply Permutation_refl. Qed.
Lemma N1_fresh : forall V, (forall v, In v V -> v < 100) -> fresh_names N1 V.
Proof.
  intros V H. constructor; cbn [pe_const pe_ren N1].
  - intros p i c I. specialize (H _ I). lia.
  - intros v k _ I. specialize (H _ I). lia.
  - intros. lia.
  - intros v k w j I J E. specialize (H _ I) as Hv. specialize (H _ J) as Hw.
    assert (K : v + 100 * k = w + 100 * j) by lia.
    assert (k = j) by nia. split; lia.
  - intros. lia.
Qed.
Lemma g1_N1 : forall p, g_foreign g1 p = pe_foreign N1 p.
Proof. reflexivity. Qed.
Ltac no_lit := let H := fresh in intros ? H; cbn in H; repeat (destruct H as [H|H]; [discriminate|]); destruct H.
Ltac all_lt := let H := fresh in intros ? H; cbn in H; repeat (destruct H as [<-|H]; [lia|]); destruct H.
Ltac list_split E :=
  match type of E with
  | [] = ?l ++ _ => destruct l; discriminate
  | _ :: _ = ?l ++ _ => destruct l; cbn [app] in E; [injection E as ? E; try discriminate; subst|injection E as _ E; list_split E]
  end.

Ltac in_list H := cbn in H; repeat (destruct H as [<-|H]); try (destruct H; fail).

(** [r(x, y) :- a(x), f(x; z, x), z < y, b(y), not c(z), w = x + y]; the second [x]
    of the foreign atom is renamed and compared. *)
Definition C52_body : list lit :=
  [LAtom (mkAtom 1 [TVar 0]); LAtom (mkAtom 6 [TVar 0; TVar 2; TVar 0]); LBin CLt (TVar 2) (TVar 1);
   LAtom (mkAtom 2 [TVar 1]); LNeg (mkAtom 3 [TVar 2]); LAssign 3 (ABin OAdd (TVar 0) (TVar 1))].
Example C52_ex_plan : query_plan N1 id_order C52_body = Some
  (PAnti [0; 2; 1; 3] (PFilter [0; 2; 1; 3] (PProject [0; 2; 1; 3] (PJoin [0; 2; 1]
     (PFilter [0; 2] (PFpJoin [0; 2; 101] (PGround [0] (mkAtom 1 [TVar 0])) (mkAtom 6 [TVar 0; TVar 2; TVar 101]))
        [KBin CEq (TVar 0) (TVar 101)])
     (PGround [1] (mkAtom 2 [TVar 1]))) [(3, ABin OAdd (TVar 0) (TVar 1))]) [KBin CLt (TVar 2) (TVar 1)])
   (PGround [2] (mkAtom 3 [TVar 2]))).
Proof. vm_compute. reflexivity. Qed.
Lemma lim_atom : forall N body a v, In (LAtom a) body -> pe_foreign N (a_pred a) = false -> In v (avars a) -> limited N body v.
Proof.
  intros N body a v I F J. eapply lim with (l := LAtom a); auto; cbn; rewrite F; auto. intros w [].
Qed.
Example C52_ex : plannable N1 g1 C52_body /\ safe N1 C52_body /\ no_neg_foreign N1 C52_body /\ tests_before N1 C52_body /\
  (forall v e l, In (LAssign v e) C52_body -> is_new e = false -> In l C52_body -> In v (lit_binds N1 l) -> l = LAssign v e).
Proof.
  assert (L0 : limited N1 C52_body 0) by (eapply lim_atom with (a := mkAtom 1 [TVar 0]); cbn; auto).
  assert (L1 : limited N1 C52_body 1) by (eapply lim_atom with (a := mkAtom 2 [TVar 1]); cbn; auto 10).
  assert (L2 : limited N1 C52_body 2).
  { eapply lim with (l := LAtom (mkAtom 6 [TVar 0; TVar 2; TVar 0])); cbn; auto. intros w [<-|[]]. auto. }
  split; [|split; [|split; [|split]]].
  - constructor; [apply N1_fresh; all_lt|exact g1_N1|no_lit].
  - intros l v I J. left. in_list I; in_list J; auto.
  - intros a I. cbn in I. repeat (destruct I as [I|I]; [try discriminate|]); [injection I as <-; reflexivity|destruct I].
  - intros l1 a l2 b E I Fa Fb T. unfold C52_body in E. list_split E; try discriminate;
      cbn in I; repeat (destruct I as [I|I]; [try discriminate; injection I as <-; try discriminate|]); destruct I.
  - intros v e l I Ne J K. cbn in I. repeat (destruct I as [I|I]; [try discriminate|]); [injection I as <- <-|destruct I].
    cbn in J. repeat (destruct J as [<-|J]; [cbn in K; repeat (destruct K as [K|K]; [try discriminate|]); try tauto|]). destruct J.
Qed.

(** An assignment is dropped when its variable already has values, as in the
    query [q(x * y, x, y)]. *)
Theorem C52_assign_refuted : exists N g order body p, (forall l, Permutation (order l) l) /\
  plannable N g body /\ safe N body /\ no_neg_foreign N body /\ tests_before N body /\ query_plan N order body = Some p /\
  exists B X M s, psem B M X p s /\ ~ body_sat B g X M s body.
Proof.
  pose (a := mkAtom 1 [TVar 0; TVar 1; TVar 2]). pose (body := [LAtom a; LAssign 0 (ABin OMul (TVar 1) (TVar 2))]).
  exists N1, g1, id_order, body. eexists. split; [exact id_order_ok|]. split; [|split; [|split; [|split; [|split]]]].
  - constructor; [apply N1_fresh; all_lt|exact g1_N1|no_lit].
  - intros l v I J. left. apply lim_atom with (a := a); [left; auto|auto|]. in_list I; in_list J; cbn; auto.
  - no_lit.
  - intros l1 b l2 c E I Fa Fb T. unfold body in E. list_split E; discriminate.
  - vm_compute. reflexivity.
  - exists benv_none, (fun p t => t = [I32 7; I32 2; I32 3]), (fun _ _ => False),
      (fun v => match v with 0 => I32 7 | 1 => I32 2 | _ => I32 3 end). split.
    + eexists. split; [apply agree_refl|]. reflexivity.
    + intros H. specialize (H _ (or_intror (or_introl eq_refl))). vm_compute in H. discriminate.
Qed.

(** A test after a foreign atom that gives values forgets these values:
    [a(x), f(x; y), g(x), b(y)] becomes a product with [b]. *)
Definition benv_fp : benv.
Proof.
  refine (mkBenv env_none (fun p t => p = 5 \/ t = [I32 1; I32 2]) (fun _ _ _ _ => False) _ _ (fun _ _ _ _ => False)
    (fun _ _ _ _ => False)); intros; assumption.
Defined.
Theorem C52_stale_refuted : exists N g order body p, (forall l, Permutation (order l) l) /\
  plannable N g body /\ safe N body /\ no_neg_foreign N body /\ query_plan N order body = Some p /\
  (forall v e, ~ In (LAssign v e) body) /\
  exists B X M s, psem B M X p s /\ ~ body_sat B g X M s body.
Proof.
  pose (body := [LAtom (mkAtom 1 [TVar 0]); LAtom (mkAtom 6 [TVar 0; TVar 1]); LAtom (mkAtom 5 [TVar 0]); LAtom (mkAtom 2 [TVar 1])]).
  exists N1, g1, id_order, body. eexists. split; [exact id_order_ok|]. split; [|split; [|split; [|split; [|split]]]].
  - constructor; [apply N1_fresh; all_lt|exact g1_N1|no_lit].
  - intros l v I J. left. apply lim_atom with (a := mkAtom 1 [TVar 0]); [left; auto|auto|].
    in_list I; in_list J; cbn; auto.
  - no_lit.
  - vm_compute. reflexivity.
  - intros v e I. cbn in I. repeat (destruct I as [I|I]; [discriminate|]). destruct I.
  - exists benv_fp, (fun p t => t = [I32 (Z.of_nat (p * p))]), (fun _ _ => False), (fun v => match v with 0 => I32 1 | _ => I32 4 end). split.
    + cbn [psem bvars]. eexists. split; [apply agree_refl|]. split.
      * exists (fun v => match v with 0 => I32 1 | _ => I32 2 end). split; [intros v [<-|[]]; reflexivity|]. split.
        -- eexists. split; [apply agree_refl|]. split; [|right; reflexivity]. eexists. split; [apply agree_refl|]. reflexivity.
        -- left. reflexivity.
      * eexists. split; [apply agree_refl|]. reflexivity.
    + intros H. specialize (H _ (or_intror (or_introl eq_refl))). vm_compute in H. destruct H; discriminate.
Qed.

(** A constraint on a new entity is dropped: [a(x), v = new C(x), v == x]. *)
Theorem C52_new_refuted : exists N g order body p, (forall l, Permutation (order l) l) /\
  plannable N g body /\ no_neg_foreign N body /\ tests_before N body /\
  (forall l v, In l body -> In v (lit_needs N l) -> limited N body v \/ exists f args, In (LAssign v (ANew f args)) body) /\
  query_plan N order body = Some p /\
  exists B X M s, psem B M X p s /\ ~ body_sat B g X M s body.
Proof.
  pose (body := [LAtom (mkAtom 1 [TVar 0]); LAssign 1 (ANew 9 [TVar 0]); LBin CEq (TVar 1) (TVar 0)]).
  exists N1, g1, id_order, body. eexists. split; [exact id_order_ok|]. split; [|split; [|split; [|split; [|split]]]].
  - constructor; [apply N1_fresh; all_lt|exact g1_N1|no_lit].
  - no_lit.
  - intros l1 b l2 c E I Fa Fb T. unfold body in E. list_split E; discriminate.
  - assert (L0 : limited N1 body 0) by (eapply lim_atom with (a := mkAtom 1 [TVar 0]); cbn; auto).
    intros l v I J. in_list I; in_list J; auto. right. exists 9, [TVar 0]. right; left; auto.
  - vm_compute. reflexivity.
  - exists benv_none, (fun p t => t = [I32 1]), (fun _ _ => False), (fun v => match v with 0 => I32 1 | _ => VEntity 10 end). split.
    + cbn [psem bvars]. eexists. split; [apply agree_refl|]. split.
      * eexists. split; [apply agree_refl|]. reflexivity.
      * intros x [<-|[]]. vm_compute. reflexivity.
    + intros H. specialize (H _ (or_intror (or_intror (or_introl eq_refl)))). vm_compute in H. discriminate.
Qed.

(** A negated foreign atom reads a relation instead of the foreign predicate:
    [a(x), not g(x)]. *)
Theorem C52_negated_foreign_refuted : exists N g order body p, (forall l, Permutation (order l) l) /\
  plannable N g body /\ safe N body /\ tests_before N body /\ query_plan N order body = Some p /\
  exists B X M s, psem B M X p s /\ ~ body_sat B g X M s body.
Proof.
  pose (body := [LAtom (mkAtom 1 [TVar 0]); LNeg (mkAtom 5 [TVar 0])]).
  exists N1, g1, id_order, body. eexists. split; [exact id_order_ok|]. split; [|split; [|split; [|split]]].
  - constructor; [apply N1_fresh; all_lt|exact g1_N1|no_lit].
  - intros l v I J. left. apply lim_atom with (a := mkAtom 1 [TVar 0]); [left; auto|auto|].
    in_list I; in_list J; cbn; auto.
  - intros l1 b l2 c E I Fa Fb T. unfold body in E. list_split E; discriminate.
  - vm_compute. reflexivity.
  - exists benv_fp, (fun p t => p = 1), (fun _ _ => False), (fun v => I32 1). split.
    + cbn [psem bvars]. eexists. split; [apply agree_refl|]. split.
      * eexists. split; [apply agree_refl|]. reflexivity.
      * intros (s'' & _ & s3 & _ & []).
    + intros H. specialize (H _ (or_intror (or_introl eq_refl))). apply H. left. reflexivity.
Qed.

(** A safe body has no plan: [w = 1 + 2, range(0, w; y)]. *)
Theorem C52_panic_refuted : exists N g order body, (forall l, Permutation (order l) l) /\
  plannable N g body /\ safe N body /\ no_neg_foreign N body /\ tests_before N body /\ ~ In LFalse body /\
  query_plan N order body = None.
Proof.
  pose (body := [LAssign 0 (ABin OAdd (TConst (I32 1)) (TConst (I32 2))); LAtom (mkAtom 7 [TConst (I32 0); TVar 0; TVar 1])]).
  exists N1, g1, id_order, body. split; [exact id_order_ok|]. split; [|split; [|split; [|split; [|split]]]].
  - constructor; [apply N1_fresh; all_lt|exact g1_N1|no_lit].
  - intros l v I J. left. in_list I; in_list J; auto.
    apply lim with (l := LAssign 0 (ABin OAdd (TConst (I32 1)) (TConst (I32 2)))); cbn; auto. intros w [].
  - no_lit.
  - intros l1 b l2 c E I Fa Fb T. unfold body in E. list_split E. destruct I.
  - intros I. cbn in I. repeat (destruct I as [I|I]; [discriminate|]). destruct I.
  - vm_compute. reflexivity.
Qed.

Print Assumptions C52_plan_partial.
Print Assumptions C52_plan_exact.
Print Assumptions C52_plan_complete.
Print Assumptions C52_total.
Print Assumptions C52_assign_refuted.
Print Assumptions C52_stale_refuted.
Print Assumptions C52_new_refuted.
Print Assumptions C52_negated_foreign_refuted.
Print Assumptions C52_panic_refuted.
