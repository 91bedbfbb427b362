(** C18 (negation), C19 and worked examples for C17-C19. *)
From Coq Require Import List Arith Bool ZArith QArith Qcanon Lia Permutation.
From Coq Require Import Sorting.Sorted.
From Verif Require Import Order OSet Prov ProvInst Views Formula Utils PropsUtils FormulaFacts PropsFormula.
Import ListNotations.
Open Scope nat_scope.
Set Implicit Arguments.

(** ** C18: negation *)
Section Neg.
  Variables (prob : nat -> Qc) (conflict : list nat -> bool) (pop : popper).
  Hypothesis POP : pop_perm pop.
  Hypothesis PROB : forall i, (0 <= prob i /\ prob i <= 1)%Qc.

  Definition lprod (c : clause) : Qc := fold_right (fun l acc => (literal_prob prob l * acc)%Qc) 1%Qc c.
  Lemma clause_prob_lprod : forall c, clause_prob prob c = lprod c.
  Proof.
    assert (G : forall c a, fold_left (fun acc l => (acc * literal_prob prob l)%Qc) c a = (a * lprod c)%Qc).
    { induction c as [|l c IH]; intros a; simpl; [ring|]. rewrite IH. ring. }
    intros c. unfold clause_prob. rewrite G. ring.
  Qed.
  Lemma lprod_perm : forall c d, Permutation c d -> lprod c = lprod d.
  Proof. induction 1; simpl; auto; [congruence|ring|congruence]. Qed.
  Lemma lit_nonneg : forall l, (0 <= literal_prob prob l)%Qc.
  Proof.
    intros [i|i]; simpl; [apply PROB|]. destruct (PROB i) as [_ H].
    unfold Qcminus. apply Qcle_minus_iff in H. auto.
  Qed.
  Lemma lprod_nonneg : forall c, (0 <= lprod c)%Qc.
  Proof.
    induction c as [|l c IH]; simpl; [discriminate|].
    replace 0%Qc with (0 * lprod c)%Qc by ring. apply Qcmult_le_compat_r; auto. apply lit_nonneg.
  Qed.

  Definition le_lit := fun x y => qc_leb (literal_prob prob y) (literal_prob prob x).

  Lemma sorted_nth : forall c i, i + 1 < length c -> StronglySorted (fun a b => le_lit a b = true) c ->
    (literal_prob prob (nth (i + 1) c (Pos 0)) <= literal_prob prob (nth i c (Pos 0)))%Qc.
  Proof.
    induction c as [|a c IH]; intros i L S; simpl in L; [lia|]. inversion S; subst.
    destruct i as [|i].
    - destruct c as [|b c]; simpl in *; [lia|]. rewrite Forall_forall in H2. apply qc_leb_le, H2. left; auto.
    - simpl. apply IH; auto. simpl in L. lia.
  Qed.

  Lemma mono_prod : forall cls v i, (forall c, In c cls -> StronglySorted (fun a b => le_lit a b = true) c) ->
    Forall2 lt (incr i v) (map (@length lit) cls) -> i < length v ->
    (lprod (chosen cls (incr i v)) <= lprod (chosen cls v))%Qc.
  Proof.
    induction cls as [|c cls IH]; intros v i S F L.
    - inversion F as [E|]. destruct v as [|x v]; [simpl in L; lia|]. destruct i; discriminate.
    - destruct v as [|x v]; [simpl in L; lia|]. destruct i as [|i]; simpl in F; inversion F; subst.
      + unfold chosen. simpl. apply Qcmult_le_compat_r; [|apply lprod_nonneg].
        apply sorted_nth; auto. apply S; left; auto.
      + unfold chosen in *. simpl. rewrite (Qcmult_comm _ (lprod _)), (Qcmult_comm _ (lprod (map _ _))).
        apply Qcmult_le_compat_r; [|apply lit_nonneg]. apply IH; auto; [|simpl in L; lia].
        intros; apply S; right; auto.
  Qed.

  Lemma vdedup_id : forall l, NoDup l -> vdedup l = l.
  Proof.
    induction l as [|a l IH]; intros N; auto. destruct l as [|b l]; auto.
    change (vdedup (a :: b :: l)) with (if lit_eqb a b then vdedup (b :: l) else a :: vdedup (b :: l)).
    inversion N; subst. destruct (lit_eqb a b) eqn:E.
    - apply lit_eqb_true in E. subst. exfalso. apply H1. left; auto.
    - f_equal; auto.
  Qed.

  (** one literal from every clause *)
  Definition choice (u : clause) (f : list clause) : Prop := Forall2 (fun l c => In l c) u f.

  Lemma choice_facts : forall u f, choice u f -> NoDup (map fact_id (concat f)) -> NoDup (map fact_id u).
  Proof.
    induction 1 as [|l c u f I F IH]; simpl; intros N; [constructor|].
    rewrite map_app in N. constructor.
    - intros X. apply in_map_iff in X as (l' & E & I').
      assert (J : In l' (concat f)).
      { clear -F I'. induction F; [destruct I'|]. simpl. apply in_or_app. destruct I' as [->|I']; auto. }
      clear -N I J E. induction (map fact_id c) as [|] eqn:Ec in c, I, N |- *.
      + destruct c; [destruct I|discriminate].
      + assert (D : forall x, In x (map fact_id c) -> In x (map fact_id (concat f)) -> False).
        { rewrite <- Ec in N. clear -N. induction (map fact_id c) as [|y m IHm]; simpl; [tauto|].
          simpl in N. inversion N; subst. intros x [->|X] Y; [apply H1, in_or_app; auto|eapply IHm; eauto]. }
        apply (D (fact_id l)); [apply in_map; auto|]. rewrite <- E. apply in_map; auto.
    - apply IH. clear -N. induction (map fact_id c); simpl in N; auto. inversion N; auto.
  Qed.

  Lemma NoDup_of_map : forall (u : clause), NoDup (map fact_id u) -> NoDup u.
  Proof. intros. eapply NoDup_map_inv; eauto. Qed.

  Lemma chosen_choice : forall cls v, Forall2 lt v (map (@length lit) cls) -> choice (chosen cls v) cls.
  Proof.
    induction cls as [|c cls IH]; intros v F; inversion F; subst; [constructor|].
    unfold chosen. simpl. constructor; [apply nth_In; auto|apply IH; auto].
  Qed.
  Lemma choice_chosen : forall u cls, choice u cls -> exists v, Forall2 lt v (map (@length lit) cls) /\ chosen cls v = u.
  Proof.
    induction 1 as [|l c u cls I F (v & B & E)].
    - exists []. split; [constructor|auto].
    - destruct (In_nth _ _ (Pos 0) I) as (i & L & N). exists (i :: v). split; [constructor; auto|].
      unfold chosen in *. simpl. congruence.
  Qed.
  Lemma choice_perm : forall u f g, choice u f -> Forall2 (@Permutation lit) f g -> choice u g.
  Proof.
    intros u f g H. revert g. induction H as [|l c u f I H IH]; intros g P; inversion P; subst; [constructor|].
    constructor; [eapply Permutation_in; eauto|apply IH; auto].
  Qed.

  Lemma is_valid_distinct : forall c, NoDup (map fact_id c) -> is_valid c = true.
  Proof.
    induction c as [|a c IH]; auto. destruct c as [|b c]; auto. intros N.
    change (is_valid (a :: b :: c)) with
      (if (fact_id a =? fact_id b) && negb (Bool.eqb (lsign a) (lsign b)) then false else is_valid (b :: c)).
    inversion N; subst. destruct (fact_id a =? fact_id b) eqn:E.
    - apply Nat.eqb_eq in E. exfalso. apply H1. left; auto.
    - simpl andb. cbv iota. auto.
  Qed.

  Lemma pos_fact_ids_perm : forall c d, Permutation c d -> pos_fact_ids c = pos_fact_ids d.
  Proof.
    intros. apply (osorted_ext nat_cmp_TOrder); try apply pos_fact_ids_sorted.
    intros x. rewrite !pos_fact_ids_In. split; apply Permutation_in; [auto|apply Permutation_sym; auto].
  Qed.

  (** When every fact occurs at most once in the formula, negation keeps the
      most probable proofs: every consistent choice of one literal per clause
      is either kept or at most as probable as every kept one. *)
  Theorem C18_negate_disjoint : forall t k fuel, t <> [] -> NoDup (map fact_id (concat t)) ->
    cfuel t <= fuel -> 0 < k ->
    exists r, top_k_negate prob conflict pop fuel t k = Some r /\ length r <= k /\
      (forall d, In d r -> exists u, choice u (map (map lnegate) t) /\ Permutation d u /\ conflict (pos_fact_ids u) = false) /\
      (forall u, choice u (map (map lnegate) t) -> conflict (pos_fact_ids u) = false ->
        (exists d, In d r /\ Permutation d u) \/
        (length r = k /\ forall d, In d r -> (clause_prob prob u <= clause_prob prob d)%Qc)).
  Proof.
    intros t k fuel NE ND Fu K. unfold top_k_negate. set (f := map (map lnegate) t).
    assert (NDf : NoDup (map fact_id (concat f))).
    { replace (map fact_id (concat f)) with (map fact_id (concat t)); auto. unfold f. clear.
      induction t as [|c t IH]; simpl; auto. rewrite !map_app, IH. f_equal. rewrite map_map.
      apply map_ext. intros [|]; auto. }
    assert (Lf : map (@length lit) f = map (@length lit) t).
    { unfold f. rewrite map_map. apply map_ext. intros. apply map_length. }
    assert (Fu' : cfuel f <= fuel).
    { unfold cfuel, cprod in *. rewrite Lf. unfold f. rewrite map_length. auto. }
    assert (NEf : f <> []) by (unfold f; destruct t; [congruence|discriminate]).
    clearbody f. clear NE ND Fu Lf t.
    unfold cnf2dnf_k. fold le_lit. set (cls := map (ssort le_lit) f).
    assert (NE : exists a b, cls = a :: b) by (unfold cls; destruct f; [congruence|simpl; eauto]).
    destruct NE as (a & b & NE). rewrite NE. rewrite <- NE. clear NE a b.
    assert (PF : Forall2 (@Permutation lit) cls f).
    { unfold cls. clear. induction f; simpl; constructor; auto. apply ssort_perm. }
    assert (PF' : Forall2 (@Permutation lit) f cls).
    { clear -PF. induction PF; constructor; auto. apply Permutation_sym; auto. }
    destruct (existsb (fun c => length c =? 0) cls) eqn:Em.
    - exists dnf_zero. split; auto. split; [simpl; lia|]. split; [intros d []|].
      intros u C _. exfalso. apply existsb_exists in Em as (c & I & L). apply Nat.eqb_eq in L.
      destruct c; [|discriminate]. pose proof (choice_perm C PF') as C'. clear -C' I.
      induction C'; [destruct I|]. destruct I as [->|I]; auto.
    - assert (POS : forall n, In n (map (@length lit) cls) -> 0 < n).
      { intros n I. apply in_map_iff in I as (c & <- & I). destruct (length c) eqn:E; [|lia].
        rewrite <- not_true_iff_false in Em. exfalso. apply Em. apply existsb_exists. exists c.
        split; auto. rewrite E; auto. }
      destruct (@search_spec pop POP (map (@length lit) cls) (fun v => clause_prob prob (chosen_clause cls v))
                  (chosen_clause cls) (valid_clause conflict) POS fuel k) as (vis & E & V & N & L & D & _ & B).
      { unfold search_fuel. unfold cls. rewrite sort_lens, map_length. exact Fu'. }
      unfold zeros in E. rewrite map_length in E. rewrite E.
      assert (CP : forall v, ok (map (@length lit) cls) v ->
                choice (chosen cls v) f /\ Permutation (chosen_clause cls v) (chosen cls v) /\
                NoDup (map fact_id (chosen cls v))).
      { intros v O. assert (C : choice (chosen cls v) f) by (eapply choice_perm; [apply chosen_choice; exact O|auto]).
        pose proof (choice_facts C NDf) as NF. split; auto. split; auto.
        unfold chosen_clause. rewrite vdedup_id; [apply ssort_perm|].
        apply (Permutation_NoDup (Permutation_sym (ssort_perm _ _))). apply NoDup_of_map; auto. }
      assert (VC : forall v, ok (map (@length lit) cls) v ->
                 valid_clause conflict (chosen_clause cls v) = negb (conflict (pos_fact_ids (chosen cls v)))).
      { intros v O. destruct (CP v O) as (C & P & NF). unfold valid_clause.
        rewrite (pos_fact_ids_perm P). rewrite is_valid_distinct; auto.
        apply (Permutation_NoDup (Permutation_map fact_id (Permutation_sym P))). auto. }
      assert (MONO : mono (map (@length lit) cls) (fun v => clause_prob prob (chosen_clause cls v))).
      { intros x y Ox Iy. apply (next_iff _ Ox) in Iy as (Oy & i & Li & ->).
        destruct (CP x Ox) as (_ & Px & _), (CP (incr i x) Oy) as (_ & Py & _).
        rewrite !clause_prob_lprod, (lprod_perm Px), (lprod_perm Py).
        apply mono_prod; auto. intros c Ic. unfold cls in Ic. apply in_map_iff in Ic as (c' & <- & _).
        apply ssort_sorted.
        - intros p q H. unfold le_lit in *. apply qc_leb_le. apply Qclt_le_weak, Qcnot_le_lt.
          rewrite <- not_true_iff_false, qc_leb_le in H. auto.
        - intros p q z H1 H2. unfold le_lit in *. apply qc_leb_le in H1, H2. apply qc_leb_le. eapply Qcle_trans; eauto. }
      specialize (B MONO). eexists. split; [reflexivity|]. split; [auto|]. split.
      + intros d Id. apply filter_In in Id as [Id A]. apply in_map_iff in Id as (v & <- & Iv).
        destruct (CP v (V v Iv)) as (C & P & _). exists (chosen cls v). split; auto. split; auto.
        rewrite VC in A by (apply V; auto). apply negb_true_iff; auto.
      + intros u C NC. destruct (choice_chosen (choice_perm C PF')) as (v & O & <-).
        destruct (CP v O) as (_ & P & _).
        destruct (in_dec (list_eq_dec Nat.eq_dec) v vis) as [I|I].
        * left. exists (chosen_clause cls v). split; auto. apply filter_In. split; [apply in_map; auto|].
          rewrite VC by auto. rewrite NC. auto.
        * right. split; [destruct D as [D|D]; auto; exfalso; apply I, D; auto|].
          intros d Id. apply filter_In in Id as [Id _]. apply in_map_iff in Id as (v' & <- & Iv').
          rewrite (clause_prob_lprod (chosen cls v)), <- (lprod_perm P), <- clause_prob_lprod.
          apply (B v' v); auto.
  Qed.
End Neg.
Print Assumptions C18_negate_disjoint.

(** In general it does not: the search scores a literal shared by two clauses
    once, so a successor can be more probable than the entry it comes from.
    Negating (a and b) or (a and c) with k = 1 keeps "not b and not c"
    (probability 9/25) and drops "not a" (probability 1/2). *)
Definition pr3 (i : nat) : Qc := match i with 0 => Q2Qc (1#2) | _ => Q2Qc (2#5) end.
Theorem C18_negate_refuted : exists (t : dnf) (u : clause) (r : dnf),
  top_k_negate pr3 (fun _ => false) pop_first 100 t 1 = Some r /\
  length r = 1 /\ ~ In u r /\ (forall w, conj w u = true -> dnf_sem w t = false) /\
  (forall d, In d r -> clause_prob pr3 d < clause_prob pr3 u)%Qc.
Proof.
  exists [[Pos 0; Pos 1]; [Pos 0; Pos 2]], [Neg 0], [[Neg 1; Neg 2]].
  split; [vm_compute; reflexivity|]. split; [reflexivity|]. split; [intros [H|[]]; discriminate|].
  split.
  - intros w. simpl. destruct (w 0); simpl; auto. discriminate.
  - intros d [<-|[]]. vm_compute. reflexivity.
Qed.
Print Assumptions C18_negate_refuted.

Definition prx (i : nat) : Qc := match i with 0 => Q2Qc (9#10) | 1 => Q2Qc (1#2) | 2 => Q2Qc (1#4) | _ => Q2Qc (3#4) end.
Example C17_C18_example :
  let nc := has_conflict (declare [(0, 1); (0, 2)]) in
  top_k_add prx [[Pos 0]; [Pos 2]] [[Pos 1]; [Pos 0]] 2 = [[Pos 0]; [Pos 1]] /\
  top_k_mult prx nc [[Pos 1]; [Pos 0]] [[Pos 2]; [Pos 1; Neg 2]] 2 = [[Pos 1; Neg 2]; [Pos 0; Pos 1; Neg 2]] /\
  top_k_negate prx nc pop_first 100 [[Pos 0; Pos 1]; [Neg 3]] 5 = Some [[Neg 1; Pos 3]; [Neg 0; Pos 3]] /\
  cfuel [[Pos 0; Pos 1]; [Neg 3]] <= 100.
Proof. repeat split; vm_compute; auto; repeat constructor. Qed.

Example C17_consistent_example :
  consistent (has_conflict (declare [(0, 1); (0, 2)])) (fun i => i =? 1).
Proof.
  apply C17_consistent_worlds. intros g a b _ _ Ha Hb. apply Nat.eqb_eq in Ha, Hb. congruence.
Qed.

(** ** C19 *)
Definition csem (w : world) (t : cform) : bool :=
  match fkind t with CNF => cnf_sem w (fcls t) | DNF => dnf_sem w (fcls t) end.

Lemma cnf_sem_ext : forall w f g, (forall c, In c f <-> In c g) -> cnf_sem w f = cnf_sem w g.
Proof.
  intros w f g H. apply eq_true_iff_eq. rewrite !cnf_sem_In. split; intros C c I; apply C, H; auto.
Qed.

Lemma add_loop_In : forall better k f1 f2, length f1 + length f2 <= k ->
  forall c, In c (add_loop better k f1 f2) <-> In c f1 \/ In c f2.
Proof.
  induction k as [|k IH]; intros f1 f2 L c.
  - destruct f1, f2; simpl in *; try tauto; lia.
  - destruct f1 as [|x f1], f2 as [|y f2]; cbn [add_loop].
    + simpl. tauto.
    + simpl. rewrite IH by (simpl in *; lia). simpl. tauto.
    + simpl. rewrite IH by (simpl in *; lia). simpl. tauto.
    + destruct (clause_eqb x y) eqn:E; [|destruct (better x y)].
      * apply clause_eqb_true in E. subst y. simpl. rewrite IH by (simpl in *; lia). tauto.
      * simpl. rewrite IH by (simpl in *; lia). simpl. tauto.
      * simpl. rewrite IH by (simpl in *; lia). simpl. tauto.
Qed.

(** the pairs search *)
Lemma pairs_ok : forall n m v, Forall2 lt v [n; m] <-> exists i j, v = [i; j] /\ i < n /\ j < m.
Proof.
  intros. split.
  - intros F. inversion F as [|i ? ? ? A F1]; subst. inversion F1 as [|j ? ? ? B F2]; subst.
    inversion F2; subst. eauto.
  - intros (i & j & -> & A & B). repeat constructor; auto.
Qed.

Section C19.
  Variables (prob : nat -> Qc) (conflict : list nat -> bool) (pop : popper).
  Hypothesis POP : pop_perm pop.

  (** [k] prunes nothing and the fuel of the model suffices. *)
  Definition roomy (t1 t2 : cform) (k fuel : nat) : Prop :=
    let (f1, f2) := (fcls t1, fcls t2) in
    1 + length f1 + length f2 + length f1 * length f2 + cprod f1 + cprod f2 <= k /\
    2 + 3 * (length f1 * length f2) + cfuel f1 + cfuel f2 <= fuel.

  Lemma add_top_sem : forall w f1 f2 k, length f1 + length f2 <= k ->
    csem w (add_formula_top_k prob f1 f2 k) = dnf_sem w f1 || dnf_sem w f2.
  Proof.
    intros w f1 f2 k L. unfold csem, add_formula_top_k. simpl. rewrite <- C17_or. apply dnf_sem_ext.
    intros c. rewrite add_loop_In by auto. unfold dnf_or. rewrite in_app_iff. tauto.
  Qed.
  Lemma add_bottom_sem : forall w f1 f2 k, length f1 + length f2 <= k ->
    csem w (add_formula_bottom_k prob f1 f2 k) = cnf_sem w f1 && cnf_sem w f2.
  Proof.
    intros w f1 f2 k L. unfold csem, add_formula_bottom_k. simpl. unfold cnf_sem at 2 3.
    rewrite <- forallb_app. apply (cnf_sem_ext w).
    intros c. rewrite add_loop_In by auto. rewrite in_app_iff. tauto.
  Qed.

  Lemma pairs_search : forall f1 f2 key accept k fuel, f1 <> [] -> f2 <> [] ->
    length f1 * length f2 <= k -> 2 + 3 * (length f1 * length f2) <= fuel ->
    exists r, search pop [length f1; length f2] key (pair_clause f1 f2) accept fuel k [[0; 0]] [] [] = Some r /\
      forall c, In c r <-> accept c = true /\ exists x y, In x f1 /\ In y f2 /\ c = merge_unchecked x y.
  Proof.
    intros f1 f2 key accept k fuel N1 N2 K Fu.
    assert (POS : forall n, In n [length f1; length f2] -> 0 < n).
    { intros n [<-|[<-|[]]]; [destruct f1|destruct f2]; simpl; try congruence; lia. }
    assert (PR : prod [length f1; length f2] = length f1 * length f2) by (unfold prod; simpl; lia).
    destruct (@search_spec pop POP [length f1; length f2] key (pair_clause f1 f2) accept POS fuel k)
      as (vis & E & V & _ & _ & _ & Full & _).
    { unfold search_fuel. rewrite PR. simpl. lia. }
    unfold zeros in E. simpl repeat in E. rewrite E. eexists. split; [reflexivity|].
    intros c. rewrite filter_In, in_map_iff. split.
    - intros ((v & <- & Iv) & A). split; auto. apply V in Iv. apply pairs_ok in Iv as (i & j & -> & Li & Lj).
      simpl. exists (nth i f1 []), (nth j f2 []). split; [apply nth_In; auto|]. split; [apply nth_In; auto|auto].
    - intros (A & x & y & X & Y & ->). split; auto.
      destruct (In_nth _ _ [] X) as (i & Li & Ni), (In_nth _ _ [] Y) as (j & Lj & Nj).
      exists [i; j]. split; [exact (f_equal2 merge_unchecked Ni Nj)|]. apply Full; [rewrite PR; auto|].
      apply pairs_ok. eauto.
  Qed.

  Lemma dnf2cnf_sem : forall f k fuel, cfuel f <= fuel -> cprod f <= k ->
    exists r, dnf2cnf_k prob pop fuel f k = Some r /\ length r <= 1 + cprod f /\
      forall w, cnf_sem w r = dnf_sem w f.
  Proof.
    intros f k fuel Fu K. unfold dnf2cnf_k. set (le := fun x y => qc_leb (literal_prob prob x) (literal_prob prob y)).
    destruct f as [|c0 f0]; [|set (f := c0 :: f0) in *].
    { simpl. eexists. split; [reflexivity|]. simpl. split; [lia|auto]. }
    assert (NE : exists a b, map (ssort le) f = a :: b) by (unfold f; simpl; eauto).
    destruct NE as (a & b & NE). rewrite NE. rewrite <- NE. clear NE a b.
    set (cls := map (ssort le) f) in *.
    destruct (existsb (fun c => length c =? 0) cls) eqn:Em.
    - apply existsb_exists in Em as (c & I & L). apply Nat.eqb_eq in L. destruct c; [|discriminate].
      eexists. split; [reflexivity|]. split; [simpl; lia|]. intros w. transitivity true; [reflexivity|]. symmetry.
      rewrite <- (sort_dnf w le). fold cls. apply dnf_sem_In. exists []; auto.
    - assert (POS : forall n, In n (map (@length lit) cls) -> 0 < n).
      { intros n I. apply in_map_iff in I as (c & <- & I). destruct (length c) eqn:E; [|lia].
        rewrite <- not_true_iff_false in Em. exfalso. apply Em. apply existsb_exists. exists c.
        split; auto. rewrite E; auto. }
      destruct (@search_spec pop POP (map (@length lit) cls) (fun v => (- disjunction_prob prob (chosen_clause cls v))%Qc)
                  (chosen_clause cls) is_valid POS fuel k) as (vis & E & V & N & L & _ & Full & _).
      { unfold search_fuel. unfold cls. rewrite sort_lens, map_length. exact Fu. }
      unfold zeros in E. rewrite map_length in E. rewrite E. eexists. split; [reflexivity|]. split.
      + eapply Nat.le_trans; [apply filter_length_le|]. rewrite map_length.
        destruct (@C36_cartesian (map (@length lit) cls) (prod (map (@length lit) cls))) as (l & _ & _ & Ll & Ml); [lia|].
        apply le_S. unfold cprod. rewrite <- (sort_lens le f). fold cls. rewrite <- Ll.
        apply NoDup_incl_length; auto. intros v Iv. apply Ml. apply V; auto.
      + intros w. rewrite <- (sort_dnf w le). fold cls.
        assert (CS := choice_sem_dnf w cls).
        destruct (dnf_sem w cls) eqn:Ed.
        * apply cnf_sem_In. intros c Ic. apply filter_In in Ic as [Ic _]. apply in_map_iff in Ic as (v & <- & Iv).
          destruct (disjn w (chosen_clause cls v)) eqn:Z; auto. rewrite chosen_clause_disjn in Z.
          exfalso. assert (true = false) by (apply CS; exists v; split; auto; apply V; auto). discriminate.
        * destruct (proj1 CS eq_refl) as (v & O & Z). apply not_true_iff_false. rewrite cnf_sem_In.
          intros G. rewrite <- chosen_clause_disjn in Z.
          rewrite G in Z; [discriminate|]. apply filter_In. split.
          -- apply in_map. apply Full; auto. unfold cls. rewrite sort_lens. auto.
          -- destruct (is_valid _) eqn:Y; auto. apply (invalid_sem w) in Y as [_ Y]. congruence.
  Qed.

  (** Negation is exact in every world. *)
  Theorem C19_negate : forall w t, csem w (cd_negate t) = negb (csem w t).
  Proof.
    intros w [kd cs]. unfold cd_negate. simpl.
    assert (G : csem w (mkF (counterpart kd) (map (map lnegate) cs)) = negb (csem w (mkF kd cs))).
    { unfold csem; simpl. destruct kd; simpl; [apply dnf_negate|apply cnf_negate]. }
    destruct cs as [|[|l [|l' c]] [|d cs]]; auto. clear G. unfold csem; simpl.
    destruct kd; simpl; rewrite lholds_negate, ?orb_false_r, ?andb_true_r; auto.
  Qed.

  (** Conjunction is exact on consistent worlds. *)
  Theorem C19_mult : forall t1 t2 k fuel, roomy t1 t2 k fuel ->
    exists r, top_bottom_k_mult prob conflict pop fuel t1 t2 k = Some r /\
      forall w, consistent conflict w -> csem w r = csem w t1 && csem w t2.
  Proof.
    intros [k1 f1] [k2 f2] k fuel [K Fu]. simpl in K, Fu.
    unfold top_bottom_k_mult. cbn [fkind fcls].
    destruct k1, k2.
    - eexists. split; [reflexivity|]. intros w C. rewrite add_bottom_sem by lia. auto.
    - destruct (@dnf2cnf_sem f2 k fuel) as (r & E & L & S); [lia|lia|]. rewrite E. eexists. split; [reflexivity|].
      intros w C. rewrite add_bottom_sem by lia. rewrite S. auto.
    - destruct (@dnf2cnf_sem f1 k fuel) as (r & E & L & S); [lia|lia|]. rewrite E. eexists. split; [reflexivity|].
      intros w C. rewrite add_bottom_sem by lia. rewrite S. auto.
    - unfold mult_formula_top_k.
      destruct ((length f1 =? 0) || (length f2 =? 0)) eqn:E0.
      { eexists. split; [reflexivity|]. intros w C. unfold csem; simpl.
        apply orb_true_iff in E0 as [E0|E0]; apply Nat.eqb_eq in E0;
          [destruct f1; [|discriminate]|destruct f2; [|discriminate]]; simpl; auto. rewrite andb_false_r; auto. }
      destruct (list_eqb clause_eqb f1 f2) eqn:E1.
      { apply (list_eqb_true _ clause_eqb_true) in E1. subst f2. eexists. split; [reflexivity|].
        intros w C. unfold csem; simpl. destruct (dnf_sem w f1); auto. }
      apply orb_false_iff in E0 as [E2 E3]. apply Nat.eqb_neq in E2, E3.
      destruct (@pairs_search f1 f2 (fun v => clause_prob prob (pair_clause f1 f2 v)) (valid_clause conflict) k fuel)
        as (r & E & M); [destruct f1; simpl in *; congruence|destruct f2; simpl in *; congruence|lia|lia|].
      rewrite E. eexists. split; [reflexivity|]. intros w C. unfold csem. simpl.
      apply eq_true_iff_eq. rewrite andb_true_iff, !dnf_sem_In. split.
      + intros (c & I & H). apply M in I as (_ & x & y & X & Y & ->). rewrite mu_conj in H.
        apply andb_true_iff in H as [H1 H2]. split; eauto.
      + intros ((x & X & Hx) & (y & Y & Hy)). exists (merge_unchecked x y).
        assert (H : conj w (merge_unchecked x y) = true) by (rewrite mu_conj, Hx, Hy; auto).
        split; auto. apply M. split; [|eauto].
        unfold valid_clause. apply andb_true_iff. split.
        * destruct (is_valid _) eqn:Z; auto. apply (invalid_sem w) in Z as [Z _]. congruence.
        * destruct (conflict _) eqn:Z; auto. apply (conflict_sem _ C) in Z. congruence.
  Qed.

  (** Disjunction is exact on consistent worlds, except for two CNF operands of
      which one has no clause (see the refutation below). *)
  Theorem C19_add : forall t1 t2 k fuel, roomy t1 t2 k fuel ->
    ~ (fkind t1 = CNF /\ fkind t2 = CNF /\ (fcls t1 = [] \/ fcls t2 = [])) ->
    exists r, top_bottom_k_add prob conflict pop fuel t1 t2 k = Some r /\
      forall w, consistent conflict w -> csem w r = csem w t1 || csem w t2.
  Proof.
    intros [k1 f1] [k2 f2] k fuel [K Fu] NX. simpl in K, Fu, NX.
    unfold top_bottom_k_add. cbn [fkind fcls].
    destruct k1, k2.
    - unfold mult_formula_bottom_k.
      assert (E2 : f1 <> []) by (intros ->; apply NX; auto).
      assert (E3 : f2 <> []) by (intros ->; apply NX; auto).
      replace ((length f1 =? 0) || (length f2 =? 0)) with false
        by (destruct f1; [congruence|]; destruct f2; [congruence|]; reflexivity).
      destruct (list_eqb clause_eqb f1 f2) eqn:E1.
      { apply (list_eqb_true _ clause_eqb_true) in E1. subst f2. eexists. split; [reflexivity|].
        intros w C. unfold csem; simpl. destruct (cnf_sem w f1); auto. }
      destruct (@pairs_search f1 f2 (fun v => (- disjunction_prob prob (pair_clause f1 f2 v))%Qc) is_valid k fuel)
        as (r & E & M); auto; [lia|lia|].
      rewrite E. eexists. split; [reflexivity|]. intros w C. unfold csem. simpl.
      apply eq_true_iff_eq. rewrite orb_true_iff, !cnf_sem_In. split.
      + intros H. destruct (forallb (disjn w) f1) eqn:A; [left; apply forallb_forall; auto|right].
        intros y Y. rewrite <- not_true_iff_false in A. destruct (disjn w y) eqn:Dy; auto. exfalso.
        apply A. apply forallb_forall. intros x X. destruct (disjn w x) eqn:Dx; auto. exfalso.
        assert (Z : disjn w (merge_unchecked x y) = false) by (rewrite mu_disj, Dx, Dy; auto).
        rewrite H in Z; [discriminate|]. apply M. split; [|eauto].
        destruct (is_valid _) eqn:V; auto. apply (invalid_sem w) in V as [_ V].
        rewrite mu_disj, Dx, Dy in V. discriminate.
      + intros H c I. apply M in I as (_ & x & y & X & Y & ->). rewrite mu_disj.
        destruct H as [H|H]; [rewrite (H x X); auto|rewrite (H y Y); apply orb_true_r].
    - destruct (@cnf2dnf_sem prob conflict pop POP f1 k fuel) as (r & E & [L L'] & _ & S); [lia|lia|]. rewrite E.
      eexists. split; [reflexivity|].
      intros w C. rewrite add_top_sem by lia. rewrite S by (auto; lia). auto.
    - destruct (@cnf2dnf_sem prob conflict pop POP f2 k fuel) as (r & E & [L L'] & _ & S); [lia|lia|]. rewrite E.
      eexists. split; [reflexivity|].
      intros w C. rewrite add_top_sem by lia. rewrite S by (auto; lia). auto.
    - eexists. split; [reflexivity|]. intros w C. rewrite add_top_sem by lia. auto.
  Qed.

  (** The missing case is wrong: the empty CNF is "true" (it is what negating
      the false tag gives), but adding it to any CNF gives "false". *)
  Theorem C19_add_refuted : forall fuel k t2, fkind t2 = CNF ->
    let t1 := cd_negate cd_dnf_zero in
    exists r, top_bottom_k_add prob conflict pop fuel t1 t2 k = Some r /\
      forall w, csem w t1 = true /\ csem w r = false.
  Proof.
    intros fuel k [k2 f2] H t1. simpl in H. subst k2. exists cnf_zero. split; [reflexivity|].
    intros w. split; reflexivity.
  Qed.

  (** Tags that are discarded ([is_zero]) are false, and of the tags in disjunctive
      form whose clauses do not contradict themselves only false ones are. *)
  Theorem C19_discard : forall t, is_zero t = true -> forall w, csem w t = false.
  Proof.
    intros [k cs] H w. unfold csem, is_zero in *. cbn [fkind fcls] in *. destruct k.
    - apply existsb_exists in H. destruct H as (c & I & E). destruct c; [|discriminate]. destruct (cnf_sem w cs) eqn:S; auto.
      pose proof (proj1 (cnf_sem_In w cs) S [] I) as Z. discriminate Z.
    - destruct cs; [reflexivity|discriminate].
  Qed.
  Theorem C19_kept : forall t, fkind t = DNF -> (forall c i, In c (fcls t) -> In (Pos i) c -> ~ In (Neg i) c) -> is_zero t = false -> exists w, csem w t = true.
  Proof.
    intros [k cs] H V Z. cbn in H. subst k. unfold is_zero, csem in *. cbn [fkind fcls] in *. destruct cs as [|c cs]; [discriminate|].
    exists (fun i => existsb (lit_eqb (Pos i)) c). cbn [dnf_sem existsb]. apply orb_true_iff. left. apply forallb_forall. intros l I. destruct l as [i|i]; cbn [lholds].
    - apply existsb_exists. exists (Pos i). split; auto. apply lit_eqb_true. reflexivity.
    - apply negb_true_iff. destruct (existsb (lit_eqb (Pos i)) c) eqn:X; auto. apply existsb_exists in X. destruct X as (l & J & Q). apply lit_eqb_true in Q. subst l.
      destruct (V c i (or_introl eq_refl) J I).
  Qed.
End C19.
Print Assumptions C19_discard.
Print Assumptions C19_kept.
Print Assumptions C19_negate.
Print Assumptions C19_mult.
Print Assumptions C19_add.
Print Assumptions C19_add_refuted.

Example C19_example :
  let a := mkF DNF [[Pos 0]; [Pos 1; Neg 2]] in
  let b := cd_negate a in
  roomy a b 100 1000 /\ b = mkF CNF [[Neg 0]; [Neg 1; Pos 2]] /\
  top_bottom_k_add prx (fun _ => false) pop_first 1000 a b 100 =
    Some (mkF DNF [[Pos 0]; [Pos 1; Neg 2]; [Neg 0; Neg 1]; [Neg 0; Pos 2]]) /\
  top_bottom_k_mult prx (fun _ => false) pop_first 1000 a b 100 =
    Some (mkF CNF [[Neg 0]; [Neg 1; Pos 2]; [Pos 0; Pos 1]; [Pos 0; Neg 2]]).
Proof. split; [split; vm_compute; repeat constructor|]. repeat split; vm_compute; reflexivity. Qed.

Example C19_discard_example : is_zero (mkF CNF [[Pos 0]; []]) = true /\ is_zero (mkF CNF []) = false /\ is_zero (mkF DNF [[Pos 0; Neg 1]]) = false.
Proof. repeat split. Qed.
