(** The planner ignores assignments that compute back an operand of an assignment
    of the rule: such a rule has the plan of the rule without them.  Flattening
    adds them for sums and differences (Front.v [inverses]).  Used by C61. *)
From Coq Require Import List ZArith Bool Arith Lia.
From Verif Require Import Value ListAux Back Eval Scc SccFacts BackSem Plan PlanSem PlanFacts.
Import ListNotations.
Set Implicit Arguments.

(** An assignment of [x] that needs the value of [left], where [left] is assigned
    by an expression with [x]. *)
Definition shadow (A : list (var * aexpr)) (x : var) (e : aexpr) : Prop :=
  exists left op t op0 t1 t2, e = ABin op (TVar left) t /\ In (left, ABin op0 t1 t2) A /\ In x (tvar t1 ++ tvar t2).
Lemma shadow_vars : forall A x e, shadow A x e ->
  is_new e = false /\ exists left e0, In (left, e0) A /\ In left (aexpr_vars e) /\ In x (aexpr_vars e0).
Proof.
  intros A x e (left & op & t & op0 & t1 & t2 & -> & I & J). split; [reflexivity|]. exists left, (ABin op0 t1 t2). split; [exact I|].
  split; [left; reflexivity|exact J].
Qed.
Definition assigns (b : list lit) : list (var * aexpr) :=
  flat_map (fun l => match l with LAssign v e => [(v, e)] | _ => [] end) b.
(** The second body is the first one with such assignments, and true literals
    anywhere. *)
Inductive pad (A : list (var * aexpr)) : list lit -> list lit -> Prop :=
| pad_nil : pad A [] []
| pad_keep l b b' : pad A b b' -> pad A (l :: b) (l :: b')
| pad_left b b' : pad A b b' -> pad A (LTrue :: b) b'
| pad_right b b' : pad A b b' -> pad A b (LTrue :: b')
| pad_shadow x e b b' : shadow A x e -> pad A b b' -> pad A b (LAssign x e :: b').

Lemma in_assigns : forall b v e, In (v, e) (assigns b) <-> In (LAssign v e) b.
Proof.
  intros b v e. unfold assigns. rewrite in_flat_map. split.
  - intros (l & I & J). destruct l; cbn in J; try (destruct J; fail). destruct J as [J|[]]. injection J as -> ->. exact I.
  - intros I. eexists. split; [exact I|]. left. reflexivity.
Qed.

Inductive padq (A : list (var * aexpr)) : list (var * aexpr) -> list (var * aexpr) -> Prop :=
| padq_nil : padq A [] []
| padq_keep y l l' : padq A l l' -> padq A (y :: l) (y :: l')
| padq_shadow x e l l' : shadow A x e -> padq A l l' -> padq A l ((x, e) :: l').
Lemma padq_len : forall A l l', padq A l l' -> length l <= length l'.
Proof. intros A l l' H. induction H; cbn; lia. Qed.

Lemma from_body_pad : forall N A b b', pad A b b' -> forall q, from_body N b = Some q -> exists q', from_body N b' = Some q' /\
  q_reduces q' = q_reduces q /\ q_pos q' = q_pos q /\ q_neg q' = q_neg q /\ q_cons q' = q_cons q /\ q_fp q' = q_fp q /\ padq A (q_assigns q) (q_assigns q').
Proof.
  intros N A b b' H. induction H as [|l b b' H IH|b b' H IH|b b' H IH|x e b b' S H IH]; intros q Q.
  - injection Q as <-. eexists. split; [reflexivity|]. repeat (split; [reflexivity|]). constructor.
  - cbn [from_body] in Q |- *. destruct (from_body N b) as [q0|]; [|discriminate]. destruct (IH q0 eq_refl) as (q' & Q' & E1 & E2 & E3 & E4 & E5 & PQ).
    rewrite Q'. destruct l; try discriminate; try (destruct (pe_foreign N (a_pred a))); injection Q as <-; eexists; (split; [reflexivity|]); cbn; rewrite ?E1, ?E2, ?E3, ?E4, ?E5;
      repeat (split; [reflexivity|]); auto. constructor. auto.
  - cbn [from_body] in Q. destruct (from_body N b) as [q0|]; [|discriminate]. injection Q as <-. apply IH. reflexivity.
  - destruct (IH q Q) as (q' & Q' & R). cbn [from_body]. rewrite Q'. exists q'. auto.
  - destruct (IH q Q) as (q' & Q' & E1 & E2 & E3 & E4 & E5 & PQ). cbn [from_body]. rewrite Q'. eexists. split; [reflexivity|]. cbn.
    rewrite E1, E2, E3, E4, E5. repeat (split; [reflexivity|]). constructor; auto.
Qed.
Lemma from_body_assigns : forall N b q, from_body N b = Some q -> q_assigns q = assigns b.
Proof.
  intros N. induction b as [|l b IH]; intros q Q; cbn [from_body] in Q; [injection Q as <-; reflexivity|].
  destruct (from_body N b) as [q0|]; [|discriminate]. specialize (IH _ eq_refl).
  destruct l; try discriminate; try (destruct (pe_foreign N (a_pred a))); injection Q as <-; cbn; rewrite ?IH; reflexivity.
Qed.
Lemma from_body_pos : forall N b q, from_body N b = Some q -> forall a, In a (q_pos q) -> In (LAtom a) b.
Proof.
  intros N. induction b as [|l b IH]; intros q Q a I; cbn [from_body] in Q; [injection Q as <-; destruct I|].
  destruct (from_body N b) as [q0|]; [|discriminate]. specialize (IH _ eq_refl).
  destruct l; try discriminate; try (destruct (pe_foreign N (a_pred a0))); injection Q as <-; cbn in I; try (right; apply IH; exact I); destruct I as [<-|I]; [left; reflexivity|right; auto].
Qed.
Lemma from_body_none : forall N b q, from_body N b = Some q ->
  ((forall d, ~ In (LReduce d) b) -> q_reduces q = []) /\ ((forall a, In (LAtom a) b -> pe_foreign N (a_pred a) = false) -> q_fp q = []).
Proof.
  intros N. induction b as [|l b IH]; intros q Q; cbn [from_body] in Q; [injection Q as <-; auto|].
  destruct (from_body N b) as [q0|]; [|discriminate]. destruct (IH _ eq_refl) as [I1 I2].
  split; intros H.
  - assert (q_reduces q0 = []) as E by (apply I1; intros d J; apply (H d); right; auto).
    destruct l; try discriminate; try (destruct (pe_foreign N (a_pred a))); injection Q as <-; cbn; auto. destruct (H r). left. reflexivity.
  - assert (q_fp q0 = []) as E by (apply I2; intros a J; apply H; right; auto).
    destruct l; try discriminate; try (destruct (pe_foreign N (a_pred a)) eqn:F); injection Q as <-; cbn; auto. rewrite (H a (or_introl eq_refl)) in F. discriminate.
Qed.

(** ** The order of the atoms *)
Lemma next_states_ext : forall order q q', q_pos q' = q_pos q -> forall k s, next_states order q' k s = next_states order q k s.
Proof. intros order q q' E k s. unfold next_states. rewrite E. reflexivity. Qed.
Lemma search_ext : forall order q q', q_pos q' = q_pos q -> forall fuel k qu fi, search order fuel k q' qu fi = search order fuel k q qu fi.
Proof.
  intros order q q' E. induction fuel as [|fuel IH]; intros k qu fi; [destruct qu; reflexivity|]. destruct qu as [|s qu]; [reflexivity|].
  cbn [search]. rewrite IH.
  assert (F : flat_map (next_states order q' k) (order (s :: qu)) = flat_map (next_states order q k) (order (s :: qu)))
    by (apply flat_map_ext; intros; apply next_states_ext; auto).
  rewrite F. assert (G : bounded_all q' = bounded_all q) by (unfold bounded_all; rewrite E; reflexivity). rewrite G. reflexivity.
Qed.
Lemma arcs_ext : forall order q q', q_pos q' = q_pos q -> pos_atom_arcs order 5 q' = pos_atom_arcs order 5 q.
Proof.
  intros order q q' E. unfold pos_atom_arcs. rewrite (search_ext order _ _ E), E. reflexivity.
Qed.

(** ** Applying literals *)
Definition fires (bv : list var) (y : var * aexpr) : bool :=
  negb (memb (fst y) bv) && negb (is_new (snd y)) && subsetb (aexpr_vars (snd y)) bv.
(** The assigned variables that are bound were assigned. *)
Definition closedv (A : list (var * aexpr)) (bv : list var) : Prop :=
  forall left e, In (left, e) A -> In left bv -> incl (aexpr_vars e) bv.
(** The assignments applied so far bind their variables. *)
Definition done_ok (l : list (var * aexpr)) (ap : list nat) (bv : list var) : Prop :=
  forall i y, In (i, y) (enum l) -> In i ap -> In (fst y) bv.

Lemma memb_true : forall x l, memb x l = true <-> In x l.
Proof. intros. apply SccFacts.memb_In. Qed.
Lemma memb_false : forall x l, memb x l = false <-> ~ In x l.
Proof. intros. rewrite <- memb_true. destruct (memb x l); split; intros H; congruence. Qed.
Lemma padq_fires : forall A l l' bv, closedv A bv -> padq A l l' -> filter (fires bv) l' = filter (fires bv) l.
Proof.
  intros A l l' bv C H. induction H as [|y l l' H IH|x e l l' S H IH]; [reflexivity| |].
  - cbn [filter]. rewrite IH. reflexivity.
  - cbn [filter]. rewrite IH. assert (F : fires bv (x, e) = false); [|rewrite F; reflexivity].
    unfold fires. cbn [fst snd]. apply shadow_vars in S. destruct S as (_ & left & e0 & I0 & I1 & I2).
    destruct (subsetb (aexpr_vars e) bv) eqn:S; [|rewrite andb_false_r; reflexivity]. rewrite subsetb_incl in S.
    assert (I : In x bv) by (eapply C; eauto). apply memb_true in I. rewrite I. reflexivity.
Qed.
Lemma combine_snd : forall (l : list (var * aexpr)) (f : (var * aexpr) -> bool) k,
  map snd (filter (fun x => f (snd x)) (combine (seq k (length l)) l)) = filter f l.
Proof.
  induction l as [|y l IH]; intros f k; [reflexivity|]. cbn [length seq combine filter snd].
  destruct (f y); cbn [map snd]; rewrite IH; reflexivity.
Qed.
Definition todo_of (q : qctx) (bv : list var) (ap : list nat) : list (nat * (var * aexpr)) :=
  filter (fun x => negb (memb (fst x) ap) && negb (memb (fst (snd x)) bv)
                   && negb (is_new (snd (snd x))) && subsetb (aexpr_vars (snd (snd x))) bv) (enum (q_assigns q)).
Lemma todo_fires : forall q bv ap, done_ok (q_assigns q) ap bv -> map snd (todo_of q bv ap) = filter (fires bv) (q_assigns q).
Proof.
  intros q bv ap D. rewrite <- (combine_snd (q_assigns q) (fires bv) 0). f_equal. unfold todo_of.
  apply filter_ext_in. intros [i y] I. cbn [fst snd]. unfold fires. destruct (memb i ap) eqn:M; [|reflexivity].
  apply memb_true in M. specialize (D i y I M). apply memb_true in D. cbn. rewrite D. reflexivity.
Qed.
Lemma todo_in : forall q bv ap x, In x (todo_of q bv ap) -> In x (enum (q_assigns q)).
Proof. intros q bv ap x H. apply filter_In in H. apply H. Qed.
Lemma enum_fun : forall (A : Type) (l : list A) i x y, In (i, x) (enum l) -> In (i, y) (enum l) -> x = y.
Proof.
  intros A l i x y. unfold enum. generalize 0. induction l as [|z l IH]; intros k H1 H2; [destruct H1|].
  cbn [length seq combine] in H1, H2. assert (K : forall w, ~ In (k, w) (combine (seq (S k) (length l)) l)).
  { intros w H. apply in_combine_l in H. apply in_seq in H. lia. }
  destruct H1 as [H1|H1], H2 as [H2|H2].
  - congruence.
  - injection H1 as <- <-. destruct (K _ H2).
  - injection H2 as <- <-. destruct (K _ H1).
  - exact (IH _ H1 H2).
Qed.
Lemma done_step : forall q bv ap, done_ok (q_assigns q) ap bv ->
  done_ok (q_assigns q) (ap ++ map fst (todo_of q bv ap)) (vunion bv (map (fun x => fst (snd x)) (todo_of q bv ap))).
Proof.
  intros q bv ap D i y I J. rewrite vunion_In. apply in_app_or in J. destruct J as [J|J]; [left; eauto|]. right.
  apply in_map_iff in J. destruct J as ([j z] & E & J). cbn in E. subst j. pose proof (todo_in _ _ _ _ J) as K.
  rewrite (enum_fun _ _ _ _ I K). apply in_map_iff. exists (i, z). auto.
Qed.
Lemma try_assigns_eq : forall fuel q bv ap p, try_assigns fuel q bv ap p =
  match todo_of q bv ap with
  | [] => Some (ap, p)
  | _ :: _ => match fuel with
              | 0 => None
              | S fuel => let bv' := vunion bv (map (fun x => fst (snd x)) (todo_of q bv ap)) in
                          try_assigns fuel q bv' (ap ++ map fst (todo_of q bv ap)) (PProject bv' p (map snd (todo_of q bv ap)))
              end
  end.
Proof. intros [|fuel] q bv ap p; reflexivity. Qed.

Section Pad.
  Variables (q q' : qctx).
  Let A := q_assigns q.
  Hypothesis PQ : padq A (q_assigns q) (q_assigns q').
  Hypothesis ONCE : NoDup (map fst A).
  Hypothesis HCONS : q_cons q' = q_cons q.
  Hypothesis HPOS : q_pos q' = q_pos q.
  Hypothesis HNEG : q_neg q' = q_neg q.
  Hypothesis HRED : q_reduces q = [].
  Hypothesis HRED' : q_reduces q' = q_reduces q.
  Hypothesis HFP : q_fp q = [].
  Hypothesis HFP' : q_fp q' = q_fp q.
  Hypothesis ATOMS : forall a v, In a (q_pos q) -> In v (avars a) -> ~ In v (map fst A).

  Lemma fst_once : forall v e e', In (v, e) A -> In (v, e') A -> e = e'.
  Proof.
    revert ONCE. generalize A. intros l. induction l as [|[w f] l IH]; intros N v e e' H1 H2; [destruct H1|].
    cbn in N. inversion N as [|? ? N1 N2]; subst. destruct H1 as [H1|H1], H2 as [H2|H2].
    - congruence.
    - injection H1 as -> ->. destruct N1. apply in_map_iff. exists (v, e'). auto.
    - injection H2 as -> ->. destruct N1. apply in_map_iff. exists (v, e). auto.
    - eauto.
  Qed.
  Lemma todo_snd : forall bv ap ap', closedv A bv -> done_ok A ap bv -> done_ok (q_assigns q') ap' bv ->
    map snd (todo_of q' bv ap') = map snd (todo_of q bv ap).
  Proof. intros bv ap ap' C D D'. rewrite !todo_fires by auto. apply padq_fires with (A := A); auto. Qed.
  Lemma closed_step : forall bv ap, closedv A bv -> closedv A (vunion bv (map (fun x => fst (snd x)) (todo_of q bv ap))).
  Proof.
    intros bv ap C left e I J. rewrite vunion_In in J. intros v Hv. rewrite vunion_In. left. destruct J as [J|J]; [exact (C _ _ I J _ Hv)|].
    apply in_map_iff in J. destruct J as ([i [w f]] & E & J). cbn in E. subst w.
    pose proof (todo_in _ _ _ _ J) as K. apply in_combine_r in K. rewrite (fst_once _ _ _ I K) in Hv.
    apply filter_In in J. destruct J as [_ J]. cbn [fst snd] in J. apply andb_true_iff in J. destruct J as [_ J]. rewrite subsetb_incl in J. auto.
  Qed.

  Lemma try_assigns_pad : forall fuel fuel' bv ap ap' p aa p1, fuel <= fuel' -> bvars p = bv -> closedv A bv -> done_ok A ap bv -> done_ok (q_assigns q') ap' bv ->
    try_assigns fuel q bv ap p = Some (aa, p1) ->
    exists aa', try_assigns fuel' q' bv ap' p = Some (aa', p1) /\ length aa' + length ap = length aa + length ap' /\
      closedv A (bvars p1) /\ done_ok A aa (bvars p1) /\ done_ok (q_assigns q') aa' (bvars p1).
  Proof.
    induction fuel as [|fuel IH]; intros fuel' bv ap ap' p aa p1 L EB C D D' H; rewrite try_assigns_eq in H; rewrite try_assigns_eq;
      pose proof (todo_snd C D D') as T; destruct (todo_of q bv ap) as [|t0 ts] eqn:E.
    - injection H as <- <-. destruct (todo_of q' bv ap'); [|discriminate]. subst bv. exists ap'. repeat (split; auto); lia.
    - discriminate.
    - injection H as <- <-. destruct (todo_of q' bv ap'); [|discriminate]. subst bv. exists ap'. repeat (split; auto); lia.
    - destruct fuel' as [|fuel']; [lia|]. destruct (todo_of q' bv ap') as [|t0' ts'] eqn:E'; [discriminate|]. rewrite <- E, <- E' in *. clear E E' t0 ts t0' ts'.
      cbv zeta in H |- *. assert (BV : map (fun x => fst (snd x)) (todo_of q' bv ap') = map (fun x => fst (snd x)) (todo_of q bv ap)).
      { rewrite <- (map_map snd fst), <- (map_map snd fst (todo_of q bv ap)), T. reflexivity. }
      rewrite T, BV. apply IH with (fuel' := fuel') (ap' := ap' ++ map fst (todo_of q' bv ap')) in H; [|lia|reflexivity|apply closed_step; auto|apply done_step; auto|rewrite <- BV; apply done_step; auto].
      destruct H as (aa' & H1 & H2 & H3). exists aa'. split; [exact H1|]. split; [|exact H3].
      rewrite !app_length, !map_length in H2. pose proof (f_equal (@length _) T) as TL. rewrite !map_length in TL. lia.
  Qed.
  Lemma try_constraint_pad : forall ap p, try_constraint q' ap p = try_constraint q ap p.
  Proof. intros ap p. unfold try_constraint. rewrite HCONS. reflexivity. Qed.
  Lemma try_constraint_bvars : forall ap p, bvars (snd (try_constraint q ap p)) = bvars p.
  Proof. intros ap p. unfold try_constraint. destruct (filter _ _); reflexivity. Qed.
  Lemma fp_loop_none : forall N fuel r bv ap p, q_fp r = [] -> fp_loop N fuel r bv ap p = Some (ap, p).
  Proof. intros N fuel r bv ap p E. destruct fuel; cbn [fp_loop]; rewrite E; reflexivity. Qed.
  Lemma n_lits_le : n_lits q <= n_lits q'.
  Proof. unfold n_lits. rewrite HCONS, HFP'. pose proof (padq_len PQ). unfold A in *. lia. Qed.

  (** The two planners are at corresponding points. *)
  Definition same_ap (ap ap' : applied) (bv : list var) : Prop :=
    ap_cons ap' = ap_cons ap /\ ap_fp ap' = ap_fp ap /\ done_ok A (ap_assigns ap) bv /\ done_ok (q_assigns q') (ap_assigns ap') bv.
  Lemma try_apply_pad : forall N fuel fuel' ap ap' p aq p1, fuel <= fuel' -> closedv A (bvars p) -> same_ap ap ap' (bvars p) ->
    try_apply N fuel q ap p = Some (aq, p1) ->
    exists aq', try_apply N fuel' q' ap' p = Some (aq', p1) /\ closedv A (bvars p1) /\ same_ap aq aq' (bvars p1).
  Proof.
    intros N. induction fuel as [|fuel IH]; intros fuel' ap ap' p aq p1 L C (S1 & S2 & S3 & S4) H.
    - cbn [try_apply] in H. destruct (try_assigns (S (n_lits q)) q (bvars p) (ap_assigns ap) p) as [[aa p2]|] eqn:T; [|discriminate].
      destruct (@try_assigns_pad (S (n_lits q)) (S (n_lits q')) (bvars p) (ap_assigns ap) (ap_assigns ap') p aa p2) as (aa' & T' & LL & C2 & D2 & D2'); auto; [pose proof n_lits_le; lia|].
      destruct (try_constraint q (ap_cons ap) p2) as [ac p3] eqn:TC. rewrite fp_loop_none in H by exact HFP.
      assert (B3 : bvars p3 = bvars p2) by (rewrite <- (try_constraint_bvars (ap_cons ap) p2), TC; reflexivity).
      destruct (negb (Nat.eqb (length aa) (length (ap_assigns ap))) || negb (Nat.eqb (length ac) (length (ap_cons ap))) || negb (Nat.eqb (length (ap_fp ap)) (length (ap_fp ap)))) eqn:CH; [discriminate|].
      injection H as <- <-. exists (mkAp aa' ac (ap_fp ap')). split.
      + destruct fuel'; cbn [try_apply]; rewrite T', try_constraint_pad, S1, TC, fp_loop_none by congruence;
          assert (EL : Nat.eqb (length aa') (length (ap_assigns ap')) = Nat.eqb (length aa) (length (ap_assigns ap))) by (destruct (Nat.eqb_spec (length aa) (length (ap_assigns ap))), (Nat.eqb_spec (length aa') (length (ap_assigns ap'))); auto; lia);
          rewrite EL, Nat.eqb_refl; rewrite Nat.eqb_refl in CH; rewrite CH; reflexivity.
      + rewrite B3. split; [exact C2|]. repeat split; auto.
    - cbn [try_apply] in H. destruct (try_assigns (S (n_lits q)) q (bvars p) (ap_assigns ap) p) as [[aa p2]|] eqn:T; [|discriminate].
      destruct (@try_assigns_pad (S (n_lits q)) (S (n_lits q')) (bvars p) (ap_assigns ap) (ap_assigns ap') p aa p2) as (aa' & T' & LL & C2 & D2 & D2'); auto; [pose proof n_lits_le; lia|].
      destruct (try_constraint q (ap_cons ap) p2) as [ac p3] eqn:TC. rewrite fp_loop_none in H by exact HFP.
      assert (B3 : bvars p3 = bvars p2) by (rewrite <- (try_constraint_bvars (ap_cons ap) p2), TC; reflexivity).
      destruct fuel' as [|fuel']; [lia|]. cbn [try_apply]. rewrite T', try_constraint_pad, S1, TC, fp_loop_none by congruence.
      assert (EL : Nat.eqb (length aa') (length (ap_assigns ap')) = Nat.eqb (length aa) (length (ap_assigns ap))) by (destruct (Nat.eqb_spec (length aa) (length (ap_assigns ap))), (Nat.eqb_spec (length aa') (length (ap_assigns ap'))); auto; lia).
      rewrite EL, Nat.eqb_refl. rewrite Nat.eqb_refl in H.
      destruct (negb (Nat.eqb (length aa) (length (ap_assigns ap))) || negb (Nat.eqb (length ac) (length (ap_cons ap))) || negb true) eqn:CH.
      + apply IH with (fuel' := fuel') (ap' := mkAp aa' ac (ap_fp ap')) in H; [exact H|lia|rewrite B3; exact C2|]. rewrite B3. repeat split; auto.
      + injection H as <- <-. eexists. split; [reflexivity|]. rewrite B3. split; [exact C2|]. repeat split; auto.
  Qed.
  Lemma apply_all_pad : forall N ap ap' p aq p1, closedv A (bvars p) -> same_ap ap ap' (bvars p) -> apply_all N q ap p = Some (aq, p1) ->
    exists aq', apply_all N q' ap' p = Some (aq', p1) /\ closedv A (bvars p1) /\ same_ap aq aq' (bvars p1).
  Proof. intros N ap ap' p aq p1 C S H. pose proof n_lits_le as L. refine (@try_apply_pad N (Datatypes.S (n_lits q)) (Datatypes.S (n_lits q')) ap ap' p aq p1 _ C S H). lia. Qed.

  Lemma closed_atoms : forall bv vs, closedv A bv -> (forall v, In v vs -> ~ In v (map fst A)) -> forall bv', (forall v, In v bv' <-> In v bv \/ In v vs) -> closedv A bv'.
  Proof.
    intros bv vs C H bv' E left e I J v Hv. apply E. apply E in J. destruct J as [J|J]; [left; exact (C _ _ I J _ Hv)|].
    destruct (H _ J). apply in_map_iff. exists (left, e). auto.
  Qed.
  Lemma same_grow : forall ap ap' bv bv', incl bv bv' -> same_ap ap ap' bv -> same_ap ap ap' bv'.
  Proof. intros ap ap' bv bv' I (S1 & S2 & S3 & S4). repeat split; auto; intros i y J K; apply I; eauto. Qed.
  Lemma same_none : forall bv, same_ap no_ap no_ap bv.
  Proof. intros bv. repeat split; auto; intros i y _ []. Qed.

  Lemma add_arcs_pad : forall N arcs ap ap' p aq p1, closedv A (bvars p) -> same_ap ap ap' (bvars p) -> add_arcs N q arcs ap p = Some (aq, p1) ->
    exists aq', add_arcs N q' arcs ap' p = Some (aq', p1).
  Proof.
    intros N. induction arcs as [|[ls i] arcs IH]; intros ap ap' p aq p1 C S H; cbn [add_arcs] in H |- *.
    - injection H as <- <-. eauto.
    - rewrite HPOS. destruct (nth_error (q_pos q) i) as [a|] eqn:I; [|discriminate]. apply nth_error_In in I.
      destruct (apply_all N q ap (join p (ground a))) as [[ap1 p2]|] eqn:AP; [|discriminate].
      assert (BV : forall v, In v (bvars (join p (ground a))) <-> In v (bvars p) \/ In v (avars a)).
      { intros v. cbn. rewrite vunion_In, dedup_In. tauto. }
      apply apply_all_pad with (ap' := ap') in AP.
      + destruct AP as (ap1' & AP & C2 & S2). rewrite AP. eapply IH; eauto.
      + eapply closed_atoms; [exact C| |exact BV]. intros v. apply ATOMS. exact I.
      + eapply same_grow; [|exact S]. intros v J. apply BV. auto.
  Qed.
  Lemma start_pad : forall N arcs aq p1 n, start_plan N q arcs = Some (aq, p1, n) ->
    exists aq', start_plan N q' arcs = Some (aq', p1, n) /\ closedv A (bvars p1) /\ same_ap aq aq' (bvars p1).
  Proof.
    intros N arcs aq p1 n H. unfold start_plan in *. rewrite HRED, HFP in H. rewrite HRED', HRED, HFP', HFP, HPOS. destruct arcs as [|[ls i] arcs].
    - destruct (apply_all N q no_ap (PUnit [])) as [[a1 p2]|] eqn:AP; cbn [obnd] in H; [|discriminate H]. injection H as <- <- <-.
      apply apply_all_pad with (ap' := no_ap) in AP; [|intros left e _ []|apply same_none]. destruct AP as (aq' & AP & R). rewrite AP. cbn. eauto.
    - destruct (nth_error (q_pos q) i) as [a|] eqn:I; [|discriminate]. apply nth_error_In in I. cbn [obnd] in H |- *.
      destruct (apply_all N q no_ap (ground a)) as [[a1 p2]|] eqn:AP; cbn [obnd] in H; [|discriminate H]. injection H as <- <- <-.
      apply apply_all_pad with (ap' := no_ap) in AP; [| |apply same_none].
      + destruct AP as (aq' & AP & R). rewrite AP. cbn. eauto.
      + eapply closed_atoms with (bv := []) (vs := avars a); [intros left e _ []|intros v; apply ATOMS; exact I|]. intros v. cbn. rewrite dedup_In. tauto.
  Qed.
  Lemma news_pad : news q' = news q.
  Proof.
    unfold news. fold A in PQ |- *. revert PQ. generalize (q_assigns q'). unfold A. generalize (q_assigns q). intros l l' H. 
    assert (G : forall A0, padq A0 l l' -> filter (fun x => is_new (snd x)) l' = filter (fun x => is_new (snd x)) l).
    { clear H. intros A0 K. induction K as [|y l l' K IH|x e l l' S K IH]; cbn [filter snd]; rewrite ?IH; auto. apply shadow_vars in S. rewrite (proj1 S). reflexivity. }
    eapply G; eauto.
  Qed.
  Lemma get_plan_pad : forall N arcs p, get_query_plan N q arcs = Some p -> get_query_plan N q' arcs = Some p.
  Proof.
    intros N arcs p H. unfold get_query_plan in *. destruct (start_plan N q arcs) as [[[ap p1] n]|] eqn:S; [|discriminate].
    destruct (@start_pad N _ _ _ _ S) as (ap' & S' & C & SA). rewrite S'.
    destruct (add_arcs N q (skipn n arcs) ap p1) as [[aq p2]|] eqn:AA; [|discriminate]. destruct (@add_arcs_pad N _ _ _ _ _ _ C SA AA) as (aq' & AA'). rewrite AA'.
    unfold add_news, add_negs in *. rewrite news_pad, HNEG. exact H.
  Qed.
End Pad.

(** The conditions on the smaller body: assigned variables are assigned once and
    are not in atoms; no aggregations, no foreign atoms. *)
Record padable (N : penv) (b : list lit) : Prop := {
  pd_once : NoDup (map fst (assigns b));
  pd_single : forall v e a, In (LAssign v e) b -> In (LAtom a) b -> ~ In v (avars a);
  pd_reduce : forall d, ~ In (LReduce d) b;
  pd_foreign : forall a, In (LAtom a) b -> pe_foreign N (a_pred a) = false }.
Theorem plan_pad : forall N order b b' p, padable N b -> pad (assigns b) b b' ->
  query_plan N order b = Some p -> query_plan N order b' = Some p.
Proof.
  intros N order b b' p [P1 P2 P3 P4] H Q. unfold query_plan in *.
  destruct (from_body N b) as [q|] eqn:F; [|discriminate].
  destruct (from_body_pad N H F) as (q' & F' & E1 & E2 & E3 & E4 & E5 & PQ). rewrite F'.
  rewrite (arcs_ext order _ _ E2). destruct (pos_atom_arcs order 5 q) as [st|]; [|discriminate].
  pose proof (from_body_assigns N b F) as EA. destruct (from_body_none N b F) as [N1 N2]. rewrite <- EA in PQ, P1.
  eapply get_plan_pad; eauto.
  - intros a v I J K. apply in_map_iff in K. destruct K as ([w e] & K1 & K2). cbn in K1. subst w. rewrite EA in K2.
    apply in_assigns in K2. eapply P2; eauto. eapply from_body_pos; eauto.
Qed.
