(** Termination of the evaluation of one stratum. *)
From Coq Require Import List Arith Bool Lia Sorted Wellfounded.
From Verif Require Import Order Value Prov ListAux SortedCol GallopFacts SortedColFacts
  Schedulers Relation View SchedFacts SchedLinear Dataflow Denote OpFacts DataflowFacts DenFacts Iteration IterationFacts Views.
Import ListNotations.
Set Implicit Arguments.
Local Open Scope nat_scope.

(** * Specification *)
(** Tags improve: combining a tag with another one does not make it worse in a
    well-founded order, and makes it better when the result counts as changed. *)
Definition improving (P : Prov) : Prop :=
  exists (A : Type) (lt : A -> A -> Prop) (rk : ptag P -> A), well_founded lt /\
    forall g x, if psat P g (padd P g x) then rk (padd P g x) = rk g \/ lt (rk (padd P g x)) (rk g)
                else lt (rk (padd P g x)) (rk g).

Section Runs.
  Variable P : Prov.
  Variable it : iteration P.
  (** States at the head of the loop. *)
  Inductive reaches (st0 : state P) : state P -> nat -> Prop :=
  | re_start : reaches st0 st0 0
  | re_step : forall st n st1, reaches st0 st n -> need_to_iterate it st n = (st1, Continue) ->
      reaches st0 (do_updates it n st1) (S n).
  (** The next round gallops through an established batch of more than one element. *)
  Definition gallops (st : state P) : Prop :=
    exists r b, In r (i_rels it) /\ In b (promote (st r)) /\ 2 <= length b /\ 4 * length b < length (condense (to_add (st r))).
End Runs.

(** * Finitely many positions, each in a well-founded order *)
Section Slots.
  Variables (K A : Type).
  Variable lt : A -> A -> Prop.
  Hypothesis WF : well_founded lt.
  Definition below (S : list K) (f' f : K -> A) : Prop :=
    (forall k, In k S -> f' k = f k \/ lt (f' k) (f k)) /\ exists k, In k S /\ lt (f' k) (f k).
  Lemma lt_irrefl : forall a, ~ lt a a.
  Proof. intros a. induction (WF a) as [a _ IH]. intros H. exact (IH a H H). Qed.
  Lemma below_wf : forall S, well_founded (below S).
  Proof.
    induction S as [|k S IH]; intros f.
    - constructor. intros f' [_ (k & [] & _)].
    - assert (H : forall a f, f k = a -> Acc (below (k :: S)) f); [|eapply H; reflexivity].
      clear f. intros a. induction (WF a) as [a _ IHa]. intros f. induction (IH f) as [f _ IHf]. intros E.
      constructor. intros f' [LE (j & J & L)]. destruct (LE k (or_introl eq_refl)) as [Q|Q].
      + apply IHf; [|congruence]. split; [intros q I; apply LE; right; exact I|]. destruct J as [<-|J]; [|eauto].
        exfalso. rewrite Q in L. exact (lt_irrefl L).
      + eapply IHa; [|reflexivity]. rewrite <- E. exact Q.
  Qed.
End Slots.

(** Better than nothing: an order with a new greatest element. *)
Inductive olt (A : Type) (lt : A -> A -> Prop) : option A -> option A -> Prop :=
| olt_new : forall a, olt lt (Some a) None
| olt_old : forall a b, lt a b -> olt lt (Some a) (Some b).
Lemma olt_wf : forall (A : Type) (lt : A -> A -> Prop), well_founded lt -> well_founded (olt lt).
Proof.
  intros A lt WF.
  assert (S : forall a, Acc (olt lt) (Some a)).
  { intros a. induction (WF a) as [a _ IH]. constructor. intros o H. inversion H; subst; auto. }
  intros [a|]; auto. constructor. intros o H. inversion H; subst; auto.
Qed.

(** * The loop *)
Section Fuel.
  Variable P : Prov.
  Variable it : iteration P.
  Lemma loop_mono : forall fuel fuel' st n res, fuel <= fuel' -> loop it fuel st n = Some res -> loop it fuel' st n = Some res.
  Proof.
    induction fuel as [|f IH]; intros [|f'] st n res L H; cbn [loop] in *; try discriminate; [lia|].
    destruct (need_to_iterate it st n) as [st1 []]; auto. apply IH; [lia|exact H].
  Qed.
  (** With a limit on the number of rounds the loop ends. *)
  Lemma loop_limit : forall k st n, i_limit it = Some k -> exists res, loop it (S (S k) - n + 1) st n = Some res.
  Proof.
    intros k st n L. remember (S (S k) - n) as m eqn:M. revert st n M. induction m as [|m IH]; intros st n M.
    - cbn [Nat.add loop]. unfold need_to_iterate. destruct (changed_all it st) as [st1 ch]. rewrite L.
      replace (k <? n) with true by (symmetry; apply Nat.ltb_lt; lia). replace (n <? k) with false by (symmetry; apply Nat.ltb_ge; lia).
      destruct (ch || (n =? 0)); eauto.
    - cbn [Nat.add loop]. destruct (need_to_iterate it st n) as [st1 []]; eauto. apply IH. lia.
  Qed.
End Fuel.

Section Term.
  Variable P : Prov.
  Notation elem := (elem P).
  Variable it : iteration P.
  Variable facts : nat -> list (list elem).
  Variable Sh : nat -> tuple -> Prop.
  Hypothesis OK : prog_shaped it facts (set_view P) Sh.
  Hypothesis LF : forall r, In r (i_rels it) -> i_sched it r = LFP.
  Hypothesis NL : i_limit it = None.
  Variable A : Type.
  Variable lt : A -> A -> Prop.
  Variable rk : ptag P -> A.
  Hypothesis WF : well_founded lt.
  Hypothesis IMP : forall g x, if psat P g (padd P g x) then rk (padd P g x) = rk g \/ lt (rk (padd P g x)) (rk g)
                               else lt (rk (padd P g x)) (rk g).
  Variable U : nat -> list tuple.
  Hypothesis FIN : forall r e, derivable (i_cols it) (i_updates it) (factset facts) r e -> In (fst e) (U r).
  Notation state := (state P).

  Definition seen (r : relation P) : list elem := concat (stable r) ++ recent r.
  Definition look (r : relation P) (t : tuple) : option (ptag P) := option_map snd (find (fun e : elem => teqb (fst e) t) (seen r)).
  Lemma seen_vis : forall r (e : elem), In e (seen r) <-> rel_vis r e.
  Proof. intros r e. unfold seen, rel_vis. rewrite in_app_iff, <- inB_concat. tauto. Qed.
  Lemma look_some : forall r t g, NoDup (map fst (seen r)) -> (look r t = Some g <-> rel_vis r (t, g)).
  Proof.
    intros r t g N. rewrite <- seen_vis. unfold look. revert N. induction (seen r) as [|[u h] l IH]; cbn [map find In fst].
    - intros _. split; [discriminate|tauto].
    - intros N. inversion N as [|? ? NI N']; subst. destruct (teqb u t) eqn:E.
      + apply teqb_true in E. subst. cbn. split; [intros [= ->]; auto|]. intros [[= ->]|I]; [reflexivity|].
        exfalso. apply NI. apply (in_map fst) in I. exact I.
      + rewrite IH; auto. split; auto. intros [[= -> ->]|I]; auto. rewrite teqb_refl in E. discriminate.
  Qed.
  Lemma look_none : forall r t, look r t = None <-> forall g, ~ rel_vis r (t, g).
  Proof.
    intros r t. unfold look. split.
    - intros H g I. apply seen_vis in I. destruct (find _ (seen r)) as [e|] eqn:F; [discriminate|].
      eapply find_none in F; [|exact I]. cbn in F. rewrite teqb_refl in F. discriminate.
    - intros H. destruct (find _ (seen r)) as [[u g]|] eqn:F; [|reflexivity]. apply find_some in F as [I E]. cbn in E.
      apply teqb_true in E. subst. destruct (H g). apply seen_vis, I.
  Qed.

  (** The rank of the tag of every tuple that may be derived. *)
  Definition rank_at (st : state) (k : nat * tuple) : option A := option_map rk (look (st (fst k)) (snd k)).
  Definition slots : list (nat * tuple) := flat_map (fun r => map (pair r) (U r)) (i_rels it).
  Definition uniq (st : state) : Prop := forall r, NoDup (map fst (seen (st r))).

  Lemma gallops_dec : forall st, {gallops it st} + {~ gallops it st}.
  Proof.
    intros st.
    assert (D : {exists r, In r (i_rels it) /\ exists b, In b (promote (st r)) /\ 2 <= length b /\ 4 * length b < length (condense (to_add (st r)))} +
                {~ exists r, In r (i_rels it) /\ exists b, In b (promote (st r)) /\ 2 <= length b /\ 4 * length b < length (condense (to_add (st r)))}).
    { assert (DE : forall (T : Type) (Q : T -> Prop) (d : forall x, {Q x} + {~ Q x}) (l : list T), {exists x, In x l /\ Q x} + {~ exists x, In x l /\ Q x}).
      { intros T Q d l. destruct (Exists_dec Q l d) as [H|H]; rewrite Exists_exists in H; auto. }
      apply DE. intros r. apply DE. intros b. destruct (le_dec 2 (length b)), (lt_dec (4 * length b) (length (condense (to_add (st r))))); auto; right; tauto. }
    destruct D as [D|D]; [left|right].
    - destruct D as (r & I & b & J & L). exists r, b. auto.
    - intros (r & b & I & J & L). apply D. eauto.
  Qed.

  Lemma olt_le : forall g x, psat P g (padd P g x) = true ->
    option_map rk (Some (padd P g x)) = option_map rk (Some g) \/ olt lt (option_map rk (Some (padd P g x))) (option_map rk (Some g)).
  Proof.
    intros g x S. generalize (IMP g x). rewrite S. cbn. intros [->|L]; auto. right. constructor. exact L.
  Qed.

  (** A round that does not gallop keeps or improves every tag. *)
  Lemma round_rank : forall st, inv_s it facts (set_view P) Sh st -> uniq st -> ~ gallops it st ->
    uniq (fst (changed_all it st)) /\
    (forall k, rank_at (fst (changed_all it st)) k = rank_at st k \/ olt lt (rank_at (fst (changed_all it st)) k) (rank_at st k)) /\
    (snd (changed_all it st) = true -> below (olt lt) slots (rank_at (fst (changed_all it st))) (rank_at st)).
  Proof.
    intros st IS UQ NG.
    assert (ONE : forall r, In r (i_rels it) -> forall r' c, changed LFP (st r) = (r', c) ->
      NoDup (map fst (seen r')) /\
      (forall t, look r' t = look (st r) t \/ (exists g x, look (st r) t = Some g /\ look r' t = Some (padd P g x) /\
                    (psat P g (padd P g x) = false \/ psat P g (padd P g x) = true)) \/ (exists g, look (st r) t = None /\ look r' t = Some g)) /\
      (forall t n, In (t, n) (recent r') -> (look (st r) t = None \/ exists g x, look (st r) t = Some g /\ psat P g (padd P g x) = false /\ n = padd P g x))).
    { intros r I r' c E.
      assert (LN : linear_for (condense (to_add (st r))) (promote (st r))).
      { intros b J. destruct (le_dec (length (condense (to_add (st r)))) (4 * length b)); auto. destruct (le_dec (length b) 1); auto.
        exfalso. apply NG. exists r, b. split; [exact I|]. split; [exact J|]. lia. }
      destruct (lfp_round E (is_sorted IS r) (UQ r) LN) as (ST & RE & ND).
      split; [exact ND|]. split.
      - intros t. destruct (look (st r) t) as [g|] eqn:L.
        + apply look_some in L; [|apply UQ].
          assert (C : (exists x, In (t, x) (condense (to_add (st r)))) \/ forall x, ~ In (t, x) (condense (to_add (st r)))).
          { assert (D := in_dec (to_eq_dec tcmp_TOrder) t (map fst (condense (to_add (st r))))). destruct D as [D|D].
            - apply in_map_iff in D as ([u x] & <- & D). eauto.
            - right. intros x J. apply D. apply (in_map fst) in J. exact J. }
          destruct C as [(x & X)|N].
          * right. left. exists g, x. split; [reflexivity|]. destruct (psat P g (padd P g x)) eqn:S; (split; [|auto]); apply look_some; auto.
            -- left. apply ST. exists g. split; auto. right. eauto.
            -- right. apply RE. exists x. split; auto. right. eauto.
          * left. apply look_some; [exact ND|]. left. apply ST. exists g. auto.
        + destruct (look r' t) as [g|] eqn:L'; [|auto]. right. right. exists g. auto.
      - intros t n J. apply RE in J as (x & J & [[N ->]|(g & V & S & ->)]).
        + left. apply look_none, N.
        + right. exists g, x. split; [apply look_some; auto|auto]. }
    assert (UQ' : uniq (fst (changed_all it st))).
    { intros r. destruct (changed_all_eq it st r) as [[-> I]|[-> _]]; [|apply UQ]. rewrite (LF _ I).
      destruct (changed LFP (st r)) as [r' c] eqn:E. destruct (ONE r I _ _ E) as (N & _). exact N. }
    assert (LE : forall k, rank_at (fst (changed_all it st)) k = rank_at st k \/ olt lt (rank_at (fst (changed_all it st)) k) (rank_at st k)).
    { intros [r t]. unfold rank_at. cbn [fst snd]. destruct (changed_all_eq it st r) as [[-> I]|[-> _]]; [|auto]. rewrite (LF _ I).
      destruct (changed LFP (st r)) as [r' c] eqn:E. cbn [fst]. destruct (ONE r I _ _ E) as (_ & L & _). destruct (L t) as [->|[(g & x & -> & -> & Q)|(g & -> & ->)]]; auto.
      - generalize (IMP g x). destruct Q as [-> | ->]; intros H; [right; constructor; exact H|]. destruct H as [H|H]; [left; cbn; congruence|right; constructor; exact H].
      - right. constructor. }
    split; [exact UQ'|]. split; [exact LE|]. intros CH. split; [intros k _; apply LE|].
    cbn [changed_all snd] in CH. apply existsb_exists in CH as (r & I & C). rewrite (LF _ I) in C.
    destruct (changed LFP (st r)) as [r' c] eqn:E. cbn in C. subst c.
    assert (NE : recent r' <> []) by (intros Z; apply (proj2 (proj2 (changed_flag _ _ E))) in Z; discriminate).
    destruct (recent r') as [|[t n] l] eqn:R; [congruence|]. assert (J : In (t, n) (recent r')) by (rewrite R; left; reflexivity).
    assert (Q : fst (changed_all it st) r = r').
    { destruct (changed_all_eq it st r) as [[-> _]|[_ NI]]; [|tauto]. rewrite (LF _ I), E. reflexivity. }
    exists (r, t). split.
    - apply in_flat_map. exists r. split; auto. apply in_map.
      assert (V : allS (fst (changed_all it st)) r (t, n)) by (unfold allS; rewrite Q; right; left; exact J).
      apply (is_sound (changed_all_inv_s IS)) in V. apply set_view_cov in V as (g & V). apply FIN in V. exact V.
    - destruct (ONE r I _ _ E) as (N & _ & K). assert (L' : look r' t = Some n) by (apply look_some; [exact N|right; exact J]).
      unfold rank_at. cbn [fst snd]. rewrite Q, L'. destruct (K _ _ J) as [->|(g & x & -> & S & ->)]; [constructor|].
      cbn. constructor. generalize (IMP g x). rewrite S. auto.
  Qed.

  Lemma rest_seen : forall st st1, same_rest st st1 -> forall r, seen (st r) = seen (st1 r).
  Proof. intros st st1 S r. destruct (S r) as (E1 & E2 & _). unfold seen. congruence. Qed.

  (** The loop ends, or gallops. *)
  Lemma loop_ends_from : forall st0 st n, reaches it st0 st n -> inv_s it facts (set_view P) Sh st -> uniq st ->
    (exists fuel res, loop it fuel st n = Some res) \/ (exists st' n', reaches it st0 st' n' /\ gallops it st').
  Proof.
    intros st0.
    assert (POS : forall f, forall st n, f = rank_at st -> n <> 0 -> reaches it st0 st n -> inv_s it facts (set_view P) Sh st -> uniq st ->
      (exists fuel res, loop it fuel st n = Some res) \/ (exists st' n', reaches it st0 st' n' /\ gallops it st')).
    { intros f. induction (below_wf (olt_wf WF) slots f) as [f _ IH]. intros st n -> N0 RE IS UQ.
      destruct (gallops_dec st) as [G|NG]; [right; eauto|].
      destruct (round_rank IS UQ NG) as (UQ' & LE & DN).
      destruct (need_to_iterate it st n) as [st1 v] eqn:NI. destruct v.
      2-4: left; exists 1; cbn [loop]; rewrite NI; eauto.
      assert (S1 := need_continue it st n NI).
      assert (CH : snd (changed_all it st) = true).
      { unfold need_to_iterate in NI. destruct (changed_all it st) as [s c] eqn:C. cbn [snd]. rewrite NL in NI.
        destruct c; auto. destruct (n =? 0) eqn:Z; [apply Nat.eqb_eq in Z; contradiction|]. cbn in NI. discriminate. }
      assert (SR : same_rest (do_updates it n st1) st1) by apply do_updates_rest.
      assert (RK : rank_at (do_updates it n st1) = rank_at (do_updates it n st1)) by reflexivity.
      destruct (IH (rank_at (do_updates it n st1))) with (st := do_updates it n st1) (n := S n) as [(fuel & res & H)|H].
      - destruct (DN CH) as (D1 & k & D2 & D3).
        assert (EQ : forall k, rank_at (do_updates it n st1) k = rank_at (fst (changed_all it st)) k).
        { intros q. unfold rank_at, look. rewrite (rest_seen SR), S1. reflexivity. }
        split; [intros q J; rewrite EQ; auto|]. exists k. rewrite EQ. auto.
      - reflexivity.
      - discriminate.
      - eapply re_step; eauto.
      - apply do_updates_inv_s; auto. rewrite S1. apply changed_all_inv_s; auto.
      - intros r. rewrite (rest_seen SR), S1. apply UQ'.
      - left. exists (S fuel), res. cbn [loop]. rewrite NI. exact H.
      - right. exact H. }
    intros st n RE IS UQ. destruct n as [|n]; [|eapply POS; eauto].
    destruct (gallops_dec st) as [G|NG]; [right; eauto|].
    destruct (round_rank IS UQ NG) as (UQ' & _ & _).
    destruct (need_to_iterate it st 0) as [st1 v] eqn:NI. destruct v.
    2-4: left; exists 1; cbn [loop]; rewrite NI; eauto.
    assert (S1 := need_continue it st 0 NI).
    assert (SR : same_rest (do_updates it 0 st1) st1) by apply do_updates_rest.
    destruct (POS (rank_at (do_updates it 0 st1)) (do_updates it 0 st1) 1) as [(fuel & res & H)|H]; auto.
    - eapply re_step; eauto.
    - apply do_updates_inv_s; auto. rewrite S1. apply changed_all_inv_s; auto.
    - intros r. rewrite (rest_seen SR), S1. apply UQ'.
    - left. exists (S fuel), res. cbn [loop]. rewrite NI. exact H.
  Qed.

  Theorem loop_ends : (exists fuel res, loop it fuel (init_state it facts) 0 = Some res) \/
    (exists st n, reaches it (init_state it facts) st n /\ gallops it st).
  Proof.
    apply loop_ends_from; [constructor|apply init_inv_s; auto|].
    intros r. unfold init_state, seen. destruct (existsb (Nat.eqb r) (i_rels it)); constructor.
  Qed.
End Term.

(** * Strata without recursion *)
(** The relations a dataflow reads. *)
Fixpoint dreads (P : Prov) (d : dflow P) : list nat :=
  match d with
  | DRel r => [r]
  | DUnit _ | DVec _ | DGround _ | DReduce _ => []
  | DOverwrite d | DFilter d _ | DProject d _ | DFind d _ | DSorted d | DJoinIV d _ | DConstraint d _ | DFpJoin d _ => dreads d
  | DInter d1 d2 | DJoin d1 d2 | DProd d1 d2 | DUnion d1 d2 | DDiff d1 d2 | DAnti d1 d2 => dreads d1 ++ dreads d2
  end.
(** A literal list of tuples is yielded again in every round. *)
Fixpoint no_vec (P : Prov) (d : dflow P) : Prop :=
  match d with
  | DVec _ => False
  | DRel _ | DUnit _ | DGround _ | DReduce _ => True
  | DOverwrite d | DFilter d _ | DProject d _ | DFind d _ | DSorted d | DJoinIV d _ | DConstraint d _ | DFpJoin d _ => no_vec d
  | DInter d1 d2 | DJoin d1 d2 | DProd d1 d2 | DUnion d1 d2 | DDiff d1 d2 | DAnti d1 d2 => no_vec d1 /\ no_vec d2
  end.

Section NonRec.
  Variable P : Prov.
  Notation elem := (elem P).
  Lemma join_nil_r : forall f (l : list elem), join_loop f l [] = [].
  Proof. intros [|f] [|e l]; reflexivity. Qed.
  Lemma inter_nil_r : forall f a b (l : list elem), inter_loop f a b l [] = [].
  Proof. intros [|f] a b [|e l]; reflexivity. Qed.
  Lemma join_nil_l : forall f (l : list elem), join_loop f [] l = [].
  Proof. intros [|f] l; reflexivity. Qed.
  Lemma inter_nil_l : forall f a b (l : list elem), inter_loop f a b [] l = [].
  Proof. intros [|f] a b l; reflexivity. Qed.
  Lemma diff_nil_l : forall f b (l : list elem), diff_loop f b [] l = [].
  Proof. intros [|f] b l; reflexivity. Qed.
  Lemma anti_nil_l : forall f b (l : list elem), anti_loop f b [] l = [].
  Proof. intros [|f] b l; reflexivity. Qed.

  Definition quietb (bs : list (batch P)) : Prop := forall b, In b bs -> snd b = [].
  Lemma quiet_unary : forall op bs, op [] = [] -> quietb bs -> quietb (unary op bs).
  Proof. intros op bs O Q b I. apply in_map_iff in I as (c & <- & I). cbn. rewrite (Q _ I). exact O. Qed.
  Lemma quiet_binary_recent : forall op s1 r1 s2 r2,
    (forall b1 b2, snd b1 = [] -> snd (op b1 b2) = []) ->
    ((forall b1 b2, snd b2 = [] -> snd (op b1 b2) = []) \/ r2 = []) ->
    quietb r1 -> quietb r2 -> quietb (@binary_recent P op s1 r1 s2 r2).
  Proof.
    intros op s1 r1 s2 r2 A1 A2 Q1 Q2 b I. unfold binary_recent, binary in I. rewrite !in_app_iff, !in_flat_map in I.
    destruct I as [(b1 & I1 & I)|[(b1 & I1 & I)|(b1 & I1 & I)]]; apply in_map_iff in I as (b2 & <- & I2); auto.
    destruct A2 as [A2| ->]; auto.
  Qed.
  Lemma quiet_iters : forall Sh (v : denv P) d n, e_first v = false -> wf (e_col v) Sh n d -> no_vec d ->
    (forall r, In r (dreads d) -> e_col v r = None -> recent (e_rel v r) = []) -> quietb (iter_recent v d).
  Proof.
    intros Sh v d n FI. unfold iter_recent. revert n. induction d; cbn [iters wf no_vec dreads]; intros n W NV R;
      try (match type of NV with _ /\ _ => destruct NV as [NV1 NV2] end); try (destruct (iters v d) as [s0 r0]; cbn [snd] in *);
      try (destruct (iters v d1) as [s1 r1] eqn:I1; destruct (iters v d2) as [s2 r2] eqn:I2; cbn [snd] in *;
           assert (R1 := fun r H => R r (in_or_app _ _ _ (or_introl H))); assert (R2 := fun r H => R r (in_or_app _ _ _ (or_intror H)))).
    - rewrite FI. intros b [].
    - destruct NV.
    - destruct (e_col v r) eqn:C; [rewrite FI; intros b []|]. intros b [<-|[]]. cbn. apply R; [left; reflexivity|reflexivity || exact C].
    - apply quiet_unary; eauto.
    - apply quiet_unary; eauto.
    - apply quiet_unary; eauto.
    - destruct W as [W _]. apply quiet_unary; eauto.
    - apply quiet_unary; eauto.
    - destruct W as (W1 & W2 & _). apply quiet_binary_recent; eauto.
      + intros [a la] [b lb] E. cbn in *. subst. apply inter_nil_l.
      + left. intros [a la] [b lb] E. cbn in *. subst. apply inter_nil_r.
    - destruct W as (W1 & W2 & _). apply quiet_binary_recent; eauto.
      + intros [a la] [b lb] E. cbn in *. subst. apply join_nil_l.
      + left. intros [a la] [b lb] E. cbn in *. subst. apply join_nil_r.
    - destruct W as (W1 & W2). apply quiet_binary_recent; eauto.
      + intros [a la] [b lb] E. cbn in *. subst. reflexivity.
      + left. intros [a la] [b lb] E. cbn in *. subst. induction la; auto.
    - destruct W as (W1 & W2). intros b I. apply in_app_or in I as [I|I]; [eapply IHd1|eapply IHd2]; eauto.
    - destruct W as (_ & W1 & W2 & S & _). apply quiet_binary_recent; eauto.
      + intros [a la] [b lb] E. cbn in *. subst. apply diff_nil_l.
      + right. destruct (iters_static v d2 S) as (c & Q). rewrite I2 in Q. rewrite FI in Q. congruence.
    - destruct W as (_ & W1 & W2 & S & _). apply quiet_binary_recent; eauto.
      + intros [a la] [b lb] E. cbn in *. subst. apply anti_nil_l.
      + right. destruct (iters_static v d2 S) as (c & Q). rewrite I2 in Q. rewrite FI in Q. congruence.
    - apply quiet_unary; eauto.
    - rewrite FI. intros b [].
    - apply quiet_unary; eauto.
    - apply quiet_unary; eauto.
    - rewrite FI. intros b [].
  Qed.

  Variable it : iteration P.
  Variable Sh : nat -> tuple -> Prop.
  Hypothesis WFS : forall r d, In (r, d) (i_updates it) -> wf (i_cols it) Sh false d /\ no_vec d.
  Hypothesis LF : forall r, In r (i_rels it) -> i_sched it r = LFP.
  Hypothesis NL : i_limit it = None.
  Variable lvl : nat -> nat.
  Hypothesis TGT : forall r d, In (r, d) (i_updates it) -> In r (i_rels it).
  Hypothesis LVL : forall r d q, In (r, d) (i_updates it) -> In q (dreads d) -> i_cols it q = None -> In q (i_rels it) /\ lvl q < lvl r.
  Definition still (r : relation P) : Prop := Forall (fun b => b = []) (to_add r).
  Lemma condense_still : forall bs : list (list elem), Forall (fun b => b = []) bs -> condense bs = [].
  Proof.
    intros bs F. unfold condense. assert (G : Forall (fun b => b = []) (rev bs)) by (apply Forall_rev, F).
    destruct (rev bs) as [|b l]; [reflexivity|]. inversion G as [|? ? E1 E2]; subst. clear -E2.
    induction l as [|c l IH]; [reflexivity|]. inversion E2; subst. cbn. apply IH; auto.
  Qed.
  Lemma still_changed : forall r r' c, still r -> changed LFP r = (r', c) -> recent r' = [] /\ c = false.
  Proof.
    intros r r' c S E. unfold changed in E. cbn in E. rewrite (condense_still S) in E. cbn in E. injection E as <- <-. auto.
  Qed.
  Lemma do_updates_add : forall n us st, (forall u, In u us -> In u (i_updates it)) ->
    forall r b, In b (to_add (fold_left (do_update it n) us st r)) -> In b (to_add (st r)) \/
      exists d c, In (r, d) us /\ In c (iter_recent (env_of it n st) d) /\ b = prep_batch (i_early it) (snd c).
  Proof.
    intros n us. induction us as [|[tgt d] us IH]; intros st SB r b I; [left; exact I|]. cbn [fold_left] in I.
    apply IH in I; [|intros u J; apply SB; right; exact J].
    assert (EQ : forall d', iter_recent (env_of it n (do_update it n st (tgt, d))) d' = iter_recent (env_of it n st) d').
    { intros d'. unfold iter_recent. f_equal. assert (SR := do_update_rest it n st (tgt, d)).
      set (st' := do_update it n st (tgt, d)) in *. clearbody st'. unfold env_of. clear -SR.
      induction d'; cbn [iters]; try reflexivity; try (rewrite IHd'; reflexivity); try (rewrite IHd'1, IHd'2; reflexivity).
      cbn [e_rel e_col e_first]. destruct (SR r) as (-> & -> & _). reflexivity. }
    destruct I as [I|(d' & c & I & J & ->)]; [|right; exists d', c; rewrite EQ in J; split; [right; exact I|auto]].
    unfold do_update, upd in I. destruct (Nat.eqb_spec r tgt) as [->|N]; [|auto]. cbn in I. apply in_app_or in I as [I|I]; [auto|].
    right. rewrite map_map in I. apply in_map_iff in I as (c & <- & I). exists d, c. split; [left; reflexivity|auto].
  Qed.
  Lemma prep_nil : forall b, prep_batch b (@nil elem) = [].
  Proof. intros [|]; reflexivity. Qed.

  Lemma nonrec_ends_from : forall m st n, n <> 0 -> (forall r, In r (i_rels it) -> lvl r < m + n) ->
    (forall r, In r (i_rels it) -> lvl r + 2 <= n -> still (st r)) ->
    exists res, loop it (m + 3) st n = Some res.
  Proof.
    assert (STEP : forall st n st1, n <> 0 -> (forall r, In r (i_rels it) -> lvl r + 2 <= n -> still (st r)) ->
      need_to_iterate it st n = (st1, Continue) -> forall r, In r (i_rels it) -> lvl r + 2 <= S n -> still (do_updates it n st1 r)).
    { intros st n st1 N0 Q NI r I L. assert (S1 := need_continue it st n NI). unfold still. apply Forall_forall. intros b J.
      apply do_updates_add in J; [|auto]. destruct J as [J|(d & c & J & K & ->)].
      - exfalso. rewrite S1 in J. destruct (changed_all_eq it st r) as [[E _]|[_ NO]]; [|tauto]. rewrite E in J.
        destruct (changed (i_sched it r) (st r)) as [r' f] eqn:CH. cbn in J. rewrite (proj1 (changed_flag _ _ CH)) in J. destruct J.
      - destruct (WFS _ _ J) as [W NV].
        assert (QB : quietb (iter_recent (env_of it n st1) d)).
        { apply quiet_iters with (Sh := Sh) (n := false); auto; [cbn; apply Nat.eqb_neq, N0|]. cbn [env_of e_col e_rel]. intros q IQ CQ.
          destruct (LVL _ _ _ J IQ CQ) as [RQ LQ]. rewrite S1. destruct (changed_all_eq it st q) as [[E _]|[_ NO]]; [|tauto]. rewrite E, (LF _ RQ).
          destruct (changed LFP (st q)) as [r' f] eqn:CH. eapply still_changed; [|exact CH]. apply Q; auto. lia. }
        rewrite (QB _ K). apply prep_nil. }
    induction m as [|m IH]; intros st n N0 B Q.
    - assert (END : forall st n, n <> 0 -> (forall r, In r (i_rels it) -> lvl r + 2 <= n -> still (st r)) -> (forall r, In r (i_rels it) -> lvl r + 2 <= n) ->
        exists res, loop it 1 st n = Some res).
      { clear st n N0 B Q. intros st n N0 Q B. cbn [loop]. unfold need_to_iterate.
        assert (C : snd (changed_all it st) = false).
        { cbn. rewrite <- not_true_iff_false, existsb_exists. intros (r & I & H). rewrite (LF _ I) in H.
          destruct (changed LFP (st r)) as [r' f] eqn:CH. destruct (still_changed (Q r I (B r I)) CH) as [_ ->]. discriminate. }
        destruct (changed_all it st) as [s c]. cbn in C. subst c. rewrite NL.
        replace (n =? 0) with false by (symmetry; apply Nat.eqb_neq, N0). cbn. eauto. }
      change (0 + 3) with 3. cbn [loop]. destruct (need_to_iterate it st n) as [st1 v] eqn:N1. destruct v; eauto.
      destruct (need_to_iterate it (do_updates it n st1) (S n)) as [st2 v] eqn:N2. destruct v; eauto.
      apply (END (do_updates it (S n) st2) (S (S n))); [discriminate| |].
      + intros r I L. eapply STEP; [discriminate| |exact N2|exact I|exact L]. intros q J K. eapply STEP; eauto.
      + intros r I. specialize (B r I). lia.
    - change (S m + 3) with (S (m + 3)). cbn [loop]. destruct (need_to_iterate it st n) as [st1 v] eqn:N1. destruct v; eauto.
      apply IH; [discriminate| |].
      + intros r I. specialize (B r I). lia.
      + intros r I L. eapply STEP; eauto.
  Qed.
  (** Without recursion the number of rounds is at most three more than the number
      of levels, whatever the tags. *)
  Theorem nonrec_ends : forall m st, (forall r, In r (i_rels it) -> lvl r <= m) -> exists res, loop it (m + 4) st 0 = Some res.
  Proof.
    intros m st B. replace (m + 4) with (S (m + 3)) by lia. cbn [loop]. destruct (need_to_iterate it st 0) as [st1 v] eqn:N1. destruct v; eauto.
    apply nonrec_ends_from; [discriminate| |].
    - intros r I. specialize (B r I). lia.
    - intros r I L. lia.
  Qed.
End NonRec.
