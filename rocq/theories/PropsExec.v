(** Properties C40, C41 and C50: running whole programs. *)
From Coq Require Import List Arith Bool ZArith Lia.
From Verif Require Import Order Value Prov ListAux SortedCol GallopFacts SortedColFacts ProvInst
  PropsCollections Schedulers Relation View SchedFacts Dataflow OpFacts Denote DataflowFacts DenFacts
  Iteration IterationFacts Views SchedLinear PropsEval PropsRun Back Eval Ram Scc Dedup Increm SccFacts Exec.
Import ListNotations.
Set Implicit Arguments.
Local Open Scope nat_scope.

(** ** Maps *)
Lemma aget_aset : forall A k (a : A) l j, aget j (aset k a l) = if Nat.eqb j k then Some a else aget j l.
Proof.
  intros A k a l j. induction l as [|[i b] l IH]; cbn [aset aget].
  - destruct (Nat.eqb j k); reflexivity.
  - destruct (Nat.eqb_spec k i) as [E|N]; cbn [aget].
    + subst. destruct (Nat.eqb_spec j i); auto.
    + rewrite IH. destruct (Nat.eqb_spec j i), (Nat.eqb_spec j k); auto. congruence.
Qed.
Lemma aget_adel : forall A k (l : list (nat * A)) j, aget j (adel k l) = if Nat.eqb j k then None else aget j l.
Proof.
  intros A k l j. unfold adel. induction l as [|[i b] l IH]; cbn [filter aget fst].
  - destruct (Nat.eqb j k); reflexivity.
  - destruct (Nat.eqb_spec k i) as [E|N]; cbn [negb aget].
    + rewrite IH. subst. destruct (Nat.eqb_spec j i); auto.
    + rewrite IH. destruct (Nat.eqb_spec j i), (Nat.eqb_spec j k); auto. congruence.
Qed.
Lemma ahas_get : forall A k (l : list (nat * A)), ahas k l = true <-> aget k l <> None.
Proof. intros. unfold ahas. destruct (aget k l); split; intros; congruence. Qed.
Lemma aget_fold : forall A (l i : list (nat * A)) r,
  NoDup (map fst l) ->
  aget r (fold_left (fun i x => aset (fst x) (snd x) i) l i) =
  match aget r l with Some c => Some c | None => aget r i end.
Proof.
  intros A l. induction l as [|[k a] l IH]; intros i r ND; [reflexivity|].
  cbn [fold_left map fst snd] in *. inversion ND as [|? ? NI ND']; subst. rewrite IH; auto. rewrite aget_aset.
  cbn [aget]. destruct (Nat.eqb_spec r k) as [E|N]; [|reflexivity]. subst.
  assert (H : aget k l = None).
  { clear -NI. induction l as [|[j b] l IH]; cbn in *; auto.
    destruct (Nat.eqb_spec k j); [subst; tauto|]. apply IH; tauto. }
  rewrite H. reflexivity.
Qed.
Lemma aget_In : forall A r (c : A) l, aget r l = Some c -> In (r, c) l.
Proof.
  intros A r c l. induction l as [|[k a] l IH]; cbn [aget]; [discriminate|].
  destruct (Nat.eqb_spec r k) as [E|N]; intros H; [injection H as ->; subst; left; auto|right; auto].
Qed.
Lemma In_aget : forall A r (c : A) l, NoDup (map fst l) -> In (r, c) l -> aget r l = Some c.
Proof.
  intros A r c l. induction l as [|[k a] l IH]; cbn [map fst aget]; intros ND I; [destruct I|].
  inversion ND as [|? ? NI ND']; subst. destruct I as [I|I].
  - injection I as -> ->. rewrite Nat.eqb_refl. auto.
  - destruct (Nat.eqb_spec r k) as [E|N]; auto. subst. exfalso. apply NI. apply (in_map fst) in I. exact I.
Qed.

Lemma filter_all_in : forall A (f : A -> bool) l, (forall a, In a l -> f a = true) -> filter f l = l.
Proof.
  intros A f l. induction l as [|a l IH]; cbn [filter]; intros H; auto.
  rewrite (H a) by (left; auto). rewrite IH; auto. intros b I. apply H. right; auto.
Qed.

(** ** What a dataflow reads *)
Section Ext.
  Variable P : Prov.
  Notation elem := (elem P).
  Lemma den_reads : forall (L : lenv P) d (c1 c2 : nat -> option (list elem)) (I J : nat -> elem -> Prop),
    (forall r, In r (collect d) -> c1 r = c2 r) -> (forall r e, I r e <-> J r e) ->
    forall st e, den c1 st I (lower L d) e <-> den c2 st J (lower L d) e.
  Proof.
    intros L d c1 c2 I J. induction d; cbn [lower den collect]; intros E F st el; try tauto;
      try (rewrite <- ?in_app_iff in *; assert (E1 := fun r H => E r (in_or_app _ _ _ (or_introl H)));
           assert (E2 := fun r H => E r (in_or_app _ _ _ (or_intror H)));
           try specialize (IHd1 E1 F); try specialize (IHd2 E2 F)); try specialize (IHd E F).
    - rewrite <- E by (left; auto). destruct (c1 r); [tauto|apply F].
    - split; intros [(g & H) Q]; split; auto; exists g; apply IHd; auto.
    - rewrite IHd; tauto.
    - split; intros (t & H & Q); exists t; split; auto; apply IHd; auto.
    - rewrite IHd; tauto.
    - apply IHd.
    - split; intros (a & b & A & B & Q); exists a, b; (split; [apply IHd1; auto|split; [apply IHd2; auto|auto]]).
    - split; intros (x1 & x2 & a & b & k & x & y & A & B & Q); exists x1, x2, a, b, k, x, y;
        (split; [apply IHd1; auto|split; [apply IHd2; auto|auto]]).
    - split; intros (x1 & x2 & a & b & A & B & Q); exists x1, x2, a, b;
        (split; [apply IHd1; auto|split; [apply IHd2; auto|auto]]).
    - rewrite IHd1, IHd2; tauto.
    - split; (intros [[A B]|(a & b & A & B & M)]; [left|right]).
      1,3: split; [apply IHd1; auto|intros g G; apply (B g), IHd2; auto].
      all: exists a, b; (split; [apply IHd1; auto|split; [apply IHd2; auto|auto]]).
    - split; (intros [[A B]|(k & a & b & K & A & B & M)]; [left|right]).
      1,3: split; [apply IHd1; auto|intros k g K G; apply (B k g); auto; apply IHd2; auto].
      all: exists k, a, b; (split; [auto|split; [apply IHd1; auto|split; [apply IHd2; auto|auto]]]).
    - specialize (IHd E1 F).
      split; intros (t & a & k & x & y & g & A & Q); exists t, a, k, x, y, g; (split; [apply IHd; auto|auto]).
    - split; intros (a & g & A & Q); exists a, g; (split; [apply IHd; auto|auto]).
    - split; intros (t & a & u & g & A & Q); exists t, a, u, g; (split; [apply IHd; auto|auto]).
  Qed.
End Ext.

(** * Specification: stratified models *)
Section Spec.
  Variable P : Prov.
  Variables IT X : Type.
  Notation elem := (elem P).
  Variable E : rtenv P IT X.

  (** The rules of a stratum, over given completed collections. *)
  Definition rules_of (col : nat -> option (list elem)) (s : xstratum IT) : list (nat * dflow P) :=
    map (fun u => (fst u, low E col (snd u))) (xs_updates s).
  Definition computed (p : xprog IT) (s : xstratum IT) (r : nat) : Prop := In r (xs_names s) /\ ximm p r = false.
  Definition computedb (p : xprog IT) (s : xstratum IT) (r : nat) : bool := memb r (xs_names s) && negb (ximm p r).
  (** All of [M] except what [s] computes. *)
  Definition outside (p : xprog IT) (s : xstratum IT) (M : nat -> option (list elem)) (r : nat) : option (list elem) :=
    if computedb p s r then None else M r.
  (** The extensional facts of the relations [s] computes. *)
  Definition facts_in (p : xprog IT) (s : xstratum IT) (B : nat -> elem -> Prop) (r : nat) (e : elem) : Prop :=
    computed p s r /\ B r e.

  (** [M] gives every relation its contents: an extensional relation has the facts
      [B], and the relations of a stratum have what is derivable from [B] with the
      rules of the stratum when all other relations are as in [M]. *)
  Record strat_model (p : xprog IT) (B : nat -> elem -> Prop) (M : nat -> option (list elem)) : Prop := {
    sm_sorted : forall r c, M r = Some c -> ssorted c;
    sm_reads : forall s u r, In s p -> In u (xs_updates s) -> In r (collect (snd u)) -> ~ computed p s r -> M r <> None;
    sm_ext : forall x, In x (xrels p) -> x_imm x = true ->
      exists c, M (x_name x) = Some c /\ forall e, In e c <-> B (x_name x) e;
    sm_int : forall s r, In s p -> computed p s r ->
      exists c, M r = Some c /\
        forall t, (exists g, In (t, g) c) <->
                  (exists g, derivable (outside p s M) (rules_of (outside p s M) s) (facts_in p s B) r (t, g)) }.

  (** Conditions on programs and environment.  [Sh] are the tuples that relations may
      hold; the updates are well-formed for such tuples and yield such tuples. *)
  Section Conditions.
  Variable Sh : nat -> tuple -> Prop.
  Record xprog_ok (p : xprog IT) : Prop := {
    xo_nodup : NoDup (map (@x_name IT) (xrels p));
    xo_target : forall s u, In s p -> In u (xs_updates s) -> In (fst u) (xs_names s);
    xo_wf : forall s col, In s p ->
      (forall r, computed p s r -> col r = None) ->
      (forall u r, In u (xs_updates s) -> In r (collect (snd u)) -> ~ computed p s r -> col r <> None) ->
      (forall r c, col r = Some c -> ssorted c) ->
      (forall r c e, col r = Some c -> In e c -> Sh r (fst e)) ->
      forall u, In u (xs_updates s) -> wf col Sh false (low E col (snd u)) /\ tag_wf col (set_view P) (low E col (snd u)) /\
        forall (I : nat -> elem -> Prop) e, (forall q x, I q x -> Sh q (fst x)) -> den col true I (low E col (snd u)) e -> Sh (fst u) (fst e);
    xo_sched : forall x, In x (xrels p) -> x_sched x <> Some (Beam 0) }.
  End Conditions.
  Record rt_ok : Prop := {
    ro_limit : c_limit E = None;
    ro_goal : c_goalstop E = false;
    ro_default : c_default E <> Beam 0;
    ro_early : c_early E = true -> forall g, pdiscard P g = false }.

  (** ** Auxiliary facts *)
  Lemma computedb_iff : forall p s r, computedb p s r = true <-> computed p s r.
  Proof.
    intros p s r. unfold computedb, computed. rewrite andb_true_iff, memb_In, negb_true_iff. tauto.
  Qed.
  Lemma outside_none : forall p s M r, computed p s r -> outside p s M r = None.
  Proof. intros p s M r C. unfold outside. apply computedb_iff in C. rewrite C. auto. Qed.
  Lemma outside_other : forall p s M r, ~ computed p s r -> outside p s M r = M r.
  Proof.
    intros p s M r C. unfold outside. destruct (computedb p s r) eqn:Q; auto.
    apply computedb_iff in Q. tauto.
  Qed.
  Lemma low_ext : forall c1 c2 d, (forall r, In r (collect d) -> c1 r = c2 r) -> low E c1 d = low E c2 d.
  Proof.
    intros c1 c2 d H. unfold low. f_equal. f_equal. apply map_ext_in. intros r I. rewrite H; auto.
  Qed.
  (** Derivability only depends on the collections that are read. *)
  Lemma derivable_ext : forall s c1 c2 (F G : nat -> elem -> Prop),
    (forall u r, In u (xs_updates s) -> In r (collect (snd u)) -> c1 r = c2 r) ->
    (forall r e, F r e <-> G r e) ->
    forall r e, derivable c1 (rules_of c1 s) F r e <-> derivable c2 (rules_of c2 s) G r e.
  Proof.
    intros s c1 c2 F G H FG.
    assert (K : forall n r e, stage c1 (rules_of c1 s) F n r e <-> stage c2 (rules_of c2 s) G n r e).
    { induction n as [|n IH]; intros r e; cbn [stage]; [apply FG|].
      rewrite IH. assert (Q : forall u, In u (xs_updates s) -> low E c1 (snd u) = low E c2 (snd u)).
      { intros u I. apply low_ext. intros q J. eapply H; eauto. }
      split; (intros [A|(d & I & D)]; [left; auto|right]).
      - unfold rules_of in I. apply in_map_iff in I as ([k d0] & I1 & I2). injection I1 as -> <-.
        exists (low E c2 d0). split; [apply in_map_iff; exists (r, d0); auto|].
        assert (Q' := Q _ I2). cbn [snd] in *. rewrite <- Q'. unfold low in *.
        rewrite <- den_reads; [exact D| |exact IH]. intros q J. eapply H; eauto.
      - unfold rules_of in I. apply in_map_iff in I as ([k d0] & I1 & I2). injection I1 as -> <-.
        exists (low E c1 d0). split; [apply in_map_iff; exists (r, d0); auto|].
        assert (Q' := Q _ I2). cbn [snd] in *. rewrite Q'. unfold low in *.
        rewrite den_reads; [exact D| |exact IH]. intros q J. eapply H; eauto. }
    intros r e. split; intros (n & D); exists n; apply K; auto.
  Qed.

  Lemma xfind_in : forall p x, NoDup (map (@x_name IT) (xrels p)) -> In x (xrels p) -> xfind p (x_name x) = Some x.
  Proof.
    intros p x. unfold xfind. induction (xrels p) as [|y l IH]; cbn [map find]; intros ND I; [destruct I|].
    inversion ND as [|? ? NI ND']; subst. destruct I as [->|I]; [rewrite Nat.eqb_refl; auto|].
    destruct (Nat.eqb_spec (x_name y) (x_name x)) as [Q|Q]; auto.
    exfalso. apply NI. rewrite Q. apply in_map; auto.
  Qed.
  Lemma reads_ok_spec : forall (col : nat -> option (list elem)) rels d r,
    reads_ok col rels d = true -> In r (collect d) -> col r <> None \/ In r rels.
  Proof.
    intros col rels d r. induction d; cbn [reads_ok collect]; rewrite ?andb_true_iff, ?in_app_iff; try tauto.
    - intros H [->|[]]. apply orb_true_iff in H as [H|H]; [left; destruct (col r); congruence|right; apply memb_In; auto].
    - intros [A B] [I|[->|[]]]; auto. left. destruct (col r); congruence.
    - intros [A B] I. destruct I as [->|I]; [left; destruct (col r); congruence|].
      destruct grp as [| |g]; [destruct I|destruct I|]. destruct I as [->|[]]. left; destruct (col r); congruence.
  Qed.
  Lemma outs_spec : forall (st : nat -> relation P) rs l, outs st rs = Some l ->
    map fst l = rs /\ forall r c, In (r, c) l -> exists o, output st r = Some o /\ c = from_vec o.
  Proof.
    intros st rs. induction rs as [|r rs IH]; cbn [outs]; intros l H.
    - injection H as <-. split; [auto|intros ? ? []].
    - destruct (output st r) as [o|] eqn:O; [|discriminate]. destruct (outs st rs) as [l'|] eqn:Q; [|discriminate].
      injection H as <-. destruct (IH _ eq_refl) as [A B]. split; [cbn; congruence|].
      intros q c [I|I]; [injection I as <- <-; eauto|eauto].
  Qed.
  (** Without a limit and without goals the loop stops by itself only. *)
  Lemma loop_quiet : forall (it : iteration P) fuel st n st' n' v,
    i_limit it = None -> i_goalstop it = false -> loop it fuel st n = Some (st', n', v) -> v = StopQuiet.
  Proof.
    intros it fuel. induction fuel as [|f IH]; intros st n st' n' v A B; cbn [loop]; [discriminate|].
    unfold need_to_iterate. destruct (changed_all it st) as [st1 ch]. rewrite A, B. cbn [andb].
    destruct (ch || (n =? 0)); [apply IH; auto|]. congruence.
  Qed.
End Spec.

(** * Running the strata *)
Section Strata.
  Variable P : Prov.
  Variables IT X : Type.
  Notation elem := (elem P).
  Variable E : rtenv P IT X.
  Hypothesis RT : rt_ok E.
  Variable inc : bool.
  Variable fuel : nat.
  Variable p : xprog IT.
  Variable Sh : nat -> tuple -> Prop.
  Hypothesis OK : xprog_ok E Sh p.
  Variable d : idb P.
  Hypothesis DS : forall r c, aget r d = Some c -> ssorted c.
  Hypothesis DH : forall r c e, aget r d = Some c -> In e c -> Sh r (fst e).
  Hypothesis DI : forall r, ximm p r = true -> aget r d <> None.
  Definition base (r : nat) (e : elem) : Prop := exists c, aget r d = Some c /\ In e c.

  Record inv (dn : list (xstratum IT)) (i : idb P) (M : nat -> option (list elem)) : Prop := {
    iv_idb : forall r c, aget r i = Some c -> M r = Some c;
    iv_dom : forall r c, aget r i = Some c -> exists s, In s dn /\ computed p s r;
    iv_none : forall r, M r <> None -> ximm p r = true \/ exists s, In s dn /\ computed p s r;
    iv_imm : forall r, ximm p r = true -> M r = aget r d;
    iv_sorted : forall r c, M r = Some c -> ssorted c;
    iv_shape : forall r c e, M r = Some c -> In e c -> Sh r (fst e);
    iv_reads : forall s u r, In s dn -> In u (xs_updates s) -> In r (collect (snd u)) -> ~ computed p s r -> M r <> None;
    iv_int : forall s r, In s dn -> computed p s r ->
      exists c, M r = Some c /\
        forall t, (exists g, In (t, g) c) <->
                  (exists g, derivable (outside p s M) (rules_of E (outside p s M) s) (facts_in p s base) r (t, g));
    iv_out : forall s x, In s dn -> In x (xs_rels s) -> x_imm x = false -> x_hidden x = false ->
      aget (x_name x) i = M (x_name x);
    iv_kept : inc = true -> forall s r, In s dn -> computed p s r -> aget r i <> None }.

  Lemma names_split : forall dn s rest, p = dn ++ s :: rest ->
    NoDup (xs_names s) /\ forall r s', In s' dn -> In r (xs_names s') -> ~ In r (xs_names s).
  Proof.
    intros dn s rest Q. pose proof (xo_nodup OK) as ND. unfold xrels in ND. rewrite Q in ND.
    rewrite flat_map_app in ND. cbn [flat_map] in ND. rewrite !map_app in ND. split.
    - apply NoDup_app_r in ND. apply NoDup_app_l in ND. exact ND.
    - intros r s' I J K. eapply NoDup_app_disj with (1 := ND) (x := r).
      + apply in_map_iff in J as (x & <- & J). apply in_map. apply in_flat_map. eauto.
      + apply in_or_app. left. exact K.
  Qed.
  Lemma in_xrels : forall s x, In s p -> In x (xs_rels s) -> In x (xrels p).
  Proof. intros. apply in_flat_map. eauto. Qed.

  Lemma inv_mono : forall dn i M M', inv dn i M -> (forall r c, M r = Some c -> M' r = Some c) ->
    forall s, In s dn ->
    (forall u r, In u (xs_updates s) -> In r (collect (snd u)) -> outside p s M r = outside p s M' r).
  Proof.
    intros dn i M M' IV H s I u r J K. unfold outside. destruct (computedb p s r) eqn:C; auto.
    assert (N : ~ computed p s r) by (rewrite <- computedb_iff, C; discriminate).
    pose proof (iv_reads IV _ I J K N) as D. destruct (M r) eqn:Q; [|congruence]. symmetry. auto.
  Qed.

  Lemma lifespan_spec : forall (q : xprog IT) i r j, lifespan q i r = Some j ->
    exists s, nth_error q (j - i) = Some s /\ In r (xs_deps s).
  Proof.
    assert (K : forall (q : xprog IT) i r j, lifespan q i r = Some j ->
      i <= j /\ exists s, nth_error q (j - i) = Some s /\ In r (xs_deps s)).
    { induction q as [|s q IH]; intros i r j; cbn [lifespan]; [discriminate|].
      destruct (lifespan q (S i) r) as [k|] eqn:L.
      - intros H. injection H as ->. destruct (IH _ _ _ L) as [A B]. split; [lia|].
        replace (j - i) with (S (j - S i)) by lia. exact B.
      - destruct (memb r (xs_deps s)) eqn:M; [|discriminate]. intros H. injection H as ->. split; auto.
        rewrite Nat.sub_diag. exists s. split; auto. apply memb_In; auto. }
    intros q i r j H. apply K; auto.
  Qed.

  Lemma stratum_step : forall dn s rest i M res,
    p = dn ++ s :: rest -> inv dn i M -> exec_stratum E inc fuel p s d i = Some res ->
    exists M', inv (dn ++ [s])
      (fold_left (fun i x => aset (fst x) (snd x) i) (filter (fun x => kept p (length dn) (fst x)) res) i) M'.
  Proof.
    intros dn s rest i M res Q IV X0.
    assert (SP : In s p) by (rewrite Q; apply in_elt).
    destruct (@names_split dn s rest Q) as [NDs DJ].
    assert (FR : forall r, In r (xs_names s) -> aget r i = None).
    { intros r I. destruct (aget r i) as [c|] eqn:G; auto. exfalso.
      destruct (iv_dom IV _ G) as (s' & I' & [C _]). exact (DJ _ _ I' C I). }
    assert (DY : filter (fun r => negb (ahas r i)) (xs_names s) = xs_names s).
    { apply filter_all_in. intros r I. unfold ahas. rewrite (FR _ I). auto. }
    unfold exec_stratum in X0. rewrite DY in X0.
    destruct (xs_names s) as [|n0 ns] eqn:NS.
    { injection X0 as <-. cbn [filter fold_left]. exists M.
      assert (NC : forall r, ~ computed p s r) by (intros r [C _]; rewrite NS in C; destruct C).
      assert (RS : xs_rels s = []) by (unfold xs_names in NS; destruct (xs_rels s); [auto|discriminate]).
      assert (US : xs_updates s = []).
      { destruct (xs_updates s) as [|u us] eqn:U; auto. exfalso.
        assert (In (fst u) (xs_names s)) by (eapply xo_target; eauto; rewrite U; left; auto).
        rewrite NS in H. destruct H. }
      destruct IV as [V1 V2 V3 V4 V5 V5' V6 V7 V8 V9]. split; auto.
      - intros r c G. destruct (V2 _ _ G) as (s' & A & B). exists s'. split; auto. apply in_or_app; auto.
      - intros r N. destruct (V3 _ N) as [A|(s' & A & B)]; auto. right. exists s'. split; auto. apply in_or_app; auto.
      - intros s' u r I J. apply in_app_or in I as [I|[<-|[]]]; [eauto|]. rewrite US in J. destruct J.
      - intros s' r I C. apply in_app_or in I as [I|[<-|[]]]; [eauto|]. destruct (NC _ C).
      - intros s' x I J. apply in_app_or in I as [I|[<-|[]]]; [eauto|]. rewrite RS in J. destruct J.
      - intros QI s' r I C. apply in_app_or in I as [I|[<-|[]]]; [eauto|]. destruct (NC _ C). }
    rewrite <- NS in *. clear n0 ns NS.
    set (it := stratum_iter E inc p s d i) in *.
    set (F := stratum_facts d (i_rels it)) in *.
    match type of X0 with (if ?b then _ else _) = _ => destruct b eqn:CHK; [|discriminate] end.
    apply andb_true_iff in CHK as [INP RD]. rewrite forallb_forall in RD.
    destruct (loop it fuel (init_state it F) 0) as [[[st n'] v]|] eqn:LP; [|discriminate].
    assert (LQ := LP). apply loop_quiet in LP; [|apply (ro_limit RT)|apply (ro_goal RT)]. subst v.
    assert (RELS : forall r, In r (i_rels it) <-> computed p s r).
    { intros r. unfold it, stratum_iter. cbn [i_rels]. rewrite DY, filter_In, negb_true_iff. reflexivity. }
    assert (UPS : i_updates it = rules_of E (i_cols it) s).
    { unfold it, stratum_iter. cbn [i_updates i_cols]. rewrite DY. unfold rules_of. f_equal.
      apply filter_all_in. intros u I. apply memb_In. eapply xo_target; eauto. }
    (* the collections read *)
    assert (COLN : forall r, computed p s r -> i_cols it r = None).
    { intros r [A B]. unfold it, stratum_iter. cbn [i_cols]. unfold in_cols. destruct inc.
      - rewrite (FR _ A), B. auto.
      - assert (N : memb r (xs_deps s) = false).
        { destruct (memb r (xs_deps s)) eqn:Z; auto. apply memb_In in Z. unfold xs_deps in Z.
          apply filter_In in Z as [_ Z]. apply negb_true_iff in Z. assert (memb r (xs_names s) = true) by (apply memb_In; auto).
          congruence. }
        rewrite N. destruct (existsb _ (xs_rels s)) eqn:Z; auto.
        apply existsb_exists in Z as (x & I & Z). apply andb_true_iff in Z as [Z1 Z2]. apply Nat.eqb_eq in Z1. subst r.
        unfold ximm in B. rewrite (@xfind_in IT p x (xo_nodup OK) (@in_xrels s x SP I)) in B. congruence. }
    assert (COLM : forall r c, i_cols it r = Some c -> outside p s M r = Some c).
    { intros r c G. assert (NC : ~ computed p s r) by (intros C; rewrite (COLN _ C) in G; discriminate).
      rewrite outside_other by auto. unfold it, stratum_iter in G. cbn [i_cols] in G. unfold in_cols in G.
      destruct inc.
      - destruct (aget r i) as [c'|] eqn:GI; [injection G as ->; apply (iv_idb IV); auto|].
        destruct (ximm p r) eqn:IM; [|discriminate]. rewrite (iv_imm IV _ IM). auto.
      - destruct (memb r (xs_deps s)).
        + destruct (ximm p r) eqn:IM; [rewrite (iv_imm IV _ IM); auto|apply (iv_idb IV); auto].
        + destruct (existsb _ (xs_rels s)) eqn:Z; [|discriminate].
          apply existsb_exists in Z as (x & I & Z). apply andb_true_iff in Z as [Z1 Z2]. apply Nat.eqb_eq in Z1. subst r.
          rewrite (iv_imm IV); auto. unfold ximm. rewrite (@xfind_in IT p x (xo_nodup OK) (@in_xrels s x SP I)). auto. }
    assert (READ : forall u r, In u (xs_updates s) -> In r (collect (snd u)) -> ~ computed p s r -> i_cols it r <> None).
    { intros u r I J N. specialize (RD _ I). assert (M0 : memb (fst u) (xs_names s) = true) by (apply memb_In; eapply xo_target; eauto).
      rewrite M0 in RD. cbn [negb orb] in RD. apply andb_true_iff in RD as [_ RD].
      destruct (reads_ok_spec _ _ _ _ RD J) as [A|A]; auto. exfalso. apply N, RELS, A. }
    assert (CSRT : forall r c, i_cols it r = Some c -> ssorted c).
    { intros r c G. apply COLM in G. unfold outside in G. destruct (computedb p s r); [discriminate|]. apply (iv_sorted IV _ G). }
    assert (CSHP : forall r c e, i_cols it r = Some c -> In e c -> Sh r (fst e)).
    { intros r c e G. apply COLM in G. unfold outside in G. destruct (computedb p s r); [discriminate|]. apply (iv_shape IV _ _ G). }
    assert (PS : prog_shaped it F (set_view P) Sh).
    { split.
      - exact CSRT.
      - intros r N. unfold F, stratum_facts in N. destruct (memb r (i_rels it)) eqn:Z; [apply memb_In; auto|congruence].
      - intros r d0 I. rewrite UPS in I. unfold rules_of in I. apply in_map_iff in I as ([k u] & Z & I).
        injection Z as -> <-. specialize (RD _ I). cbn [fst snd] in RD.
        assert (M0 : memb r (xs_names s) = true) by (apply memb_In; eapply (xo_target OK s (r, u)); eauto).
        rewrite M0 in RD. cbn [negb orb] in RD. apply andb_true_iff in RD as [RD _]. apply memb_In; auto.
      - intros r d0 I. rewrite UPS in I. unfold rules_of in I. apply in_map_iff in I as ([k u] & Z & I).
        injection Z as -> <-. apply (xo_wf OK (i_cols it) SP COLN READ CSRT CSHP _ I).
      - intros r d0 I. rewrite UPS in I. unfold rules_of in I. apply in_map_iff in I as ([k u] & Z & I).
        injection Z as -> <-. apply (xo_wf OK (i_cols it) SP COLN READ CSRT CSHP _ I).
      - exact CSHP.
      - intros r e (b & I & J). unfold F, stratum_facts in I. destruct (memb r (i_rels it)); [|destruct I].
        destruct (aget r d) as [c|] eqn:G; [|destruct I]. destruct I as [<-|[]]. apply (DH _ _ G J).
      - intros r d0 I0 e I. rewrite UPS in I. unfold rules_of in I. apply in_map_iff in I as ([k u] & Z & I).
        injection Z as -> <-. apply (xo_wf OK (i_cols it) SP COLN READ CSRT CSHP _ I). }
    assert (PO : set_prog it F) by (exists Sh; exact PS).
    assert (SC : forall q, In q (i_rels it) -> i_sched it q <> Beam 0).
    { intros q I. unfold it, stratum_iter. cbn [i_sched]. destruct (xfind p q) as [x|] eqn:XF; [|apply (ro_default RT)].
      destruct (x_sched x) as [sc|] eqn:XS; [|apply (ro_default RT)].
      apply find_some in XF as [XI _]. pose proof (xo_sched OK _ XI) as N. rewrite XS in N. congruence. }
    assert (RE : i_early it = true -> forall g, pdiscard P g = false) by apply (ro_early RT).
    assert (OUT : forall r, exists o, output st r = Some o).
    { intros r. eapply C09_output; eauto. }
    set (M' := fun r => if computedb p s r then option_map (@from_vec P) (output st r) else M r).
    assert (MC : forall r, computed p s r -> M' r = option_map (@from_vec P) (output st r)).
    { intros r C. unfold M'. apply computedb_iff in C. rewrite C. auto. }
    assert (MO : forall r, ~ computed p s r -> M' r = M r).
    { intros r C. unfold M'. destruct (computedb p s r) eqn:Z; auto. apply computedb_iff in Z. tauto. }
    assert (MX : forall r c, M r = Some c -> M' r = Some c).
    { intros r c G. rewrite MO; auto. intros [C1 C2].
      destruct (iv_none IV r) as [A|(s' & A & [B _])]; [congruence|congruence|]. exact (DJ _ _ A B C1). }
    destruct (outs_spec _ _ X0) as [OS1 OS2].
    set (res' := filter (fun x => kept p (length dn) (fst x)) res) in *.
    assert (ND' : NoDup (map fst res)).
    { rewrite OS1. unfold it, stratum_iter. cbn [i_outputs]. apply NoDup_filter, NoDup_filter. rewrite DY. exact NDs. }
    assert (ND : NoDup (map fst res')).
    { unfold res'. clear -ND'. induction res as [|[k c] l IH]; [constructor|]. cbn [map fst] in ND'.
      inversion ND' as [|? ? NI N2]; subst. cbn [filter]. destruct (kept p (length dn) (fst (k, c))); auto.
      cbn [map]. constructor; auto. cbn [fst]. intros I. apply NI. apply in_map_iff in I as (y & A & B).
      apply filter_In in B as [B _]. rewrite <- A. apply in_map; auto. }
    assert (RESM : forall r c, In (r, c) res -> computed p s r /\ M' r = Some c).
    { intros r c I. assert (C : computed p s r).
      { assert (J : In r (i_outputs it)) by (rewrite <- OS1; apply (in_map fst) in I; exact I).
        unfold it, stratum_iter in J. cbn [i_outputs] in J. apply filter_In in J as [J _].
        apply RELS. exact J. }
      split; auto. rewrite MC by auto. destruct (OS2 _ _ I) as (o & A & ->). rewrite A. auto. }
    assert (GI : forall r c, aget r (fold_left (fun i x => aset (fst x) (snd x) i) res' i) = Some c ->
                 (computed p s r /\ M' r = Some c) \/ aget r i = Some c).
    { intros r c. rewrite aget_fold by exact ND. destruct (aget r res') as [c'|] eqn:G; [|auto].
      intros H. injection H as ->. left. apply RESM. apply aget_In in G. apply filter_In in G. tauto. }
    exists M'. split.
    - intros r c G. destruct (GI _ _ G) as [[_ A]|A]; auto. apply MX, (iv_idb IV), A.
    - intros r c G. destruct (GI _ _ G) as [[A _]|A]; [exists s; split; auto; apply in_elt|].
      destruct (iv_dom IV _ A) as (s' & I' & C). exists s'. split; auto. apply in_or_app; auto.
    - intros r N. destruct (computedb p s r) eqn:Z.
      + apply computedb_iff in Z. right. exists s. split; auto. apply in_elt.
      + rewrite MO in N by (rewrite <- computedb_iff, Z; discriminate).
        destruct (iv_none IV _ N) as [A|(s' & A & B)]; auto. right. exists s'. split; auto. apply in_or_app; auto.
    - intros r I. rewrite MO; [apply (iv_imm IV); auto|]. intros [_ C]. congruence.
    - intros r c G. destruct (computedb p s r) eqn:Z.
      + apply computedb_iff in Z. rewrite MC in G by auto. destruct (output st r); [|discriminate].
        cbn in G. injection G as <-. apply from_vec_ssorted.
      + rewrite MO in G by (rewrite <- computedb_iff, Z; discriminate). apply (iv_sorted IV _ G).
    - intros r c e G I. destruct (computedb p s r) eqn:Z.
      + apply computedb_iff in Z. rewrite MC in G by auto. destruct (output st r) as [o|] eqn:O; [|discriminate].
        cbn in G. injection G as <-. destruct (C01_from_vec o) as (_ & FV & _).
        destruct (@C09_complete P it F fuel st n' r o PO SC RE LQ O) as [_ CC]. destruct e as [t g].
        assert (XO : exists g', In (t, g') o) by (apply FV; eauto). apply CC in XO as (g' & XO). exact (derivable_shaped PS XO).
      + rewrite MO in G by (rewrite <- computedb_iff, Z; discriminate). apply (iv_shape IV _ _ G I).
    - intros s' u r I J K N. apply in_app_or in I as [I|[<-|[]]].
      + pose proof (iv_reads IV _ I J K N) as D. destruct (M r) as [c|] eqn:G; [|congruence].
        rewrite (MX _ _ G). discriminate.
      + pose proof (READ _ _ J K N) as D. destruct (i_cols it r) as [c|] eqn:G; [|congruence].
        apply COLM in G. rewrite outside_other in G by auto. rewrite (MX _ _ G). discriminate.
    - intros s' r I C. apply in_app_or in I as [I|[<-|[]]].
      + destruct (iv_int IV I C) as (c & A & B). exists c. split; [apply MX; auto|].
        intros t. rewrite B. split; intros (g & D); exists g; (eapply derivable_ext; [| |exact D]);
          [|tauto| |tauto]; intros u q J K; [symmetry|]; eapply inv_mono with (1 := IV); eauto.
      + destruct (OUT r) as (o & O). exists (from_vec o). split; [rewrite MC by auto; rewrite O; auto|].
        intros t. destruct (C01_from_vec o) as (_ & FV & _). rewrite FV.
        destruct (@C09_complete P it F fuel st n' r o PO SC RE LQ O) as [_ CC]. rewrite CC, UPS.
        assert (CE : forall u q, In u (xs_updates s) -> In q (collect (snd u)) -> i_cols it q = outside p s M' q).
        { intros u q J K. destruct (computedb p s q) eqn:Z.
          - apply computedb_iff in Z. rewrite (COLN _ Z), outside_none; auto.
          - assert (N : ~ computed p s q) by (rewrite <- computedb_iff, Z; discriminate).
            pose proof (READ _ _ J K N) as D. destruct (i_cols it q) as [c|] eqn:G; [|congruence].
            apply COLM in G. rewrite outside_other in * by auto. rewrite (MX _ _ G). auto. }
        assert (FE : forall q e, given F q e <-> facts_in p s base q e).
        { intros q e. unfold given, F, stratum_facts, facts_in, base. rewrite <- RELS.
          destruct (memb q (i_rels it)) eqn:Z.
          - apply memb_In in Z. destruct (aget q d) as [c|]; split.
            + intros (b & [<-|[]] & J). eauto.
            + intros (_ & c' & J & K). injection J as <-. exists c. split; [left|]; auto.
            + intros (b & [] & _).
            + intros (_ & c' & J & _). discriminate.
          - split; [intros (b & [] & _)|]. intros (J & _). apply memb_In in J. congruence. }
        split; intros (g & D); exists g; (eapply derivable_ext; [| |exact D]); intros;
          solve [eapply CE; eauto|symmetry; eapply CE; eauto|apply FE|symmetry; apply FE].
    - intros s' x I J A B. apply in_app_or in I as [I|[<-|[]]].
      + pose proof (iv_out IV s' x I J A B) as G. rewrite aget_fold by exact ND.
        assert (NX : ~ computed p s (x_name x)).
        { intros [C _]. apply (DJ (x_name x) s' I); auto. apply in_map; auto. }
        rewrite MO by auto. destruct (aget (x_name x) res') as [c|] eqn:Z; auto. exfalso.
        apply aget_In in Z. apply filter_In in Z as [Z _]. apply RESM in Z. tauto.
      + assert (XF : xfind p (x_name x) = Some x) by (apply xfind_in; [apply (xo_nodup OK)|eapply in_xrels; eauto]).
        assert (C : computed p s (x_name x)).
        { split; [apply in_map; auto|]. unfold ximm. rewrite XF. auto. }
        destruct (OUT (x_name x)) as (o & O).
        assert (IO : In (x_name x) (i_outputs it)).
        { assert (IR : In (x_name x) (i_rels it)) by (apply RELS; auto).
          unfold it, stratum_iter in *. cbn [i_outputs i_rels] in *. apply filter_In. split; auto.
          rewrite XF, B. rewrite orb_true_r. auto. }
        rewrite <- OS1 in IO. apply in_map_iff in IO as ([q c] & Z & IO). cbn [fst] in Z. subst q.
        assert (KP : In (x_name x, c) res').
        { apply filter_In. split; auto. cbn [fst]. unfold kept. rewrite XF, B. auto. }
        rewrite aget_fold by exact ND. rewrite (In_aget _ _ _ ND KP). apply RESM in IO as [_ IO]. auto.
    - intros QI s' r I C. rewrite aget_fold by exact ND. apply in_app_or in I as [I|[<-|[]]].
      + pose proof (iv_kept IV QI I C) as N. destruct (aget r res'); [discriminate|auto].
      + assert (IO : In r (i_outputs it)).
        { apply RELS in C. unfold it, stratum_iter in *. cbn [i_outputs i_rels] in *. apply filter_In. split; auto.
          rewrite QI. auto. }
        rewrite <- OS1 in IO. apply in_map_iff in IO as ([q c] & Z & IO). cbn [fst] in Z. subst q.
        assert (KP : In (r, c) res').
        { apply filter_In. split; auto. cbn [fst]. unfold kept. destruct (xfind p r) as [x|]; auto.
          destruct (x_hidden x); auto. destruct (lifespan p 0 r) as [j|] eqn:LS; auto.
          destruct (lifespan_spec _ _ _ LS) as (s' & NT & DP). rewrite Nat.sub_0_r in NT.
          apply Nat.ltb_lt. destruct (le_lt_dec j (length dn)) as [LE|]; auto. exfalso.
          unfold xs_deps in DP. apply filter_In in DP as [DP NN]. apply nodup_In, in_flat_map in DP as (u & I1 & I2).
          apply negb_true_iff in NN. assert (NM : ~ In r (xs_names s')) by (rewrite <- memb_In; congruence).
          destruct (Nat.eq_dec j (length dn)) as [->|NE].
          - rewrite Q, nth_error_app2, Nat.sub_diag in NT by lia. injection NT as <-. apply NM, C.
          - rewrite Q, nth_error_app1 in NT by lia. apply nth_error_In in NT.
            assert (NC : ~ computed p s' r) by (intros [K _]; auto).
            pose proof (iv_reads IV _ NT I1 I2 NC) as RM. destruct C as [C1 C2].
            destruct (iv_none IV _ RM) as [A|(s2 & A & [B _])]; [congruence|]. exact (DJ _ _ A B C1). }
        rewrite (In_aget _ _ _ ND KP). discriminate.
  Qed.
End Strata.

Section Program.
  Variable P : Prov.
  Variables IT X : Type.
  Notation elem := (elem P).
  Variable E : rtenv P IT X.

  Lemma strata_run : forall inc fuel (p : xprog IT) (Sh : nat -> tuple -> Prop) (d : idb P), rt_ok E -> xprog_ok E Sh p ->
    (forall r c e, aget r d = Some c -> In e c -> Sh r (fst e)) ->
    forall ss dn i M i',
    p = dn ++ ss -> inv E inc p Sh d dn i M -> exec_strata E inc fuel p (length dn) ss d i = Some i' ->
    exists M', inv E inc p Sh d p i' M'.
  Proof.
    intros inc fuel p Sh d RT OK DH ss. induction ss as [|s ss IH]; intros dn i M i' Q IV H; cbn [exec_strata] in H.
    - injection H as <-. rewrite app_nil_r in Q. rewrite <- Q in IV. eauto.
    - destruct (exec_stratum E inc fuel p s d i) as [res|] eqn:XS; [|discriminate].
      destruct (@stratum_step P IT X E RT inc fuel p Sh OK d DH dn s ss i M res Q IV XS) as (M' & IV').
      assert (L : S (length dn) = length (dn ++ [s])) by (rewrite app_length; cbn; lia).
      rewrite L in H. eapply IH; [|exact IV'|exact H]. rewrite <- app_assoc. exact Q.
  Qed.
  Lemma inv_start : forall inc (p : xprog IT) (Sh : nat -> tuple -> Prop) (d : idb P),
    (forall r c, aget r d = Some c -> ssorted c) ->
    (forall r c e, aget r d = Some c -> In e c -> Sh r (fst e)) ->
    inv E inc p Sh d [] [] (fun r => if ximm p r then aget r d else None).
  Proof.
    intros inc p Sh d DS DH. split; try (intros; cbn in *; (discriminate || tauto)).
    - intros r H. destruct (ximm p r); auto.
    - intros r H. rewrite H. auto.
    - intros r c H. destruct (ximm p r); [eauto|discriminate].
    - intros r c e H. destruct (ximm p r); [eauto|discriminate].
  Qed.

  (** ** The extensional database *)
  Lemma ecols_get : forall (d : edb P IT) r, aget r (ecols d) = option_map (@e_int P IT) (aget r d).
  Proof.
    intros d r. induction d as [|[k e] d IH]; cbn [ecols map aget fst snd]; auto.
    destruct (Nat.eqb r k); auto.
  Qed.
  Lemma tag_all_tuples : forall fs x t,
    (exists g, In (t, g) (fst (tag_all E x fs))) <-> exists o u, In (o, u) fs /\ c_intern E u = Some t.
  Proof.
    induction fs as [|[o u] fs IH]; intros x t; cbn [tag_all].
    - split; [intros (g & [])|intros (o & u & [] & _)].
    - destruct (c_intern E u) as [v|] eqn:C.
      + destruct (c_tag E x o) as [g0 x1] eqn:T. specialize (IH x1 t). destruct (tag_all E x1 fs) as [es x2].
        cbn [fst] in *. split.
        * intros (g & [I|I]); [injection I as -> ->; exists o, u; split; [left|]; auto|].
          destruct IH as [IH _]. destruct IH as (o' & u' & A & B); [eauto|]. exists o', u'. split; [right|]; auto.
        * intros (o' & u' & [I|I] & B); [injection I as <- <-; exists g0; left; congruence|].
          destruct IH as [_ IH]. destruct IH as (g & A); [eauto|]. exists g. right; auto.
      + rewrite IH. split; intros (o' & u' & A & B); exists o', u'; split; auto; [right; auto|].
        destruct A as [A|A]; auto. injection A as <- <-. congruence.
  Qed.
  (** Everything a relation holds, internalized or waiting. *)
  Definition stored (e : erel P IT) (t : tuple) : Prop :=
    (exists g, In (t, g) (e_int e)) \/
    exists o u, In (o, u) (e_prog e ++ e_dyn e ++ e_stat e) /\ c_intern E u = Some t.
  Lemma internalize_rel_int : forall x e t,
    (exists g, In (t, g) (e_int (fst (internalize_rel E x e)))) <-> stored e t.
  Proof.
    intros x e t. unfold internalize_rel, stored.
    pose proof (tag_all_tuples (e_prog e) x t) as A. destruct (tag_all E x (e_prog e)) as [a x1].
    pose proof (tag_all_tuples (e_dyn e) x1 t) as B. destruct (tag_all E x1 (e_dyn e)) as [b x2].
    pose proof (tag_all_tuples (e_stat e) x2 t) as C. destruct (tag_all E x2 (e_stat e)) as [c x3].
    cbn [fst e_int] in *. destruct (C01_from_vec (a ++ b ++ c ++ e_int e)) as (_ & F & _). rewrite F.
    split.
    - intros (g & I). rewrite !in_app_iff in I. destruct I as [I|[I|[I|I]]]; [| | |left; eauto]; right.
      + destruct A as [A _]. destruct A as (o & u & K & L); [eauto|]. exists o, u. rewrite !in_app_iff. auto.
      + destruct B as [B _]. destruct B as (o & u & K & L); [eauto|]. exists o, u. rewrite !in_app_iff. auto.
      + destruct C as [C _]. destruct C as (o & u & K & L); [eauto|]. exists o, u. rewrite !in_app_iff. auto.
    - intros [(g & I)|(o & u & I & L)]; [exists g; rewrite !in_app_iff; auto|].
      rewrite !in_app_iff in I. destruct I as [I|[I|I]].
      + destruct A as [_ A]. destruct A as (g & K); [eauto|]. exists g. rewrite !in_app_iff; auto.
      + destruct B as [_ B]. destruct B as (g & K); [eauto|]. exists g. rewrite !in_app_iff; auto.
      + destruct C as [_ C]. destruct C as (g & K); [eauto|]. exists g. rewrite !in_app_iff; auto.
  Qed.
  Lemma internalize_rel_stored : forall x e t, stored (fst (internalize_rel E x e)) t <-> stored e t.
  Proof.
    intros x e t. rewrite <- (internalize_rel_int x e t). unfold stored at 1. split; [|auto].
    intros [H|(o & u & I & L)]; auto.
    apply internalize_rel_int. right. exists o, u. split; auto. unfold internalize_rel in I.
    destruct (tag_all E x (e_prog e)) as [a x1]. destruct (tag_all E x1 (e_dyn e)) as [b x2].
    destruct (tag_all E x2 (e_stat e)) as [c x3]. cbn [fst e_prog e_dyn e_stat app] in I.
    rewrite !app_nil_r in I. rewrite !in_app_iff. auto.
  Qed.
  Lemma internalize_get : forall d x d2 x2, internalize E x d = (d2, x2) -> forall r,
    match aget r d with
    | None => aget r d2 = None
    | Some e => exists y, aget r d2 = Some (fst (internalize_rel E y e))
    end.
  Proof.
    induction d as [|[k e] d IH]; intros x d2 x2 H r; cbn [internalize aget] in *.
    - injection H as <- <-. auto.
    - destruct (internalize_rel E x e) as [e' x1] eqn:A. destruct (internalize E x1 d) as [d' x3] eqn:B.
      injection H as <- <-. cbn [aget]. destruct (Nat.eqb r k); [exists x; rewrite A; auto|]. eapply IH; eauto.
  Qed.
  Definition prog_facts (xs : list (xrel IT)) (r : nat) : list (option IT * tuple) :=
    flat_map (fun x => if Nat.eqb (x_name x) r then x_facts x else []) xs.
  Lemma e_get_aset : forall (d : edb P IT) k e r, e_get (aset k e d) r = if Nat.eqb r k then e else e_get d r.
  Proof. intros. unfold e_get. rewrite aget_aset. destruct (Nat.eqb r k); auto. Qed.
  Lemma populate_get : forall xs (d d1 : edb P IT), populate d xs = Some d1 -> forall r,
    let e := e_get d r in
    e_get d1 r = mkE (e_prog e ++ prog_facts xs r) (e_progint e) (e_dyn e) (e_stat e) (e_int e) (e_done e).
  Proof.
    induction xs as [|x xs IH]; intros d d1 H r; cbn [populate prog_facts flat_map] in *.
    - injection H as <-. cbn zeta. rewrite app_nil_r. destruct (e_get d r); auto.
    - destruct (populate_rel d x) as [d'|] eqn:Q; [|discriminate]. rewrite (IH _ _ H r). clear IH H.
      unfold populate_rel in Q. destruct (x_facts x) as [|f fs] eqn:XF.
      { injection Q as <-. destruct (Nat.eqb (x_name x) r); reflexivity. }
      match type of Q with (if ?b then _ else _) = _ => destruct b; [discriminate|] end.
      injection Q as <-. cbn zeta. rewrite e_get_aset. rewrite (Nat.eqb_sym r).
      destruct (Nat.eqb_spec (x_name x) r) as [<-|N]; [|reflexivity].
      cbn [e_prog e_progint e_dyn e_stat e_int e_done]. rewrite <- app_assoc. reflexivity.
  Qed.
  Lemma tap_get : forall (p : xprog IT) (d : edb P IT) r,
    aget r (tap_imm p d) = aget r d \/ (aget r d = None /\ aget r (tap_imm p d) = Some (@e_new P IT)).
  Proof.
    intros p d r. unfold tap_imm. generalize (xrels p) as xs. intros xs. revert d.
    induction xs as [|x xs IH]; intros d; cbn [fold_left]; auto.
    destruct (IH (if x_imm x then tap (x_name x) d else d)) as [A|[A B]].
    - rewrite A. destruct (x_imm x); auto. unfold tap. destruct (ahas (x_name x) d) eqn:H; auto.
      rewrite aget_aset. destruct (Nat.eqb_spec r (x_name x)) as [->|N]; auto.
      unfold ahas in H. destruct (aget (x_name x) d); [discriminate|]. auto.
    - destruct (x_imm x); auto. unfold tap in *. destruct (ahas (x_name x) d) eqn:H; auto.
      rewrite aget_aset in A. destruct (Nat.eqb_spec r (x_name x)) as [->|N]; [discriminate|auto].
  Qed.
  Lemma tap_has : forall (p : xprog IT) (d : edb P IT) r, ximm p r = true -> aget r (tap_imm p d) <> None.
  Proof.
    intros p d r H. assert (K : exists x, In x (xrels p) /\ x_name x = r /\ x_imm x = true).
    { unfold ximm in H. destruct (xfind p r) as [x|] eqn:F; [|discriminate].
      apply find_some in F as [F1 F2]. apply Nat.eqb_eq in F2. eauto. }
    destruct K as (x & I & <- & M). clear H. unfold tap_imm.
    assert (G : forall (xs : list (xrel IT)) (d : edb P IT) k, aget k d <> None -> aget k (fold_left (fun d x => if x_imm x then tap (x_name x) d else d) xs d) <> None).
    { induction xs as [|y ys IH]; intros d0 k0 A; cbn [fold_left]; auto. apply IH. destruct (x_imm y); auto.
      unfold tap. destruct (ahas (x_name y) d0); auto. rewrite aget_aset. destruct (Nat.eqb k0 (x_name y)); congruence. }
    revert d. induction (xrels p) as [|y ys IH]; [destruct I|]. intros d. cbn [fold_left].
    destruct I as [->|I]; [|apply IH; auto]. apply G. rewrite M. unfold tap.
    destruct (ahas (x_name x) d) eqn:H; [apply ahas_get; auto|]. rewrite aget_aset, Nat.eqb_refl. discriminate.
  Qed.
  Lemma tap_e_get : forall (p : xprog IT) (d : edb P IT) r, e_get (tap_imm p d) r = e_get d r.
  Proof.
    intros. unfold e_get. destruct (tap_get p d r) as [A|[A B]]; [rewrite A; auto|]. rewrite A, B. auto.
  Qed.

  Definition wanted (xs : list (xrel IT)) (r : nat) : bool :=
    existsb (fun x => Nat.eqb (x_name x) r && negb (x_hidden x)) xs.
  Lemma finish_get : forall inc (xs : list (xrel IT)) (d : edb P IT) i d' i',
    NoDup (map (@x_name IT) xs) -> finish inc xs d i = (d', i') ->
    (forall r, aget r i' = match aget r i with
                           | Some c => Some c
                           | None => if wanted xs r then aget r (ecols d) else None
                           end) /\
    (inc = true -> d' = d).
  Proof.
    intros inc xs. induction xs as [|x xs IH]; intros d i d' i' ND H; cbn [finish map wanted existsb] in *.
    - injection H as <- <-. split; auto. intros r. destruct (aget r i); auto.
    - inversion ND as [|? ? NI ND']; subst.
      assert (NW : wanted xs (x_name x) = false).
      { destruct (wanted xs (x_name x)) eqn:W; auto. apply existsb_exists in W as (y & I & W).
        apply andb_true_iff in W as [W _]. apply Nat.eqb_eq in W. exfalso. apply NI. rewrite <- W. apply in_map; auto. }
      destruct (negb (x_hidden x) && negb (ahas (x_name x) i)) eqn:C.
      + apply andb_true_iff in C as [C1 C2]. apply negb_true_iff in C2.
        assert (IN : aget (x_name x) i = None) by (unfold ahas in C2; destruct (aget (x_name x) i); congruence).
        destruct (aget (x_name x) d) as [e|] eqn:G.
        * destruct (IH _ _ _ _ ND' H) as [A B]. split.
          -- intros r. rewrite A, aget_aset. rewrite Nat.eqb_sym. destruct (Nat.eqb_spec (x_name x) r) as [<-|N].
             ++ rewrite IN, C1. cbn [andb orb]. rewrite ecols_get, G. reflexivity.
             ++ cbn [andb orb]. destruct (aget r i); auto. fold (wanted xs r). destruct (wanted xs r); auto.
                rewrite !ecols_get. destruct inc; auto. rewrite aget_adel.
                destruct (Nat.eqb_spec r (x_name x)); auto. congruence.
          -- intros ->. auto.
        * destruct (IH _ _ _ _ ND' H) as [A B]. split; auto. intros r. rewrite A.
          destruct (Nat.eqb_spec (x_name x) r) as [<-|N]; [|reflexivity].
          rewrite IN, C1. cbn [andb orb]. rewrite NW, ecols_get, G. reflexivity.
      + destruct (IH _ _ _ _ ND' H) as [A B]. split; auto. intros r. rewrite A.
        destruct (Nat.eqb_spec (x_name x) r) as [<-|N]; [|reflexivity].
        destruct (aget (x_name x) i) eqn:IN; auto. unfold ahas in C. rewrite IN in C. cbn in C.
        rewrite andb_true_r in C. rewrite C. reflexivity.
  Qed.

  (** The comparison with the empty program keeps nothing. *)
  Lemma persistent_empty : forall fuel q need keep, persistent fuel (mkRP [] []) q need = Some keep -> keep = [].
  Proof.
    intros fuel q need keep. unfold persistent. destruct (known (mkRP [] []) && known q); [|discriminate].
    assert (F : fringe0 (mkRP [] []) = []) by reflexivity. rewrite F.
    destruct fuel; cbn [persist_loop pop_first]; congruence.
  Qed.

  (** A fact written in the program. *)
  Definition prog_fact (p : xprog IT) (r : nat) (t : tuple) : Prop :=
    exists x o u, In x (xrels p) /\ x_name x = r /\ In (o, u) (x_facts x) /\ c_intern E u = Some t.
  Lemma prog_facts_spec : forall p r t,
    (exists o u, In (o, u) (prog_facts (xrels p) r) /\ c_intern E u = Some t) <-> prog_fact p r t.
  Proof.
    intros p r t. unfold prog_facts, prog_fact. split.
    - intros (o & u & I & C). apply in_flat_map in I as (x & I & J).
      destruct (Nat.eqb_spec (x_name x) r); [|destruct J]. exists x, o, u. auto.
    - intros (x & o & u & I & <- & J & C). exists o, u. split; auto. apply in_flat_map. exists x. split; auto.
      rewrite Nat.eqb_refl. auto.
  Qed.
  Lemma populate_stored : forall p (d d1 : edb P IT), populate d (xrels p) = Some d1 -> forall r t,
    stored (e_get d1 r) t <-> stored (e_get d r) t \/ prog_fact p r t.
  Proof.
    intros p d d1 H r t. rewrite (populate_get _ _ H r). unfold stored. cbn [e_prog e_dyn e_stat e_int].
    rewrite <- prog_facts_spec. split.
    - intros [A|(o & u & I & C)]; [tauto|]. rewrite !in_app_iff in I.
      destruct I as [[I|I]|I]; [left; right|right|left; right]; exists o, u; rewrite ?in_app_iff; auto.
    - intros [[A|(o & u & I & C)]|(o & u & I & C)]; [tauto| |]; right; exists o, u; rewrite !in_app_iff in *; tauto.
  Qed.
  Lemma internalized : forall x (d1 d2 : edb P IT) x2, internalize E x d1 = (d2, x2) -> forall r,
    (forall t, (exists g, In (t, g) (e_int (e_get d2 r))) <-> stored (e_get d1 r) t) /\
    (forall t, stored (e_get d2 r) t <-> stored (e_get d1 r) t) /\ ssorted (e_int (e_get d2 r)).
  Proof.
    intros x d1 d2 x2 H r. pose proof (internalize_get _ _ H r) as G. unfold e_get.
    destruct (aget r d1) as [e|].
    - destruct G as (y & ->). split; [apply internalize_rel_int|split; [apply internalize_rel_stored|]].
      unfold internalize_rel. destruct (tag_all E y (e_prog e)) as [a x1].
      destruct (tag_all E x1 (e_dyn e)) as [b x3]. destruct (tag_all E x3 (e_stat e)) as [c x4]. cbn [fst e_int].
      apply from_vec_ssorted.
    - rewrite G. split; [|split].
      + intros t. unfold stored, e_new. cbn. split; [intros (g & [])|intros [(g & [])|(o & u & [] & _)]].
      + tauto.
      + constructor.
  Qed.

  (** * C50: running a program *)
  Theorem C50_stratified_model : forall inc fuel (p : xprog IT) (Sh : nat -> tuple -> Prop) (c c' : ctx P IT X),
    rt_ok E -> xprog_ok E Sh p -> (forall r t, stored (e_get (x_edb c) r) t \/ prog_fact p r t -> Sh r t) ->
    execute E inc fuel (Some p) c = Some c' ->
    exists B M, strat_model E p B M /\
      (forall r t, (exists g, B r (t, g)) <-> stored (e_get (x_edb c) r) t \/ prog_fact p r t) /\
      (forall x, In x (xrels p) -> x_hidden x = false -> aget (x_name x) (x_idb c') = M (x_name x)).
  Proof.
    intros inc fuel p Sh c c' RT OK SHP H. unfold execute in H.
    destruct (populate (x_edb c) (xrels p)) as [d1|] eqn:PO; [|discriminate].
    destruct (persistent fuel (mkRP [] []) (flat p) (need_update (x_edbdone c) d1)) as [keep|] eqn:PE; [|discriminate].
    apply persistent_empty in PE. subst keep.
    assert (I0 : filter (fun x : nat * list elem => memb (fst x) []) (x_idb c) = []).
    { induction (x_idb c); cbn; auto. }
    rewrite I0 in H. clear I0. destruct (internalize E (x_tag c) d1) as [d2 x2] eqn:IN.
    destruct (deps_known p); [|discriminate]. set (d3 := tap_imm p d2) in *.
    destruct (exec_strata E inc fuel p 0 p (ecols d3) []) as [i1|] eqn:XS; [|discriminate].
    destruct (finish inc (xrels p) d3 i1) as [d4 i2] eqn:FI. injection H as <-. cbn [x_idb].
    assert (EG : forall r, e_get d3 r = e_get d2 r) by (intros; apply tap_e_get).
    assert (CG : forall r c0, aget r (ecols d3) = Some c0 -> c0 = e_int (e_get d2 r)).
    { intros r c0 G. rewrite ecols_get in G. rewrite <- EG. unfold e_get. destruct (aget r d3); [|discriminate].
      cbn in G. congruence. }
    assert (DS : forall r c0, aget r (ecols d3) = Some c0 -> ssorted c0).
    { intros r c0 G. rewrite (CG _ _ G). apply (internalized _ _ IN r). }
    assert (DI : forall r, ximm p r = true -> aget r (ecols d3) <> None).
    { intros r Q. rewrite ecols_get. pose proof (tap_has p d2 r Q) as N. unfold d3.
      destruct (aget r (tap_imm p d2)); [discriminate|congruence]. }
    assert (DH : forall r c0 e, aget r (ecols d3) = Some c0 -> In e c0 -> Sh r (fst e)).
    { intros r c0 [t g] G I. rewrite (CG _ _ G) in I. apply SHP. apply (populate_stored _ _ PO). apply (proj1 (internalized _ _ IN r)). exists g; exact I. }
    destruct (@strata_run inc fuel p Sh (ecols d3) RT OK DH p [] [] _ i1 eq_refl (@inv_start inc p Sh (ecols d3) DS DH) XS) as (M & IV).
    exists (base (ecols d3)), M. split; [|split].
    - split.
      + apply (iv_sorted IV).
      + intros s u r. apply (iv_reads IV).
      + intros x I A. assert (XI : ximm p (x_name x) = true).
        { unfold ximm. rewrite (@xfind_in IT p x (xo_nodup OK) I). auto. }
        rewrite (iv_imm IV _ XI). specialize (DI _ XI). destruct (aget (x_name x) (ecols d3)) as [c0|] eqn:G; [|congruence].
        exists c0. split; auto. intros e. unfold base. rewrite G. split; [eauto|]. intros (c1 & K & J). congruence.
      + intros s r I C. apply (iv_int IV I C).
    - intros r t. rewrite <- (populate_stored _ _ PO). destruct (internalized _ _ IN r) as (A & _). rewrite <- A.
      unfold base. split.
      + intros (g & c0 & G & I). exists g. rewrite <- (CG _ _ G). auto.
      + intros (g & I). exists g. rewrite <- EG in I. unfold e_get in I. rewrite ecols_get.
        destruct (aget r d3) as [e|]; [cbn; eauto|destruct I].
    - intros x I Hh. destruct (@finish_get inc (xrels p) d3 i1 d4 i2 (xo_nodup OK) FI) as [G _]. rewrite G.
      assert (W : wanted (xrels p) (x_name x) = true).
      { apply existsb_exists. exists x. rewrite Nat.eqb_refl, Hh. auto. }
      rewrite W. destruct (x_imm x) eqn:XM.
      + assert (XI : ximm p (x_name x) = true).
        { unfold ximm. rewrite (@xfind_in IT p x (xo_nodup OK) I). auto. }
        rewrite (iv_imm IV _ XI). destruct (aget (x_name x) i1) as [c0|] eqn:GI; auto.
        exfalso. destruct (iv_dom IV _ GI) as (s & _ & [_ K]). congruence.
      + apply in_flat_map in I as (s & I & J). rewrite (iv_out IV s x I J XM Hh).
        destruct (M (x_name x)) as [c0|] eqn:MG; auto.
        assert (CC : computed p s (x_name x)).
        { split; [apply in_map; auto|]. unfold ximm. rewrite (@xfind_in IT p x (xo_nodup OK)); auto.
          apply in_flat_map. eauto. }
        destruct (iv_int IV I CC) as (c0 & K & _). congruence.
  Qed.
End Program.
Print Assumptions C50_stratified_model.
