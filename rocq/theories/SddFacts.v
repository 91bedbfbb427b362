(** The decision diagrams made by the bottom-up builder are valid: primes
    partition, children respect the variable tree, and the node built for a
    formula has its meaning. *)
From Coq Require Import List Arith Bool Lia.
From Verif Require Import ListAux VTree VTreeFacts Formula Sdd.
Import ListNotations.
Set Implicit Arguments.

Ltac ob := match goal with |- context [VTree.obind (Some ?x) ?f] => change (VTree.obind (Some x) f) with (f x); cbv beta iota end.

(** ** the Boolean value of a node *)
Fixpoint valf (ns : snodes) (w : nat -> bool) (fuel i : nat) : bool :=
  match fuel with
  | 0 => false
  | S f =>
      match get_node ns i with
      | None => false
      | Some (SLit l) => eval_lit w l
      | Some (SOr cs) => existsb (fun c => valf ns w f (fst c) && valf ns w f (snd c)) cs
      end
  end.
Definition val (ns : snodes) (w : nat -> bool) (i : nat) : bool := valf ns w (S i) i.

Definition acyc (ns : snodes) : Prop := forall i cs p s,
  get_node ns i = Some (SOr cs) -> In (p, s) cs -> p < i /\ s < i.

Lemma existsb_ext : forall A (f g : A -> bool) l, (forall x, In x l -> f x = g x) -> existsb f l = existsb g l.
Proof. induction l; simpl; intros H; auto. rewrite H, IHl; auto. Qed.

Lemma valf_fuel : forall ns w, acyc ns -> forall f i, i < f -> valf ns w f i = val ns w i.
Proof.
  intros ns w A. induction f as [f IH] using (well_founded_induction lt_wf). intros i L.
  destruct f as [|f]; [lia|]. unfold val. cbn [valf].
  destruct (get_node ns i) as [[cs|l]|] eqn:E; auto.
  apply existsb_ext. intros (p & s) I. destruct (A _ _ _ _ E I) as [Lp Ls]. simpl.
  rewrite (IH f) by lia. rewrite (IH f) by lia.
  rewrite (IH i) by lia. rewrite (IH i) by lia. auto.
Qed.
Lemma val_or : forall ns w i cs, acyc ns -> get_node ns i = Some (SOr cs) ->
  val ns w i = existsb (fun c => val ns w (fst c) && val ns w (snd c)) cs.
Proof.
  intros ns w i cs A E. unfold val at 1. cbn [valf]. rewrite E. apply existsb_ext.
  intros (p & s) I. destruct (A _ _ _ _ E I). simpl. rewrite !valf_fuel; auto.
Qed.
Arguments val_or {ns} w {i cs} _ _.
Lemma val_lit : forall ns w i l, get_node ns i = Some (SLit l) -> val ns w i = eval_lit w l.
Proof. intros ns w i l E. unfold val. cbn [valf]. rewrite E. auto. Qed.

Lemma get_app : forall ns x i, i < length ns -> get_node (ns ++ x) i = get_node ns i.
Proof. intros. unfold get_node. rewrite nth_error_app1; auto. Qed.
Lemma get_len : forall ns i n, get_node ns i = Some n -> i < length ns.
Proof. unfold get_node. intros ns i n H. apply nth_error_Some. destruct (nth_error ns i); congruence. Qed.
Lemma valf_app : forall ns x w, acyc ns -> forall f i, i < length ns -> valf (ns ++ x) w f i = valf ns w f i.
Proof.
  intros ns x w A. induction f as [|f IH]; intros i L; auto. cbn [valf]. rewrite get_app by auto.
  destruct (get_node ns i) as [[cs|l]|] eqn:E; auto.
  apply existsb_ext. intros (p & s) I. destruct (A _ _ _ _ E I). simpl. rewrite !IH by lia. auto.
Qed.
Lemma val_app : forall ns x w i, acyc ns -> i < length ns -> val (ns ++ x) w i = val ns w i.
Proof. intros. apply valf_app; auto. Qed.

(** the values of the subs whose prime is true; a partition has exactly one *)
Definition pvl (f : nat -> bool) (cs : list (nat * nat)) : list bool :=
  map (fun c => f (snd c)) (filter (fun c => f (fst c)) cs).
Lemma pvl_ext : forall f g cs, (forall p s, In (p, s) cs -> f p = g p /\ f s = g s) -> pvl f cs = pvl g cs.
Proof.
  unfold pvl. induction cs as [|(p & s) cs IH]; intros H; simpl; auto.
  destruct (H p s (or_introl eq_refl)) as [-> E].
  specialize (IH (fun p s I => H p s (or_intror I))).
  destruct (g p); simpl; rewrite ?E, IH; auto.
Qed.
Lemma pvl_cons : forall f p s cs, pvl f ((p, s) :: cs) = (if f p then [f s] else []) ++ pvl f cs.
Proof. intros. unfold pvl. simpl. destruct (f p); auto. Qed.
Lemma pvl_app : forall f a b, pvl f (a ++ b) = pvl f a ++ pvl f b.
Proof. intros. unfold pvl. induction a as [|(p & s) a IH]; simpl; auto. destruct (f p); simpl; rewrite IH; auto. Qed.
Lemma pvl_exists : forall f cs b, pvl f cs = [b] -> existsb (fun c => f (fst c) && f (snd c)) cs = b.
Proof.
  intros f cs b H.
  assert (G : existsb (fun c => f (fst c) && f (snd c)) cs = existsb (fun x => x) (pvl f cs)).
  { clear H. induction cs as [|(p & s) cs IH]; auto. rewrite pvl_cons. simpl. destruct (f p); simpl; rewrite IH; auto. }
  rewrite G, H. simpl. apply orb_false_r.
Qed.

Section Inv.
  Variables (B : sbuilder) (T : option atree).
  Hypothesis OK : vt_ok (b_vt B) T.

  Definition V (st : sstate) (w : nat -> bool) (i : nat) : bool := val (s_nodes st) w i.
  Definition size_of (st : sstate) : nat := length (s_nodes st).
  Definition under (t : atree) (st : sstate) (i : nat) : Prop :=
    i < size_of st /\ (i <= 1 \/ exists k u, sub t k u /\ mget (s_vt st) i = Some (aid u)).

  Definition or_ok (st : sstate) (i : nat) (cs : list (nat * nat)) : Prop :=
    exists id l r k, sT T k (AB id l r) /\ mget (s_vt st) i = Some id /\
      (forall p s, In (p, s) cs -> p < i /\ s < i /\ under l st p /\ under r st s) /\
      forall w, pvl (V st w) cs = [V st w i].
  Definition lit_ok (st : sstate) (i : nat) (l : slit) : Prop :=
    exists id v k, sT T k (AL id v) /\ mget (s_vt st) i = Some id /\
      ((l = SPos v /\ mget (b_pos B) v = Some i) \/ (l = SNeg v /\ mget (b_negv B) v = Some i)).
  Definition opb (op : aop) : bool -> bool -> bool := match op with Conjoin => andb | Disjoin => orb end.

  Record Inv (st : sstate) : Prop := {
    I_nodes : forall i, i < size_of st -> exists n, get_node (s_nodes st) i = Some n;
    I_false : get_node (s_nodes st) 0 = Some (SLit SFalse);
    I_true : get_node (s_nodes st) 1 = Some (SLit STrue);
    I_or : forall i cs, get_node (s_nodes st) i = Some (SOr cs) -> or_ok st i cs;
    I_lit : forall i l, 2 <= i -> get_node (s_nodes st) i = Some (SLit l) -> lit_ok st i l;
    I_vt : forall i u, mget (s_vt st) i = Some u -> 2 <= i < size_of st;
    I_c0 : mget (s_neg st) 0 = Some 1;
    I_c1 : mget (s_neg st) 1 = Some 0;
    I_link : forall v i j, mget (b_pos B) v = Some i -> mget (b_negv B) v = Some j -> mget (s_neg st) i = Some j;
    I_posneg : forall v, (mget (b_pos B) v = None <-> mget (b_negv B) v = None);
    I_neg : forall i j, mget (s_neg st) i = Some j -> i < size_of st /\ j < size_of st /\
              mget (s_neg st) j = Some i /\ mget (s_vt st) j = mget (s_vt st) i /\
              forall w, V st w j = negb (V st w i);
    I_two : forall i p0 s0 p1 s1, get_node (s_nodes st) i = Some (SOr [(p0, s0); (p1, s1)]) ->
              mget (s_neg st) p1 = Some p0 ->
              ~ (s0 = 0 /\ s1 = 1) /\ ~ (s0 = 1 /\ s1 = 0) /\ s0 <> s1;
    I_cache : forall a b op r, cget (s_cache st) a b op = Some r ->
              a < size_of st /\ b < size_of st /\ r < size_of st /\
              (forall w, V st w r = opb op (V st w a) (V st w b)) /\
              forall t k, sT T k t -> under t st a -> under t st b -> under t st r
  }.

  Definition ext (st st' : sstate) : Prop :=
    (exists x, s_nodes st' = s_nodes st ++ x) /\
    (forall i, i < size_of st -> mget (s_vt st') i = mget (s_vt st) i) /\
    (forall i j, mget (s_neg st) i = Some j -> mget (s_neg st') i = Some j).

  Lemma ext_refl : forall st, ext st st.
  Proof. intros. split; [exists []; rewrite app_nil_r; auto|auto]. Qed.
  Lemma ext_size : forall a b, ext a b -> size_of a <= size_of b.
  Proof. intros a b ((x & E) & _). unfold size_of. rewrite E, app_length. lia. Qed.
  Lemma ext_trans : forall a b c, ext a b -> ext b c -> ext a c.
  Proof.
    intros a b c E1 E2. pose proof (ext_size E1) as L.
    destruct E1 as ((x & E1) & V1 & N1), E2 as ((y & E2) & V2 & N2).
    split; [exists (x ++ y); rewrite E2, E1, app_assoc_reverse; auto|]. split; auto.
    intros i L'. rewrite V2 by lia. auto.
  Qed.
  Lemma under_ext : forall a b t i, ext a b -> under t a i -> under t b i.
  Proof.
    intros a b t i E (L & D). pose proof (ext_size E). destruct E as (_ & E & _). split; [lia|].
    destruct D as [D|(k & u & S & M)]; auto. right. exists k, u. rewrite E; auto.
  Qed.
  Lemma under_sub : forall st t k u i, sub t k u -> under u st i -> under t st i.
  Proof.
    intros st t k u i S (L & D). split; auto. destruct D as [D|(j & x & S' & M)]; auto.
    right. exists (k + j), x. split; auto. eapply sub_trans; eauto.
  Qed.

  Lemma Inv_acyc : forall st, Inv st -> acyc (s_nodes st).
  Proof.
    intros st I i cs p s E H. destruct (I_or I _ E) as (id & l & r & k & _ & _ & C & _).
    destruct (C _ _ H); tauto.
  Qed.
  Lemma ext_V : forall a b w i, Inv a -> ext a b -> i < size_of a -> V b w i = V a w i.
  Proof. intros a b w i I ((x & E) & _) L. unfold V. rewrite E. apply val_app; auto. apply Inv_acyc; auto. Qed.
  Lemma ext_get : forall a b i, ext a b -> i < size_of a -> get_node (s_nodes b) i = get_node (s_nodes a) i.
  Proof. intros a b i ((x & E) & _) L. rewrite E. apply get_app; auto. Qed.

  Lemma size_ge2 : forall st, Inv st -> 2 <= size_of st.
  Proof. intros st I. pose proof (get_len _ _ (I_true I)). unfold size_of. lia. Qed.
  Lemma V_0 : forall st w, Inv st -> V st w 0 = false.
  Proof. intros. unfold V. rewrite (val_lit _ _ _ (I_false H)). auto. Qed.
  Lemma V_1 : forall st w, Inv st -> V st w 1 = true.
  Proof. intros. unfold V. rewrite (val_lit _ _ _ (I_true H)). auto. Qed.
  Lemma under_const : forall st t i, Inv st -> i <= 1 -> under t st i.
  Proof. intros st t i I L. pose proof (size_ge2 I). split; [lia|auto]. Qed.

  (** every node but the two constants sits somewhere in the tree *)
  Lemma placed : forall st i, Inv st -> 2 <= i -> i < size_of st ->
    exists k u, sT T k u /\ mget (s_vt st) i = Some (aid u).
  Proof.
    intros st i I G L. destruct (I_nodes I L) as ([cs|l] & E).
    - destruct (I_or I _ E) as (id & l & r & k & S & M & _). exists k, (AB id l r). auto.
    - destruct (I_lit I G E) as (id & v & k & S & M & _). exists k, (AL id v). auto.
  Qed.
  Lemma under_at : forall st t k i, Inv st -> sT T k t -> under t st i -> 2 <= i ->
    exists j u, sub t j u /\ mget (s_vt st) i = Some (aid u).
  Proof. intros st t k i I S (L & [D|D]) G; [lia|auto]. Qed.
  Lemma or_at : forall st t k i cs, Inv st -> sT T k t -> under t st i -> get_node (s_nodes st) i = Some (SOr cs) ->
    exists j id l r, sub t j (AB id l r) /\ mget (s_vt st) i = Some id /\
      (forall p s, In (p, s) cs -> p < i /\ s < i /\ under l st p /\ under r st s) /\
      forall w, pvl (V st w) cs = [V st w i].
  Proof.
    intros st t k i cs I S U E. destruct (I_or I _ E) as (id & l & r & k' & S' & M & C & P).
    pose proof (I_vt I _ M) as [G _]. destruct (@under_at st t k i I S U G) as (j & u & Su & Mu).
    rewrite M in Mu. injection Mu as Mu.
    destruct (ok_unique OK (sT_trans _ _ S Su) S') as [-> _]; [simpl; auto|].
    exists j, id, l, r. auto.
  Qed.

  (** ** adding a decision node *)
  Lemma mget_mset : forall m k v x, mget (mset m k v) x = if k =? x then Some v else mget m x.
  Proof. intros. reflexivity. Qed.

  Lemma L_add_or : forall st cs id l r k st' i, Inv st -> sT T k (AB id l r) ->
    (forall p s, In (p, s) cs -> under l st p /\ under r st s) ->
    (forall w, exists b, pvl (V st w) cs = [b]) ->
    add_or_node st cs id = (st', i) ->
    Inv st' /\ ext st st' /\ under (AB id l r) st' i /\ (forall w, pvl (V st w) cs = [V st' w i]) /\
    (shortcut st cs = None -> i = size_of st /\ mget (s_vt st') i = Some id /\ s_neg st' = s_neg st).
  Proof.
    intros st cs id l r k st' i I S C P E. unfold add_or_node in E.
    destruct (shortcut st cs) as [n|] eqn:SC.
    - injection E as <- <-. split; auto. split; [apply ext_refl|].
      assert (Sl : forall j, under l st j -> under (AB id l r) st j)
        by (intros j U; eapply under_sub; [apply sub_l, sub_refl|auto]).
      assert (Sr : forall j, under r st j -> under (AB id l r) st j)
        by (intros j U; eapply under_sub; [apply sub_r, sub_refl|auto]).
      destruct cs as [|(p0 & s0) [|(p1 & s1) [|c cs]]]; try discriminate. simpl in SC.
      destruct (C p0 s0) as [U0 W0]; [simpl; auto|]. destruct (C p1 s1) as [U1 W1]; [simpl; auto|].
      destruct (negation_of st p1) as [q|] eqn:N; [|discriminate].
      destruct (p0 =? q) eqn:Q; [|discriminate]. apply Nat.eqb_eq in Q. subst q.
      destruct (I_neg I _ N) as (_ & _ & _ & _ & VN). unfold false_node, true_node in *.
      destruct ((s0 =? 0) && (s1 =? 1)) eqn:D1.
      + apply andb_true_iff in D1 as [D1 D2]. apply Nat.eqb_eq in D1, D2. subst. injection SC as <-.
        split; [auto|]. split; [|discriminate]. intros w. rewrite !pvl_cons. rewrite (V_0 w I), (V_1 w I), VN.
        destruct (V st w p1); auto.
      + destruct ((s0 =? 1) && (s1 =? 0)) eqn:D2.
        * apply andb_true_iff in D2 as [D3 D4]. apply Nat.eqb_eq in D3, D4. subst. injection SC as <-.
          split; [auto|]. split; [|discriminate]. intros w. rewrite !pvl_cons. rewrite (V_0 w I), (V_1 w I), VN.
          destruct (V st w p1); auto.
        * destruct (s0 =? s1) eqn:D3; [|discriminate]. apply Nat.eqb_eq in D3. subst. injection SC as <-.
          split; [auto|]. split; [|discriminate]. intros w. rewrite !pvl_cons. rewrite VN.
          destruct (V st w p1); auto.
    - unfold add_node in E. injection E as <- <-.
      set (st' := mkS (s_nodes st ++ [Some (SOr cs)]) (s_neg st) (mset (s_vt st) (length (s_nodes st)) id) (s_cache st)).
      assert (VT : forall j, j < size_of st -> mget (s_vt st') j = mget (s_vt st) j).
      { intros j L. simpl. destruct (length (s_nodes st) =? j) eqn:Q; auto. apply Nat.eqb_eq in Q. unfold size_of in L. lia. }
      assert (VT' : mget (s_vt st') (size_of st) = Some id) by (simpl; unfold size_of; rewrite Nat.eqb_refl; auto).
      assert (EX : ext st st').
      { split; [exists [Some (SOr cs)]; auto|]. split; auto. }
      assert (SZ : size_of st' = Datatypes.S (size_of st)) by (unfold size_of; simpl; rewrite app_length; simpl; lia).
      assert (GN : get_node (s_nodes st') (size_of st) = Some (SOr cs)).
      { unfold get_node, size_of. simpl. rewrite nth_error_app_len. auto. }
      assert (AC : acyc (s_nodes st')).
      { intros j cs' p s E H. destruct (Nat.eq_dec j (size_of st)) as [->|NE].
        - rewrite GN in E. injection E as <-. destruct (C p s H) as [[A _] [D _]]. lia.
        - assert (j < size_of st) by (apply get_len in E; unfold size_of in *; simpl in E; rewrite app_length in E; simpl in E; lia).
          rewrite (ext_get EX) in E by auto. eapply (Inv_acyc I); eauto. }
      assert (VV : forall w j, j < size_of st -> V st' w j = V st w j) by (intros; apply ext_V; auto).
      assert (PN : forall w, pvl (V st' w) cs = [V st' w (size_of st)]).
      { intros w. destruct (P w) as (b & Pb).
        assert (Q : pvl (V st' w) cs = pvl (V st w) cs).
        { apply pvl_ext. intros p s H. destruct (C p s H) as [[A _] [D _]]. rewrite !VV by auto. auto. }
        rewrite Q, Pb. f_equal. unfold V. rewrite (val_or _ AC GN). symmetry. apply pvl_exists. transitivity (pvl (V st w) cs); auto. }
      assert (U : forall t j, under t st j -> under t st' j) by (intros; eapply under_ext; eauto).
      split.
      { split.
        - intros j L. destruct (Nat.eq_dec j (size_of st)) as [->|NE]; [eauto|]. rewrite (ext_get EX) by lia. apply (I_nodes I). lia.
        - rewrite (ext_get EX); [apply (I_false I)|]. pose proof (size_ge2 I). lia.
        - rewrite (ext_get EX); [apply (I_true I)|]. pose proof (size_ge2 I). lia.
        - intros j cs' E. destruct (Nat.eq_dec j (size_of st)) as [->|NE].
          + rewrite GN in E. injection E as <-. exists id, l, r, k. split; auto. split; auto. split; auto.
            intros p s H. destruct (C p s H) as [A D]. split; [apply A|]. split; [apply D|]. auto.
          + assert (L : j < size_of st) by (apply get_len in E; fold (size_of st') in E; lia).
            rewrite (ext_get EX) in E by auto. destruct (I_or I _ E) as (id' & l' & r' & k' & S' & M' & C' & P').
            exists id', l', r', k'. split; auto. split; [rewrite VT; auto|]. split.
            * intros p s H. destruct (C' p s H) as (X1 & X2 & X3 & X4). auto.
            * intros w. rewrite VV by auto. rewrite <- P'. apply pvl_ext. intros p s H.
              destruct (C' p s H) as (X1 & X2 & X3 & X4). rewrite !VV by lia. auto.
        - intros j lt G E. destruct (Nat.eq_dec j (size_of st)) as [->|NE]; [congruence|].
          assert (L : j < size_of st) by (apply get_len in E; fold (size_of st') in E; lia).
          rewrite (ext_get EX) in E by auto. destruct (I_lit I G E) as (id' & v & k' & S' & M' & D).
          exists id', v, k'. split; auto. split; auto. rewrite VT; auto.
        - intros j u M. destruct (Nat.eq_dec j (size_of st)) as [->|NE]; [pose proof (size_ge2 I); lia|].
          assert (mget (s_vt st) j = Some u).
          { simpl in M. destruct (length (s_nodes st) =? j) eqn:Q; auto. apply Nat.eqb_eq in Q. unfold size_of in NE. lia. }
          apply (I_vt I) in H. lia.
        - apply (I_c0 I).
        - apply (I_c1 I).
        - apply (I_link I).
        - apply (I_posneg I).
        - intros a b N. destruct (I_neg I _ N) as (X1 & X2 & X3 & X4 & X5).
          split; [lia|]. split; [lia|]. split; auto. split; [rewrite !VT; auto|]. intros w. rewrite !VV; auto.
        - intros j p0 s0 p1 s1 E N. simpl in N. destruct (Nat.eq_dec j (size_of st)) as [->|NE].
          + rewrite GN in E. injection E as ->. simpl in SC. unfold negation_of in SC. rewrite N in SC. simpl in SC.
            rewrite Nat.eqb_refl in SC. unfold false_node, true_node in SC.
            destruct ((s0 =? 0) && (s1 =? 1)) eqn:D1; [discriminate|].
            destruct ((s0 =? 1) && (s1 =? 0)) eqn:D2; [discriminate|].
            destruct (s0 =? s1) eqn:D3; [discriminate|]. apply Nat.eqb_neq in D3.
            repeat split; auto; intros [-> ->]; discriminate.
          + assert (L : j < size_of st) by (apply get_len in E; fold (size_of st') in E; lia).
            rewrite (ext_get EX) in E by auto. eapply (I_two I); eauto.
        - intros a b op q H. destruct (I_cache I _ _ _ H) as (X1 & X2 & X3 & X4 & X5).
          split; [lia|]. split; [lia|]. split; [lia|]. split; [intros w; rewrite !VV; auto|].
          intros t k' St Ua Ub. apply U. eapply X5; eauto.
          + destruct Ua as (_ & D). split; auto. rewrite VT in D; auto.
          + destruct Ub as (_ & D). split; auto. rewrite VT in D; auto. }
      split; auto. split.
      { split; [fold (size_of st); lia|]. right. exists 0, (AB id l r). split; [apply sub_refl|]. exact VT'. }
      split.
      + intros w. change (length (s_nodes st)) with (size_of st). rewrite <- PN. apply pvl_ext.
        intros p s H. destruct (C p s H) as [[A _] [D _]]. rewrite !VV by auto. auto.
      + intros _. split; auto.
  Qed.

  Arguments L_add_or {st cs id l r k st' i} _ _ _ _ _.

  (** ** linking a node with its negation *)
  Definition relink (st : sstate) (n neg : nat) : sstate :=
    mkS (s_nodes st) (mset (mset (s_neg st) n neg) neg n) (s_vt st) (s_cache st).
  Lemma Inv_link : forall st n neg, Inv st -> n < size_of st -> neg < size_of st ->
    2 <= n -> mget (s_neg st) n = None -> mget (s_neg st) neg = None -> n <> neg ->
    mget (s_vt st) neg = mget (s_vt st) n -> (forall w, V st w neg = negb (V st w n)) ->
    (* no node older than the negation uses it as a prime *)
    (forall i cs p s, get_node (s_nodes st) i = Some (SOr cs) -> In (p, s) cs -> p <> neg) ->
    Inv (relink st n neg) /\ ext st (relink st n neg).
  Proof.
    intros st n neg I Ln Lneg G Nn Nneg NE VT VN FR.
    assert (NG : forall j x, mget (s_neg st) j = Some x -> mget (s_neg (relink st n neg)) j = Some x).
    { intros j x M. simpl. destruct (neg =? j) eqn:Q; [apply Nat.eqb_eq in Q; congruence|].
      destruct (n =? j) eqn:Q'; [apply Nat.eqb_eq in Q'; congruence|]. auto. }
    assert (NG' : mget (s_neg (relink st n neg)) n = Some neg).
    { simpl. destruct (neg =? n) eqn:Q; [apply Nat.eqb_eq in Q; congruence|]. rewrite Nat.eqb_refl. auto. }
    assert (NG'' : mget (s_neg (relink st n neg)) neg = Some n) by (simpl; rewrite Nat.eqb_refl; auto).
    split.
    - destruct I as [a1 a2 a3 a4 a5 a6 a7 a8 a9 a10 a11 a12 a13]. split; auto.
      + intros v i j P Q. apply NG. eapply a9; eauto.
      + intros i j M. simpl in M.
        destruct (neg =? i) eqn:Q; [apply Nat.eqb_eq in Q; subst; injection M as <-|].
        * split; auto. split; auto. split; auto. split; [auto|].
          intros w. change (V st w n = negb (V st w i)). rewrite VN, negb_involutive. auto.
        * destruct (n =? i) eqn:Q'; [apply Nat.eqb_eq in Q'; subst; injection M as <-|].
          -- split; auto.
          -- destruct (a11 i j M) as (x1 & x2 & x3 & x4 & x5). split; auto.
      + intros i p0 s0 p1 s1 E M. eapply a12; eauto. simpl in M.
        destruct (neg =? p1) eqn:Q.
        * apply Nat.eqb_eq in Q. exfalso. eapply FR; [exact E| |symmetry; exact Q]. simpl; eauto.
        * destruct (n =? p1) eqn:Q'; auto. injection M as <-. exfalso. eapply FR; [exact E| |reflexivity]. simpl; eauto.
    - split; [exists []; simpl; rewrite app_nil_r; auto|]. split; auto.
  Qed.

  (** literals are always linked *)
  Lemma lit_linked : forall st i l, Inv st -> get_node (s_nodes st) i = Some (SLit l) -> mget (s_neg st) i <> None.
  Proof.
    intros st i l I E N. destruct (Nat.le_gt_cases 2 i) as [G|G].
    - destruct (I_lit I G E) as (id & v & k & S & M & [[-> P]|[-> P]]).
      + destruct (mget (b_negv B) v) as [j|] eqn:Q.
        * rewrite (I_link I _ P Q) in N. discriminate.
        * apply (I_posneg I) in Q. congruence.
      + destruct (mget (b_pos B) v) as [j|] eqn:Q.
        * pose proof (I_link I _ Q P) as H. apply (I_neg I) in H as (_ & _ & H & _). congruence.
        * apply (I_posneg I) in Q. congruence.
    - destruct i as [|[|i]]; [rewrite (I_c0 I) in N|rewrite (I_c1 I) in N|lia]; discriminate.
  Qed.

  (** ** negation *)
  Lemma L_negate : forall fuel st n t k, Inv st -> sT T k t -> under t st n -> height t < fuel ->
    exists st' n', negate_node fuel st n = Some (st', n') /\ Inv st' /\ ext st st' /\
      mget (s_neg st') n = Some n' /\
      forall i, n < i -> i < size_of st -> mget (s_neg st') i = mget (s_neg st) i.
  Proof.
    induction fuel as [|f IH]; intros st n t k I S U F; [lia|]. cbn [negate_node].
    unfold negation_of. destruct (mget (s_neg st) n) as [n'|] eqn:N.
    { exists st, n'. split; auto. split; auto. split; [apply ext_refl|]. auto. }
    destruct U as (L & U). destruct (I_nodes I L) as (nd & E). rewrite E. ob.
    destruct nd as [cs|lt]; [|exfalso; eapply lit_linked; eauto].
    destruct (@or_at st t k n cs I S (conj L U) E) as (j & id & l & r & Sj & M & C & P).
    assert (G : 2 <= n) by (apply (I_vt I) in M; lia).
    assert (Hr : height r < f) by (apply sub_height in Sj; simpl in Sj; lia).
    assert (STr : exists k', sT T k' r).
    { eexists. eapply sT_trans; [exact (sT_trans _ _ S Sj)|apply sub_r, sub_refl]. }
    destruct STr as (k' & STr).
    (* the children *)
    assert (NC : forall ds st0, Inv st0 -> ext st st0 ->
      (forall p s, In (p, s) ds -> s < n /\ under r st0 s) ->
      (forall i, n <= i -> i < size_of st -> mget (s_neg st0) i = mget (s_neg st) i) ->
      exists st1 ds', neg_children (negate_node f) st0 ds = Some (st1, ds') /\ Inv st1 /\ ext st0 st1 /\
        Forall2 (fun c c' => fst c = fst c' /\ mget (s_neg st1) (snd c) = Some (snd c')) ds ds' /\
        (forall i, n <= i -> i < size_of st -> mget (s_neg st1) i = mget (s_neg st) i)).
    { induction ds as [|(p & s) ds IHd]; intros st0 I0 X0 D0 K0.
      - exists st0, []. split; auto. split; auto. split; [apply ext_refl|]. split; [constructor|auto].
      - cbn [neg_children]. destruct (D0 p s (or_introl eq_refl)) as [Ls Us].
        destruct (IH st0 s r k' I0 STr Us Hr) as (st1 & s' & E1 & I1 & X1 & M1 & K1). rewrite E1. ob.
        pose proof (ext_size X0) as SZ0.
        destruct (IHd st1) as (st2 & ds' & E2 & I2 & X2 & F2 & K2); auto.
        + eapply ext_trans; eauto.
        + intros p' s0 H. destruct (D0 p' s0 (or_intror H)). split; auto. eapply under_ext; eauto.
        + intros i A A'. rewrite K1 by lia. apply K0; auto.
        + rewrite E2. ob. exists st2, ((p, s') :: ds'). split; auto. split; auto.
          split; [eapply ext_trans; eauto|]. split; auto. constructor; auto. simpl. split; auto. apply X2; auto. }
    destruct (NC cs st I (ext_refl st)) as (st1 & cs' & E1 & I1 & X1 & F1 & K1); auto.
    { intros p s H. destruct (C p s H) as (? & ? & ? & ?). auto. }
    rewrite E1. ob. pose proof (ext_size X1) as SZ1.
    assert (M1 : mget (s_vt st1) n = Some id).
    { destruct X1 as (_ & X1 & _). rewrite X1; auto. }
    rewrite M1. ob.
    assert (N1 : mget (s_neg st1) n = None) by (rewrite K1; auto).
    (* no shortcut *)
    assert (E1' : get_node (s_nodes st1) n = Some (SOr cs)) by (rewrite (ext_get X1); auto).
    assert (CH : forall p s', In (p, s') cs' -> exists s, In (p, s) cs /\ mget (s_neg st1) s = Some s').
    { clear -F1. induction F1 as [|(p & s) (p' & s') cs cs' [A A'] F IH]; simpl; [tauto|].
      simpl in A, A'. subst p'. intros q s0 [H|H].
      - injection H as <- <-. exists s. auto.
      - destruct (IH _ _ H) as (s1 & ? & ?). exists s1. auto. }
    assert (NS : shortcut st1 cs' = None).
    { destruct cs' as [|(p0 & s0') [|(p1 & s1') [|c cs']]]; auto.
      inversion F1 as [|(q0 & s0) x1 cs0 x2 [A0 B0] F2]; subst. simpl in A0, B0. subst q0.
      inversion F2 as [|(q1 & s1) x3 cs1 x4 [A1 B1] F3]; subst. simpl in A1, B1. subst q1. inversion F3; subst.
      simpl. unfold negation_of. destruct (mget (s_neg st1) p1) as [q|] eqn:Q; auto.
      destruct (p0 =? q) eqn:Q'; auto. apply Nat.eqb_eq in Q'. subst q.
      destruct (I_two I1 _ E1' Q) as (T1 & T2 & T3).
      assert (INV : forall a b c, mget (s_neg st1) a = Some c -> mget (s_neg st1) b = Some c -> a = b).
      { intros a b c X Y. apply (I_neg I1) in X as (_ & _ & X & _). apply (I_neg I1) in Y as (_ & _ & Y & _). congruence. }
      unfold false_node, true_node.
      destruct ((s0' =? 0) && (s1' =? 1)) eqn:D1.
      { exfalso. apply andb_true_iff in D1 as [D1 D2]. apply Nat.eqb_eq in D1, D2. subst. apply T2. split.
        - eapply INV; [exact B0|apply (I_c1 I1)].
        - eapply INV; [exact B1|apply (I_c0 I1)]. }
      destruct ((s0' =? 1) && (s1' =? 0)) eqn:D2.
      { exfalso. apply andb_true_iff in D2 as [D3 D4]. apply Nat.eqb_eq in D3, D4. subst. apply T1. split.
        - eapply INV; [exact B0|apply (I_c0 I1)].
        - eapply INV; [exact B1|apply (I_c1 I1)]. }
      destruct (s0' =? s1') eqn:D3; auto. exfalso. apply Nat.eqb_eq in D3. subst. apply T3. eapply INV; eauto. }
    assert (STn : sT T (k + j) (AB id l r)) by (eapply sT_trans; eauto).
    destruct (add_or_node st1 cs' id) as [st2 neg] eqn:E2.
    assert (PV : forall w, pvl (V st1 w) cs' = map negb (pvl (V st w) cs)).
    { intros w.
      assert (Q : pvl (V st w) cs = pvl (V st1 w) cs).
      { apply pvl_ext. intros p s H. destruct (C p s H) as (X3 & X4 & _). rewrite !(ext_V w I X1) by lia. auto. }
      rewrite Q. clear -F1 I1. induction F1 as [|(p & s) (p' & s') cs cs' [A A'] F IH]; auto.
      simpl in A, A'. subst p'. rewrite !pvl_cons, IH, map_app. f_equal.
      apply (I_neg I1) in A' as (_ & _ & _ & _ & A'). destruct (V st1 w p); simpl; auto. rewrite A'. auto. }
    destruct (@L_add_or st1 cs' id l r (k + j) st2 neg I1 STn) as (I2 & X2 & U2 & P2 & FRE); auto.
    { intros p s' H. destruct (CH _ _ H) as (s & H1 & H2). destruct (C p s H1) as (X3 & X4 & X5 & X6).
      split; [eapply under_ext; eauto|].
      apply (I_neg I1) in H2 as (A1 & A2 & A3 & A4 & _).
      apply (under_ext X1) in X6. destruct X6 as (_ & [D|D]).
      - split; auto. left. destruct s as [|[|s]]; [| |lia].
        + pose proof (I_c0 I1). assert (s' = 1); [|lia].
          apply (I_neg I1) in A3 as (_ & _ & A3 & _). congruence.
        + pose proof (I_c1 I1). assert (s' = 0); [|lia].
          apply (I_neg I1) in A3 as (_ & _ & A3 & _). congruence.
      - split; auto. right. rewrite A4. exact D. }
    { intros w. exists (negb (V st w n)). rewrite PV, P. auto. }
    destruct (FRE NS) as (-> & MV & NG2).
    pose proof (ext_size X2) as SZ2.
    assert (Vn : forall w, V st2 w (size_of st1) = negb (V st2 w n)).
    { intros w. specialize (P2 w). rewrite PV, P in P2. simpl in P2. injection P2 as P2. rewrite <- P2.
      f_equal. rewrite (ext_V w I1 X2) by lia. symmetry. apply (ext_V w I X1); auto. }
    assert (LN : size_of st1 < size_of st2) by (destruct U2; lia).
    destruct (@Inv_link st2 n (size_of st1) I2) as (I3 & X3); auto; try lia.
    { rewrite NG2. auto. }
    { rewrite NG2. destruct (mget (s_neg st1) (size_of st1)) as [x|] eqn:Q; auto. apply (I_neg I1) in Q. lia. }
    { rewrite MV. destruct X2 as (_ & X2 & _). rewrite X2 by lia. auto. }
    { intros i cs0 p s Q H Heq.
      assert (p < i) by (pose proof (Inv_acyc I2) as AC; destruct (AC _ _ _ _ Q H); auto). pose proof (get_len _ _ Q) as LQ.
      assert (size_of st2 = Datatypes.S (size_of st1)).
      { unfold add_or_node in E2. rewrite NS in E2. unfold add_node in E2. injection E2 as E2. rewrite <- E2.
        unfold size_of. simpl. rewrite app_length. simpl. lia. }
      fold (size_of st2) in LQ. lia. }
    exists (relink st2 n (size_of st1)), (size_of st1). split; auto. split; auto.
    split; [eapply ext_trans; [exact X1|eapply ext_trans; [exact X2|exact X3]]|]. split.
    { simpl. destruct (size_of st1 =? n) eqn:Q; [apply Nat.eqb_eq in Q; lia|]. rewrite Nat.eqb_refl. auto. }
    intros i A A'. simpl. destruct (size_of st1 =? i) eqn:Q; [apply Nat.eqb_eq in Q; lia|].
    destruct (n =? i) eqn:Q'; [apply Nat.eqb_eq in Q'; lia|]. rewrite NG2. apply K1; lia.
  Qed.
  Arguments L_negate {fuel st n t k} _ _ _ _.

  (** ** apply *)
  Definition rec_ok (t : atree) (rec : sstate -> nat -> nat -> aop -> option (sstate * nat)) : Prop :=
    forall st a b op, Inv st -> under t st a -> under t st b ->
      exists st' r, rec st a b op = Some (st', r) /\ Inv st' /\ ext st st' /\ under t st' r /\
        forall w, V st' w r = opb op (V st w a) (V st w b).
  Definition kids (l r : atree) (st : sstate) (cs : list (nat * nat)) : Prop :=
    forall p s, In (p, s) cs -> under l st p /\ under r st s.
  Lemma kids_ext : forall l r a b cs, ext a b -> kids l r a cs -> kids l r b cs.
  Proof. intros l r a b cs X K p s H. destruct (K p s H). split; eapply under_ext; eauto. Qed.
  Lemma pvl_V : forall l r a b cs w, Inv a -> ext a b -> kids l r a cs -> pvl (V b w) cs = pvl (V a w) cs.
  Proof.
    intros l r a b cs w I X K. apply pvl_ext. intros p s H. destruct (K p s H) as [[A _] [D _]].
    split; apply ext_V; auto.
  Qed.

  Section Loops.
    Variables (l r : atree) (rec : sstate -> nat -> nat -> aop -> option (sstate * nat)).
    Hypothesis (Rl : rec_ok l rec) (Rr : rec_ok r rec).

    Lemma left_loop_ok : forall c2 st n, Inv st -> under l st n -> kids l r st c2 ->
      exists st' L, left_loop_c rec st n c2 = Some (st', L) /\ Inv st' /\ ext st st' /\ kids l r st' L /\
        forall w, pvl (V st' w) L = if V st w n then pvl (V st w) c2 else [].
    Proof.
      induction c2 as [|(p & s) c2 IH]; intros st n I U K.
      - exists st, []. split; auto. split; auto. split; [apply ext_refl|]. split; [intros ? ? []|].
        intros w. destruct (V st w n); auto.
      - cbn [left_loop_c]. destruct (K p s (or_introl eq_refl)) as [Up Us].
        assert (K2 : kids l r st c2) by (intros p' s' H; apply K; simpl; auto).
        destruct (Rl Conjoin I Up U) as (st1 & np & E1 & I1 & X1 & U1 & V1). rewrite E1. ob.
        destruct (IH st1 n I1 (under_ext X1 U) (kids_ext X1 K2)) as (st2 & L & E2 & I2 & X2 & K3 & P2).
        assert (P2' : forall w, pvl (V st2 w) L = if V st w n then pvl (V st w) c2 else []).
        { intros w. rewrite P2. rewrite (ext_V w I X1) by apply U. destruct (V st w n); auto. eapply pvl_V; eauto. }
        destruct (np =? false_node) eqn:Z.
        + rewrite E2. exists st2, L. split; auto. split; auto. split; [eapply ext_trans; eauto|]. split; auto.
          intros w. rewrite P2'. apply Nat.eqb_eq in Z. subst np. specialize (V1 w). unfold false_node in V1.
          rewrite (V_0 w I1) in V1. simpl in V1. rewrite pvl_cons. destruct (V st w n); auto.
          rewrite andb_true_r in V1. rewrite <- V1. auto.
        + rewrite E2. ob. exists st2, ((np, s) :: L). split; auto. split; auto. split; [eapply ext_trans; eauto|].
          split.
          * intros p' s' [H|H]; [|auto]. injection H as <- <-. split; [eapply under_ext; eauto|].
            eapply under_ext; [exact X2|eapply under_ext; eauto].
          * intros w. rewrite !pvl_cons, P2'.
            rewrite (ext_V w I1 X2) by apply U1. rewrite V1. simpl.
            assert (Q : V st2 w s = V st w s).
            { rewrite (ext_V w I1 X2) by (destruct (under_ext X1 Us); auto). apply (ext_V w I X1), Us. }
            rewrite Q. destruct (V st w n), (V st w p); auto.
    Qed.

    Lemma right_loop_ok : forall c1 st n op, Inv st -> under r st n -> kids l r st c1 ->
      exists st' L, right_loop_c rec st n c1 op = Some (st', L) /\ Inv st' /\ ext st st' /\ kids l r st' L /\
        forall w, pvl (V st' w) L = map (fun b => opb op b (V st w n)) (pvl (V st w) c1).
    Proof.
      induction c1 as [|(p & s) c1 IH]; intros st n op I U K.
      - exists st, []. split; auto. split; auto. split; [apply ext_refl|]. split; [intros ? ? []|]. auto.
      - cbn [right_loop_c]. destruct (K p s (or_introl eq_refl)) as [Up Us].
        assert (K2 : kids l r st c1) by (intros p' s' H; apply K; simpl; auto).
        destruct (Rr op I Us U) as (st1 & q & E1 & I1 & X1 & U1 & V1). rewrite E1. ob.
        destruct (IH st1 n op I1 (under_ext X1 U) (kids_ext X1 K2)) as (st2 & L & E2 & I2 & X2 & K3 & P2).
        rewrite E2. ob. exists st2, ((p, q) :: L). split; auto. split; auto. split; [eapply ext_trans; eauto|].
        split.
        + intros p' s' [H|H]; [|auto]. injection H as <- <-. split; [|eapply under_ext; eauto].
          eapply under_ext; [exact X2|eapply under_ext; eauto].
        + intros w. rewrite !pvl_cons, P2, map_app. rewrite (ext_V w I X1) by apply U. f_equal.
          * assert (Q : V st2 w p = V st w p).
            { rewrite (ext_V w I1 X2) by (destruct (under_ext X1 Up); auto). apply (ext_V w I X1), Up. }
            rewrite Q. destruct (V st w p); auto. simpl. rewrite (ext_V w I1 X2) by apply U1. rewrite V1. auto.
          * f_equal. eapply pvl_V; eauto.
    Qed.

    Lemma eq_inner_ok : forall c2 st p1 s1 op, Inv st -> under l st p1 -> under r st s1 -> kids l r st c2 ->
      exists st' L, eq_inner rec st p1 s1 c2 op = Some (st', L) /\ Inv st' /\ ext st st' /\ kids l r st' L /\
        forall w, pvl (V st' w) L = if V st w p1 then map (opb op (V st w s1)) (pvl (V st w) c2) else [].
    Proof.
      induction c2 as [|(p & s) c2 IH]; intros st p1 s1 op I U W K.
      - exists st, []. split; auto. split; auto. split; [apply ext_refl|]. split; [intros ? ? []|].
        intros w. destruct (V st w p1); auto.
      - cbn [eq_inner]. destruct (K p s (or_introl eq_refl)) as [Up Us].
        assert (K2 : kids l r st c2) by (intros p' s' H; apply K; simpl; auto).
        destruct (Rl Conjoin I U Up) as (st1 & np & E1 & I1 & X1 & U1 & V1). rewrite E1. ob.
        destruct (np =? false_node) eqn:Z.
        + destruct (IH st1 p1 s1 op I1 (under_ext X1 U) (under_ext X1 W) (kids_ext X1 K2)) as (st2 & L & E2 & I2 & X2 & K3 & P2).
          rewrite E2. exists st2, L. split; auto. split; auto. split; [eapply ext_trans; eauto|]. split; auto.
          intros w. rewrite P2. rewrite (ext_V w I X1) by apply U. rewrite (ext_V w I X1) by apply W.
          rewrite (pvl_V w I X1 K2).
          apply Nat.eqb_eq in Z. subst np. specialize (V1 w). unfold false_node in V1.
          rewrite (V_0 w I1) in V1. simpl in V1. rewrite pvl_cons. destruct (V st w p1); auto.
          simpl in V1. rewrite <- V1. auto.
        + assert (W1 : under r st1 s1) by (eapply under_ext; eauto).
          assert (Us1 : under r st1 s) by (eapply under_ext; eauto).
          destruct (Rr op I1 W1 Us1) as (st2 & q & E2 & I2 & X2 & U2 & V2). rewrite E2. ob.
          assert (X12 : ext st st2) by (eapply ext_trans; eauto).
          destruct (IH st2 p1 s1 op I2 (under_ext X12 U) (under_ext X12 W) (kids_ext X12 K2)) as (st3 & L & E3 & I3 & X3 & K3 & P3).
          rewrite E3. ob. exists st3, ((np, q) :: L). split; auto. split; auto. split; [eapply ext_trans; eauto|].
          split.
          * intros p' s' [H|H]; [|auto]. injection H as <- <-. split; [|exact (under_ext X3 U2)].
            exact (under_ext X3 (under_ext X2 U1)).
          * intros w. rewrite !pvl_cons, P3. rewrite (ext_V w I X12) by apply U. rewrite (ext_V w I X12) by apply W.
            rewrite (pvl_V w I X12 K2).
            assert (Q : V st3 w np = V st w p1 && V st w p).
            { rewrite (ext_V w I2 X3) by (destruct (under_ext X2 U1); auto). rewrite (ext_V w I1 X2) by apply U1. apply V1. }
            rewrite Q. rewrite (ext_V w I2 X3) by apply U2. rewrite V2.
            rewrite (ext_V w I X1) by apply W. rewrite (ext_V w I X1) by apply Us.
            destruct (V st w p1), (V st w p); auto.
    Qed.

    Lemma eq_outer_ok : forall c1 st c2 op, Inv st -> kids l r st c1 -> kids l r st c2 ->
      exists st' L, eq_outer rec st c1 c2 op = Some (st', L) /\ Inv st' /\ ext st st' /\ kids l r st' L /\
        forall w, pvl (V st' w) L = flat_map (fun b => map (opb op b) (pvl (V st w) c2)) (pvl (V st w) c1).
    Proof.
      induction c1 as [|(p & s) c1 IH]; intros st c2 op I K1 K2.
      - exists st, []. split; auto. split; auto. split; [apply ext_refl|]. split; [intros ? ? []|]. auto.
      - cbn [eq_outer]. destruct (K1 p s (or_introl eq_refl)) as [Up Us].
        assert (K1' : kids l r st c1) by (intros p' s' H; apply K1; simpl; auto).
        destruct (@eq_inner_ok c2 st p s op I Up Us K2) as (st1 & L1 & E1 & I1 & X1 & KL1 & P1). rewrite E1. ob.
        destruct (IH st1 c2 op I1 (kids_ext X1 K1') (kids_ext X1 K2)) as (st2 & L2 & E2 & I2 & X2 & KL2 & P2).
        rewrite E2. ob. exists st2, (L1 ++ L2). split; auto. split; auto. split; [eapply ext_trans; eauto|].
        split.
        + intros p' s' H. apply in_app_or in H as [H|H]; [|auto]. apply (kids_ext X2 KL1); auto.
        + intros w. rewrite pvl_app, pvl_cons, flat_map_app. f_equal.
          * rewrite (pvl_V w I1 X2 KL1), P1. destruct (V st w p); simpl; auto. rewrite app_nil_r. auto.
          * rewrite P2, (pvl_V w I X1 K1'), (pvl_V w I X1 K2). auto.
    Qed.
  End Loops.

  Lemma lca_in : forall t ua ub ka kb ty lca, sub t ka ua -> sub t kb ub -> lca_case t ua ub ty lca ->
    exists k u, sub t k u /\ aid u = lca.
  Proof.
    intros t ua ub ka kb ty lca Sa Sb C. inversion C; subst; eauto.
  Qed.

  (** results without going down: [apply] on two nodes of a subtree [t] *)
  Lemma L_apply : forall fuel t k st a b op, Inv st -> sT T k t -> under t st a -> under t st b -> height t < fuel ->
    exists st' r, apply B fuel st a b op = Some (st', r) /\ Inv st' /\ ext st st' /\ under t st' r /\
      forall w, V st' w r = opb op (V st w a) (V st w b).
  Proof.
    induction fuel as [|f IH]; intros t k st a b op I ST Ua Ub F; [lia|]. cbn [apply].
    destruct (a =? b) eqn:Q1.
    { apply Nat.eqb_eq in Q1. subst b. exists st, a. split; auto. split; auto. split; [apply ext_refl|]. split; auto.
      intros w. destruct op; simpl; [rewrite andb_diag|rewrite orb_diag]; auto. }
    apply Nat.eqb_neq in Q1.
    assert (Uz : under t st (zero_of op)) by (apply under_const; auto; destruct op; auto).
    assert (Vz : forall w, V st w (zero_of op) = match op with Conjoin => false | Disjoin => true end)
      by (intros w; destruct op; [apply V_0|apply V_1]; auto).
    assert (Vo : forall w, V st w (one_of op) = match op with Conjoin => true | Disjoin => false end)
      by (intros w; destruct op; [apply V_1|apply V_0]; auto).
    destruct (onat_eqb (Some a) (negation_of st b)) eqn:Q2.
    { unfold negation_of in Q2. destruct (mget (s_neg st) b) as [x|] eqn:N; [|discriminate].
      simpl in Q2. apply Nat.eqb_eq in Q2. subst x. apply (I_neg I) in N as (_ & _ & _ & _ & N).
      exists st, (zero_of op). split; auto. split; auto. split; [apply ext_refl|]. split; auto.
      intros w. rewrite Vz, N. destruct op, (V st w b); auto. }
    destruct ((a =? zero_of op) || (b =? zero_of op)) eqn:Q3.
    { exists st, (zero_of op). split; auto. split; auto. split; [apply ext_refl|]. split; auto.
      intros w. apply orb_true_iff in Q3 as [Q3|Q3]; apply Nat.eqb_eq in Q3; rewrite Q3, Vz; destruct op; simpl; auto.
      - rewrite andb_false_r. auto.
      - rewrite orb_true_r. auto. }
    apply orb_false_iff in Q3 as [Q3 Q4]. apply Nat.eqb_neq in Q3, Q4.
    destruct (a =? one_of op) eqn:Q5.
    { apply Nat.eqb_eq in Q5. exists st, b. split; auto. split; auto. split; [apply ext_refl|]. split; auto.
      intros w. rewrite Q5, Vo. destruct op; auto. }
    destruct (b =? one_of op) eqn:Q6.
    { apply Nat.eqb_eq in Q6. exists st, a. split; auto. split; auto. split; [apply ext_refl|]. split; auto.
      intros w. rewrite Q6, Vo. destruct op; simpl; [rewrite andb_true_r|rewrite orb_false_r]; auto. }
    apply Nat.eqb_neq in Q5, Q6.
    destruct (cget (s_cache st) a b op) as [x|] eqn:Q7.
    { destruct (I_cache I _ _ _ Q7) as (_ & _ & _ & C4 & C5). exists st, x. split; auto. split; auto.
      split; [apply ext_refl|]. split; [eapply C5; eauto|auto]. }
    assert (Ga : 2 <= a) by (destruct op; unfold zero_of, one_of, false_node, true_node in *; lia).
    assert (Gb : 2 <= b) by (destruct op; unfold zero_of, one_of, false_node, true_node in *; lia).
    destruct (@under_at st t k a I ST Ua Ga) as (ka & ua & Sa & Ma).
    destruct (@under_at st t k b I ST Ub Gb) as (kb & ub & Sb & Mb).
    rewrite Ma, Mb. ob. ob.
    rewrite (ok_pos OK (sT_trans _ _ ST Sa)), (ok_pos OK (sT_trans _ _ ST Sb)). ob. ob.
    (* the ordered pair *)
    assert (MAIN : forall x y kx ky ux uy, (x = a /\ y = b \/ x = b /\ y = a) ->
      sub t kx ux -> sub t ky uy -> mget (s_vt st) x = Some (aid ux) -> mget (s_vt st) y = Some (aid uy) ->
      kx + rootoff ux <= ky + rootoff uy ->
      exists st' r,
        (do (ty, lca) <- lowest_common_ancestor (b_vt B) (aid ux) (aid uy);
         do (st, res) <- (match ty with
                          | AEqual => apply_equal (apply B f) st x y op lca
                          | ALeft => apply_left (apply B f) f st x y op lca
                          | ARight => apply_right (apply B f) st x y op lca
                          | ADisjoint => apply_disjoint (apply B f) f st x y op lca
                          end);
         Some (mkS (s_nodes st) (s_neg st) (s_vt st) (((x, y, op), res) :: s_cache st), res)) = Some (st', r) /\
        Inv st' /\ ext st st' /\ under t st' r /\
        forall w, V st' w r = opb op (V st w a) (V st w b)).
    { intros x y kx ky ux uy XY Sx Sy Mx My LE.
      destruct (lca_spec OK k ST Sx Sy LE) as (ty & lca & EL & LC). rewrite EL. ob.
      assert (Ux : under t st x) by (destruct XY as [[-> ->]|[-> ->]]; auto).
      assert (Uy : under t st y) by (destruct XY as [[-> ->]|[-> ->]]; auto).
      assert (Gx : 2 <= x) by (destruct XY as [[-> ->]|[-> ->]]; auto).
      assert (Gy : 2 <= y) by (destruct XY as [[-> ->]|[-> ->]]; auto).
      assert (NXY : x <> y) by (destruct XY as [[-> ->]|[-> ->]]; auto).
      assert (NN : mget (s_neg st) y <> Some x).
      { intros N. unfold negation_of in Q2. destruct XY as [[-> ->]|[-> ->]].
        - rewrite N in Q2. simpl in Q2. rewrite Nat.eqb_refl in Q2. discriminate.
        - apply (I_neg I) in N as (_ & _ & N & _). rewrite N in Q2. simpl in Q2. rewrite Nat.eqb_refl in Q2. discriminate. }
      assert (VXY : forall w, opb op (V st w x) (V st w y) = opb op (V st w a) (V st w b)).
      { intros w. destruct XY as [[-> ->]|[-> ->]]; auto. destruct op; simpl; [apply andb_comm|apply orb_comm]. }
      (* what has to be done at the common ancestor *)
      assert (CORE : exists kn id l r, sub t kn (AB id l r) /\ id = lca /\
        exists st1 res, (match ty with
                          | AEqual => apply_equal (apply B f) st x y op lca
                          | ALeft => apply_left (apply B f) f st x y op lca
                          | ARight => apply_right (apply B f) st x y op lca
                          | ADisjoint => apply_disjoint (apply B f) f st x y op lca
                          end) = Some (st1, res) /\ Inv st1 /\ ext st st1 /\ under (AB id l r) st1 res /\
          forall w, V st1 w res = opb op (V st w x) (V st w y)).
      { (* recursion below a branch of [t] *)
        assert (REC : forall kn id l r, sub t kn (AB id l r) ->
                  rec_ok l (apply B f) /\ rec_ok r (apply B f) /\ (exists k', sT T k' l) /\ height l < f /\ height r < f).
        { intros kn id l r Sn. pose proof (sub_height Sn) as HH. simpl in HH.
          assert (Sl : sT T (k + kn + 0) l) by (eapply sT_trans; [exact (sT_trans _ _ ST Sn)|apply sub_l, sub_refl]).
          assert (Sr : sT T (k + kn + (size l + 1 + 0)) r) by (eapply sT_trans; [exact (sT_trans _ _ ST Sn)|apply sub_r, sub_refl]).
          split; [|split; [|split; [eauto|lia]]]; intros st0 a0 b0 op0 I0 A0 B0.
          - eapply IH with (t := l); eauto; lia.
          - eapply IH with (t := r); eauto; lia. }
        destruct LC as [E|id l r kk E S1|id l r kk E S1|id l r kk k1 k2 S0 S1 S2].
        - (* equal *) subst uy.
          assert (LT : x < size_of st) by apply Ux. assert (LT' : y < size_of st) by apply Uy.
          destruct (I_nodes I LT) as (nx & Nx). destruct (I_nodes I LT') as (ny & Ny).
          destruct nx as [c1|l1].
          + destruct (@or_at st t k x c1 I ST Ux Nx) as (j1 & id & l & r & S1 & M1 & C1 & P1).
            rewrite Mx in M1. injection M1 as M1.
            destruct ny as [c2|l2].
            * destruct (@or_at st t k y c2 I ST Uy Ny) as (j2 & id2 & l2 & r2 & S2 & M2 & C2 & P2).
              rewrite My in M2. injection M2 as M2.
              destruct (ok_unique OK (sT_trans _ _ ST S1) (sT_trans _ _ ST S2)) as [EQ _]; [simpl; congruence|].
              injection EQ as <- <- <-. exists j1, id, l, r. split; auto. split; auto.
              destruct (REC _ _ _ _ S1) as (Rl & Rr & _).
              assert (K1 : kids l r st c1) by (intros p s H; destruct (C1 p s H); tauto).
              assert (K2 : kids l r st c2) by (intros p s H; destruct (C2 p s H); tauto).
              destruct (eq_outer_ok Rl Rr op I K1 K2) as (st1 & L & E1 & I1 & X1 & KL & PL).
              unfold apply_equal. rewrite Nx, Ny, E1. ob.
              destruct (add_or_node st1 L (aid ux)) as [st2 res] eqn:E2.
              rewrite M1 in E2.
              assert (PV : forall w, pvl (V st1 w) L = [opb op (V st w x) (V st w y)])
                by (intros w; rewrite PL, P1, P2; auto).
              destruct (L_add_or I1 (sT_trans _ _ ST S1) KL (fun w => ex_intro _ _ (PV w)) E2)
                as (I2 & X2 & U2 & V2 & _).
              exists st2, res. split; auto. split; auto. split; [eapply ext_trans; eauto|]. split; auto.
              intros w. specialize (V2 w). rewrite PV in V2. congruence.
            * destruct (I_lit I Gy Ny) as (id2 & v & k2 & S2 & M2 & _).
              rewrite My in M2. injection M2 as M2.
              destruct (ok_unique OK (sT_trans _ _ ST S1) S2) as [EQ _]; [simpl; congruence|discriminate].
          + destruct (I_lit I Gx Nx) as (id & v & k1 & S1 & M1 & D1).
            rewrite Mx in M1. injection M1 as M1.
            destruct ny as [c2|l2].
            * destruct (@or_at st t k y c2 I ST Uy Ny) as (j2 & id2 & l2 & r2 & S2 & M2 & C2 & P2).
              rewrite My in M2. injection M2 as M2.
              destruct (ok_unique OK S1 (sT_trans _ _ ST S2)) as [EQ _]; [simpl; congruence|discriminate].
            * (* two literals of the same variable: impossible *)
              exfalso. destruct (I_lit I Gy Ny) as (id2 & v2 & k2 & S2 & M2 & D2).
              rewrite My in M2. injection M2 as M2.
              destruct (ok_unique OK S1 S2) as [EQ _]; [simpl; congruence|]. injection EQ as <- <-.
              destruct D1 as [[_ D1]|[_ D1]], D2 as [[_ D2]|[_ D2]].
              -- congruence.
              -- apply NN. pose proof (I_link I _ D1 D2) as H. apply (I_neg I) in H. tauto.
              -- apply NN. apply (I_link I _ D2 D1).
              -- congruence.
        - (* left *) subst uy. exists ky, id, l, r. split; auto. split; auto.
          destruct (REC _ _ _ _ Sy) as (Rl & Rr & (kl & Sl) & Hl & _).
          assert (Uxl : under l st x) by (split; [apply Ux|right; exists kk, ux; auto]).
          destruct (L_negate I Sl Uxl Hl) as (st0 & nx & E0 & I0 & X0 & M0 & _).
          unfold apply_left. rewrite E0. ob.
          assert (Unx : under l st0 nx).
          { apply (I_neg I0) in M0 as (_ & A2 & _ & A4 & _). split; auto. right. exists kk, ux. rewrite A4. split; auto.
            destruct X0 as (_ & X0 & _). rewrite X0; [auto|apply Ux]. }
          assert (Uxl0 : under l st0 x) by (eapply under_ext; eauto).
          set (n := match op with Conjoin => x | Disjoin => nx end).
          set (nn := match op with Conjoin => nx | Disjoin => x end).
          assert (En : negation_of st0 n = Some nn).
          { unfold negation_of, n, nn. destruct op; auto. apply (I_neg I0) in M0. tauto. }
          rewrite En. ob.
          assert (Un : under l st0 n) by (unfold n; destruct op; auto).
          assert (Unn : under l st0 nn) by (unfold nn; destruct op; auto).
          assert (LT' : y < size_of st) by apply Uy.
          rewrite (ext_get X0) by auto.
          destruct (I_nodes I LT') as ([c2|lt] & Ny).
          2:{ exfalso. destruct (I_lit I Gy Ny) as (id2 & v2 & k2 & S2 & M2 & D2).
              rewrite My in M2. injection M2 as M2.
              destruct (ok_unique OK (sT_trans _ _ ST Sy) S2) as [EQ _]; [simpl in *; congruence|discriminate]. }
          rewrite Ny. destruct (@or_at st t k y c2 I ST Uy Ny) as (j2 & id2 & l2 & r2 & S2 & M2 & C2 & P2).
          rewrite My in M2. injection M2 as M2.
          destruct (ok_unique OK (sT_trans _ _ ST Sy) (sT_trans _ _ ST S2)) as [EQ _]; [simpl; congruence|].
          injection EQ as <- <- <-.
          assert (K2 : kids l r st0 c2).
          { intros p s H. destruct (C2 p s H) as (_ & _ & A & D). split; eapply under_ext; eauto. }
          destruct (left_loop_ok Rl I0 Un K2) as (st1 & L & E1 & I1 & X1 & KL & PL). rewrite E1. ob.
          destruct (add_or_node st1 ((nn, zero_of op) :: L) id) as [st2 res] eqn:E2.
          assert (KL' : kids l r st1 ((nn, zero_of op) :: L)).
          { intros p s [H|H]; [injection H as <- <-|auto]. split; [eapply under_ext; eauto|].
            apply under_const; auto. destruct op; auto. }
          assert (PV : forall w, pvl (V st1 w) ((nn, zero_of op) :: L) = [opb op (V st w x) (V st w y)]).
          { intros w. rewrite pvl_cons, PL.
            assert (P2' : pvl (V st0 w) c2 = [V st w y]).
            { rewrite <- P2. eapply pvl_V with (l := l) (r := r); eauto. intros p s H. destruct (C2 p s H); tauto. }
            rewrite P2'. rewrite (ext_V w I0 X1) by apply Unn.
            assert (Vzz : V st1 w (zero_of op) = match op with Conjoin => false | Disjoin => true end)
              by (destruct op; [apply V_0|apply V_1]; auto).
            rewrite Vzz. apply (I_neg I0) in M0 as (_ & _ & _ & _ & VN). specialize (VN w).
            unfold n, nn. rewrite <- (ext_V w I X0 (proj1 Ux)).
            destruct op; rewrite VN; destruct (V st0 w x); simpl; auto. }
          destruct (L_add_or I1 (sT_trans _ _ ST Sy) KL' (fun w => ex_intro _ _ (PV w)) E2)
            as (I2 & X2 & U2 & V2 & _).
          exists st2, res. split; auto. split; auto.
          split; [eapply ext_trans; [exact X0|eapply ext_trans; eauto]|]. split; auto.
          intros w. specialize (V2 w). rewrite PV in V2. congruence.
        - (* right *) subst ux. exists kx, id, l, r. split; auto. split; auto.
          destruct (REC _ _ _ _ Sx) as (Rl & Rr & _ & _ & _).
          assert (Uyr : under r st y) by (split; [apply Uy|right; exists kk, uy; auto]).
          unfold apply_right.
          assert (LT' : x < size_of st) by apply Ux.
          destruct (I_nodes I LT') as ([c1|lt] & Nx).
          2:{ exfalso. destruct (I_lit I Gx Nx) as (id2 & v2 & k2 & S2 & M2 & D2).
              rewrite Mx in M2. injection M2 as M2.
              destruct (ok_unique OK (sT_trans _ _ ST Sx) S2) as [EQ _]; [simpl in *; congruence|discriminate]. }
          rewrite Nx. destruct (@or_at st t k x c1 I ST Ux Nx) as (j2 & id2 & l2 & r2 & S2 & M2 & C2 & P2).
          rewrite Mx in M2. injection M2 as M2.
          destruct (ok_unique OK (sT_trans _ _ ST Sx) (sT_trans _ _ ST S2)) as [EQ _]; [simpl; congruence|].
          injection EQ as <- <- <-.
          assert (K1 : kids l r st c1) by (intros p s H; destruct (C2 p s H); tauto).
          destruct (right_loop_ok Rr op I Uyr K1) as (st1 & L & E1 & I1 & X1 & KL & PL). rewrite E1. ob.
          destruct (add_or_node st1 L id) as [st2 res] eqn:E2.
          assert (PV : forall w, pvl (V st1 w) L = [opb op (V st w x) (V st w y)])
            by (intros w; rewrite PL, P2; auto).
          destruct (L_add_or I1 (sT_trans _ _ ST Sx) KL (fun w => ex_intro _ _ (PV w)) E2)
            as (I2 & X2 & U2 & V2 & _).
          exists st2, res. split; auto. split; auto. split; [eapply ext_trans; eauto|]. split; auto.
          intros w. specialize (V2 w). rewrite PV in V2. congruence.
        - (* disjoint *) exists kk, id, l, r. split; auto. split; auto.
          destruct (REC _ _ _ _ S0) as (Rl & Rr & (kl & Sl) & Hl & _).
          assert (Uxl : under l st x) by (split; [apply Ux|right; exists k1, ux; auto]).
          assert (Uyr : under r st y) by (split; [apply Uy|right; exists k2, uy; auto]).
          destruct (L_negate I Sl Uxl Hl) as (st0 & nx & E0 & I0 & X0 & M0 & _).
          unfold apply_disjoint. rewrite E0. ob.
          assert (Unx : under l st0 nx).
          { apply (I_neg I0) in M0 as (_ & A2 & _ & A4 & _). split; auto. right. exists k1, ux. rewrite A4. split; auto.
            destruct X0 as (_ & X0 & _). rewrite X0; [auto|apply Ux]. }
          assert (Uxl0 : under l st0 x) by (eapply under_ext; eauto).
          assert (Uyr0 : under r st0 y) by (eapply under_ext; eauto).
          destruct (Rr st0 y 1 op I0 Uyr0 (under_const _ I0 (le_n 1))) as (st1 & q1 & E1 & I1 & X1 & W1 & V1).
          unfold true_node, false_node. rewrite E1. ob.
          assert (Uyr1 : under r st1 y) by (eapply under_ext; eauto).
          destruct (Rr st1 y 0 op I1 Uyr1 (under_const _ I1 (le_S _ _ (le_n 0)))) as (st2 & q2 & E2 & I2 & X2 & W2 & V2).
          rewrite E2. ob.
          destruct (add_or_node st2 [(x, q1); (nx, q2)] id) as [st3 res] eqn:E3.
          assert (X02 : ext st0 st2) by (eapply ext_trans; eauto).
          assert (KL : kids l r st2 [(x, q1); (nx, q2)]).
          { intros p s [H|[H|[]]]; injection H as <- <-.
            - split; [exact (under_ext X02 Uxl0)|exact (under_ext X2 W1)].
            - split; [exact (under_ext X02 Unx)|exact W2]. }
          assert (PV : forall w, pvl (V st2 w) [(x, q1); (nx, q2)] = [opb op (V st w x) (V st w y)]).
          { intros w. rewrite !pvl_cons. rewrite (@ext_V _ _ w q1 I1 X2) by apply W1.
            rewrite V1, V2. rewrite (V_1 w I0), (V_0 w I1).
            rewrite (@ext_V _ _ w y I0 X1) by apply Uyr0. rewrite (@ext_V _ _ w y I X0) by apply Uy.
            rewrite (@ext_V _ _ w x I0 X02) by apply Uxl0. rewrite (@ext_V _ _ w nx I0 X02) by apply Unx.
            apply (I_neg I0) in M0 as (_ & _ & _ & _ & VN). rewrite VN.
            rewrite (@ext_V _ _ w x I X0) by apply Ux.
            destruct op, (V st w x), (V st w y); auto. }
          destruct (L_add_or I2 (sT_trans _ _ ST S0) KL (fun w => ex_intro _ _ (PV w)) E3)
            as (I3 & X3 & U3 & V3 & _).
          exists st3, res. split; auto. split; auto.
          split; [eapply ext_trans; [exact X0|eapply ext_trans; eauto]|]. split; auto.
          intros w. specialize (V3 w). rewrite PV in V3. congruence. }
      destruct CORE as (kn & id & l & r & Sn & EI & st1 & res & E1 & I1 & X1 & U1 & V1).
      rewrite E1. ob. eexists. exists res. split; [reflexivity|].
      set (st2 := mkS (s_nodes st1) (s_neg st1) (s_vt st1) (((x, y, op), res) :: s_cache st1)).
      split; [|split; [|split]].
      - destruct I1 as [a1 a2 a3 a4 a5 a6 a7 a8 a9 a10 a11 a12 a13]. split; auto.
        intros a' b' op' q H. simpl in H. destruct ((x =? a') && (y =? b') && aop_eqb op op') eqn:Q.
        2:{ exact (a13 a' b' op' q H). }
        apply andb_true_iff in Q as [Q Q8]. apply andb_true_iff in Q as [Qa Qb].
        apply Nat.eqb_eq in Qa, Qb. subst a' b'. injection H as <-.
        assert (op' = op) by (destruct op, op'; simpl in Q8; congruence). subst op'.
        pose proof (ext_size X1). split; [destruct Ux; unfold size_of in *; simpl; lia|].
        split; [destruct Uy; unfold size_of in *; simpl; lia|]. split; [apply U1|].
        split.
        + intros w. change (V st1 w res = opb op (V st1 w x) (V st1 w y)). rewrite V1.
          rewrite (@ext_V _ _ w x I X1) by apply Ux. rewrite (@ext_V _ _ w y I X1) by apply Uy. auto.
        + intros t' k' St' Ux' Uy'. change (under t' st1 res).
          assert (Mx1 : mget (s_vt st1) x = Some (aid ux)).
          { destruct X1 as (_ & X1 & _). rewrite X1; [auto|apply Ux]. }
          assert (My1 : mget (s_vt st1) y = Some (aid uy)).
          { destruct X1 as (_ & X1 & _). rewrite X1; [auto|apply Uy]. }
          destruct Ux' as (_ & [D|(kx' & ux' & Sx' & Mx')]); [lia|]. simpl in Mx'. rewrite Mx1 in Mx'. injection Mx' as Mx'.
          destruct Uy' as (_ & [D|(ky' & uy' & Sy' & My')]); [lia|]. simpl in My'. rewrite My1 in My'. injection My' as My'.
          destruct (ok_unique OK (sT_trans _ _ ST Sx) (sT_trans _ _ St' Sx') Mx') as [<- Kx].
          destruct (ok_unique OK (sT_trans _ _ ST Sy) (sT_trans _ _ St' Sy') My') as [<- Ky].
          assert (LE' : kx' + rootoff ux <= ky' + rootoff uy) by lia.
          destruct (lca_spec OK k' St' Sx' Sy' LE') as (ty' & lca' & EL' & LC').
          rewrite EL in EL'. injection EL' as <- <-.
          destruct (lca_in Sx' Sy' LC') as (km & um & Sm & Am).
          destruct (ok_unique OK (sT_trans _ _ ST Sn) (sT_trans _ _ St' Sm)) as [<- _]; [simpl; congruence|].
          eapply under_sub; eauto.
      - destruct X1 as (A1 & A2 & A3). split; [exact A1|]. split; [exact A2|exact A3].
      - change (under t st1 res). eapply under_sub; eauto.
      - intros w. change (V st1 w res = opb op (V st w a) (V st w b)). rewrite V1. auto. }
    destruct (kb + k + rootoff ub <? ka + k + rootoff ua) eqn:CMP.
    - apply Nat.ltb_lt in CMP.
      replace (k + kb + rootoff ub <? k + ka + rootoff ua) with true by (symmetry; apply Nat.ltb_lt; lia).
      eapply MAIN; eauto. lia.
    - apply Nat.ltb_ge in CMP.
      replace (k + kb + rootoff ub <? k + ka + rootoff ua) with false by (symmetry; apply Nat.ltb_ge; lia).
      eapply MAIN; eauto. lia.
  Qed.
End Inv.
