(** C87: facts exclude each other exactly if they were declared in the same disjunction. *)
From Coq Require Import List Bool Arith ZArith Lia.
From Verif Require Import Value Order OSet Prov Formula ProvInst PropsFormula Exclusive.
Import ListNotations.
Set Implicit Arguments.

(** ** The specification: what was declared together *)
Section Spec.
  Variable F : Type.
  (** a fact with the number of the disjunction it was written in, if any *)
  Definition numbered {A} (ds : list (list A)) : list (option nat * A) :=
    concat (map (fun kd => map (pair (Some (fst kd))) (snd kd)) (combine (seq 0 (length ds)) ds)).
  Definition declared (p : bprog F) : list (option nat * bfact F) :=
    map (pair None) (bp_facts p) ++ numbered (bp_disj p).
  (** the facts of the relations [rels], relation by relation *)
  Definition sources (p : bprog F) (rels : list nat) : list (option nat * bfact F) :=
    flat_map (fun r => filter (fun s => Nat.eqb (bf_pred (snd s)) r) (declared p)) rels.
  (** tags without exclusion number that [with_exclusivity] understands *)
  Definition plain_tag (t : itag F) : Prop := match t with INone | IFloat _ => True | _ => False end.
  Definition uniform (ds : list (list (bfact F))) : Prop :=
    forall d f f', In d ds -> In f d -> In f' d -> bf_pred f = bf_pred f'.
  (** facts given to the database, with the number of the call if it was an exclusive one *)
  Definition given (cs : list (dcall F)) : list (option nat * F) :=
    concat (map (fun kc => match snd kc with
                           | AddExclusive ps => map (pair (Some (fst kc))) ps
                           | AddIndependent ps => map (pair None) ps
                           end) (combine (seq 0 (length cs)) cs)).

  (** among the facts [fs] there are two different ones of one declaration; [l] gives for each
      declared fact its declaration and its number *)
  Definition clash {A} (l : list ((option nat * A) * option nat)) (fs : list nat) : Prop :=
    exists k a b f f', a <> b /\ In a fs /\ In b fs /\ In ((Some k, f), Some a) l /\ In ((Some k, f'), Some b) l.
End Spec.

(** numbers of facts *)
Definition some_ids (os : list (option nat)) : list nat :=
  flat_map (fun o => match o with Some a => [a] | None => [] end) os.

Section Tagging.
  Variable F : Type.
  Variable one : F.
  Notation stag := (stag F).
  Notation pctx := (pctx F).

  Definition log_of (l : list (option stag * option nat)) : list (nat * nat) :=
    flat_map (fun to => match to with (Some (_, Some g), Some a) => [(g, a)] | _ => [] end) l.
  Lemma log_of_In : forall l g a, In (g, a) (log_of l) <-> exists f, In (Some (f, Some g), Some a) l.
  Proof.
    intros. unfold log_of. rewrite in_flat_map. split.
    - intros (([[f [g'|]]|] & [a'|]) & I & H); simpl in H; try tauto.
      destruct H as [H|[]]. inversion H; subst. eauto.
    - intros (f & I). eexists; split; [exact I|]. simpl; auto.
  Qed.

  Lemma tag_all_spec : forall l (x : pctx) os y, tag_all x l = (os, y) ->
    length os = length l /\ px_hist y = px_hist x ++ log_of (combine l os) /\
    length (px_probs y) = length (px_probs x) + length (some_ids os) /\
    some_ids os = seq (length (px_probs x)) (length (some_ids os)) /\
    (forall t o, In (t, o) (combine l os) -> (t = None <-> o = None)).
  Proof.
    induction l as [|t l IH]; intros x os y H; simpl in H.
    - inversion H; subst. simpl. rewrite app_nil_r, Nat.add_0_r. repeat split; tauto.
    - destruct (tagging_opt x t) as [o x1] eqn:E. destruct (tag_all x1 l) as [os' z] eqn:E2. inversion H; subst. clear H.
      destruct (IH _ _ _ E2) as (L & Hh & Hp & Hs & Hn). clear IH E2. destruct t as [[f g]|]; simpl in E; inversion E; subst; clear E.
      + cbn [px_hist px_probs] in *. rewrite app_length in Hp. simpl in Hp.
        cbn [length combine some_ids flat_map app] in *. fold (some_ids os') in *.
        repeat split; auto.
        * rewrite Hh. destruct g; simpl; rewrite <- ?app_assoc; auto.
        * simpl. lia.
        * simpl. f_equal. rewrite Hs at 1. rewrite app_length. simpl. rewrite Nat.add_1_r. auto.
        * destruct H as [H|H]; [inversion H; subst; congruence|]. apply (Hn _ _ H).
        * destruct H as [H|H]; [inversion H; subst; congruence|]. apply (Hn _ _ H).
      + cbn [length combine some_ids flat_map app] in *. fold (some_ids os') in *. repeat split; auto.
        * destruct H as [H|H]; [inversion H; subst; congruence|]. apply (Hn _ _ H).
        * destruct H as [H|H]; [inversion H; subst; congruence|]. apply (Hn _ _ H).
  Qed.

  Lemma combine_map_l : forall (A B C : Type) (g : A -> B) (l : list A) (os : list C),
    combine (map g l) os = map (fun so => (g (fst so), snd so)) (combine l os).
  Proof. induction l; destruct os; simpl; auto. f_equal; auto. Qed.

  (** facts that are tagged with the declaration's number exclude each other as declared *)
  Lemma tag_all_clash : forall (A : Type) (src : list (option nat * A)) (num : nat -> nat) (g : option nat * A -> option stag) os y,
    (forall s k, In s src -> fst s = Some k -> exists f, g s = Some (f, Some (num k))) ->
    (forall s, In s src -> fst s = None -> forall f i, g s <> Some (f, Some i)) ->
    (forall s s' k k', In s src -> In s' src -> fst s = Some k -> fst s' = Some k' -> num k = num k' -> k = k') ->
    tag_all px_new (map g src) = (os, y) ->
    length os = length src /\ NoDup (some_ids os) /\
    forall fs, nsorted fs -> (px_conflict y fs = true <-> clash (combine src os) fs).
  Proof.
    intros A src num g os y H1 H2 H3 T. destruct (tag_all_spec _ _ T) as (L & Hh & _ & Hs & _).
    rewrite map_length in L. split; [auto|split]. { rewrite Hs. apply seq_NoDup. }
    intros fs S. unfold px_conflict. rewrite (C20_exclusion _ S). rewrite Hh. simpl. rewrite combine_map_l. unfold clash.
    split.
    - intros (i & a & b & N & Ia & Ib & Fa & Fb).
      apply log_of_In in Ia as (f & Ia). apply log_of_In in Ib as (f' & Ib).
      apply in_map_iff in Ia as ((s & o) & E1 & I1). apply in_map_iff in Ib as ((s' & o') & E2 & I2).
      simpl in E1, E2. inversion E1; inversion E2; subst. clear E1 E2.
      pose proof (in_combine_l _ _ _ _ I1) as J1. pose proof (in_combine_l _ _ _ _ I2) as J2.
      destruct s as [[k|] e]; [|exfalso; eapply (H2 (None, e)); simpl; eauto].
      destruct s' as [[k'|] e']; [|exfalso; eapply (H2 (None, e')); simpl; eauto].
      destruct (H1 _ k J1 eq_refl) as (h & G1). destruct (H1 _ k' J2 eq_refl) as (h' & G2).
      assert (k = k') by (apply (H3 _ _ _ _ J1 J2 eq_refl eq_refl); congruence). subst k'.
      exists k, a, b, e, e'. auto.
    - intros (k & a & b & e & e' & N & Fa & Fb & I1 & I2).
      pose proof (in_combine_l _ _ _ _ I1) as J1. pose proof (in_combine_l _ _ _ _ I2) as J2.
      destruct (H1 _ k J1 eq_refl) as (h & G1). destruct (H1 _ k J2 eq_refl) as (h' & G2).
      exists (num k), a, b. repeat split; auto; apply log_of_In.
      + exists h. apply in_map_iff. exists ((Some k, e), Some a). simpl. rewrite G1. auto.
      + exists h'. apply in_map_iff. exists ((Some k, e'), Some b). simpl. rewrite G2. auto.
  Qed.

  (** ** Programs *)
  Definition num_tag (s : option nat * bfact F) : itag F :=
    match fst s with Some k => with_exclusivity (bf_tag (snd s)) k | None => bf_tag (snd s) end.
  Lemma filter_map : forall (A B : Type) (q : B -> bool) (g : A -> B) l, filter q (map g l) = map g (filter (fun a => q (g a)) l).
  Proof. induction l; simpl; auto. destruct (q (g a)); simpl; rewrite IHl; auto. Qed.
  Lemma filter_const : forall (A : Type) (q : A -> bool) (c : bool) l, (forall a, In a l -> q a = c) -> filter q l = if c then l else [].
  Proof.
    induction l; intros H; [destruct c; auto|]. simpl. rewrite (H a (or_introl eq_refl)).
    rewrite IHl by (intros; apply H; right; auto). destruct c; auto.
  Qed.
  Lemma disj_facts_spec : forall ds k r fs, uniform ds -> disj_facts k ds r = Some fs ->
    fs = map (fun s => (num_tag s, bf_args (snd s)))
           (filter (fun s => Nat.eqb (bf_pred (snd s)) r)
              (concat (map (fun kd => map (pair (Some (fst kd))) (snd kd)) (combine (seq k (length ds)) ds)))).
  Proof.
    induction ds as [|d ds IH]; intros k r fs U H; simpl in H; [inversion H; auto|].
    destruct (length d <=? 1) eqn:E; [discriminate|]. destruct (disj_facts (S k) ds r) as [gs|] eqn:D; [|discriminate].
    assert (U' : uniform ds) by (intros d0 f f' I; apply (U d0); right; auto).
    specialize (IH _ _ _ U' D). cbn [length seq combine map concat fst snd]. rewrite filter_app, map_app, <- IH.
    destruct d as [|f d']; [discriminate|]. set (d := f :: d') in *.
    rewrite filter_map. cbn [snd].
    rewrite (@filter_const _ (fun a => Nat.eqb (bf_pred a) r) (Nat.eqb (bf_pred f) r) d).
    2:{ intros a Ia. f_equal. apply (U d); simpl; auto. }
    destruct (Nat.eqb (bf_pred f) r); inversion H; subst; [|auto].
    rewrite map_map. cbn [num_tag fst snd]. reflexivity.
  Qed.
  Lemma all_ram_facts_spec : forall p rels fs, uniform (bp_disj p) -> all_ram_facts p rels = Some fs ->
    fs = map (fun s => (num_tag s, bf_args (snd s))) (sources p rels).
  Proof.
    intros p. induction rels as [|r rels IH]; intros fs U H; simpl in H; [inversion H; auto|].
    destruct (ram_facts p r) as [a|] eqn:E; [|discriminate]. destruct (all_ram_facts p rels) as [b|]; [|discriminate].
    inversion H; subst. rewrite (IH _ U eq_refl). unfold sources. cbn [flat_map]. rewrite map_app. f_equal.
    unfold ram_facts in E. destruct (disj_facts 0 (bp_disj p) r) as [ds|] eqn:D; [|discriminate]. inversion E; subst.
    rewrite (disj_facts_spec _ _ U D). unfold declared, numbered. rewrite filter_app, map_app. f_equal.
    rewrite filter_map. cbn [snd]. rewrite map_map. reflexivity.
  Qed.

  Lemma sources_declared : forall (p : bprog F) rels s, In s (sources p rels) <-> In s (declared p) /\ In (bf_pred (snd s)) rels.
  Proof.
    intros. unfold sources. rewrite in_flat_map. split.
    - intros (r & I & J). apply filter_In in J as [J E]. apply Nat.eqb_eq in E. subst. auto.
    - intros [I J]. eexists; split; [exact J|]. apply filter_In. rewrite Nat.eqb_refl. auto.
  Qed.

  (** Tagging the facts of a program: two facts exclude each other exactly if they were written in
      the same disjunction. *)
  Theorem C87_program : forall (p : bprog F) rels os y,
    uniform (bp_disj p) -> (forall s, In s (declared p) -> plain_tag (bf_tag (snd s))) ->
    program_tags one px_new p rels = Some (os, y) ->
    length os = length (sources p rels) /\ NoDup (some_ids os) /\
    (forall s o, In (s, o) (combine (sources p rels) os) -> (o = None <-> fst s = None /\ bf_tag (snd s) = INone)) /\
    forall fs, nsorted fs -> (px_conflict y fs = true <-> clash (combine (sources p rels) os) fs).
  Proof.
    intros p rels os y U P H. unfold program_tags in H. destruct (all_ram_facts p rels) as [l|] eqn:E; [|discriminate].
    inversion H as [T]. clear H. rewrite (all_ram_facts_spec _ _ U E) in T. rewrite map_map in T. cbn [fst] in T.
    assert (P' : forall s, In s (sources p rels) -> plain_tag (bf_tag (snd s))) by (intros s I; apply sources_declared in I; apply P; tauto).
    destruct (tag_all_clash (sources p rels) (fun k => k) (fun s => static_tag one (num_tag s))) with (os := os) (y := y) as (A & B & C); auto.
    - intros [o f] k I Ek. simpl in Ek. subst o. unfold num_tag. cbn [fst snd]. specialize (P' _ I). cbn [snd] in P'.
      destruct (bf_tag f); try destruct P'; simpl; eauto.
    - intros [o f] I Ek h i. simpl in Ek. subst o. unfold num_tag. cbn [fst snd]. specialize (P' _ I). cbn [snd] in P'.
      destruct (bf_tag f); try destruct P'; simpl; congruence.
    - split; [auto|split; [auto|split; [|auto]]]. intros s o I.
      destruct (tag_all_spec _ _ T) as (_ & _ & _ & _ & N). rewrite combine_map_l in N.
      specialize (N (static_tag one (num_tag s)) o). rewrite <- N.
      2:{ apply in_map_iff. exists (s, o). auto. }
      pose proof (P' _ (in_combine_l _ _ _ _ I)) as Q. destruct s as [[k|] f]; unfold num_tag; cbn [fst snd] in *;
        destruct (bf_tag f); try destruct Q; simpl; split; try tauto; try intros [? ?]; congruence.
  Qed.

  (** The assertion on the size of disjunctions is what can go wrong. *)
  Theorem C87_program_assert : forall (p : bprog F) rels x, rels <> [] ->
    (program_tags one x p rels = None <-> exists d, In d (bp_disj p) /\ length d < 2).
  Proof.
    intros p rels x R.
    assert (D : forall ds k r, disj_facts (F := F) k ds r = None <-> exists d, In d ds /\ length d < 2).
    { induction ds as [|d ds IH]; intros k r; simpl.
      - split; [discriminate|intros (d & [] & _)].
      - destruct (Nat.leb_spec (length d) 1).
        + split; auto. intros _. exists d. split; auto; lia.
        + specialize (IH (S k) r). destruct (disj_facts (S k) ds r) eqn:E.
          * split.
            -- intros H'. destruct d; [simpl in H; lia|]. destruct (Nat.eqb _ _); discriminate.
            -- intros (d' & [<-|I] & L); [lia|]. destruct IH as [_ IH]. discriminate IH; eauto.
          * split; auto. intros _. destruct IH as [IH _]. destruct (IH eq_refl) as (d' & I & L). eauto. }
    unfold program_tags.
    assert (A : all_ram_facts p rels = None <-> exists d, In d (bp_disj p) /\ length d < 2).
    { induction rels as [|r rels IH]; [congruence|]. simpl. unfold ram_facts at 1.
      specialize (D (bp_disj p) 0 r). destruct (disj_facts 0 (bp_disj p) r) eqn:E.
      - destruct rels as [|r' rels]; [simpl; rewrite <- D; split; discriminate|].
        destruct (all_ram_facts p (r' :: rels)) eqn:E'.
        + rewrite <- D. split; discriminate.
        + split; auto. intros _. apply IH; auto. discriminate.
      - tauto. }
    rewrite <- A. destruct (all_ram_facts p rels); split; congruence.
  Qed.

  (** ** Databases *)
  (** the number a call gives is the number of exclusive calls before it *)
  Fixpoint excl_before (cs : list (dcall F)) (k : nat) : nat :=
    match k, cs with
    | S k, AddExclusive _ :: r => S (excl_before r k)
    | S k, AddIndependent _ :: r => excl_before r k
    | _, _ => 0
    end.
  Lemma excl_before_mono : forall cs k k', k < k' -> (exists ps, nth_error cs k = Some (AddExclusive ps)) -> excl_before cs k < excl_before cs k'.
  Proof.
    induction cs as [|c cs IH]; intros k k' L (ps & E); [destruct k; discriminate|].
    destruct k' as [|k']; [lia|]. destruct k as [|k].
    - simpl in E. inversion E; subst. simpl. lia.
    - simpl in E. assert (excl_before cs k < excl_before cs k') by (apply IH; eauto; lia). destruct c; simpl; lia.
  Qed.
  Definition db_tag (cs : list (dcall F)) (s : option nat * F) : option stag :=
    Some (snd s, match fst s with Some k => Some (excl_before cs k) | None => None end).
  Lemma db_adds_spec : forall cs pre n, n = excl_before (pre ++ cs) (length pre) ->
    db_adds n cs = map (db_tag (pre ++ cs))
      (concat (map (fun kc => match snd kc with
                              | AddExclusive ps => map (pair (Some (fst kc))) ps
                              | AddIndependent ps => map (pair None) ps
                              end) (combine (seq (length pre) (length cs)) cs))).
  Proof.
    induction cs as [|c cs IH]; intros pre n En; auto.
    assert (B : forall pre0 c0 r, excl_before (pre0 ++ c0 :: r) (S (length pre0)) =
                match c0 with AddExclusive _ => S (excl_before (pre0 ++ c0 :: r) (length pre0)) | AddIndependent _ => excl_before (pre0 ++ c0 :: r) (length pre0) end).
    { clear. induction pre0 as [|d pre0 IH]; intros c0 r.
      - destruct c0; simpl; auto; destruct r as [|[|] ?]; auto.
      - specialize (IH c0 r). cbn [length app]. change (excl_before (d :: pre0 ++ c0 :: r) (S (S (length pre0)))) with
          (match d with AddExclusive _ => S (excl_before (pre0 ++ c0 :: r) (S (length pre0))) | AddIndependent _ => excl_before (pre0 ++ c0 :: r) (S (length pre0)) end).
        rewrite IH. destruct d, c0; reflexivity. }
    specialize (B pre c cs). specialize (IH (pre ++ [c])). rewrite app_length in IH. cbn [length] in IH.
    rewrite Nat.add_1_r, <- app_assoc in IH. cbn [app] in IH.
    cbn [db_adds length seq combine map concat fst snd]. destruct c as [ps|ps]; cbn [db_add].
    - rewrite map_app. rewrite (IH (S n)) by (rewrite B; lia). f_equal. rewrite map_map. unfold db_tag. cbn [fst snd]. rewrite En. auto.
    - rewrite map_app. rewrite (IH n) by (rewrite B; lia). f_equal. rewrite map_map. unfold db_tag. cbn [fst snd]. auto.
  Qed.
  Lemma given_excl : forall (cs : list (dcall F)) (s : option nat * F) k, In s (given cs) -> fst s = Some k -> exists ps, nth_error cs k = Some (AddExclusive ps).
  Proof.
    assert (G : forall (cs : list (dcall F)) n (s : option nat * F) k, In s (concat (map (fun kc => match snd kc with
                              | AddExclusive ps => map (pair (Some (fst kc))) ps
                              | AddIndependent ps => map (pair None) ps
                              end) (combine (seq n (length cs)) cs))) -> fst s = Some k ->
              exists i ps, k = n + i /\ nth_error (cs : list (dcall F)) i = Some (AddExclusive ps)).
    { induction cs as [|c cs IH]; intros n s k I E; [destruct I|]. cbn [length seq combine map concat fst snd] in I.
      apply in_app_iff in I as [I|I].
      - destruct c; apply in_map_iff in I as (f & <- & _); simpl in E; [|discriminate]. inversion E; subst. exists 0, ps. split; auto; lia.
      - destruct (IH _ _ _ I E) as (i & ps & -> & N). exists (S i), ps. split; auto; lia. }
    intros cs s k I E. destruct (G _ _ _ _ I E) as (i & ps & -> & N). eauto.
  Qed.

  (** Facts given to a database exclude each other exactly if they came with the same exclusive
      call. *)
  Theorem C87_database : forall (cs : list (dcall F)) os y, tag_all px_new (db_adds 0 cs) = (os, y) ->
    length os = length (given cs) /\ NoDup (some_ids os) /\ (forall o, In o os -> o <> None) /\
    forall fs, nsorted fs -> (px_conflict y fs = true <-> clash (combine (given cs) os) fs).
  Proof.
    intros cs os y T. pose proof (db_adds_spec cs [] (n := 0)) as D. simpl in D. rewrite D in T by (destruct cs; auto). clear D.
    fold (given cs) in T.
    destruct (tag_all_clash (given cs) (excl_before cs) (db_tag cs)) with (os := os) (y := y) as (A & B & C); auto.
    - intros [o f] k I E. simpl in E. subst. unfold db_tag. simpl. eauto.
    - intros [o f] I E h i. simpl in E. subst. unfold db_tag. simpl. congruence.
    - intros s s' k k' I I' E E' N. apply (given_excl _ _ I) in E. apply (given_excl _ _ I') in E'.
      destruct (Nat.lt_trichotomy k k') as [L|[L|L]]; auto; exfalso.
      + pose proof (excl_before_mono _ L E). lia.
      + pose proof (excl_before_mono _ L E'). lia.
    - split; [auto|split; [auto|split; [|auto]]]. intros o I ->.
      destruct (tag_all_spec _ _ T) as (_ & _ & _ & _ & N). rewrite combine_map_l in N.
      apply In_nth_error in I as (i & I).
      destruct (nth_error (given cs) i) as [s|] eqn:E.
      2:{ apply nth_error_None in E. assert (i < length os) by (apply nth_error_Some; congruence). lia. }
      assert (J : In (s, None) (combine (given cs) os)).
      { clear - I E. revert i os I E. induction (given cs) as [|a l IH]; intros [|i] [|o os] I E; simpl in *; try discriminate.
        - inversion I; inversion E; auto.
        - right. eapply IH; eauto. }
      specialize (N (db_tag cs s) None). destruct N as [_ N].
      { apply in_map_iff. exists (s, None). auto. }
      specialize (N eq_refl). discriminate.
  Qed.

  (** ** Disjunctive heads *)
  Definition fresh_ctx (next : nat) (x : pctx) : Prop :=
    forall g a, In (g, a) (px_hist x) -> g < next.
  Definition out_log (outs : list xout) : list (nat * nat) :=
    flat_map (fun o => match xo_fact o with Some a => [(xo_excl o, a)] | None => [] end) outs.
  Lemma out_log_In : forall outs g a, In (g, a) (out_log outs) <-> exists o, In o outs /\ xo_excl o = g /\ xo_fact o = Some a.
  Proof.
    intros. unfold out_log. rewrite in_flat_map. split.
    - intros (o & I & H). destruct (xo_fact o) eqn:E; [|destruct H]. destruct H as [H|[]]. inversion H; subst. eauto.
    - intros (o & I & E & E'). exists o. split; auto. rewrite E'. left; congruence.
  Qed.

  Lemma excl_right_spec : forall right (x : pctx) l lt i outs y, excl_right one x l lt i right = (outs, y) ->
    px_hist y = px_hist x ++ out_log outs /\ map (fun o => (xo_left o, xo_right o, xo_ltag o)) outs = map (fun r => (l, r, lt)) right /\
    (forall o, In o outs -> xo_left o = l /\ xo_excl o = i) /\
    map xo_fact outs = map Some (seq (length (px_probs x)) (length outs)) /\ length (px_probs y) = length (px_probs x) + length outs.
  Proof.
    induction right as [|r right IH]; intros x l lt i outs y H.
    - inversion H; subst. simpl. rewrite app_nil_r, Nat.add_0_r. repeat split; auto; tauto.
    - cbn [excl_right static_tag tagging_opt tagging fst snd] in H.
      destruct (excl_right one _ l lt i right) as [os z] eqn:E. inversion H; subst. clear H.
      destruct (IH _ _ _ _ _ _ E) as (A & B & C & D & G). cbn [px_hist px_probs] in *. rewrite app_length in *. cbn [length] in *.
      split; [rewrite A; simpl; rewrite <- app_assoc; auto|]. split; [simpl; f_equal; auto|].
      split; [intros o [<-|I]; simpl; auto|]. split; [|lia].
      simpl. f_equal. rewrite D, Nat.add_1_r. auto.
  Qed.

  Definition vis_ok (base : nat) (s : xst F) : Prop :=
    base <= xs_next s /\
    (forall t i, visited_id (xs_visited s) t = Some i -> base <= i < xs_next s) /\
    (forall t t' i, visited_id (xs_visited s) t = Some i -> visited_id (xs_visited s) t' = Some i -> t = t').

  Lemma visited_cons : forall m k i t, visited_id ((k, i) :: m) t = match tcmp k t with Eq => Some i | _ => visited_id m t end.
  Proof. intros. unfold visited_id. simpl. destruct (tcmp k t); auto. Qed.
  Lemma visited_cons_eq : forall m k i, visited_id ((k, i) :: m) k = Some i.
  Proof. intros. rewrite visited_cons, (to_refl tcmp_TOrder). auto. Qed.

  Lemma excl_all_spec : forall right left (s : xst F) base outs s', vis_ok base s -> excl_all one s left right = (outs, s') ->
    px_hist (xs_ctx s') = px_hist (xs_ctx s) ++ out_log outs /\
    map (fun o => (xo_left o, xo_right o, xo_ltag o)) outs = flat_map (fun e => map (fun r => (fst e, r, snd e)) right) left /\
    map xo_fact outs = map Some (seq (length (px_probs (xs_ctx s))) (length outs)) /\
    length (px_probs (xs_ctx s')) = length (px_probs (xs_ctx s)) + length outs /\
    vis_ok base s' /\
    (forall t i, visited_id (xs_visited s) t = Some i -> visited_id (xs_visited s') t = Some i) /\
    (forall o, In o outs -> visited_id (xs_visited s') (xo_left o) = Some (xo_excl o)).
  Proof.
    intros right. induction left as [|e left IH]; intros s base outs s' V H.
    - inversion H; subst. simpl. rewrite app_nil_r, Nat.add_0_r. split; [auto|split; [auto|split; [auto|split; [auto|split; [exact V|split; [auto|intros ? []]]]]]].
    - cbn [excl_all] in H. destruct (excl_one one s e right) as [o s1] eqn:E1.
      destruct (excl_all one s1 left right) as [os s2] eqn:E2. inversion H; subst. clear H.
      unfold excl_one in E1.
      assert (Q : exists i, vis_ok base s1 /\ visited_id (xs_visited s1) (fst e) = Some i /\
                (forall t j, visited_id (xs_visited s) t = Some j -> visited_id (xs_visited s1) t = Some j) /\
                excl_right one (xs_ctx s) (fst e) (snd e) i right = (o, xs_ctx s1)).
      { destruct (visited_id (xs_visited s) (fst e)) as [i|] eqn:Vi.
        - destruct (excl_right one (xs_ctx s) (fst e) (snd e) i right) as [o0 x0] eqn:R. inversion E1; subst. exists i. simpl. auto.
        - destruct (excl_right one (xs_ctx s) (fst e) (snd e) (xs_next s) right) as [o0 x0] eqn:R. inversion E1; subst.
          exists (xs_next s). cbn [xs_visited xs_next xs_ctx]. split; [|split; [apply visited_cons_eq|split; auto]].
          + destruct V as (V0 & V1 & V2). split; [simpl; lia|]. cbn [xs_visited xs_next]. split.
            * intros t i. rewrite visited_cons. destruct (tcmp (fst e) t).
              -- intros Q. inversion Q. lia.
              -- intros Q. apply V1 in Q. lia.
              -- intros Q. apply V1 in Q. lia.
            * intros t t' i. rewrite !visited_cons. destruct (tcmp (fst e) t) eqn:C1; destruct (tcmp (fst e) t') eqn:C2; intros Q1 Q2;
                try (apply (to_eq tcmp_TOrder) in C1); try (apply (to_eq tcmp_TOrder) in C2); try congruence;
                try (inversion Q1; subst; apply V1 in Q2; lia); try (inversion Q2; subst; apply V1 in Q1; lia); eapply V2; eauto.
          + intros t j Q. rewrite visited_cons. destruct (tcmp (fst e) t) eqn:C; auto.
            apply (to_eq tcmp_TOrder) in C. subst. congruence. }
      destruct Q as (i & V1 & Vi & X & R). clear E1.
      destruct (excl_right_spec _ _ _ _ _ R) as (A & B & C & D & G).
      destruct (IH _ _ _ _ V1 E2) as (A' & B' & D' & G' & V' & X' & Y').
      split; [|split; [|split; [|split; [|split; [|split]]]]]; auto.
      + rewrite A', A. unfold out_log. rewrite flat_map_app, app_assoc. auto.
      + rewrite map_app, B, B'. auto.
      + rewrite map_app, D, D', G, <- map_app, app_length, seq_app. auto.
      + rewrite G', G, app_length. lia.
      + intros o' I. apply in_app_iff in I as [I|I]; [|auto]. destruct (C _ I) as [-> ->]. auto.
  Qed.

  (** One evaluation of a disjunctive head: an outcome for each left element and right tuple, each
      a new fact; outcomes of the same left tuple exclude each other, no others do - provided the
      numbers of the allocator are new to the context. *)
  Theorem C87_heads : forall next (x : pctx) left right outs n y, fresh_ctx next x ->
    excl_eval one next x left right = (outs, n, y) ->
    map (fun o => (xo_left o, xo_right o, xo_ltag o)) outs = flat_map (fun e => map (fun r => (fst e, r, snd e)) right) left /\
    map xo_fact outs = map Some (seq (length (px_probs x)) (length outs)) /\
    next <= n /\ fresh_ctx n y /\
    (forall fs, nsorted fs ->
      (px_conflict y fs = true <->
       px_conflict x fs = true \/
       exists o o' a b, In o outs /\ In o' outs /\ xo_fact o = Some a /\ xo_fact o' = Some b /\ a <> b /\ In a fs /\ In b fs /\
         xo_left o = xo_left o')).
  Proof.
    intros next x left right outs n y Fr H. unfold excl_eval in H.
    destruct (excl_all one (mkXst [] next x) left right) as [os s] eqn:E. inversion H; subst. clear H.
    assert (V : vis_ok next (mkXst [] next x)).
    { split; [simpl; lia|]. split; simpl; unfold visited_id; simpl; discriminate. }
    destruct (excl_all_spec _ _ V E) as (A & B & C & D & (W0 & W1 & W2) & _ & Y). cbn [xs_ctx] in *.
    assert (L : forall o, In o outs -> next <= xo_excl o < xs_next s) by (intros o I; apply (W1 (xo_left o)); auto).
    split; [auto|split; [auto|split; [auto|split]]].
    - intros g a I. rewrite A in I. apply in_app_iff in I as [I|I]; [apply Fr in I; lia|].
      apply out_log_In in I as (o & I & <- & _). apply L; auto.
    - intros fs S. unfold px_conflict. rewrite !(C20_exclusion _ S), A. split.
      + intros (g & a & b & N & Ia & Ib & Fa & Fb). apply in_app_iff in Ia. apply in_app_iff in Ib.
        rewrite !out_log_In in *. destruct Ia as [Ia|(o & Ia & Ea & Oa)]; destruct Ib as [Ib|(o' & Ib & Eb & Ob)].
        * left. exists g, a, b. auto.
        * apply Fr in Ia. apply L in Ib. lia.
        * apply Fr in Ib. apply L in Ia. lia.
        * right. exists o, o', a, b. repeat (split; [auto|]). apply (W2 _ _ g); rewrite Y by auto; congruence.
      + intros [(g & a & b & N & Ia & Ib & Fa & Fb)|(o & o' & a & b & I & I' & Ea & Eb & N & Fa & Fb & El)].
        * exists g, a, b. rewrite !in_app_iff. auto.
        * exists (xo_excl o), a, b. rewrite !in_app_iff, !out_log_In. repeat split; auto; right; [eauto|].
          exists o'. repeat split; auto. pose proof (Y _ I) as Y1. pose proof (Y _ I') as Y2. rewrite El in Y1. congruence.
  Qed.

  (** Several iterations, if no left tuple comes up in two of them. *)
  Theorem C87_rounds_partial : forall right lefts next (x : pctx) outs n y, fresh_ctx next x ->
    (forall i j l l' e e', nth_error lefts i = Some l -> nth_error lefts j = Some l' -> In e l -> In e' l' -> fst e = fst e' -> i = j) ->
    excl_rounds one next x lefts right = (outs, n, y) ->
    map (fun o => (xo_left o, xo_right o, xo_ltag o)) outs = flat_map (fun e => map (fun r => (fst e, r, snd e)) right) (concat lefts) /\
    map xo_fact outs = map Some (seq (length (px_probs x)) (length outs)) /\
    (forall fs, nsorted fs ->
      (px_conflict y fs = true <->
       px_conflict x fs = true \/
       exists o o' a b, In o outs /\ In o' outs /\ xo_fact o = Some a /\ xo_fact o' = Some b /\ a <> b /\ In a fs /\ In b fs /\
         xo_left o = xo_left o')).
  Proof.
    intros right. induction lefts as [|l lefts IH]; intros next x outs n y Fr Dj H.
    - inversion H; subst. simpl. repeat split; auto. intros [?|(o & _ & _ & _ & [] & _)]; auto.
    - cbn [excl_rounds] in H. destruct (excl_eval one next x l right) as [[o1 n1] y1] eqn:E1.
      destruct (excl_rounds one n1 y1 lefts right) as [[o2 n2] y2] eqn:E2. inversion H; subst. clear H.
      destruct (@C87_heads _ _ _ _ _ _ _ Fr E1) as (A & B & C & D & K).
      assert (Q : length (px_probs y1) = length (px_probs x) + length o1).
      { unfold excl_eval in E1. destruct (excl_all one (mkXst [] next x) l right) as [os s] eqn:E. inversion E1; subst.
        destruct (@excl_all_spec right l (mkXst [] next x) next o1 s) as (_ & _ & _ & Hp & _); auto.
        split; [simpl; lia|]. split; simpl; unfold visited_id; simpl; discriminate. }
      destruct (IH n1 y1 o2 n y D) as (A' & B' & K'); [|exact E2|].
      { intros i j l1 l2 e e' I1 I2 J1 J2 Q'. assert (S i = S j) by (eapply (Dj (S i) (S j)); eauto). lia. }
      split; [simpl; rewrite flat_map_app, map_app, A, A'; auto|].
      split; [rewrite map_app, B, B', Q, <- map_app, app_length, seq_app; auto|].
      assert (In1 : forall o, In o o1 -> exists e, In e l /\ fst e = xo_left o).
      { intros o I. apply (in_map (fun o => (xo_left o, xo_right o, xo_ltag o))) in I. rewrite A in I.
        apply in_flat_map in I as (e & I & J). apply in_map_iff in J as (r & J & _). inversion J. eauto. }
      assert (In2 : forall o, In o o2 -> exists l' e, In l' lefts /\ In e l' /\ fst e = xo_left o).
      { intros o I. apply (in_map (fun o => (xo_left o, xo_right o, xo_ltag o))) in I. rewrite A' in I.
        apply in_flat_map in I as (e & I & J). apply in_concat in I as (l' & I' & I). apply in_map_iff in J as (r & J & _). inversion J. eauto. }
      intros fs Sf. rewrite (K' _ Sf), (K _ Sf). split.
      + intros [[H|(o & o' & a & b & I & I' & R)]|(o & o' & a & b & I & I' & R)]; auto; right; exists o, o', a, b; rewrite !in_app_iff; tauto.
      + intros [H|(o & o' & a & b & I & I' & Ea & Eb & N & Fsa & Fsb & El)]; auto.
        apply in_app_iff in I. apply in_app_iff in I'. destruct I as [I|I]; destruct I' as [I'|I'].
        * left. right. exists o, o', a, b. tauto.
        * exfalso. destruct (In1 _ I) as (e & He & Ee). destruct (In2 _ I') as (l' & e' & Hl & He' & Ee').
          apply In_nth_error in Hl as (j & Hl). assert (0 = S j) by (eapply (Dj 0 (S j) l l' e e'); simpl; auto; congruence). lia.
        * exfalso. destruct (In1 _ I') as (e & He & Ee). destruct (In2 _ I) as (l' & e' & Hl & He' & Ee').
          apply In_nth_error in Hl as (j & Hl). assert (0 = S j) by (eapply (Dj 0 (S j) l l' e e'); simpl; auto; congruence). lia.
        * right. exists o, o', a, b. tauto.
  Qed.
End Tagging.

(** ** Examples: [rel 0 = {0.3::a; 0.7::b}, rel 1 = {c; d}, 0.5::e] of relation 0 *)
Definition x_val (n : nat) : value := USize (Z.of_nat n).
Definition x_tup (n : nat) : tuple := TVal (x_val n).
Definition x_prog : bprog Z :=
  mkBprog [mkBfact 0 (IFloat 5%Z) [x_val 4]]
    [[mkBfact 0 (IFloat 3%Z) [x_val 0]; mkBfact 0 (IFloat 7%Z) [x_val 1]]; [mkBfact 1 INone [x_val 2]; mkBfact 1 INone [x_val 3]]].
Example C87_program_ex :
  uniform (bp_disj x_prog) /\ (forall s, In s (declared x_prog) -> plain_tag (bf_tag (snd s))) /\
  exists y, program_tags 10%Z px_new x_prog [0; 1] = Some ([Some 0; Some 1; Some 2; Some 3; Some 4], y) /\
    px_conflict y [1; 2] = true /\ px_conflict y [3; 4] = true /\ px_conflict y [0; 1; 3] = false.
Proof.
  split; [|split].
  - intros d f f' I J K. simpl in I. repeat destruct I as [<-|I]; try tauto; simpl in J, K;
      repeat destruct J as [<-|J]; repeat destruct K as [<-|K]; try tauto; reflexivity.
  - intros s I. simpl in I. repeat destruct I as [<-|I]; simpl; tauto.
  - exists (mkPctx [5; 3; 7; 10; 10]%Z [(0, 1); (0, 2); (1, 3); (1, 4)]). repeat split.
Qed.
Example C87_program_assert_ex : program_tags 10%Z px_new (mkBprog [] [[mkBfact 0 INone [x_val 0]]]) [0] = None.
Proof. reflexivity. Qed.
Example C87_database_ex : exists y,
  tag_all px_new (db_adds 0 [AddIndependent [5%Z]; AddExclusive [3%Z; 7%Z]; AddExclusive [2%Z; 8%Z]]) = ([Some 0; Some 1; Some 2; Some 3; Some 4], y) /\
  px_conflict y [1; 2] = true /\ px_conflict y [3; 4] = true /\ px_conflict y [0; 1; 3] = false.
Proof. exists (mkPctx [5; 3; 7; 2; 8]%Z [(0, 1); (0, 2); (1, 3); (1, 4)]). repeat split. Qed.
Example C87_heads_ex : exists outs y,
  fresh_ctx 0 (@px_new Z) /\
  excl_eval 10%Z 0 px_new [(x_tup 1, [[]]); (x_tup 2, [[]])] [x_tup 7; x_tup 8] = (outs, 2, y) /\
  map xo_fact outs = [Some 0; Some 1; Some 2; Some 3] /\ px_conflict y [0; 1] = true /\ px_conflict y [1; 2] = false.
Proof.
  exists [mkXout (x_tup 1) (x_tup 7) [[]] 0 (Some 0); mkXout (x_tup 1) (x_tup 8) [[]] 0 (Some 1);
          mkXout (x_tup 2) (x_tup 7) [[]] 1 (Some 2); mkXout (x_tup 2) (x_tup 8) [[]] 1 (Some 3)],
    (mkPctx [10; 10; 10; 10]%Z [(0, 0); (0, 1); (1, 2); (1, 3)]).
  split; [intros g a []|]. repeat split.
Qed.

Example C87_rounds_ex : exists outs y,
  fresh_ctx 0 (@px_new Z) /\
  (let lefts := [[(x_tup 1, [[]]); (x_tup 1, [[5]])]; []; [(x_tup 2, [[]])]] in
   (forall i j l l' e e', nth_error lefts i = Some l -> nth_error lefts j = Some l' -> In e l -> In e' l' -> fst e = fst e' -> i = j) /\
   excl_rounds 10%Z 0 px_new lefts [x_tup 7] = (outs, 2, y)) /\
  map xo_fact outs = [Some 0; Some 1; Some 2] /\ px_conflict y [0; 1] = true /\ px_conflict y [1; 2] = false.
Proof.
  exists [mkXout (x_tup 1) (x_tup 7) [[]] 0 (Some 0); mkXout (x_tup 1) (x_tup 7) [[5]] 0 (Some 1);
          mkXout (x_tup 2) (x_tup 7) [[]] 1 (Some 2)],
    (mkPctx [10; 10; 10]%Z [(0, 0); (0, 1); (1, 2)]).
  split; [intros g a []|]. split; [|repeat split]. split; [|reflexivity].
  intros [|[|[|i]]] [|[|[|j]]] l l' e e' H1 H2 I1 I2 E; simpl in H1, H2;
    try (destruct i; discriminate); try (destruct j; discriminate); auto;
    inversion H1; inversion H2; subst; simpl in I1, I2; try tauto;
    repeat destruct I1 as [<-|I1]; repeat destruct I2 as [<-|I2]; try tauto; discriminate.
Qed.

(** ** Refutations *)
(** The numbers of the program's disjunctions and those of the disjunctive heads both start at 0:
    an outcome of a head excludes the facts of an unrelated disjunction, and the conjunction of the
    two loses its proof. *)
Theorem C87_sources_refuted : exists (p : bprog Z) os x outs n y o b,
  uniform (bp_disj p) /\ (forall s, In s (declared p) -> plain_tag (bf_tag (snd s))) /\
  program_tags 10%Z px_new p [0] = Some (os, x) /\ os = [Some 0; Some 1] /\
  excl_eval 10%Z 0 x [(x_tup 1, [[]])] [x_tup 7; x_tup 8] = (outs, n, y) /\
  In o outs /\ xo_fact o = Some b /\ ~ In b [0; 1] /\
  px_conflict y [0; b] = true /\ proofs_mult (px_conflict y) [[0]] (out_tag y o) = [] /\ out_tag y o = [[b]].
Proof.
  exists (mkBprog [] [[mkBfact 0 (IFloat 3%Z) [x_val 0]; mkBfact 0 (IFloat 7%Z) [x_val 1]]]), [Some 0; Some 1],
    (mkPctx [3; 7]%Z [(0, 0); (0, 1)]),
    [mkXout (x_tup 1) (x_tup 7) [[]] 0 (Some 2); mkXout (x_tup 1) (x_tup 8) [[]] 0 (Some 3)], 1,
    (mkPctx [3; 7; 10; 10]%Z [(0, 0); (0, 1); (0, 2); (0, 3)]), (mkXout (x_tup 1) (x_tup 7) [[]] 0 (Some 2)), 2.
  split; [intros d f f' I J K; simpl in I; destruct I as [<-|[]]; simpl in J, K;
      repeat destruct J as [<-|J]; repeat destruct K as [<-|K]; try tauto; reflexivity|].
  split; [intros s I; simpl in I; repeat destruct I as [<-|I]; simpl; tauto|].
  repeat split; try (vm_compute; reflexivity); simpl; auto; lia.
Qed.

(** So do the numbers of a program and of exclusive facts added to the database. *)
Theorem C87_mixed_refuted : exists (p : bprog Z) os x os' y a b,
  program_tags 10%Z px_new p [0] = Some (os, x) /\ tag_all x (db_adds 0 [AddExclusive [2%Z; 8%Z]]) = (os', y) /\
  In (Some a) os /\ In (Some b) os' /\ ~ In (Some b) os /\ px_conflict x [a; b] = false /\ px_conflict y [a; b] = true.
Proof.
  exists (mkBprog [] [[mkBfact 0 (IFloat 3%Z) [x_val 0]; mkBfact 0 (IFloat 7%Z) [x_val 1]]]), [Some 0; Some 1],
    (mkPctx [3; 7]%Z [(0, 0); (0, 1)]), [Some 2; Some 3], (mkPctx [3; 7; 2; 8]%Z [(0, 0); (0, 1); (0, 2); (0, 3)]), 0, 2.
  repeat split; try (vm_compute; reflexivity); simpl; auto.
  intros H. repeat destruct H as [H|H]; try discriminate; auto.
Qed.

(** A left tuple that is recent in two iterations gets two numbers: its outcomes of different
    iterations do not exclude each other. *)
Theorem C87_rounds_refuted : exists outs y o o' a b,
  excl_rounds 10%Z 0 (@px_new Z) [[(x_tup 1, [[5]])]; [(x_tup 1, [[5]; [6]])]] [x_tup 7; x_tup 8] = (outs, 2, y) /\
  In o outs /\ In o' outs /\ xo_left o = xo_left o' /\ xo_right o <> xo_right o' /\
  xo_fact o = Some a /\ xo_fact o' = Some b /\ a < b /\ px_conflict y [a; b] = false.
Proof.
  exists [mkXout (x_tup 1) (x_tup 7) [[5]] 0 (Some 0); mkXout (x_tup 1) (x_tup 8) [[5]] 0 (Some 1);
          mkXout (x_tup 1) (x_tup 7) [[5]; [6]] 1 (Some 2); mkXout (x_tup 1) (x_tup 8) [[5]; [6]] 1 (Some 3)],
    (mkPctx [10; 10; 10; 10]%Z [(0, 0); (0, 1); (1, 2); (1, 3)]),
    (mkXout (x_tup 1) (x_tup 7) [[5]] 0 (Some 0)), (mkXout (x_tup 1) (x_tup 8) [[5]; [6]] 1 (Some 3)), 0, 3.
  repeat split; try (vm_compute; reflexivity); simpl; auto. discriminate.
Qed.

(** Facts of a disjunction with tags that are not probabilities lose the exclusion. *)
Theorem C87_tag_refuted : exists (p : bprog Z) os y,
  uniform (bp_disj p) /\ bp_facts p = [] /\ (exists d, bp_disj p = [d] /\ forall f, In f d -> bf_tag f = IBool true) /\
  program_tags 10%Z px_new p [0] = Some (os, y) /\ (forall o, In o os -> o = None) /\ px_hist y = [].
Proof.
  exists (mkBprog [] [[mkBfact 0 (IBool true) [x_val 0]; mkBfact 0 (IBool true) [x_val 1]]]), [None; None], px_new.
  split; [intros d f f' I J K; simpl in I; destruct I as [<-|[]]; simpl in J, K;
      repeat destruct J as [<-|J]; repeat destruct K as [<-|K]; try tauto; reflexivity|].
  split; auto. split; [eexists; split; [reflexivity|]; intros f I; simpl in I; repeat destruct I as [<-|I]; tauto|].
  split; [reflexivity|]. split; auto. intros o I. simpl in I. tauto || (repeat destruct I as [<-|I]; auto; destruct I).
Qed.

Print Assumptions C87_program.
Print Assumptions C87_program_assert.
Print Assumptions C87_database.
Print Assumptions C87_heads.
Print Assumptions C87_rounds_partial.
Print Assumptions C87_sources_refuted.
Print Assumptions C87_mixed_refuted.
Print Assumptions C87_rounds_refuted.
Print Assumptions C87_tag_refuted.
