(** C42: relations reported as unchanged between two programs. *)
From Coq Require Import List ZArith Bool Arith Lia.
From Verif Require Import Order Value Prov ProvInst SortedCol Dataflow View Denote Back Eval Ram
  Scc SccFacts PropsExpr Dedup PropsDedup Increm.
Import ListNotations.

(** What a program computes: the facts of its relations, closed under the updates. *)
Definition rp_fact {P : Prov} (p : rprog) (r : nat) (e : elem P) : Prop :=
  exists rel t, In rel (rp_rels p) /\ rr_name rel = r /\ In t (rr_facts rel) /\ e = (t, pone P).
Definition rp_model {P : Prov} (L : lenv P) (p : rprog) (r : nat) (e : elem P) : Prop :=
  derivable (fun _ => None) (lrules L (rp_updates p)) (rp_fact p) r e.

(** *** What holds: the reported relations have the same facts and updates *)
Lemma rrel_TOrder : TOrder rrel_cmp.
Proof.
  pose proof (lex_TOrder tcmp_TOrder) as O. constructor.
  - intros [n f] [m g]. unfold rrel_cmp; cbn. destruct (Nat.compare_spec n m) as [->|H|H].
    + rewrite (to_eq O). split; congruence.
    + split; [discriminate|]. intros Q; injection Q; lia.
    + split; [discriminate|]. intros Q; injection Q; lia.
  - intros [n f] [m g]. unfold rrel_cmp; cbn. rewrite (Nat.compare_antisym n m).
    destruct (Nat.compare n m); cbn; auto. apply (to_opp O).
  - intros [n f] [m g] [k h]. unfold rrel_cmp; cbn.
    destruct (Nat.compare_spec n m) as [->|H|H]; try discriminate;
      destruct (Nat.compare_spec m k) as [->|H'|H']; try discriminate; intros A B.
    + eapply (to_trans O); eauto.
    + auto.
    + rewrite (proj2 (Nat.compare_lt_iff n k)) by lia. auto.
    + rewrite (proj2 (Nat.compare_lt_iff n k)) by lia. auto.
Qed.
Lemma upd_incl_spec : forall l m, upd_incl l m = true <-> incl l m.
Proof.
  intros l m. unfold upd_incl. rewrite forallb_forall. split; intros H u Hu; specialize (H u Hu).
  - destruct (in_dec upd_eq_dec u m); [auto|discriminate].
  - destruct (in_dec upd_eq_dec u m); auto.
Qed.

(** A program without recursion whose rules all read some relation. *)
Record simple (p : rprog) : Prop := {
  si_names : NoDup (rp_names p);
  si_known : known p = true;
  si_comps : forall x y, In x (rp_names p) -> In y (rp_names p) ->
    comp_index (rp_sccs p) x = comp_index (rp_sccs p) y -> x = y;
  si_self : forall u, In u (rp_updates p) -> ~ In (fst u) (deps (snd u));
  si_deps : forall u, In u (rp_updates p) -> deps (snd u) <> [] }.

Lemma known_spec : forall p u, known p = true -> In u (rp_updates p) ->
  In (fst u) (rp_names p) /\ forall s, In s (deps (snd u)) -> In s (rp_names p).
Proof.
  intros p u K H. unfold known in K. rewrite forallb_forall in K. specialize (K u H). apply andb_prop in K. destruct K as [K1 K2].
  rewrite forallb_forall in K2. split; [apply memb_In; auto|]. intros s Hs. apply memb_In, K2, Hs.
Qed.

Lemma edges_spec : forall p s t, (exists k, In (s, t, k) (rp_edges p)) <->
  exists u, In u (rp_updates p) /\ fst u = t /\ In s (deps (snd u)).
Proof.
  intros p s t. unfold rp_edges.
  set (same := fun (f e : edge) => Nat.eqb (fst (fst f)) (fst (fst e)) && Nat.eqb (snd (fst f)) (snd (fst e))).
  assert (G : forall es acc, (exists k, In (s, t, k) (fold_left (fun acc e => if existsb (fun f => same f e) acc then acc else acc ++ [e]) es acc)) <->
     (exists k, In (s, t, k) acc) \/ exists k, In (s, t, k) es).
  { induction es as [|[[s' t'] k'] es IH]; intros acc; cbn [fold_left].
    - split; [auto|]. intros [H|(k & [])]; auto.
    - rewrite IH. destruct (existsb (fun f => same f (s', t', k')) acc) eqn:E.
      + split; [intros [H|(k & H)]; [auto|right; exists k; right; auto]|].
        intros [H|(k & [Q|H])]; [auto| |right; eauto]. injection Q as -> -> ->. left.
        apply existsb_exists in E. destruct E as ([[a b] c] & Hf & E). unfold same in E; cbn in E.
        apply andb_prop in E. destruct E as [E1 E2]. apply Nat.eqb_eq in E1, E2. subst. eauto.
      + split.
        * intros [(k & H)|(k & H)]; [|right; exists k; right; auto]. apply in_app_or in H. destruct H as [H|[H|[]]]; [eauto|].
          right. exists k. left. auto.
        * intros [(k & H)|(k & [Q|H])]; [left; exists k; apply in_or_app; auto| |right; eauto].
          left. exists k. apply in_or_app. right. left. auto. }
  unfold same in G. rewrite G. split.
  - intros [(k & [])|(k & H)]. apply in_flat_map in H. destruct H as (u & Hu & H). apply in_map_iff in H.
    destruct H as (s' & Q & Hs). injection Q as -> Q2 _. exists u. auto.
  - intros (u & Hu & <- & Hs). right. exists EPos. apply in_flat_map. exists u. split; auto. apply in_map_iff. exists s. auto.
Qed.

Lemma cond_edges_In : forall g cs i j, In (i, j) (cond_edges g cs) <->
  i <> j /\ exists s t k, In (s, t, k) (g_edges g) /\ comp_index cs s = i /\ comp_index cs t = j.
Proof.
  intros g cs i j. unfold cond_edges.
  assert (U : forall l e f, In e (update_edge l f) <-> In e l \/ e = f).
  { intros l e f. unfold update_edge. destruct (cmem f l) eqn:C.
    - split; [auto|]. intros [H| ->]; auto. unfold cmem in C. apply existsb_exists in C. destruct C as ([a b] & Hx & C).
      apply andb_prop in C. destruct C as [C1 C2]. apply Nat.eqb_eq in C1, C2. destruct f as [x y]; cbn in *; subst. auto.
    - rewrite in_app_iff. cbn. intuition. }
  assert (G : forall (es : list edge) (acc : list (nat * nat)), In (i, j) (fold_left (fun acc e => match e with (s, d, _) =>
      let i := comp_index cs s in let j := comp_index cs d in
      if Nat.eqb i j then acc else update_edge acc (i, j) end) es acc) <->
      In (i, j) acc \/ i <> j /\ exists s t k, In (s, t, k) es /\ comp_index cs s = i /\ comp_index cs t = j).
  { induction es as [|[[s t] k] es IH]; intros acc; cbn [fold_left].
    - split; [auto|]. intros [H|(_ & s & t & k & [] & _)]; auto.
    - rewrite IH. cbn zeta. destruct (Nat.eqb_spec (comp_index cs s) (comp_index cs t)) as [E|E].
      + split; (intros [H|(N & s' & t' & k' & H & Q)]; [auto|]).
        * right. split; auto. exists s', t', k'. split; [right; auto|auto].
        * destruct H as [H|H]; [injection H as -> -> ->; exfalso; apply N; destruct Q; congruence|].
          right. split; auto. exists s', t', k'. auto.
      + rewrite U. split.
        * intros [[H|H]|(N & s' & t' & k' & H & Q)]; [auto| |].
          { injection H as -> ->. right. split; auto. exists s, t, k. split; [left; auto|auto]. }
          { right. split; auto. exists s', t', k'. split; [right; auto|auto]. }
        * intros [H|(N & s' & t' & k' & [H|H] & Q)]; [auto| |].
          { injection H as -> -> ->. destruct Q as [<- <-]. auto. }
          { right. split; auto. exists s', t', k'. auto. } }
  rewrite G. cbn. intuition.
Qed.

Lemma ins_In : forall ce j i, In i (ins ce j) <-> In (i, j) ce.
Proof.
  intros ce j i. unfold ins. rewrite in_flat_map. split.
  - intros ([a b] & H & Q). rewrite <- in_rev in H. cbn in Q. destruct (Nat.eqb_spec b j) as [->|]; [|destruct Q].
    destruct Q as [<-|[]]. exact H.
  - intros H. exists (i, j). split; [rewrite <- in_rev; auto|]. cbn. rewrite Nat.eqb_refl. left; auto.
Qed.

Lemma incoming_spec : forall p t u, simple p -> In t (rp_names p) ->
  (In u (incoming p (comp_index (rp_sccs p) t)) <-> In u (rp_updates p) /\ fst u = t).
Proof.
  intros p t u S Ht. unfold incoming. rewrite in_flat_map.
  assert (Ends : forall s t' k, In (s, t', k) (rp_edges p) -> In s (rp_names p) /\ In t' (rp_names p)).
  { intros s t' k H. destruct (proj1 (edges_spec p s t') (ex_intro _ k H)) as (v & Hv & <- & Hs).
    destruct (known_spec _ _ (si_known _ S) Hv) as [A B]. auto. }
  assert (CW : forall i, In i (map (comp_index (rp_sccs p)) (rp_names p)) -> forall s, In s (rp_names p) -> comp_index (rp_sccs p) s = i ->
     (exists k, In (s, t, k) (rp_edges p)) -> cweight p (rp_sccs p) i (comp_index (rp_sccs p) t) = eweight p s t).
  { intros i _ s Hs Es (k & Hk). unfold cweight.
    assert (G : forall es acc, (forall e, In e es -> In e (rp_edges p)) -> (acc = eweight p s t \/ exists k, In (s, t, k) es) ->
       fold_left (fun acc e => match e with (s, t0, _) =>
         if Nat.eqb (comp_index (rp_sccs p) s) i && Nat.eqb (comp_index (rp_sccs p) t0) (comp_index (rp_sccs p) t) then eweight p s t0 else acc end) es acc = eweight p s t).
    { induction es as [|[[s' t'] k'] es IH]; intros acc I H; cbn [fold_left].
      - destruct H as [H|(k0 & [])]; auto.
      - apply IH; [intros e He; apply I; right; auto|].
        destruct (Ends s' t' k' (I _ (or_introl eq_refl))) as [N1 N2].
        destruct (Nat.eqb_spec (comp_index (rp_sccs p) s') i) as [E1|E1]; cbn [andb].
        + destruct (Nat.eqb_spec (comp_index (rp_sccs p) t') (comp_index (rp_sccs p) t)) as [E2|E2].
          * left. assert (s' = s) by (apply (si_comps _ S); [auto|auto|congruence]). assert (t' = t) by (apply (si_comps _ S); auto). congruence.
          * destruct H as [H|(k0 & [Q|H])]; [auto|injection Q as -> -> ->; congruence|right; eauto].
        + destruct H as [H|(k0 & [Q|H])]; [auto|injection Q as -> -> ->; congruence|right; eauto]. }
    apply G; [auto|right; eauto]. }
  split.
  - intros (i & Hi & Hu). apply ins_In in Hi. unfold rp_cond in Hi. apply cond_edges_In in Hi.
    destruct Hi as (N & s & t' & k & H & Es & Et). cbn in H. destruct (Ends _ _ _ H) as [N1 N2].
    assert (t' = t) by (apply (si_comps _ S); auto). subst t'.
    rewrite (CW i) with (s := s) in Hu; eauto; [|apply in_map_iff; eauto].
    unfold eweight in Hu. apply filter_In in Hu. destruct Hu as [Hu Q]. apply andb_prop in Q. destruct Q as [Q _].
    apply Nat.eqb_eq in Q. auto.
  - intros [Hu Ft]. destruct (deps (snd u)) as [|s ds] eqn:D; [destruct (si_deps _ S u Hu D)|].
    assert (Hs : In s (deps (snd u))) by (rewrite D; left; auto).
    destruct (known_spec _ _ (si_known _ S) Hu) as [A B].
    assert (Ex : exists k, In (s, t, k) (rp_edges p)) by (apply edges_spec; eauto).
    exists (comp_index (rp_sccs p) s). split.
    + apply ins_In. unfold rp_cond. apply cond_edges_In. split.
      * intros E. apply (si_self _ S u Hu). rewrite Ft. replace t with s; auto. apply (si_comps _ S); auto.
      * destruct Ex as (k & Hk). exists s, t, k. auto.
    + rewrite (CW _) with (s := s); auto; [|apply in_map_iff; eauto]. unfold eweight. apply filter_In. split; auto.
      rewrite Ft, Nat.eqb_refl. apply memb_In. auto.
Qed.

(** The two programs agree on [r]. *)
Definition agree (p1 p2 : rprog) (r : nat) : Prop :=
  (forall rel, rr_name rel = r -> (In rel (rp_rels p1) <-> In rel (rp_rels p2))) /\
  (forall d, In (r, d) (rp_updates p1) <-> In (r, d) (rp_updates p2)).

Lemma names_unique : forall p a b, NoDup (rp_names p) -> In a (rp_rels p) -> In b (rp_rels p) -> rr_name a = rr_name b -> a = b.
Proof.
  intros p a b N. unfold rp_names in N. induction (rp_rels p) as [|c l IH]; intros Ha Hb E; [destruct Ha|].
  cbn in N. inversion N as [|? ? Nc N']; subst.
  destruct Ha as [->|Ha], Hb as [->|Hb]; auto; exfalso; apply Nc; apply in_map_iff; eauto.
Qed.

Lemma persist_loop_agree : forall fuel p1 p2 need f1 v1 f2 v2 can can', simple p1 -> simple p2 ->
  (forall r, In r can -> agree p1 p2 r) -> persist_loop fuel p1 p2 need f1 v1 f2 v2 can = Some can' ->
  forall r, In r can' -> agree p1 p2 r.
Proof.
  induction fuel as [|fuel IH]; intros p1 p2 need f1 v1 f2 v2 can can' S1 S2 A H.
  - cbn [persist_loop] in H. destruct (pop_first p1 f1) as [[n1 g1]|]; [destruct (pop_first p2 f2) as [[n2 g2]|]|]; try discriminate; injection H as <-; auto.
  - cbn [persist_loop] in H. destruct (pop_first p1 f1) as [[n1 g1]|]; [|injection H as <-; auto].
    destruct (pop_first p2 f2) as [[n2 g2]|]; [|injection H as <-; auto].
    destruct (lex rrel_cmp (comp_rels p1 n1) (comp_rels p2 n2)) eqn:C; [|eauto|eauto].
    destruct (same_updates (incoming p1 n1) (incoming p2 n2)) eqn:U; [|eauto].
    destruct (existsb (fun r => memb (rr_name r) need) (comp_rels p1 n1)); [eauto|].
    apply (to_eq (lex_TOrder rrel_TOrder)) in C. eapply IH; [exact S1|exact S2| |exact H].
    intros r Hr. apply in_app_or in Hr. destruct Hr as [Hr|Hr]; auto.
    apply in_map_iff in Hr. destruct Hr as (rel & <- & Hrel).
    pose proof Hrel as Hrel2. rewrite C in Hrel2. unfold comp_rels in Hrel, Hrel2.
    apply filter_In in Hrel, Hrel2. destruct Hrel as [R1 E1], Hrel2 as [R2 E2]. apply Nat.eqb_eq in E1, E2.
    assert (N1 : In (rr_name rel) (rp_names p1)) by (apply in_map; auto).
    assert (N2 : In (rr_name rel) (rp_names p2)) by (apply in_map; auto).
    split.
    + intros rel' E'. split; intros H'.
      * replace rel' with rel; auto. apply (names_unique p1); auto. apply (si_names _ S1).
      * replace rel' with rel; auto. apply (names_unique p2); auto. apply (si_names _ S2).
    + unfold same_updates in U. apply andb_prop in U. destruct U as [U1 U2]. apply upd_incl_spec in U1, U2.
      intros d. subst n1 n2. split; intros Hd.
      * assert (Q : In (rr_name rel, d) (incoming p1 (comp_index (rp_sccs p1) (rr_name rel)))) by (apply incoming_spec; auto).
        apply U1 in Q. apply incoming_spec in Q; auto. apply Q.
      * assert (Q : In (rr_name rel, d) (incoming p2 (comp_index (rp_sccs p2) (rr_name rel)))) by (apply incoming_spec; auto).
        apply U2 in Q. apply incoming_spec in Q; auto. apply Q.
Qed.

Section DenExt.
  Context {P : Prov} (L : lenv P).
  Lemma den_names : forall d st (I J : nat -> elem P -> Prop),
    (forall r, In r (collect d) -> forall e, I r e <-> J r e) ->
    forall e, den (fun _ => None) st I (lower L d) e <-> den (fun _ => None) st J (lower L d) e.
  Proof.
    induction d; intros st I J E x; cbn [lower den collect] in *;
      try (rewrite (IHd st I J) by auto; tauto);
      try (assert (Sa : forall r, In r (collect d1) -> forall e, I r e <-> J r e) by (intros; apply E, in_or_app; auto);
           assert (Sb : forall r, In r (collect d2) -> forall e, I r e <-> J r e) by (intros; apply E, in_or_app; auto);
           pose proof (fun st => IHd1 st I J Sa) as A; pose proof (fun st => IHd2 st I J Sb) as B).
    - tauto.
    - tauto.
    - apply E. left; auto.
    - split; intros [(g & H) Q]; (split; [exists g|exact Q]); apply (IHd st I J); auto.
    - split; intros (t & H & Q); exists t; (split; [|exact Q]); apply (IHd st I J); auto.
    - split; intros (a & b & Ha & Hb & Q); exists a, b; (split; [apply A; auto|split; [apply B; auto|exact Q]]).
    - split; intros (t1 & t2 & a & b & k & u & v & Ha & Hb & Q); exists t1, t2, a, b, k, u, v;
        (split; [apply A; auto|split; [apply B; auto|exact Q]]).
    - split; intros (t1 & t2 & a & b & Ha & Hb & Q); exists t1, t2, a, b;
        (split; [apply A; auto|split; [apply B; auto|exact Q]]).
    - rewrite A, B. tauto.
    - split; (intros [(Ha & Hb)|(a & b & Ha & Hb & Q)]; [left; split; [apply A; auto|intros g H; apply (Hb g), B; auto]|
        right; exists a, b; split; [apply A; auto|split; [apply B; auto|exact Q]]]).
    - split; (intros [(Ha & Hb)|(k & a & b & K & Ha & Hb & Q)];
        [left; split; [apply A; auto|intros k g Hk H; apply (Hb k g Hk), B; auto]|
         right; exists k, a, b; split; [exact K|split; [apply A; auto|split; [apply B; auto|exact Q]]]]).
    - assert (Sd : forall r0, In r0 (collect d) -> forall e, I r0 e <-> J r0 e) by (intros; apply E, in_or_app; auto).
      split; intros (t & a & k & u & y & g & H & Q); exists t, a, k, u, y, g; (split; [|exact Q]); apply (IHd st I J); auto.
    - tauto.
    - split; intros (a & g & H & Q); exists a, g; (split; [|exact Q]); apply (IHd st I J); auto.
    - split; intros (t & a & u & g & H & Q); exists t, a, u, g; (split; [|exact Q]); apply (IHd st I J); auto.
    - tauto.
  Qed.
End DenExt.

(** C42, partial: for two programs without recursion in which every rule reads
    some relation, a reported relation has the same tuples at every stage if the
    relations it is computed from are reported as well. *)
Theorem C42_persistent_partial : forall (P : Prov) (L : lenv P) fuel p1 p2 need can, simple p1 -> simple p2 ->
  persistent fuel p1 p2 need = Some can ->
  (forall r d s, In r can -> In (r, d) (rp_updates p1) -> In s (deps d) -> In s can) ->
  forall r e, In r can -> (rp_model L p1 r e <-> rp_model L p2 r e).
Proof.
  intros P L fuel p1 p2 need can S1 S2 H Cl.
  assert (A : forall r, In r can -> agree p1 p2 r).
  { unfold persistent in H. destruct (known p1 && known p2); [|discriminate].
    eapply persist_loop_agree; eauto. intros r []. }
  assert (G : forall n r e, In r can ->
     (stage (fun _ => None) (lrules L (rp_updates p1)) (rp_fact p1) n r e <->
      stage (fun _ => None) (lrules L (rp_updates p2)) (rp_fact p2) n r e)).
  { induction n as [|n IH]; intros r e Hr; destruct (A r Hr) as [A1 A2].
    - cbn. split; intros (rel & t & R & <- & T & ->); exists rel, t; repeat split; auto; apply A1; auto.
    - cbn [stage]. rewrite (IH r e Hr).
      assert (D : forall d, In (r, d) (rp_updates p1) ->
        (den (fun _ => None) true (stage (fun _ => None) (lrules L (rp_updates p1)) (rp_fact p1) n) (lower L d) e <->
         den (fun _ => None) true (stage (fun _ => None) (lrules L (rp_updates p2)) (rp_fact p2) n) (lower L d) e)).
      { intros d Hd. apply den_names. intros s Hs x. apply IH. eapply Cl; eauto. apply nodup_In. exact Hs. }
      split; (intros [Q|(d & Hd & Q)]; [left; exact Q|right]; apply in_map_iff in Hd; destruct Hd as ((r' & d') & E & Hd);
        injection E as -> <-; cbn [snd fst] in *; exists (lower L d'); split).
      + apply in_map_iff. exists (r, d'). split; auto. apply A2; auto.
      + apply D; auto.
      + apply in_map_iff. exists (r, d'). split; auto. apply A2; auto.
      + apply D; auto. apply A2; auto. }
  intros r e Hr. split; intros (n & Q); exists n; apply (G n r e Hr); auto.
Qed.

(** A program of three relations, one of which gets a new fact: only the one that
    does not depend on it is reported. *)
Definition c42_a (z : Z) : rrel := mkRR 2 [TTup [TVal (I32 z)]].
Definition c42_c : rrel := mkRR 0 [TTup [TVal (I32 5)]].
Definition c42_p (z : Z) : rprog :=
  mkRP [c42_c; mkRR 1 []; c42_a z; mkRR 3 []] [(1, RRel 0); (3, RRel 2)].
Lemma simple_dec : forall p, NoDup (rp_names p) -> known p = true ->
  forallb (fun x => forallb (fun y => if Nat.eqb (comp_index (rp_sccs p) x) (comp_index (rp_sccs p) y) then Nat.eqb x y else true) (rp_names p)) (rp_names p) = true ->
  forallb (fun u => negb (memb (fst u) (deps (snd u))) && match deps (snd u) with [] => false | _ => true end) (rp_updates p) = true -> simple p.
Proof.
  intros p N K C U. constructor; auto.
  - intros x y Hx Hy E. rewrite forallb_forall in C. specialize (C x Hx). rewrite forallb_forall in C. specialize (C y Hy).
    rewrite E, Nat.eqb_refl in C. apply Nat.eqb_eq; auto.
  - intros u Hu M. rewrite forallb_forall in U. specialize (U u Hu). apply memb_In in M. rewrite M in U. discriminate.
  - intros u Hu M. rewrite forallb_forall in U. specialize (U u Hu). rewrite M, andb_false_r in U. discriminate.
Qed.
Ltac simple_tac := apply simple_dec; [repeat constructor; cbn; intuition discriminate|vm_compute; reflexivity..].
Example C42_ex : simple (c42_p 6) /\ simple (c42_p 7) /\ persistent 20 (c42_p 6) (c42_p 7) [] = Some [1; 0] /\
  (forall r d s, In r [1; 0] -> In (r, d) (rp_updates (c42_p 6)) -> In s (deps d) -> In s [1; 0]).
Proof.
  split; [simple_tac|]. split; [simple_tac|]. split; [vm_compute; reflexivity|].
  intros r d s Hr Hd Hs. cbn in Hr. destruct Hd as [Q|[Q|[]]]; injection Q as <- <-; cbn in Hs; cbn; intuition lia.
Qed.

(** *** What does not hold *)
Definition C42_claim (p1 p2 : rprog) : Prop :=
  forall fuel can, persistent fuel p1 p2 [] = Some can ->
  forall r (e : elem bool_prov), In r can -> (rp_model C26_dom p1 r e <-> rp_model C26_dom p2 r e).

(** All relations without incoming updates start as visited: [1] is computed from
    [0] and [2], and is reported although the facts of [2] differ. *)
Definition c42_s (z : Z) : rprog := mkRP [c42_c; mkRR 1 []; c42_a z] [(1, RRel 0); (1, RRel 2)].
Theorem C42_source_refuted : simple (c42_s 6) /\ simple (c42_s 7) /\ ~ C42_claim (c42_s 6) (c42_s 7).
Proof.
  split; [simple_tac|]. split; [simple_tac|]. intros H.
  assert (Q : persistent 20 (c42_s 6) (c42_s 7) [] = Some [1; 0]) by (vm_compute; reflexivity).
  set (e := (TTup [TVal (I32 6)], true) : elem bool_prov).
  assert (M : rp_model C26_dom (c42_s 6) 1 e).
  { assert (F : stage (fun _ => None) (lrules C26_dom (rp_updates (c42_s 6))) (rp_fact (c42_s 6)) 0 2 e).
    { exists (c42_a 6), (TTup [TVal (I32 6)]). cbn. auto 10. }
    exists 1. right. exists (lower C26_dom (RRel 2)). split; [cbn; auto|exact F]. }
  apply (H 20 _ Q) in M; [|left; auto]. destruct M as (n & M).
  assert (G : forall n r, ~ stage (fun _ => None) (lrules C26_dom (rp_updates (c42_s 7))) (rp_fact (c42_s 7)) n r e).
  { clear. induction n as [|n IH]; intros r.
    - intros (rel & t & R & _ & T & E). injection E as <-. cbn in R.
      repeat destruct R as [<-|R]; try destruct R; cbn in T; intuition congruence.
    - intros [F|(d & Hd & D)]; [exact (IH _ F)|]. cbn in Hd.
      destruct Hd as [Q|[Q|[]]]; injection Q as <- <-; exact (IH _ D). }
  exact (G _ _ M).
Qed.

(** With the relations that need an update given: the same program, [2] needs an
    update, and [3], computed from [2], is reported. *)
Theorem C42_need_refuted : simple (c42_p 6) /\
  exists can, persistent 20 (c42_p 6) (c42_p 6) [2] = Some can /\ In 3 can /\
  (forall r, r <> 2 -> agree (c42_p 6) (c42_p 7) r) /\
  exists e : elem bool_prov, rp_model C26_dom (c42_p 6) 3 e /\ ~ rp_model C26_dom (c42_p 7) 3 e.
Proof.
  split; [simple_tac|]. exists [3; 1; 0]. split; [vm_compute; reflexivity|]. split; [left; auto|]. split.
  - intros r N. split; [|tauto]. intros rel E. cbn. split; intros H; repeat destruct H as [<-|H]; auto; cbn in E; try (exfalso; congruence); destruct H.
  - set (e := (TTup [TVal (I32 6)], true) : elem bool_prov). exists e. split.
    + assert (F : stage (fun _ => None) (lrules C26_dom (rp_updates (c42_p 6))) (rp_fact (c42_p 6)) 0 2 e).
      { exists (c42_a 6), (TTup [TVal (I32 6)]). cbn. auto 10. }
      exists 1. right. exists (lower C26_dom (RRel 2)). split; [cbn; auto|exact F].
    + intros (n & M).
      assert (G : forall n r, ~ stage (fun _ => None) (lrules C26_dom (rp_updates (c42_p 7))) (rp_fact (c42_p 7)) n r e).
      { clear. induction n as [|n IH]; intros r.
        - intros (rel & t & R & _ & T & E). injection E as <-. cbn in R.
          repeat destruct R as [<-|R]; try destruct R; cbn in T; intuition congruence.
        - intros [F|(d & Hd & D)]; [exact (IH _ F)|]. cbn in Hd.
          destruct Hd as [Q|[Q|[]]]; injection Q as <- <-; exact (IH _ D). }
      exact (G _ _ M).
Qed.

(** Updates that only read their own component are not compared: a relation that
    reads nothing but itself is reported although its rule changed. *)
Definition c42_r (e : expr) : rprog := mkRP [mkRR 1 [TTup [TVal (I32 5)]]] [(1, RProject (RRel 1) e)].
Theorem C42_recursive_refuted : ~ C42_claim (c42_r (XTuple [XAccess (acc_index 0)])) (c42_r (XTuple [XConst (I32 9)])).
Proof.
  intros H. assert (Q : persistent 20 (c42_r (XTuple [XAccess (acc_index 0)])) (c42_r (XTuple [XConst (I32 9)])) [] = Some [1]) by (vm_compute; reflexivity).
  set (e := (TTup [TVal (I32 9)], true) : elem bool_prov).
  assert (M : rp_model C26_dom (c42_r (XTuple [XConst (I32 9)])) 1 e).
  { assert (F : stage (fun _ => None) (lrules C26_dom (rp_updates (c42_r (XTuple [XConst (I32 9)])))) (rp_fact (c42_r (XTuple [XConst (I32 9)]))) 0 1 (TTup [TVal (I32 5)], true)).
    { exists (mkRR 1 [TTup [TVal (I32 5)]]), (TTup [TVal (I32 5)]). cbn. auto 10. }
    exists 1. right. exists (lower C26_dom (RProject (RRel 1) (XTuple [XConst (I32 9)]))). split; [cbn; auto|].
    cbn [lower den]. exists (TTup [TVal (I32 5)]). split; [exact F|reflexivity]. }
  apply (H 20 _ Q) in M; [|left; auto]. destruct M as (n & M).
  assert (G : forall n t, stage (fun _ => None) (lrules C26_dom (rp_updates (c42_r (XTuple [XAccess (acc_index 0)])))) (rp_fact (c42_r (XTuple [XAccess (acc_index 0)]))) n 1 (t, true) -> t = TTup [TVal (I32 5)]).
  { clear. induction n as [|n IH]; intros t0.
    - intros (rel & t & R & _ & T & E). injection E as <-. cbn in R.
      destruct R as [<-|[]]. destruct T as [<-|[]]. reflexivity.
    - intros [F|(d & Hd & D)]; [exact (IH _ F)|]. destruct Hd as [Q|[]]; injection Q as <-.
      cbn [den] in D. destruct D as (t & F & E). cbn [fst snd] in *. apply IH in F. subst t. vm_compute in E. congruence. }
  apply G in M. discriminate M.
Qed.

(** An edge between two components overwrites an earlier one: [1] and [2] depend
    on each other and both on [0], the rule of [1] changed. *)
Definition c42_m (e : expr) : rprog :=
  mkRP [c42_c; mkRR 1 []; mkRR 2 []] [(1, RProject (RRel 0) e); (2, RRel 0); (1, RRel 2); (2, RRel 1)].
Theorem C42_parallel_refuted : ~ C42_claim (c42_m (XTuple [XAccess (acc_index 0)])) (c42_m (XTuple [XConst (I32 9)])).
Proof.
  intros H. assert (Q : persistent 20 (c42_m (XTuple [XAccess (acc_index 0)])) (c42_m (XTuple [XConst (I32 9)])) [] = Some [1; 2; 0]) by (vm_compute; reflexivity).
  set (e := (TTup [TVal (I32 9)], true) : elem bool_prov).
  assert (M : rp_model C26_dom (c42_m (XTuple [XConst (I32 9)])) 1 e).
  { assert (F : stage (fun _ => None) (lrules C26_dom (rp_updates (c42_m (XTuple [XConst (I32 9)])))) (rp_fact (c42_m (XTuple [XConst (I32 9)]))) 0 0 (TTup [TVal (I32 5)], true)).
    { exists c42_c, (TTup [TVal (I32 5)]). cbn. auto 10. }
    exists 1. right. exists (lower C26_dom (RProject (RRel 0) (XTuple [XConst (I32 9)]))). split; [cbn; auto|].
    cbn [lower den]. exists (TTup [TVal (I32 5)]). split; [exact F|reflexivity]. }
  apply (H 20 _ Q) in M; [|left; auto]. destruct M as (n & M).
  assert (G : forall n r t, stage (fun _ => None) (lrules C26_dom (rp_updates (c42_m (XTuple [XAccess (acc_index 0)])))) (rp_fact (c42_m (XTuple [XAccess (acc_index 0)]))) n r (t, true) -> t = TTup [TVal (I32 5)]).
  { clear. induction n as [|n IH]; intros r t0.
    - intros (rel & t & R & _ & T & E). injection E as <-. cbn in R.
      repeat destruct R as [<-|R]; try destruct R; cbn in T; intuition congruence.
    - intros [F|(d & Hd & D)]; [exact (IH _ _ F)|]. cbn in Hd.
      destruct Hd as [Q|[Q|[Q|[Q|[]]]]]; injection Q as <- <-; try exact (IH _ _ D).
      cbn [den] in D. destruct D as (t & F & E). cbn [fst snd] in *. apply IH in F. subst t. vm_compute in E. congruence. }
  apply G in M. discriminate M.
Qed.

(** A rule that reads no relation has no edge: the rule of [1] changed. *)
Definition c42_g (z : Z) : rprog := mkRP [mkRR 1 []] [(1, RVec [TTup [TVal (I32 z)]])].
Theorem C42_ground_refuted : ~ C42_claim (c42_g 1) (c42_g 2).
Proof.
  intros H. assert (Q : persistent 20 (c42_g 1) (c42_g 2) [] = Some [1]) by (vm_compute; reflexivity).
  set (e := (TTup [TVal (I32 1)], true) : elem bool_prov).
  assert (M : rp_model C26_dom (c42_g 1) 1 e).
  { exists 1. right. exists (lower C26_dom (RVec [TTup [TVal (I32 1)]])). split; [cbn; auto|]. vm_compute. auto. }
  apply (H 20 _ Q) in M; [|left; auto]. destruct M as (n & M).
  assert (G : forall n r t, stage (fun _ => None) (lrules C26_dom (rp_updates (c42_g 2))) (rp_fact (c42_g 2)) n r (t, true) -> t = TTup [TVal (I32 2)]).
  { clear. induction n as [|n IH]; intros r t0.
    - intros (rel & t & R & _ & T & E). cbn in R. destruct R as [<-|[]]. destruct T.
    - intros [F|(d & Hd & D)]; [exact (IH _ _ F)|]. cbn in Hd.
      destruct Hd as [Q|[]]; injection Q as <- <-. vm_compute in D. intuition congruence. }
  apply G in M. discriminate M.
Qed.

Print Assumptions C42_persistent_partial.
Print Assumptions C42_source_refuted.
Print Assumptions C42_need_refuted.
Print Assumptions C42_recursive_refuted.
Print Assumptions C42_parallel_refuted.
Print Assumptions C42_ground_refuted.
