(** C90: reading a relation gives its facts, any number of times, and changes nothing. *)
From Coq Require Import List ZArith Bool String Arith Lia Permutation.
From Verif Require Import Value Back Eval Prov Relation Iteration Cast Entity Utils Boundary Increm Exec Loading Results.
From Verif Require Import ProvInst PropsEval PropsUtils PropsLoading PropsExec PropsExec2.
Import ListNotations.
Set Implicit Arguments.

Section Props.
  Variable tag otag : Type.
  Variable rec_fn : tag -> otag.
  Variable syms : registry.
  Notation outcol := (outcol otag).
  Notation facts := (facts tag).
  Notation oread := (hread ([] : outcol)).
  Notation ocount := (hcount ([] : outcol)).
  Notation owf := (wf ([] : outcol)).
  Notation rctx := (rctx tag).
  Notation orel := (orel tag).
  Notation oheap := (oheap otag).
  Notation show_facts := (show_facts rec_fn syms).
  Notation show_fact := (show_fact rec_fn syms).
  Notation recover_rel := (recover_rel rec_fn syms).
  Notation recover := (recover rec_fn syms).
  Notation read := (read rec_fn syms).
  Notation read_mon := (read_mon rec_fn syms).
  Notation reads := (reads rec_fn syms).

  (** ** Specification *)
  (** A fact as the user sees it: the text of its symbols and the output tag. *)
  Definition seen (e : tuple * tag) (o : otag * tuple) : Prop :=
    fst o = rec_fn (snd e) /\ externalize_tuple syms (fst e) = EOk (snd o).
  Definition seen_all : facts -> outcol -> Prop := Forall2 seen.
  Definition showable (es : facts) : Prop := forall e, In e es -> exists t, externalize_tuple syms (fst e) = EOk t.

  (** Every relation has the facts [F] says: in the database of results, shown or not, or else as an input relation. *)
  Definition has_facts (F : nat -> option facts) (h : oheap) (c : rctx) : Prop :=
    forall r, match aget r (rc_idb c) with
              | Some o => exists es, F r = Some es /\
                  (if o_done o then seen_all es (oread h (o_ptr o)) else o_int o = es /\ oread h (o_ptr o) = [])
              | None => F r = aget r (rc_edb c)
              end.
  Definition ptrs (c : rctx) : list nat := map (fun x => o_ptr (snd x)) (rc_idb c).
  (** Collections that have not been filled are not shared. *)
  Definition unshared (h : oheap) (c : rctx) : Prop :=
    forall r o, aget r (rc_idb c) = Some o -> o_done o = false -> ocount h (o_ptr o) = 1.

  (** ** Showing *)
  Lemma show_ok : forall es l, show_facts es = EOk l <-> seen_all es l.
  Proof.
    induction es as [|e es IH]; intros l.
    - split; intros H; inversion H; constructor.
    - unfold Results.show_facts in *. simpl. unfold Results.show_fact at 1. split.
      + intros H. destruct (externalize_tuple syms (fst e)) as [t| |] eqn:E; simpl in H; try discriminate.
        destruct (emap show_fact es) as [l'| |] eqn:E2; simpl in H; try discriminate. inversion H; subst.
        constructor; [split; auto|]. apply IH. auto.
      + intros H. inversion H as [|? o ? l' [S1 S2] S3]; subst. rewrite S2. simpl. apply IH in S3. rewrite S3. simpl.
        destruct o; simpl in *; subst; auto.
  Qed.
  Lemma ext_not_none : forall t, externalize_tuple syms t <> ENone.
  Proof.
    induction t as [v|ts IH] using gtuple_ind'.
    - simpl. destruct v; simpl; try discriminate. destruct (get_symbol syms (Z.to_nat z)); discriminate.
    - simpl. assert (Q : emap (externalize_tuple syms) ts <> ENone).
      { induction IH as [|t ts Ht IH IHl]; simpl; [discriminate|]. destruct (externalize_tuple syms t); simpl; try discriminate; [|tauto].
        destruct (emap (externalize_tuple syms) ts); simpl; try discriminate. tauto. }
      destruct (emap (externalize_tuple syms) ts); simpl; try discriminate. tauto.
  Qed.
  Lemma show_cases : forall es, (exists l, show_facts es = EOk l /\ showable es) \/ (show_facts es = EPanic /\ ~ showable es).
  Proof.
    induction es as [|e es IH].
    - left. exists []. split; auto. intros e [].
    - unfold Results.show_facts in *. simpl. unfold Results.show_fact at 1 3. pose proof (ext_not_none (fst e)) as NN.
      destruct (externalize_tuple syms (fst e)) as [t| |] eqn:E; simpl.
      + destruct IH as [(l & -> & S1)|(-> & S1)]; simpl.
        * left. eexists. split; [reflexivity|]. intros x [<-|I]; eauto.
        * right. split; auto. intros S2. apply S1. intros x I. apply S2. right; auto.
      + tauto.
      + right. split; auto. intros S2. destruct (S2 e (or_introl eq_refl)) as [t T]. congruence.
  Qed.
  Lemma seen_fun : forall es l l', seen_all es l -> seen_all es l' -> l = l'.
  Proof. intros es l l' A B. apply show_ok in A. apply show_ok in B. congruence. Qed.

  (** ** Owners *)
  Lemma ptrs_aset : forall r (o o' : orel) l, aget r l = Some o -> o_ptr o' = o_ptr o ->
    map (fun x => o_ptr (snd x)) (aset r o' l) = map (fun x => o_ptr (snd x)) l.
  Proof.
    induction l as [|[j a] l IH]; simpl; [discriminate|]. destruct (Nat.eqb r j); intros H E; simpl.
    - inversion H; subst. rewrite E. auto.
    - rewrite IH; auto.
  Qed.
  Lemma ptrs_new : forall r (o' : orel) l, aget r l = None ->
    map (fun x => o_ptr (snd x)) (aset r o' l) = map (fun x => o_ptr (snd x)) l ++ [o_ptr o'].
  Proof.
    induction l as [|[j a] l IH]; simpl; auto. destruct (Nat.eqb r j); [discriminate|]. intros H. simpl. rewrite IH; auto.
  Qed.
  Lemma internal_aset : forall r (o o' : orel) l, aget r l = Some o -> o_int o' = o_int o ->
    map (fun x => (fst x, o_int (snd x))) (aset r o' l) = map (fun x => (fst x, o_int (snd x))) l.
  Proof.
    induction l as [|[j a] l IH]; simpl; [discriminate|]. destruct (Nat.eqb r j) eqn:J; intros H E; simpl.
    - apply Nat.eqb_eq in J. inversion H; subst. rewrite E. auto.
    - rewrite IH; auto.
  Qed.
  Lemma ptr_in : forall r (o : orel) l, aget r l = Some o -> In (o_ptr o) (map (fun x => o_ptr (snd x)) l).
  Proof. intros r o l H. apply aget_In in H. apply in_map_iff. exists (r, o). auto. Qed.
  Lemma ptr_twice : forall r s (o o2 : orel) l, r <> s -> aget r l = Some o -> aget s l = Some o2 -> o_ptr o = o_ptr o2 ->
    2 <= count_occ Nat.eq_dec (map (fun x => o_ptr (snd x)) l) (o_ptr o).
  Proof.
    induction l as [|[j a] l IH]; intros N H1 H2 E; simpl in *; [discriminate|].
    destruct (Nat.eqb_spec r j) as [->|]; destruct (Nat.eqb_spec s j) as [->|]; try congruence.
    - inversion H1; subst. destruct (Nat.eq_dec (o_ptr o) (o_ptr o)); [|congruence]. apply ptr_in in H2.
      rewrite <- E in H2. apply (count_occ_In Nat.eq_dec) in H2. lia.
    - inversion H2; subst. destruct (Nat.eq_dec (o_ptr o2) (o_ptr o)); [|congruence]. apply ptr_in in H1.
      apply (count_occ_In Nat.eq_dec) in H1. lia.
    - destruct (Nat.eq_dec (o_ptr a) (o_ptr o)); [|auto]. specialize (IH N H1 H2 E). lia.
  Qed.
  Lemma count_le : forall h c os q, owf h (ptrs c ++ os) -> q < List.length h -> count_occ Nat.eq_dec (ptrs c) q + count_occ Nat.eq_dec os q = ocount h q.
  Proof. intros h c os q [_ W] L. rewrite W by auto. rewrite count_occ_app. auto. Qed.

  Lemma ptr_valid : forall h c os r o, owf h (ptrs c ++ os) -> aget r (rc_idb c) = Some o -> o_ptr o < List.length h.
  Proof. intros h c os r o [W _] H. apply W, in_or_app. left. eapply ptr_in; eauto. Qed.

  Lemma alone_os : forall h c os r o q, owf h (ptrs c ++ os) -> aget r (rc_idb c) = Some o -> ocount h (o_ptr o) = 1 -> In q os -> q <> o_ptr o.
  Proof.
    intros h c os r o q W H C I ->. pose proof (@count_le _ _ _ (o_ptr o) W (@ptr_valid _ _ _ _ _ W H)) as K.
    apply (count_occ_In Nat.eq_dec) in I. pose proof (@ptr_in _ _ _ H) as J. apply (count_occ_In Nat.eq_dec) in J. unfold ptrs in K. lia.
  Qed.
  Lemma alone_rel : forall h c os r o s o2, owf h (ptrs c ++ os) -> aget r (rc_idb c) = Some o -> ocount h (o_ptr o) = 1 ->
    s <> r -> aget s (rc_idb c) = Some o2 -> o_ptr o2 <> o_ptr o.
  Proof.
    intros h c os r o s o2 W H C N H2 E. pose proof (@count_le _ _ _ (o_ptr o) W (@ptr_valid _ _ _ _ _ W H)) as K.
    pose proof (@ptr_twice r s o o2 (rc_idb c) (not_eq_sym N) H H2 (eq_sym E)) as T. unfold ptrs in K. lia.
  Qed.

  (** ** Reading *)
  Definition good (F : nat -> option facts) (h : oheap) (c : rctx) (os : list nat) : Prop :=
    owf h (ptrs c ++ os) /\ unshared h c /\ has_facts F h c.

  Lemma recover_good : forall F drain h c os r, good F h c os -> (forall es, F r = Some es -> showable es) ->
    exists h' c', recover drain h c r = EOk (h', c') /\ good F h' c' os /\ rc_edb c' = rc_edb c /\
      (forall q, In q os -> oread h' q = oread h q) /\
      match F r with
      | Some es => exists o, aget r (rc_idb c') = Some o /\ o_done o = true /\ seen_all es (oread h' (o_ptr o))
      | None => h' = h /\ c' = c /\ aget r (rc_idb c) = None
      end /\
      (drain = false -> aget r (rc_idb c) <> None -> internal c' = internal c) /\
      (forall s, s <> r -> aget s (rc_idb c') = aget s (rc_idb c)).
  Proof.
    intros F drain h c os r (W & U & HF) SH. unfold Results.recover. pose proof (HF r) as HR.
    destruct (aget r (rc_idb c)) as [o|] eqn:G.
    - destruct HR as (es & FE & HR). rewrite FE. unfold Results.recover_rel. destruct (o_done o) eqn:D.
      + simpl. exists h, (mkRctx (aset r o (rc_idb c)) (rc_edb c)). split; auto.
        assert (S1 : forall s, aget s (aset r o (rc_idb c)) = aget s (rc_idb c)).
        { intros s. rewrite aget_aset. destruct (Nat.eqb_spec s r) as [->|]; auto. }
        split; [split; [|split]|].
        * unfold ptrs. simpl. rewrite (@ptrs_aset r o o) by auto. auto.
        * intros s x. simpl. rewrite S1. apply U.
        * intros s. simpl. rewrite S1. apply HF.
        * split; auto. split; auto. split; [exists o; simpl; rewrite S1; auto|]. split; [intros _ _; unfold internal; simpl; apply internal_aset with o; auto|].
          intros s N. simpl. apply S1.
      + destruct HR as [HI HO]. assert (C : ocount h (o_ptr o) = 1) by (eapply U; eauto).
        destruct (o_int o) as [|e0 es0] eqn:I.
        * subst es. simpl. set (o' := mkOrel true [] (o_ptr o)). exists h, (mkRctx (aset r o' (rc_idb c)) (rc_edb c)). split; auto.
          split; [split; [|split]|].
          -- unfold ptrs. simpl. rewrite (@ptrs_aset r o o') by auto. auto.
          -- intros s x. simpl. rewrite aget_aset. destruct (Nat.eqb_spec s r); [|apply U]. intros X. inversion X; subst. discriminate.
          -- intros s. simpl. rewrite aget_aset. destruct (Nat.eqb_spec s r) as [->|]; [|apply HF]. exists []. split; auto. simpl. rewrite HO. constructor.
          -- split; auto. split; auto. split; [exists o'; simpl; rewrite aget_aset, Nat.eqb_refl, HO; repeat split; constructor|].
             split; [intros _ _; unfold internal; simpl; apply internal_aset with o; auto|].
             intros s N. simpl. rewrite aget_aset. destruct (Nat.eqb_spec s r); [tauto|auto].
        * rewrite C, Nat.eqb_refl. destruct (show_cases (e0 :: es0)) as [(l & L & _)|(_ & B)].
          2: { exfalso. apply B. apply SH. rewrite FE. congruence. }
          rewrite L. simpl. set (o' := mkOrel true (if drain then [] else e0 :: es0) (o_ptr o)).
          rewrite HO. simpl app. set (h' := hwrite h (o_ptr o) l).
          assert (V : o_ptr o < List.length h) by (eapply ptr_valid; eauto).
          assert (RS : oread h' (o_ptr o) = l). { unfold h', hread, hwrite. rewrite hmap_same by auto. auto. }
          assert (RO : forall q, q <> o_ptr o -> oread h' q = oread h q). { intros q N. unfold h', hread, hwrite. rewrite hmap_other by auto. auto. }
          assert (LE : List.length h' = List.length h) by apply hmap_length.
          assert (CO : forall q, ocount h' q = ocount h q).
          { intros q. unfold h', hcount, hwrite. destruct (Nat.eq_dec q (o_ptr o)) as [->|N]; [rewrite hmap_same by auto|rewrite hmap_other by auto]; auto. }
          exists h', (mkRctx (aset r o' (rc_idb c)) (rc_edb c)). split; auto. split; [split; [|split]|].
          -- unfold ptrs. simpl. rewrite (@ptrs_aset r o o') by auto. destruct W as [W1 W2]. split.
             ++ intros q X. rewrite LE. auto.
             ++ intros q. rewrite LE, CO. apply W2.
          -- intros s x. simpl. rewrite aget_aset, CO. destruct (Nat.eqb_spec s r); [|apply U]. intros X Y. inversion X as [X1]. rewrite <- X1 in Y. discriminate.
          -- intros s. simpl. rewrite aget_aset. destruct (Nat.eqb_spec s r) as [->|N].
             ++ exists es. split; auto. simpl. rewrite RS. apply show_ok. congruence.
             ++ specialize (HF s). destruct (aget s (rc_idb c)) as [o2|] eqn:G2; auto. rewrite RO; auto. eapply alone_rel; [exact W|exact G| | |]; eauto.
          -- split; auto. split; [intros q X; apply RO; eapply alone_os; eauto|].
             split; [exists o'; simpl; rewrite aget_aset, Nat.eqb_refl, RS; repeat split; apply show_ok; congruence|].
             split; [intros -> _; unfold internal; simpl; apply internal_aset with o; auto|].
             intros s N. simpl. rewrite aget_aset. destruct (Nat.eqb_spec s r); [tauto|auto].
    - destruct (aget r (rc_edb c)) as [es|] eqn:GE.
      + rewrite HR. destruct (show_cases es) as [(l & L & _)|(_ & B)]; [|exfalso; apply B; auto].
        rewrite L. simpl. set (o' := mkOrel true [] (List.length h)). destruct (@wf_push _ _ h (ptrs c ++ os) l W) as (W1 & R1 & R2).
        exists (h ++ [(l, 1)]), (mkRctx (aset r o' (rc_idb c)) (rc_edb c)). split; auto. split; [split; [|split]|].
        * unfold ptrs. simpl. rewrite ptrs_new by auto. eapply wf_perm; [|exact W1]. simpl. rewrite <- app_assoc. apply Permutation_middle.
        * intros s x. simpl. rewrite aget_aset. destruct (Nat.eqb_spec s r); [intros X Y; inversion X as [X1]; rewrite <- X1 in Y; discriminate|].
          intros X Y. rewrite <- (U _ _ X Y). unfold hcount. rewrite app_nth1; auto. eapply ptr_valid; eauto.
        * intros s. simpl. rewrite aget_aset. destruct (Nat.eqb_spec s r) as [->|N].
          -- exists es. split; auto. simpl. rewrite R2. apply show_ok. auto.
          -- specialize (HF s). destruct (aget s (rc_idb c)) as [o2|] eqn:G2; auto. rewrite R1; auto. eapply ptr_valid; eauto.
        * split; auto. split; [intros q X; apply R1; apply (proj1 W); apply in_or_app; auto|].
          split; [exists o'; simpl; rewrite aget_aset, Nat.eqb_refl, R2; repeat split; apply show_ok; auto|]. split; [congruence|].
          intros s N. simpl. rewrite aget_aset. destruct (Nat.eqb_spec s r); [tauto|auto].
      + rewrite HR. exists h, c. split; auto. split; [split; auto|]. split; auto.
  Qed.

  (** Reading a relation gives exactly its facts, in order, with the output tags; it is not an error to read a
      relation that does not exist. Everything that others hold stays as it is, and all relations keep their facts. *)
  Theorem C90_read : forall F drain h c os r, good F h c os -> (forall es, F r = Some es -> showable es) ->
    exists res h' c', read drain h c r = EOk (res, h', c') /\
      match F r with
      | Some es => exists q, res = Some q /\ seen_all es (oread h' q) /\ good F h' c' (q :: os)
      | None => res = None /\ h' = h /\ c' = c
      end /\
      (forall q, In q os -> oread h' q = oread h q) /\ rc_edb c' = rc_edb c /\
      (forall s, s <> r -> aget s (rc_idb c') = aget s (rc_idb c)) /\
      (drain = false -> aget r (rc_idb c) <> None -> internal c' = internal c).
  Proof.
    intros F drain h c os r G SH. destruct (@recover_good F drain h c os r G SH) as (h1 & c1 & R & G1 & E & O & M & K & S1).
    unfold Results.read. rewrite R. simpl. unfold Results.output. destruct (F r) as [es|] eqn:FR.
    - destruct M as (o & GO & D & SE). rewrite GO, D. simpl. exists (Some (o_ptr o)), (hincr h1 (o_ptr o)), c1. split; auto.
      destruct G1 as (W & U & HF). pose proof (@ptr_valid _ _ _ _ _ W GO) as V. destruct (wf_incr W V) as [W1 RD].
      split; [exists (o_ptr o); split; [auto|split; [rewrite RD; auto|split; [|split]]]|].
      + eapply wf_perm; [|exact W1]. apply Permutation_middle.
      + intros s o2 X Y. rewrite <- (U _ _ X Y). unfold hincr, hcount. rewrite hmap_other; auto. intros Q.
        assert (N : s <> r) by congruence. assert (N2 : r <> s) by congruence.
        eapply (@alone_rel h1 c1 os s o2 r o); eauto.
      + intros s. specialize (HF s). destruct (aget s (rc_idb c1)); auto. rewrite RD. auto.
      + split; [intros q X; rewrite RD; auto|]. auto.
    - destruct M as (-> & -> & N). rewrite N. exists None, h, c. repeat (split; [solve [auto]|]). auto.
  Qed.

  (** What reading a relation gives, seen from the outside: the contents of the collection handed out. *)
  Definition answers (F : nat -> option facts) (h : oheap) (r : nat) (res : option nat) : Prop :=
    match F r with
    | Some es => exists q, res = Some q /\ seen_all es (oread h q)
    | None => res = None
    end.

  (** Any sequence of reads gives the facts of each relation each time, and what was given out before does not change. *)
  Theorem C90_reads : forall F drain rs h c os, good F h c os -> (forall r es, F r = Some es -> showable es) ->
    exists ress h' c', reads drain h c rs = EOk (ress, h', c') /\ Forall2 (answers F h') rs ress /\
      (forall q, In q os -> oread h' q = oread h q) /\ (exists os', good F h' c' (os' ++ os)) /\ rc_edb c' = rc_edb c.
  Proof.
    intros F drain. induction rs as [|r rs IH]; intros h c os G SH.
    - exists [], h, c. simpl. split; auto. split; [constructor|]. split; auto. split; auto. exists []. auto.
    - destruct (@C90_read F drain h c os r G (SH r)) as (res & h1 & c1 & R & A & O & E & _ & _). simpl. rewrite R. simpl.
      destruct (F r) as [es|] eqn:FR.
      + destruct A as (q & -> & SE & G1). destruct (IH h1 c1 (q :: os) G1 SH) as (ress & h2 & c2 & R2 & A2 & O2 & (os' & G2) & E2).
        rewrite R2. simpl. exists (Some q :: ress), h2, c2. split; auto. split; [|split; [|split; [|congruence]]].
        * constructor; auto. unfold answers. rewrite FR. exists q. split; auto. rewrite O2 by (left; auto). auto.
        * intros q' I. rewrite O2 by (right; auto). apply O; auto.
        * exists (os' ++ [q]). rewrite <- app_assoc. auto.
      + destruct A as (-> & -> & ->). destruct (IH h c os G SH) as (ress & h2 & c2 & R2 & A2 & O2 & G2 & E2).
        rewrite R2. simpl. exists (None :: ress), h2, c2. split; auto. split; [|split; [|split]]; auto.
        constructor; auto. unfold answers. rewrite FR. auto.
  Qed.

  (** The results of a run are ready to be read, whatever else is in memory. *)
  Lemma store_spec : forall (i : list (nat * facts)) h os h' (l : list (nat * orel)), owf h os -> store_results h i = (h', l) ->
    owf h' (map (fun x => o_ptr (snd x)) l ++ os) /\ (forall q, In q os -> oread h' q = oread h q) /\ List.length h <= List.length h' /\
    (forall r o, aget r l = Some o -> List.length h <= o_ptr o /\ o_done o = false /\ aget r i = Some (o_int o) /\ oread h' (o_ptr o) = [] /\ ocount h' (o_ptr o) = 1) /\
    (forall r, aget r l = None -> aget r i = None) /\ (forall q, q < List.length h -> oread h' q = oread h q /\ ocount h' q = ocount h q).
  Proof.
    induction i as [|[j es] i IH]; intros h os h' l W H; cbn [store_results] in H.
    - inversion H; subst. simpl. split; auto. split; auto. split; auto. split; [discriminate|]. split; auto.
    - destruct (store_results (h ++ [([], 1)]) i) as [h1 l1] eqn:FE. inversion H; subst. clear H.
      destruct (@wf_push _ ([] : outcol) h os [] W) as (W1 & R1 & R2).
      destruct (IH _ _ _ _ W1 FE) as (W2 & O2 & LE & A & N & K). rewrite app_length in LE, K. simpl in LE, K.
      assert (KL : oread h' (List.length h) = [] /\ ocount h' (List.length h) = 1).
      { destruct (K (List.length h)) as [K1 K2]; [lia|]. rewrite K1, K2. unfold hread, hcount. rewrite app_nth2, Nat.sub_diag by lia. auto. }
      split; [|split; [|split; [|split; [|split]]]].
      + simpl. eapply wf_perm; [|exact W2]. apply Permutation_sym, Permutation_middle.
      + intros q I. rewrite O2 by (right; auto). apply R1. apply (proj1 W). auto.
      + lia.
      + intros r o. simpl. destruct (Nat.eqb r j).
        * intros X. inversion X; subst. simpl. split; [lia|]. split; [auto|]. split; [auto|]. auto.
        * intros X. apply A in X as (X1 & X2 & X3 & X4). rewrite app_length in X1. simpl in X1. split; [lia|auto].
      + intros r. simpl. destruct (Nat.eqb r j); [discriminate|auto].
      + intros q L. destruct (K q) as [K1 K2]; [lia|]. rewrite K1, K2. split; [apply R1; auto|].
        unfold hcount. rewrite app_nth1; auto.
  Qed.
  Theorem C90_results : forall (i d : list (nat * facts)) h os h' (l : list (nat * orel)), owf h os -> store_results h i = (h', l) ->
    good (fun r => match aget r i with Some es => Some es | None => aget r d end) h' (mkRctx l d) os /\
    internal (mkRctx l d) = i /\ forall q, In q os -> oread h' q = oread h q.
  Proof.
    intros i d h os h' l W H. destruct (store_spec _ W H) as (W' & O & _ & A & N & _). split; [split; [|split]|split]; auto.
    - intros r o X _. apply A in X. tauto.
    - intros r. simpl. destruct (aget r l) as [o|] eqn:G.
      + destruct (A _ _ G) as (_ & D & I & R & _). rewrite I, D. exists (o_int o). auto.
      + rewrite (N _ G). auto.
    - clear W W' O A N. revert h h' l H. induction i as [|[j es] i IH]; intros h h' l H; cbn [store_results] in H.
      + inversion H; auto.
      + destruct (store_results (h ++ [([], 1)]) i) as [h1 l1] eqn:FE. inversion H; subst. unfold internal in *. simpl. f_equal. eapply IH; eauto.
  Qed.

  (** Reading fails exactly if the relation has not been read, has facts, and its collection is shared, or if a
      fact has an unknown symbol. *)
  Theorem C90_panic : forall drain h c r, read drain h c r = EPanic <->
    match aget r (rc_idb c) with
    | Some o => o_done o = false /\ o_int o <> [] /\ (ocount h (o_ptr o) <> 1 \/ ~ showable (o_int o))
    | None => exists es, aget r (rc_edb c) = Some es /\ ~ showable es
    end.
  Proof.
    intros drain h c r. unfold Results.read, Results.recover. destruct (aget r (rc_idb c)) as [o|] eqn:G.
    - unfold Results.recover_rel. destruct (o_done o); [simpl; split; [discriminate|intros (X & _); discriminate]|].
      destruct (o_int o) as [|e es]; [simpl; split; [discriminate|tauto]|].
      destruct (Nat.eqb_spec (ocount h (o_ptr o)) 1) as [C|C].
      + destruct (show_cases (e :: es)) as [(l & L & S1)|(L & S1)]; rewrite L; simpl.
        * split; [discriminate|]. intros (_ & _ & [X|X]); tauto.
        * split; auto. intros _. split; auto. split; [discriminate|auto].
      + simpl. split; auto. intros _. split; auto. split; [discriminate|auto].
    - destruct (aget r (rc_edb c)) as [es|]; simpl.
      + destruct (show_cases es) as [(l & L & S1)|(L & S1)]; rewrite L; simpl.
        * split; [discriminate|]. intros (es' & X & Y). inversion X; subst. tauto.
        * split; eauto.
      + split; [discriminate|]. intros (es' & X & _). discriminate.
  Qed.

  Lemma observed_spec : forall es l, seen_all es l -> Forall2 (fun e x => seen e (snd x, fst (fst x)) /\ snd (fst x) = snd e) es (observed es l).
  Proof.
    intros es l H. induction H as [|a b es l S1 L IH]; [constructor|]. change (observed (a :: es) (b :: l)) with ((snd b, snd a, fst b) :: observed es l).
    constructor; auto.
  Qed.
  (** With monitors, a relation with results and facts reads the same; the monitor sees each fact once, the first time. *)
  Theorem C90_monitor_partial : forall drain h c r o, aget r (rc_idb c) = Some o -> o_done o = true \/ o_int o <> [] ->
    match read_mon drain h c r with
    | EOk (res, h', c', es) => read drain h c r = EOk (res, h', c') /\
        (o_done o = true -> es = []) /\
        (o_done o = false -> Forall2 (fun e x => seen e (snd x, fst (fst x)) /\ snd (fst x) = snd e) (o_int o) es)
    | EPanic => read drain h c r = EPanic
    | ENone => False
    end.
  Proof.
    intros drain h c r o G NE. unfold Results.read_mon, Results.recover_mon, Results.read, Results.recover. rewrite G.
    unfold Results.recover_rel_mon, Results.recover_rel. destruct (o_done o) eqn:D.
    - simpl. destruct (Results.output h _ r). split; auto. split; [auto|discriminate].
    - destruct NE as [X|NE]; [discriminate|]. destruct (o_int o) as [|e es] eqn:I; [tauto|].
      destruct (Nat.eqb (ocount h (o_ptr o)) 1); [|simpl; auto].
      destruct (show_cases (e :: es)) as [(l & L & _)|(L & _)]; rewrite L; simpl; [|auto].
      destruct (Results.output _ _ r). split; auto. split; [discriminate|]. intros _. apply show_ok in L.
      apply observed_spec. auto.
  Qed.
End Props.

(** A run of a program does not see the results of earlier runs, so reading in between makes no difference to it. *)
Theorem C90_runs : forall P IT X (E : rtenv P IT X) inc fuel p d b i i' q x,
  execute E inc fuel (Some p) (mkCtx d b i q x) = execute E inc fuel (Some p) (mkCtx d b i' q x).
Proof.
  intros. destruct (execute E inc fuel (Some p) (mkCtx d b i q x)) as [c|] eqn:A.
  - apply execute_parts in A. symmetry. apply execute_parts. exact A.
  - destruct (execute E inc fuel (Some p) (mkCtx d b i' q x)) as [c|] eqn:B; auto.
    apply execute_parts in B. assert (K : execute E inc fuel (Some p) (mkCtx d b i q x) = Some c) by (apply execute_parts; exact B). congruence.
Qed.

(** ** Examples *)
Definition y_syms : registry := mkReg [("b", 1); ("a", 0)]%string ["a"; "b"]%string.
Definition y_es : facts nat := [(TTup [TVal (VSymbol 1)], 3); (TTup [TVal (VSymbol 0)], 4)].
Definition y_idb : list (nat * facts nat) := [(0, y_es); (1, [])].
Definition y_edb : list (nat * facts nat) := [(2, [(TTup [TVal (I32 5)], 0)])].
Definition y_start : oheap nat * list (nat * orel nat) := store_results [] y_idb.
Definition y_ctx : rctx nat := mkRctx (snd y_start) y_edb.
Definition y_out : outcol nat := [(6, TTup [TVal (VSymbolString "b")]); (8, TTup [TVal (VSymbolString "a")])].
Definition dbl (n : nat) : nat := 2 * n.
Lemma y_good : good dbl y_syms (fun r => match aget r y_idb with Some es => Some es | None => aget r y_edb end) (fst y_start) y_ctx [].
Proof.
  assert (W : wf ([] : outcol nat) [] []) by (split; [intros q []|simpl; intros; lia]).
  destruct (@C90_results nat nat dbl y_syms y_idb y_edb [] [] (fst y_start) (snd y_start) W eq_refl) as (G & _). exact G.
Qed.
Example C90_results_ex : internal y_ctx = y_idb /\ List.length (fst y_start) = 2.
Proof. split; reflexivity. Qed.
Example C90_read_ex : (forall es, aget 0 y_idb = Some es -> showable y_syms es) /\
  read dbl y_syms false (fst y_start) y_ctx 0 = EOk (Some 0, [(y_out, 2); ([], 1)], mkRctx [(0, mkOrel true y_es 0); (1, mkOrel false [] 1)] y_edb).
Proof.
  split; [|vm_compute; reflexivity]. intros es H. inversion H; subst. intros e [<-|[<-|[]]]; eexists; reflexivity.
Qed.
Example C90_reads_ex : exists h c, reads dbl y_syms true (fst y_start) y_ctx [0; 2; 1; 7; 0; 2] = EOk ([Some 0; Some 2; Some 1; None; Some 0; Some 2], h, c) /\
  hread [] h 0 = y_out /\ hread [] h 1 = [] /\ hread [] h 2 = [(0, TTup [TVal (I32 5)])].
Proof. do 2 eexists. split; [vm_compute; reflexivity|]. repeat split. Qed.
Example C90_panic_ex : read dbl reg_new false (fst y_start) y_ctx 0 = EPanic.
Proof. reflexivity. Qed.
Example C90_monitor_ex : exists h c, read_mon dbl y_syms false (fst y_start) y_ctx 0 =
  EOk (Some 0, h, c, [(TTup [TVal (VSymbolString "b")], 3, 6); (TTup [TVal (VSymbolString "a")], 4, 8)]).
Proof. do 2 eexists. vm_compute. reflexivity. Qed.

(** ** Refutations *)
(** After a context has been cloned, relations that were not read before can be read in neither copy. *)
Theorem C90_clone_refuted : exists (h : oheap nat) (c : rctx nat) res h' c',
  read dbl y_syms false h c 0 = EOk (res, h', c') /\ read dbl y_syms false (clone_ctx h c) c 0 = EPanic.
Proof. exists (fst y_start), y_ctx. do 3 eexists. split; vm_compute; reflexivity. Qed.

(** With monitors, a relation that was computed and is empty has no result, and an input relation neither. *)
Theorem C90_monitor_refuted : exists (h : oheap nat) (c : rctx nat),
  (exists q h' c', read dbl y_syms false h c 1 = EOk (Some q, h', c') /\ hread [] h' q = []) /\
  (exists h' c' l, read_mon dbl y_syms false h c 1 = EOk (None, h', c', l)) /\
  (exists q h' c' x, read dbl y_syms false h c 2 = EOk (Some q, h', c') /\ hread [] h' q = [x]) /\
  (exists h' c' l, read_mon dbl y_syms false h c 2 = EOk (None, h', c', l)).
Proof.
  exists (fst y_start), y_ctx. split; [|split; [|split]].
  - do 3 eexists. split; vm_compute; reflexivity.
  - do 3 eexists. vm_compute. reflexivity.
  - do 4 eexists. split; vm_compute; reflexivity.
  - do 3 eexists. vm_compute. reflexivity.
Qed.

(** A relation that has been computed but not kept, because nobody asked for it, reads as the facts it was given,
    without those that were derived. *)
Theorem C90_hidden_refuted : exists (c ci : ctx unit_prov unit nat) h' c' q,
  execute (xE unit_prov) false 20 (Some (xtc unit_prov)) (mkCtx (add_dynamic 2 [(None, t2 7 8)] []) false [] [] 0) = Some c /\
  (* in incremental mode the relation is kept: *)
  execute (xE unit_prov) true 20 (Some (xtc unit_prov)) (mkCtx (add_dynamic 2 [(None, t2 7 8)] []) false [] [] 0) = Some ci /\
  option_map pairs (aget 2 (x_idb ci)) = Some [t2 1 0; t2 7 8] /\
  read (fun g : unit => g) reg_new false (fst (store_results ([] : oheap unit) (x_idb c))) (mkRctx (snd (store_results ([] : oheap unit) (x_idb c))) (ecols (x_edb c))) 2 = EOk (Some q, h', c') /\
  hread [] h' q = [(tt, t2 7 8)].
Proof.
  do 5 eexists. split; [vm_compute; reflexivity|]. split; [vm_compute; reflexivity|]. split; [vm_compute; reflexivity|]. split; vm_compute; reflexivity.
Qed.

(** Running the stored program again ([execute]) keeps results. After reading an input relation that was not among
    them, it takes the relation to be empty. *)
Definition y_run : ctx unit_prov unit nat :=
  match execute (xE unit_prov) true 20 (Some (xtc unit_prov)) (mkCtx (add_dynamic 0 [(None, t2 1 2)] []) false [] [] 0) with
  | Some c => c
  | None => mkCtx [] false [] [] 0
  end.
Definition y_rctx : oheap unit * rctx unit := (fst (store_results ([] : oheap unit) (x_idb y_run)), mkRctx (snd (store_results ([] : oheap unit) (x_idb y_run))) (ecols (x_edb y_run))).
(** add a fact to relation [r] (which removes its results) and run again *)
Definition y_again (r : nat) (i : idb unit_prov) : option (ctx unit_prov unit nat) :=
  execute (xE unit_prov) true 20 None (mkCtx (add_static r [(None, t2 5 6)] (x_edb y_run)) (x_edbdone y_run) (adel r i) (x_prog y_run) (x_tag y_run)).
Theorem C90_execute_refuted : exists res h c',
  read (fun g : unit => g) reg_new false (fst y_rctx) (snd y_rctx) 0 = EOk (res, h, c') /\
  option_map (fun c => option_map pairs (aget 1 (x_idb c))) (y_again 1 (internal (snd y_rctx))) = Some (Some [t2 0 1; t2 0 2; t2 1 2; t2 5 6]) /\
  option_map (fun c => option_map pairs (aget 1 (x_idb c))) (y_again 1 (internal c')) = Some (Some [t2 5 6]).
Proof. do 3 eexists. split; [vm_compute; reflexivity|]. split; vm_compute; reflexivity. Qed.

(** If facts are moved out when they are read ([retain_internal_when_recover] is false), the same holds for every
    relation that is read. *)
Theorem C90_drain_refuted : exists res h c',
  read (fun g : unit => g) reg_new true (fst y_rctx) (snd y_rctx) 1 = EOk (res, h, c') /\
  option_map (fun c => option_map pairs (aget 4 (x_idb c))) (y_again 4 (internal (snd y_rctx))) = Some (Some [t2 0 1; t2 0 2; t2 1 2; t2 5 6]) /\
  option_map (fun c => option_map pairs (aget 4 (x_idb c))) (y_again 4 (internal c')) = Some (Some [t2 5 6]).
Proof. do 3 eexists. split; [vm_compute; reflexivity|]. split; vm_compute; reflexivity. Qed.

Example C90_runs_ex : exists c, execute (xE unit_prov) true 20 (Some (xtc unit_prov)) y_run = Some c /\
  option_map pairs (aget 1 (x_idb c)) = Some [t2 0 1; t2 0 2; t2 1 2].
Proof. eexists. split; vm_compute; reflexivity. Qed.

Print Assumptions C90_read.
Print Assumptions C90_reads.
Print Assumptions C90_results.
Print Assumptions C90_panic.
Print Assumptions C90_monitor_partial.
Print Assumptions C90_runs.
Print Assumptions C90_clone_refuted.
Print Assumptions C90_monitor_refuted.
Print Assumptions C90_hidden_refuted.
Print Assumptions C90_execute_refuted.
Print Assumptions C90_drain_refuted.
