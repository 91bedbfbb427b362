(** Lemmas about the rounds of type inference: contexts, variables, relations. *)
From Coq Require Import List Bool Arith Lia Permutation.
From Verif Require Import Back TypeSet Infer PropsTypeSet InferFacts.
Import ListNotations.

(** ** Grouping by keys *)
Section Group.
Context {K : Type} (eqb : K -> K -> bool) (eqb_eq : forall a b, eqb a b = true <-> a = b).
Lemma add_to_keys k e m : map fst (add_to eqb k e m) = map fst m \/ map fst (add_to eqb k e m) = map fst m ++ [k] /\ ~ In k (map fst m).
Proof.
  induction m as [|(j & es) m IH]; cbn; [right; auto|].
  destruct (eqb k j) eqn:E; cbn; [left; reflexivity|]. destruct IH as [->|[-> N]]; [left; reflexivity|right].
  split; [reflexivity|]. intros [->|I]; [|auto]. assert (X : eqb k k = true) by (apply eqb_eq; reflexivity). congruence.
Qed.
Lemma add_to_NoDup k e m : NoDup (map fst m) -> NoDup (map fst (add_to eqb k e m)).
Proof.
  intros H. destruct (add_to_keys k e m) as [->|[-> N]]; [exact H|].
  apply (Permutation_NoDup (Permutation_cons_append (map fst m) k)). constructor; assumption.
Qed.
Definition has (m : list (K * list loc)) (k : K) (e : loc) : Prop := exists es, In (k, es) m /\ In e es.
Lemma add_to_has k e m j x : has (add_to eqb k e m) j x <-> has m j x \/ (j = k /\ x = e).
Proof.
  unfold has. induction m as [|(i & es) m IH]; cbn.
  - split.
    + intros (l & [E|[]] & I). injection E as <- <-. destruct I as [<-|[]]. auto.
    + intros [(l & [] & _)|[-> ->]]. exists [e]. cbn. auto.
  - destruct (eqb k i) eqn:E.
    + apply eqb_eq in E. subst i. cbn. split.
      * intros (l & [Q|I] & J); [|left; exists l; auto]. injection Q as <- <-. apply in_app_iff in J.
        destruct J as [J|[<-|[]]]; [left; exists es; auto|auto].
      * intros [(l & [Q|I] & J)|[-> ->]].
        -- injection Q as <- <-. exists (es ++ [e]). split; [auto|apply in_or_app; auto].
        -- exists l. auto.
        -- exists (es ++ [e]). split; [auto|apply in_or_app; cbn; auto].
    + cbn. split.
      * intros (l & [Q|I] & J); [left; exists l; auto|].
        assert (H : exists es0, In (j, es0) (add_to eqb k e m) /\ In x es0) by eauto. apply IH in H.
        destruct H as [(l' & I' & J')|H]; [left; exists l'; auto|auto].
      * intros [(l & [Q|I] & J)|H]; [exists l; auto| |].
        -- destruct (proj2 IH (or_introl (ex_intro _ l (conj I J)))) as (l' & I' & J'). exists l'. auto.
        -- destruct (proj2 IH (or_intror H)) as (l' & I' & J'). exists l'. auto.
Qed.
End Group.
Lemma pi_eqb_eq a b : pi_eqb a b = true <-> a = b.
Proof.
  destruct a as [p i], b as [q j]. unfold pi_eqb. cbn. rewrite andb_true_iff, !Nat.eqb_eq. split; [intros [-> ->]|intros E; injection E]; auto.
Qed.
Lemma rel_exprs_gen us : forall m, NoDup (map fst m) ->
  let m' := fold_left (fun m u => match u with UArg e p i => add_to pi_eqb (p, i) e m | _ => m end) us m in
  NoDup (map fst m') /\ forall p i e, has m' (p, i) e <-> has m (p, i) e \/ In (UArg e p i) us.
Proof.
  induction us as [|u us IH]; intros m N; cbn.
  - split; [exact N|]. intros; tauto.
  - specialize (IH (match u with UArg e p i => add_to pi_eqb (p, i) e m | _ => m end)).
    assert (N' : NoDup (map fst (match u with UArg e p i => add_to pi_eqb (p, i) e m | _ => m end))).
    { destruct u; auto. apply (add_to_NoDup _ pi_eqb_eq), N. }
    specialize (IH N'). cbv zeta in IH. destruct IH as (A & B). split; [exact A|].
    intros p i e. rewrite B. destruct u; try (split; [intros [?|?]; auto|intros [?|[Q|?]]; auto; discriminate]).
    rewrite (add_to_has _ pi_eqb_eq). split.
    + intros [[H|[Q ->]]|H]; auto. injection Q as -> ->. auto.
    + intros [H|[Q|H]]; auto. injection Q as -> -> ->. auto.
Qed.
Lemma rel_exprs_ok us : NoDup (map fst (rel_exprs us)) /\ forall p i e, has (rel_exprs us) (p, i) e <-> In (UArg e p i) us.
Proof.
  destruct (rel_exprs_gen us [] (NoDup_nil _)) as (A & B). split; [exact A|]. intros p i e. rewrite (B p i e).
  split; [intros [(es & [] & _)|H]; exact H|auto].
Qed.
Lemma var_exprs_gen us : forall m, NoDup (map fst m) ->
  let m' := fold_left (fun m u => match u with UVar e v => add_to Nat.eqb v e m | _ => m end) us m in
  NoDup (map fst m') /\ forall v e, has m' v e <-> has m v e \/ In (UVar e v) us.
Proof.
  induction us as [|u us IH]; intros m N; cbn.
  - split; [exact N|]. intros; tauto.
  - specialize (IH (match u with UVar e v => add_to Nat.eqb v e m | _ => m end)).
    assert (N' : NoDup (map fst (match u with UVar e v => add_to Nat.eqb v e m | _ => m end))).
    { destruct u; auto. apply (add_to_NoDup _ Nat.eqb_eq), N. }
    specialize (IH N'). cbv zeta in IH. destruct IH as (A & B). split; [exact A|].
    intros w e. rewrite B. destruct u; try (split; [intros [?|?]; auto|intros [?|[Q|?]]; auto; discriminate]).
    rewrite (add_to_has _ Nat.eqb_eq). split.
    + intros [[H|[-> ->]]|H]; auto.
    + intros [H|[Q|H]]; auto. injection Q as -> ->. auto.
Qed.
Lemma var_exprs_ok us : NoDup (map fst (var_exprs us)) /\ forall v e, has (var_exprs us) v e <-> In (UVar e v) us.
Proof.
  destruct (var_exprs_gen us [] (NoDup_nil _)) as (A & B). split; [exact A|]. intros v e. rewrite (B v e).
  split; [intros [(es & [] & _)|H]; exact H|auto].
Qed.
Lemma fst_unique {K V} (m : list (K * V)) k a b : NoDup (map fst m) -> In (k, a) m -> In (k, b) m -> a = b.
Proof.
  induction m as [|(j & c) m IH]; cbn; intros N A B; [destruct A|]. inversion N as [|? ? N1 N2]; subst.
  destruct A as [A|A], B as [B|B]; [congruence| | |auto].
  - injection A as -> ->. destruct N1. apply in_map_iff. exists (k, b). auto.
  - injection B as -> ->. destruct N1. apply in_map_iff. exists (k, a). auto.
Qed.

(** ** Typed constants *)
Definition tcs (us : list unif) : list (loc * vtype) :=
  flat_map (fun u => match typed_const u with Some x => [x] | None => [] end) us.
Definition functional (C : list (loc * vtype)) : Prop := forall e t t', In (e, t) C -> In (e, t') C -> t = t'.
Definition fixed (C : list (loc * vtype)) (X : exprs) : Prop := forall e t, In (e, t) C -> get X e = Some (SBase t).
Lemma typed_const_UConst u e t : typed_const u = Some (e, t) -> exists s, u = UConst e s (Some t).
Proof. destruct u; try discriminate. destruct decl; [|discriminate]. cbn. intros H. injection H as <- <-. eauto. Qed.
Lemma fixed_dec C L X Y : dec L X Y -> fixed C X -> fixed C Y.
Proof. intros D F e t I. eapply base_kept; eauto. Qed.
(** A typed constant that has its type already. *)
Lemma unify_dec_fixed C T strict R u X X' : unify T strict R u X = TOk X' -> fixed C X -> incl (tcs [u]) C ->
  dec (ulocs u) X X' /\ means T strict R u X X'.
Proof.
  intros H F I. pose proof (unify_ok _ _ _ _ _ _ H) as (D & M). split; [|exact M].
  destruct (typed_const u) as [(e & t)|] eqn:E; [|auto].
  assert (G : get X e = Some (SBase t)). { apply F, I. cbn. rewrite E. left. reflexivity. }
  apply typed_const_UConst in E. destruct E as (s & ->). cbn in H. tb H. injection H as <-. cbn.
  cbn in M. destruct M as [_ M]. rewrite get_put_eq in M. injection M as ->. eapply dec_put2; [left; reflexivity|exact G|apply sle_refl].
Qed.
Lemma tcs_app us us' : tcs (us ++ us') = tcs us ++ tcs us'.
Proof. unfold tcs. apply flat_map_app. Qed.
Lemma tcs_cons u us : tcs (u :: us) = tcs [u] ++ tcs us.
Proof. apply (tcs_app [u] us). Qed.
Lemma unifs_dec_fixed C T strict R us : forall X X', tfold (unify T strict R) us X = TOk X' -> fixed C X -> incl (tcs us) C ->
  dec (flat_map ulocs us) X X' /\
  forall u, In u us -> exists Y Z, dec (flat_map ulocs us) X Y /\ means T strict R u Y Z /\ dec (flat_map ulocs us) Y Z /\ dec (flat_map ulocs us) Z X'.
Proof.
  induction us as [|u us IH]; intros X X' H F I; cbn in H.
  - injection H as <-. split; [apply dec_refl|intros u []].
  - tb H. rename r into Y. rewrite tcs_cons in I.
    destruct (unify_dec_fixed C _ _ _ _ _ _ E F) as (D & M); [intros x J; apply I, in_or_app; auto|].
    destruct (IH _ _ H (fixed_dec _ _ _ _ D F)) as (D' & P); [intros x J; apply I, in_or_app; auto|].
    assert (W1 : incl (ulocs u) (flat_map ulocs (u :: us))) by (intros x J; apply in_or_app; auto).
    assert (W2 : incl (flat_map ulocs us) (flat_map ulocs (u :: us))) by (intros x J; apply in_or_app; auto).
    split; [eapply dec_trans; [eapply dec_weaken; [exact W1|exact D]|eapply dec_weaken; [exact W2|exact D']]|].
    intros w [<-|J].
    + exists X, Y. split; [apply dec_refl|]. split; [exact M|].
      split; [exact (dec_weaken _ _ _ _ W1 D)|exact (dec_weaken _ _ _ _ W2 D')].
    + destruct (P w J) as (A & B & DA & MB & DAB & DB). exists A, B. split; [|split; [exact MB|split; [exact (dec_weaken _ _ _ _ W2 DAB)|exact (dec_weaken _ _ _ _ W2 DB)]]].
      eapply dec_trans; [eapply dec_weaken; [exact W1|exact D]|exact (dec_weaken _ _ _ _ W2 DA)].
Qed.
(** A unification keeps what has been fixed, and fixes its own constant. *)
Lemma unify_fixes C D T strict R u X X' : unify T strict R u X = TOk X' -> functional C -> incl D C -> incl (tcs [u]) C ->
  fixed D X -> fixed (D ++ tcs [u]) X'.
Proof.
  intros H F I J G. pose proof (unify_ok _ _ _ _ _ _ H) as (Q & M).
  destruct (typed_const u) as [(e & t)|] eqn:E.
  - assert (T1 : tcs [u] = [(e, t)]) by (cbn; rewrite E; reflexivity). rewrite T1 in *.
    apply typed_const_UConst in E. destruct E as (s & ->). cbn in H. tb H. injection H as <-. cbn in M. destruct M as [_ M].
    rewrite get_put_eq in M. injection M as ->.
    intros e' t' K. rewrite get_put. destruct (Nat.eqb_spec e' e) as [->|N].
    + f_equal. f_equal. apply (F e); [apply J; left; reflexivity|]. apply in_app_iff in K. destruct K as [K|K]; auto.
    + apply in_app_iff in K. destruct K as [K|[K|[]]]; [auto|]. injection K as <- <-. contradiction.
  - assert (T1 : tcs [u] = []) by (cbn; rewrite E; reflexivity). rewrite T1, app_nil_r. eapply fixed_dec; [apply Q; reflexivity|exact G].
Qed.
Lemma unifs_fix C T strict R us : functional C -> incl (tcs us) C -> forall D X X', tfold (unify T strict R) us X = TOk X' ->
  incl D C -> fixed D X -> fixed (D ++ tcs us) X'.
Proof.
  intros F. induction us as [|u us IH]; intros I D X X' H J G; cbn in H.
  - injection H as <-. cbn. rewrite app_nil_r. exact G.
  - tb H. rewrite tcs_cons in *. rewrite app_assoc. eapply IH; [|exact H| |].
    + intros x K. apply I, in_or_app. auto.
    + intros x K. apply in_app_iff in K. destruct K as [K|K]; [auto|apply I, in_or_app; auto].
    + eapply unify_fixes; [exact E|exact F|exact J| |exact G]. intros x K. apply I, in_or_app. auto.
Qed.

(** ** Variables *)
Lemma types_at_In X es s : In s (types_at X es) <-> exists e, In e es /\ get X e = Some s.
Proof.
  unfold types_at. rewrite in_flat_map. split.
  - intros (e & I & J). destruct (get X e) as [t|] eqn:E; [|destruct J]. destruct J as [<-|[]]. eauto.
  - intros (e & I & G). exists e. rewrite G. cbn. auto.
Qed.
Lemma unify_from_le a l c : unify_from a l = Some c -> sle c a /\ forall b, In b l -> sle c b.
Proof.
  revert a. induction l as [|b l IH]; cbn; intros a H.
  - injection H as <-. split; [apply sle_refl|intros ? []].
  - destruct (ts_unify a b) as [d|] eqn:E; [|discriminate]. destruct (IH _ H) as (A & B). destruct (unify_le _ _ _ E) as (L1 & L2).
    split; [eapply sle_trans; eauto|]. intros x [<-|J]; [eapply sle_trans; eauto|auto].
Qed.
Lemma unify_sets_le l c : unify_type_sets l = Some c -> forall b, In b l -> sle c b.
Proof.
  destruct l as [|a l]; [discriminate|]. rewrite unify_sets_from. intros H b [<-|J]; apply unify_from_le in H; destruct H; auto.
Qed.
Lemma unify_from_glb a l c d : unify_from a l = Some c -> sle d a -> (forall b, In b l -> sle d b) -> sle d c.
Proof.
  revert a. induction l as [|b l IH]; cbn; intros a H A B.
  - injection H as <-. exact A.
  - destruct (ts_unify a b) as [x|] eqn:E; [|discriminate]. apply (IH _ H); auto. eapply unify_glb; eauto.
Qed.
Lemma unify_sets_glb l c d : unify_type_sets l = Some c -> (forall b, In b l -> sle d b) -> sle d c.
Proof.
  destruct l as [|a l]; [discriminate|]. rewrite unify_sets_from. intros H B. eapply unify_from_glb; eauto; intros; apply B; cbn; auto.
Qed.
Lemma put_sets_get (l : list (list loc * tset)) : forall X e,
  (get (fold_left (fun X x => put_all (fst x) (snd x) X) l X) e = get X e /\ forall x, In x l -> ~ In e (fst x)) \/
  exists x, In x l /\ In e (fst x) /\ get (fold_left (fun X x => put_all (fst x) (snd x) X) l X) e = Some (snd x).
Proof.
  induction l as [|y l IH]; cbn [fold_left In]; intros X e; [left; split; [reflexivity|intros ? []]|].
  destruct (IH (put_all (fst y) (snd y) X) e) as [(E & N)|(x & I & J & E)]; [|right; exists x; auto].
  rewrite E, put_all_get. destruct (in_dec Nat.eq_dec e (fst y)) as [K|K].
  - right. exists y. auto.
  - left. split; [reflexivity|]. intros x [<-|I]; auto.
Qed.
Definition vars_ok (us : list unif) : Prop := forall e v w, In (UVar e v) us -> In (UVar e w) us -> v = w.
Lemma Forall2_In_l {A B} (P : A -> B -> Prop) l r a : Forall2 P l r -> In a l -> exists b, In b r /\ P a b.
Proof. induction 1; cbn; [tauto|]. intros [<-|I]; [eauto|]. destruct (IHForall2 I) as (b & J & Q). eauto. Qed.
Lemma Forall2_In_r {A B} (P : A -> B -> Prop) l r b : Forall2 P l r -> In b r -> exists a, In a l /\ P a b.
Proof. induction 1; cbn; [tauto|]. intros [<-|I]; [eauto|]. destruct (IHForall2 I) as (a & J & Q). eauto. Qed.
Lemma propagate_vars_ok us X X' : propagate_vars (var_exprs us) X = TOk X' ->
  dec (flat_map ulocs us) X X' /\
  (vars_ok us -> forall v, exists s, (forall e, In (UVar e v) us -> get X' e = Some s)) /\
  (forall e v, In (UVar e v) us -> get X' e <> None).
Proof.
  unfold propagate_vars. intros H. tb H. injection H as <-. apply tmap_Forall2 in E.
  destruct (var_exprs_ok us) as (N & HV).
  assert (P : forall v es, In (v, es) (var_exprs us) -> exists s, In (es, s) r /\ unify_type_sets (types_at X es) = Some s).
  { intros v es I. destruct (Forall2_In_l _ _ _ _ E I) as ((es' & s) & J & Q). unfold var_type in Q. cbn [snd] in Q.
    destruct (types_at X es) as [|t l] eqn:TA; [discriminate|]. tb Q. apply of_opt_ok in E0. injection Q as <- <-. eauto. }
  assert (P' : forall es s, In (es, s) r -> exists v, In (v, es) (var_exprs us) /\ unify_type_sets (types_at X es) = Some s).
  { intros es s J. destruct (Forall2_In_r _ _ _ _ E J) as ((v & es') & I & Q). unfold var_type in Q. cbn [snd] in Q.
    destruct (types_at X es') as [|t l] eqn:TA; [discriminate|]. tb Q. apply of_opt_ok in E0. injection Q as -> <-.
    exists v. rewrite TA. auto. }
  assert (LE : forall es s e a, In (es, s) r -> In e es -> get X e = Some a -> sle s a).
  { intros es s e a J I G. destruct (P' _ _ J) as (v & _ & U). apply (unify_sets_le _ _ U). apply types_at_In. eauto. }
  split; [|split].
  - intros e. destruct (put_sets_get r X e) as [(Q & _)|((es & s) & J & I & Q)]; rewrite Q.
    + split; [apply ole_refl|auto].
    + cbn [fst snd] in *. split; [destruct (get X e) as [a|] eqn:G; cbn; [eapply LE; eauto|exact Logic.I]|].
      right. destruct (P' _ _ J) as (v & V & _). assert (In (UVar e v) us) by (apply HV; exists es; auto).
      apply in_flat_map. exists (UVar e v). cbn. auto.
  - intros VO v.
    destruct (in_dec Nat.eq_dec v (map fst (var_exprs us))) as [I|I].
    + apply in_map_iff in I. destruct I as ((w & es) & EQ & I). cbn in EQ. subst w. destruct (P _ _ I) as (s & J & U).
      exists s. intros e UV.
      assert (IE : In e es). { apply HV in UV. destruct UV as (es' & I' & J'). rewrite (fst_unique _ _ _ _ N I I'). exact J'. }
      destruct (put_sets_get r X e) as [(_ & NO)|((es' & s') & J' & I' & Q)]; [destruct (NO _ J); exact IE|].
      rewrite Q. cbn [fst snd] in *. destruct (P' _ _ J') as (w & W & U').
      assert (In (UVar e w) us) by (apply HV; exists es'; auto). rewrite (VO _ _ _ UV H) in *.
      rewrite (fst_unique _ _ _ _ N W I) in *. congruence.
    + exists SAny. intros e UV. destruct I. apply HV in UV. destruct UV as (es & I' & _). apply in_map_iff. exists (v, es). auto.
  - intros e v UV. apply HV in UV. destruct UV as (es & I & IE). destruct (P _ _ I) as (s & J & U).
    destruct (put_sets_get r X e) as [(_ & NO)|((es' & s') & J' & I' & Q)]; [destruct (NO _ J); exact IE|]. rewrite Q. discriminate.
Qed.

(** ** Relations *)
Definition rget (R : rels) (p : pred) (i : nat) : option tset :=
  match get R p with Some ts => nth_error ts i | None => None end.
Definition rlen (R : rels) (p : pred) : option nat := option_map (@length tset) (get R p).
Lemma set_nth_length {A} i (a : A) l : length (set_nth i a l) = length l.
Proof. revert i. induction l as [|x l IH]; intros [|i]; cbn; auto. Qed.
Lemma set_nth_nth {A} i (a : A) l j : nth_error (set_nth i a l) j = if Nat.eqb j i then option_map (fun _ => a) (nth_error l i) else nth_error l j.
Proof.
  revert i j. induction l as [|x l IH]; intros [|i] [|j]; cbn; try reflexivity.
  - destruct (Nat.eqb j i); reflexivity.
  - apply IH.
Qed.
Lemma propagate_rel_ok X p i es R R' : propagate_rel X ((p, i), es) R = TOk R' ->
  (forall q, rlen R' q = rlen R q) /\
  (types_at X es = [] -> R' = R) /\
  (types_at X es <> [] -> exists s, unify_type_sets (types_at X es) = Some s /\ rget R' p i = option_map (fun _ => s) (rget R p i)) /\
  (forall q j, (q, j) <> (p, i) -> rget R' q j = rget R q j).
Proof.
  unfold propagate_rel. cbn [fst snd]. destruct (types_at X es) as [|t l].
  - intros H. injection H as <-. repeat split; auto. congruence.
  - intros H. tb H. apply of_opt_ok in E. unfold rget, rlen. destruct (get R p) as [ts|] eqn:G.
    + destruct (i <? length ts) eqn:LT; [|discriminate]. injection H as <-. repeat split; auto.
      * intros q. rewrite get_put. destruct (Nat.eqb_spec q p) as [->|N]; [|reflexivity]. rewrite G. cbn. rewrite set_nth_length. reflexivity.
      * discriminate.
      * intros _. exists r. split; [exact E|]. rewrite get_put_eq, set_nth_nth, Nat.eqb_refl. reflexivity.
      * intros q j N. rewrite get_put. destruct (Nat.eqb_spec q p) as [->|N']; [|reflexivity]. rewrite G, set_nth_nth.
        destruct (Nat.eqb_spec j i) as [->|]; [destruct N; reflexivity|reflexivity].
    + injection H as <-. repeat split; auto. intros _. exists r. rewrite G. auto.
Qed.
Lemma propagate_rels_ok X re : NoDup (map fst re) -> forall R R', tfold (propagate_rel X) re R = TOk R' ->
  (forall q, rlen R' q = rlen R q) /\
  (forall q j, (forall es, In ((q, j), es) re -> types_at X es = []) -> rget R' q j = rget R q j) /\
  (forall p i es, In ((p, i), es) re -> types_at X es <> [] ->
     exists s, unify_type_sets (types_at X es) = Some s /\ rget R' p i = option_map (fun _ => s) (rget R p i)).
Proof.
  induction re as [|((p & i) & es) re IH]; cbn; intros N R R' H.
  - injection H as <-. repeat split; auto. intros p i es [].
  - inversion N as [|? ? N1 N2]; subst. tb H. apply propagate_rel_ok in E. destruct E as (A & B & C & D).
    destruct (IH N2 _ _ H) as (A' & B' & C'). split; [|split].
    + intros q. rewrite A'. apply A.
    + intros q j K. rewrite B'; [|intros es' I; apply K; auto].
      destruct (pi_eqb (q, j) (p, i)) eqn:EQ.
      * apply pi_eqb_eq in EQ. injection EQ as -> ->. rewrite B; [reflexivity|]. apply K. auto.
      * apply D. intros Q. rewrite Q in EQ. assert (pi_eqb (p, i) (p, i) = true) by (apply pi_eqb_eq; reflexivity). congruence.
    + intros q j es' [Q|I] T.
      * injection Q as <- <- <-. destruct (C T) as (s & U & G). exists s. split; [exact U|]. rewrite B'; [exact G|].
        intros es' I. destruct N1. apply in_map_iff. exists ((p, i), es'). auto.
      * destruct (C' q j es' I T) as (s & U & G). exists s. split; [exact U|]. rewrite G. f_equal. apply D.
        intros Q. rewrite Q in I. destruct N1. apply in_map_iff. exists ((p, i), es'). auto.
Qed.
(** The sets of the relations are the combined ones of the arguments. *)
Definition closed_rels (re : list ((pred * nat) * list loc)) (X : exprs) (R : rels) : Prop :=
  forall p i es, In ((p, i), es) re -> types_at X es <> [] ->
  forall r, rget R p i = Some r -> unify_type_sets (types_at X es) = Some r.

(** ** One context *)
Lemma ctx_step_parts T strict re c X R X' R' : ctx_step T strict re c (X, R) = TOk (X', R') ->
  exists Y, tfold (unify T strict R) (cx_unifs c) X = TOk Y /\ propagate_vars (var_exprs (cx_unifs c)) Y = TOk X' /\
    tfold (propagate_rel X') re R = TOk R'.
Proof.
  unfold ctx_step. intros H. tb H. tb H. tb H. injection H as <- <-. eauto.
Qed.
Definition clocs (c : ctx) : list loc := flat_map ulocs (cx_unifs c).
Lemma ctx_step_dec C T strict re c X R X' R' : ctx_step T strict re c (X, R) = TOk (X', R') -> fixed C X -> incl (tcs (cx_unifs c)) C ->
  dec (clocs c) X X'.
Proof.
  intros H F I. apply ctx_step_parts in H. destruct H as (Y & A & B & _).
  apply (unifs_dec_fixed C) in A; auto. apply propagate_vars_ok in B. eapply dec_trans; [apply A|apply B].
Qed.
Lemma ctx_step_fix C D T strict re c s s' : ctx_step T strict re c s = TOk s' -> functional C -> incl (tcs (cx_unifs c)) C ->
  incl D C -> fixed D (fst s) -> fixed (D ++ tcs (cx_unifs c)) (fst s').
Proof.
  destruct s as (X & R), s' as (X' & R'). intros H F I J G. apply ctx_step_parts in H. destruct H as (Y & A & B & _). cbn in *.
  apply propagate_vars_ok in B. destruct B as (B & _). eapply fixed_dec; [exact B|]. eapply unifs_fix; eauto.
Qed.
Lemma ctx_step_closed T strict re c X R X' R' : NoDup (map fst re) -> ctx_step T strict re c (X, R) = TOk (X', R') -> closed_rels re X' R'.
Proof.
  intros N H. apply ctx_step_parts in H. destruct H as (Y & _ & _ & P). apply (propagate_rels_ok _ _ N) in P. destruct P as (_ & _ & P).
  intros p i es I T0 r G. destruct (P _ _ _ I T0) as (s & U & Q). rewrite Q in G. destruct (rget R p i); [|discriminate].
  cbn in G. injection G as <-. exact U.
Qed.
Lemma ctx_step_len T strict re c X R X' R' : NoDup (map fst re) -> ctx_step T strict re c (X, R) = TOk (X', R') -> forall p, rlen R' p = rlen R p.
Proof.
  intros N H. apply ctx_step_parts in H. destruct H as (Y & _ & _ & P). apply (propagate_rels_ok _ _ N) in P. apply P.
Qed.
(** All contexts, once. *)
Lemma round_fix C T strict re : functional C -> forall cs D s s', tfold (ctx_step T strict re) cs s = TOk s' ->
  incl (tcs (flat_map cx_unifs cs)) C -> incl D C -> fixed D (fst s) -> fixed (D ++ tcs (flat_map cx_unifs cs)) (fst s').
Proof.
  intros F. induction cs as [|c cs IH]; intros D s s' H I J G; cbn in H.
  - injection H as <-. cbn. rewrite app_nil_r. exact G.
  - tb H. cbn [flat_map] in *. rewrite tcs_app in *. rewrite app_assoc. eapply IH; [exact H| | |].
    + intros x K. apply I, in_or_app. auto.
    + intros x K. apply in_app_iff in K. destruct K as [K|K]; [auto|apply I, in_or_app; auto].
    + eapply ctx_step_fix; eauto. intros x K. apply I, in_or_app. auto.
Qed.
Lemma round_dec C T strict re : forall cs s s', tfold (ctx_step T strict re) cs s = TOk s' ->
  incl (tcs (flat_map cx_unifs cs)) C -> fixed C (fst s) -> dec (flat_map clocs cs) (fst s) (fst s').
Proof.
  induction cs as [|c cs IH]; intros s s' H I G; cbn in H.
  - injection H as <-. apply dec_refl.
  - tb H. cbn [flat_map] in *. rewrite tcs_app in I. destruct s as (X & R), r as (Y & R').
    assert (D : dec (clocs c) X Y) by (eapply ctx_step_dec; [exact E|exact G|intros x K; apply I, in_or_app; auto]).
    apply (dec_trans _ _ Y); [eapply dec_weaken; [|exact D]; intros x K; apply in_or_app; auto|].
    eapply dec_weaken; [|eapply (IH _ _ H); [|eapply fixed_dec; eauto]].
    + intros x K. apply in_or_app. auto.
    + intros x K. apply I, in_or_app. auto.
Qed.
Lemma round_closed T strict re cs s s' : NoDup (map fst re) -> cs <> [] -> tfold (ctx_step T strict re) cs s = TOk s' -> closed_rels re (fst s') (snd s').
Proof.
  intros N NE. revert s. induction cs as [|c cs IH]; intros s H; [congruence|]. cbn in H. tb H.
  destruct cs as [|c' cs].
  - cbn in H. injection H as <-. destruct s, r. eapply ctx_step_closed; eauto.
  - eapply IH; [discriminate|exact H].
Qed.
(** The last pass is a round of strict steps. *)
Lemma final_is_round T re cs : forall s vs s' vs', tfold (final_step T re) cs (s, vs) = TOk (s', vs') ->
  tfold (ctx_step T true re) cs s = TOk s'.
Proof.
  induction cs as [|c cs IH]; intros s vs s' vs' H; cbn in H; [injection H as <- <-; reflexivity|].
  tb H. destruct r as (s1 & vs1). unfold final_step in E. cbn [fst snd] in E. tb E. tb E. tb E. tb E. injection E as <- <-.
  cbn. rewrite E0. cbn. eapply IH; exact H.
Qed.
(** The loop ends after a round. *)
Lemma loop_ends fuel T re cs : forall s s', infer_loop fuel T re cs s = Some (TOk s') ->
  exists s0, tfold (ctx_step T false re) cs s0 = TOk s'  /\ exprs_eq (fst s0) (fst s') = true /\
    (s0 = s \/ exists s1, tfold (ctx_step T false re) cs s1 = TOk s0).
Proof.
  induction fuel as [|fuel IH]; cbn; intros s s' H; [discriminate|].
  destruct (tfold (ctx_step T false re) cs s) as [s1| |] eqn:E; try discriminate.
  destruct (exprs_eq (fst s) (fst s1)) eqn:Q.
  - injection H as <-. exists s. auto.
  - destruct (IH _ _ H) as (s0 & A & B & D). exists s0. split; [exact A|]. split; [exact B|]. right.
    destruct D as [->|D]; [eauto|exact D].
Qed.
