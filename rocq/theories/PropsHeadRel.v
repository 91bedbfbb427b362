(** C93: warnings name exactly the relations that are used but neither declared, computed nor foreign. *)
From Coq Require Import List Bool String Ascii.
From Verif Require Import HeadRel.
Import ListNotations.
Set Implicit Arguments.
Local Open Scope string_scope.
Local Open Scope list_scope.

(** ** Specification *)
(** an atom of [p] occurs in a formula *)
Inductive occurs (p : string) (l : hloc) : hform -> Prop :=
| OAtom : occurs p l (HAtom p l)
| ONeg : occurs p l (HNegAtom p l)
| OAnd : forall f fs, In f fs -> occurs p l f -> occurs p l (HAnd fs)
| OOr : forall f fs, In f fs -> occurs p l f -> occurs p l (HOr fs)
| OImpL : forall a b, occurs p l a -> occurs p l (HImplies a b)
| OImpR : forall a b, occurs p l b -> occurs p l (HImplies a b)
| OBody : forall b g, occurs p l b -> occurs p l (HReduce b g)
| OGroup : forall b g, occurs p l g -> occurs p l (HReduce b (Some g)).
(** a declaration, a fact or a rule gives [p] *)
Definition gives (p : string) (i : hitem) : Prop :=
  match i with
  | HType ps => In p ps
  | HSet q | HFact q _ => q = p
  | HRule hs _ => In p (map fst hs)
  | HReduceRule known q _ _ => known = true /\ q = p
  | HQuery _ _ => False
  | HQueryAtom name _ _ => name = p
  end.
(** a rule or a query needs [p] *)
Definition needs (p : string) (i : hitem) : Prop :=
  match i with
  | HRule _ b => exists l, occurs p l b
  | HReduceRule _ _ b g => exists l, occurs p l (HReduce b g)
  | HQuery q _ => q = p
  | HQueryAtom _ q _ => q = p
  | _ => False
  end.
Definition accepted (l : list hstep) (i : hitem) : Prop := exists its, In (Compile its false) l /\ In i its.
Definition known_pred (fps : list string) (l : list hstep) (p : string) : Prop :=
  In p fps \/ In (Register p) l \/ exists i, accepted l i /\ gives p i.
Definition needed (l : list hstep) (p : string) : Prop := exists i, accepted l i /\ needs p i.
Definition no_hash (p : string) : Prop := ~ exists a b, p = (a ++ "#" ++ b)%string.

(** ** Proofs *)
Lemma hash_spec : forall p, has_hash p = false <-> no_hash p.
Proof.
  unfold no_hash. induction p as [|c p IH]; simpl.
  - split; auto. intros _ (a & b & E). destruct a; discriminate.
  - rewrite orb_false_iff, IH. split.
    + intros [A B] ([|d a] & b & E); simpl in E; inversion E; subst; [discriminate|]. apply B. exists a, b. auto.
    + intros N. split.
      * destruct (Ascii.eqb_spec c "#"); auto. subst. exfalso. apply N. exists "", p. auto.
      * intros (a & b & ->). apply N. exists (String c a), b. auto.
Qed.
Fixpoint hsize (f : hform) : nat :=
  match f with
  | HAnd fs | HOr fs => S (fold_right (fun f n => hsize f + n) 0 fs)
  | HImplies a b => S (hsize a + hsize b)
  | HReduce b g => S (hsize b + match g with Some g => hsize g | None => 0 end)
  | _ => 1
  end.
Lemma size_in : forall f fs, In f fs -> hsize f <= fold_right (fun f n => hsize f + n) 0 fs.
Proof.
  induction fs as [|g fs IH]; simpl; intros I; [destruct I|]. destruct I as [->|I]; [apply PeanoNat.Nat.le_add_r|].
  eapply PeanoNat.Nat.le_trans; [apply IH; auto|]. rewrite PeanoNat.Nat.add_comm. apply PeanoNat.Nat.le_add_r.
Qed.
Lemma atoms_spec : forall p l f, In (p, l) (h_atoms f) <-> occurs p l f.
Proof.
  intros p l f. split.
  - remember (hsize f) as n eqn:E. assert (L : hsize f <= n) by (subst; auto). clear E. revert f L.
    induction n as [|n IH]; intros f L; [destruct f; simpl in L; inversion L|].
    destruct f as [q m|q m|fs|fs|a b| |b g]; simpl in *; intros I.
    + destruct I as [I|[]]. inversion I; subst. constructor.
    + destruct I as [I|[]]. inversion I; subst. constructor.
    + apply in_flat_map in I as (f & J & I). econstructor; [exact J|]. apply IH; auto. apply le_S_n in L. eapply PeanoNat.Nat.le_trans; [apply (size_in _ _ J)|auto].
    + apply in_flat_map in I as (f & J & I). eapply OOr; [exact J|]. apply IH; auto. apply le_S_n in L. eapply PeanoNat.Nat.le_trans; [apply (size_in _ _ J)|auto].
    + apply le_S_n in L. apply in_app_iff in I as [I|I]; [apply OImpL|apply OImpR]; apply IH; auto; eapply PeanoNat.Nat.le_trans; try exact L;
        [apply PeanoNat.Nat.le_add_r|rewrite PeanoNat.Nat.add_comm; apply PeanoNat.Nat.le_add_r].
    + destruct I.
    + apply le_S_n in L. apply in_app_iff in I as [I|I]; [apply OBody; apply IH; auto; eapply PeanoNat.Nat.le_trans; [|exact L]; apply PeanoNat.Nat.le_add_r|].
      destruct g as [g|]; [|destruct I]. apply OGroup. apply IH; auto. eapply PeanoNat.Nat.le_trans; [|exact L]. rewrite PeanoNat.Nat.add_comm. apply PeanoNat.Nat.le_add_r.
  - induction 1; simpl; auto; rewrite ?in_app_iff; auto; apply in_flat_map; eauto.
Qed.
Lemma mem_spec : forall p l, h_mem p l = true <-> In p l.
Proof.
  intros p l. unfold h_mem. rewrite existsb_exists. split; [intros (q & I & E); apply String.eqb_eq in E; subst; auto|]. intros I. exists p. rewrite String.eqb_refl. auto.
Qed.
Lemma hset_keys : forall l p x q, In q (map fst (hset l p x)) <-> q = p \/ In q (map fst l).
Proof.
  induction l as [|[r y] l IH]; intros p x q; simpl; [intuition|]. destruct (String.eqb_spec r p) as [->|N]; simpl; [intuition|]. rewrite IH. intuition.
Qed.
Lemma hset_nodup : forall l p x, NoDup (map fst l) -> NoDup (map fst (hset l p x)).
Proof.
  induction l as [|[r y] l IH]; intros p x N; simpl; [repeat constructor; intros []|]. inversion N as [|? ? N1 N2]; subst.
  destruct (String.eqb_spec r p) as [->|D]; simpl; constructor; auto. rewrite hset_keys. intros [E|I]; auto.
Qed.
Lemma hset_in : forall l p x e, In e (hset l p x) -> e = (p, x) \/ In e l.
Proof.
  induction l as [|[r y] l IH]; intros p x e; simpl; [intuition|]. destruct (String.eqb_spec r p) as [->|D]; simpl; intuition. apply IH in H0. intuition.
Qed.
(** states as sets *)
Definition decl (st : hstate) (p : string) : Prop := In p (h_decl st).
Definition used (st : hstate) (p : string) : Prop := In p (map fst (h_used st)).
Lemma declare_decl : forall p st q, decl (h_declare p st) q <-> q = p \/ decl st q.
Proof.
  intros p st q. unfold decl, h_declare. simpl. destruct (h_mem p (h_decl st)) eqn:M; simpl; [|intuition]. apply mem_spec in M. intuition. subst. auto.
Qed.
Lemma use_used : forall st x q, used (h_use st x) q <-> q = fst x \/ used st q.
Proof. intros st x q. unfold used, h_use. simpl. apply hset_keys. Qed.
Lemma fold_declare : forall A (f : A -> string) l st q, (decl (fold_left (fun st x => h_declare (f x) st) l st) q <-> In q (map f l) \/ decl st q) /\
  h_used (fold_left (fun st x => h_declare (f x) st) l st) = h_used st.
Proof.
  intros A f. induction l as [|x l IH]; intros st q; simpl; [intuition|]. destruct (IH (h_declare (f x) st) q) as [I1 I2]. split; [rewrite I1, declare_decl; intuition|rewrite I2; auto].
Qed.
Lemma fold_use : forall l st q, (used (fold_left h_use l st) q <-> In q (map fst l) \/ used st q) /\ h_decl (fold_left h_use l st) = h_decl st.
Proof.
  induction l as [|x l IH]; intros st q; simpl; [intuition|]. destruct (IH (h_use st x) q) as [I1 I2]. split; [rewrite I1, use_used; intuition|rewrite I2; auto].
Qed.
(** what one item of the transformed program does *)
Definition igives (p : string) (i : hitem) : Prop :=
  match i with HType ps => In p ps | HSet q | HFact q _ => q = p | HRule hs _ => In p (map fst hs) | _ => False end.
Definition iuses (i : hitem) : list (string * hloc) :=
  match i with
  | HFact q l | HQuery q l => [(q, l)]
  | HRule hs b => hs ++ h_atoms b
  | HReduceRule _ _ b g => h_atoms (HReduce b g)
  | HQueryAtom n q l => [(n, l); (q, l)]
  | _ => []
  end.
Lemma visit_spec : forall st i q, (decl (h_visit st i) q <-> igives q i \/ decl st q) /\ (used (h_visit st i) q <-> In q (map fst (iuses i)) \/ used st q).
Proof.
  intros st i q. destruct i as [ps|p|p l|hs b|k p b g|p l|n p l]; unfold h_visit, igives, iuses.
  - destruct (fold_declare (fun p => p) ps st q) as [A B]. rewrite map_id in A. split; auto. unfold used in *. rewrite B. simpl. intuition.
  - rewrite declare_decl. split; [intuition|]. unfold used, h_declare. simpl. intuition.
  - rewrite use_used. split; [|simpl; unfold used, h_declare; simpl; intuition]. unfold h_use. change (decl (h_declare p st) q <-> p = q \/ decl st q). rewrite declare_decl. intuition.
  - destruct (fold_use (hs ++ h_atoms b) (fold_left (fun st x => h_declare (fst x) st) hs st) q) as [A B].
    destruct (fold_declare (@fst string hloc) hs st q) as [C D]. split.
    + unfold decl at 1. rewrite B. exact C.
    + rewrite A. unfold used. rewrite D. intuition.
  - destruct (fold_use (h_atoms (HReduce b g)) st q) as [A B]. split; auto. unfold decl. rewrite B. intuition.
  - rewrite use_used. simpl. split; [unfold decl, h_use; simpl; intuition|intuition].
  - rewrite !use_used. simpl. split; [unfold decl, h_use; simpl; intuition|intuition].
Qed.
Lemma visits_spec : forall its st q, (decl (fold_left h_visit its st) q <-> (exists i, In i its /\ igives q i) \/ decl st q) /\
  (used (fold_left h_visit its st) q <-> (exists i, In i its /\ In q (map fst (iuses i))) \/ used st q).
Proof.
  induction its as [|i its IH]; intros st q; simpl.
  - split; split; auto; intros [(i & [] & _)|H]; auto.
  - destruct (IH (h_visit st i) q) as [A B]. destruct (visit_spec st i q) as [C D]. rewrite A, B, C, D. split; split.
    + intros [(j & J & K)|[K|K]]; eauto.
    + intros [(j & [<-|J] & K)|K]; eauto.
    + intros [(j & J & K)|[K|K]]; eauto.
    + intros [(j & [<-|J] & K)|K]; eauto.
Qed.
Lemma in_transform : forall its j, In j (h_transform its) <-> exists i, In i its /\ (j = h_item i \/ In j (h_new i)).
Proof.
  intros its j. unfold h_transform. rewrite in_app_iff, in_map_iff, in_flat_map. split.
  - intros [(i & <- & I)|(i & I & J)]; exists i; auto.
  - intros (i & I & [->|J]); [left|right]; exists i; auto.
Qed.
Lemma transform_gives : forall its q, (exists j, In j (h_transform its) /\ igives q j) <-> exists i, In i its /\ gives q i.
Proof.
  intros its q. split.
  - intros (j & J & G). apply in_transform in J as (i & I & [->|J]); exists i; split; auto.
    + destruct i as [ps|p|p l|hs b|[] p b g|p l|n p l]; simpl in *; auto; intuition.
    + destruct i as [ps|p|p l|hs b|k p b g|p l|n p l]; simpl in *; try tauto. destruct J as [<-|[]]. simpl in G. intuition.
  - intros (i & I & G). destruct i as [ps|p|p l|hs b|k p b g|p l|n p l]; simpl in G;
      try (eexists; split; [apply in_transform; eexists; split; [exact I|left; reflexivity]|simpl; auto; fail]).
    + destruct G as [-> ->]. eexists. split; [apply in_transform; eexists; split; [exact I|left; reflexivity]|simpl; auto].
    + eexists. split; [apply in_transform; eexists; split; [exact I|right; left; reflexivity]|simpl; auto].
Qed.
Lemma transform_uses : forall its q, (exists j, In j (h_transform its) /\ In q (map fst (iuses j))) -> (exists i, In i its /\ needs q i) \/ exists i, In i its /\ gives q i.
Proof.
  intros its q (j & J & U). assert (AT : forall f, In q (map fst (h_atoms f)) -> exists l, occurs q l f).
  { intros f X. apply in_map_iff in X as ([q' l] & <- & X). exists l. apply atoms_spec. auto. }
  apply in_transform in J as (i & I & [->|J]).
  - destruct i as [ps|p|p l|hs b|k p b g|p l|n p l]; cbn [h_item iuses map fst] in U.
    + destruct U.
    + destruct U.
    + right. eexists. split; [exact I|]. simpl in *. intuition.
    + rewrite map_app, in_app_iff in U. destruct U as [U|U]; [right|left]; eexists; (split; [exact I|simpl; auto]).
    + destruct k; cbn [h_item iuses map fst] in U.
      * rewrite map_app, in_app_iff in U. destruct U as [U|U]; [right|left]; eexists; (split; [exact I|]); [simpl in *; intuition|apply AT; auto].
      * left. eexists. split; [exact I|]. apply AT. auto.
    + left. eexists. split; [exact I|]. simpl in *. intuition.
    + right. eexists. split; [exact I|]. simpl in *. intuition.
  - destruct i as [ps|p|p l|hs b|k p b g|p l|n p l]; simpl in J; try tauto. destruct J as [<-|[]]. simpl in U. destruct U as [U|[U|[]]]; [right|left]; eexists; (split; [exact I|simpl; auto]).
Qed.
Lemma needs_uses : forall its q i, In i its -> needs q i -> exists j, In j (h_transform its) /\ In q (map fst (iuses j)).
Proof.
  intros its q i I N. assert (AT : forall f l, occurs q l f -> In q (map fst (h_atoms f))).
  { intros f l O. apply atoms_spec in O. apply in_map_iff. exists (q, l). auto. }
  destruct i as [ps|p|p l|hs b|k p b g|p l|n p l]; simpl in N; try tauto.
  - destruct N as [l N]. eexists. split; [apply in_transform; eexists; split; [exact I|left; reflexivity]|]. cbn [h_item iuses]. rewrite map_app, in_app_iff. right. eauto.
  - destruct N as [l N]. eexists. split; [apply in_transform; eexists; split; [exact I|left; reflexivity]|]. destruct k; cbn [h_item iuses]; [rewrite map_app, in_app_iff; right|]; eauto.
  - eexists. split; [apply in_transform; eexists; split; [exact I|left; reflexivity]|]. simpl. auto.
  - eexists. split; [apply in_transform; eexists; split; [exact I|right; left; reflexivity]|]. simpl. auto.
Qed.
Record HInv (fps : list string) (l : list hstep) (st : hstate) : Prop := mkHI {
  hi_decl : forall q, decl st q <-> known_pred fps l q;
  hi_used1 : forall q, needed l q -> used st q;
  hi_used2 : forall q, used st q -> needed l q \/ known_pred fps l q;
  hi_nd : NoDup (map fst (h_used st)) }.
Lemma acc_snoc : forall l s i, accepted (l ++ [s]) i <-> accepted l i \/ exists its, s = Compile its false /\ In i its.
Proof.
  intros l s i. unfold accepted. split.
  - intros (its & J & I). apply in_app_iff in J as [J|[J|[]]]; eauto.
  - intros [(its & J & I)|(its & -> & I)]; exists its; split; auto; apply in_app_iff; simpl; auto.
Qed.
Lemma uses_nd : forall l st, NoDup (map fst (h_used st)) -> NoDup (map fst (h_used (fold_left h_use l st))).
Proof. induction l as [|x l IH]; intros st N; simpl; auto. apply IH. apply hset_nodup. auto. Qed.
Lemma visits_nd : forall its st, NoDup (map fst (h_used st)) -> NoDup (map fst (h_used (fold_left h_visit its st))).
Proof.
  induction its as [|i its IH]; intros st N; simpl; auto. apply IH. destruct i as [ps|p|p l|hs b|k p b g|p l|n p l]; unfold h_visit; auto.
  - destruct (fold_declare (fun p => p) ps st "") as [_ B]. rewrite B. auto.
  - apply hset_nodup. auto.
  - apply uses_nd. destruct (fold_declare (@fst string hloc) hs st "") as [_ B]. rewrite B. auto.
  - apply uses_nd. auto.
  - apply hset_nodup. auto.
  - apply hset_nodup. apply hset_nodup. auto.
Qed.
Lemma inv_do : forall fps l st s, HInv fps l st -> HInv fps (l ++ [s]) (fst (h_do st s)).
Proof.
  intros fps l st s [I1 I2 I3 I4].
  assert (KM : forall q, known_pred fps l q -> known_pred fps (l ++ [s]) q).
  { intros q [K|[K|(i & A & G)]]; [left; auto|right; left; apply in_app_iff; auto|]. right. right. exists i. split; auto. apply acc_snoc. auto. }
  assert (NM : forall q, needed l q -> needed (l ++ [s]) q) by (intros q (i & A & G); exists i; split; auto; apply acc_snoc; auto).
  destruct s as [its [|]|p]; simpl.
  - constructor; auto.
    + intros q. rewrite I1. split; auto. intros [K|[K|(i & A & G)]]; [left; auto| |].
      * apply in_app_iff in K as [K|[K|[]]]; [right; left; auto|discriminate].
      * apply acc_snoc in A as [A|(x & E & _)]; [right; right; eauto|discriminate].
    + intros q (i & A & G). apply acc_snoc in A as [A|(x & E & _)]; [apply I2; exists i; auto|discriminate].
    + intros q U. apply I3 in U as [U|U]; auto.
  - assert (V := visits_spec (h_transform its) st). constructor.
    + intros q. destruct (V q) as [A _]. rewrite A, transform_gives, I1. split.
      * intros [(i & I & G)|K]; auto. right. right. exists i. split; auto. apply acc_snoc. eauto.
      * intros [K|[K|(i & B & G)]]; [right; left; auto| |].
        -- apply in_app_iff in K as [K|[K|[]]]; [right; right; left; auto|discriminate].
        -- apply acc_snoc in B as [B|(x & E & I)]; [right; right; right; eauto|]. inversion E; subst. left. eauto.
    + intros q (i & B & G). destruct (V q) as [_ A]. apply A. apply acc_snoc in B as [B|(x & E & I)]; [right; apply I2; exists i; auto|]. inversion E; subst. left. eapply needs_uses; eauto.
    + intros q U. destruct (V q) as [_ A]. apply A in U as [U|U].
      * apply transform_uses in U as [(i & I & G)|(i & I & G)]; [left; exists i; split; auto|right; right; right; exists i; split; auto]; apply acc_snoc; eauto.
      * apply I3 in U as [U|U]; auto.
    + apply visits_nd. auto.
  - constructor; auto.
    + intros q. rewrite declare_decl, I1. split.
      * intros [->|K]; auto. right. left. apply in_app_iff. simpl. auto.
      * intros [K|[K|(i & A & G)]]; [right; left; auto| |].
        -- apply in_app_iff in K as [K|[K|[]]]; [right; right; left; auto|]. inversion K. auto.
        -- apply acc_snoc in A as [A|(x & E & _)]; [right; right; right; eauto|discriminate].
    + intros q (i & A & G). apply acc_snoc in A as [A|(x & E & _)]; [|discriminate]. apply I2. exists i. auto.
    + intros q U. change (used st q) in U. apply I3 in U as [U|U]; auto.
Qed.
Lemma run_snoc : forall l st s, h_run st (l ++ [s]) = (fst (h_do (fst (h_run st l)) s), snd (h_run st l) ++ snd (h_do (fst (h_run st l)) s)).
Proof.
  induction l as [|x l IH]; intros st s; simpl.
  - destruct (h_do st s) as [st' o]. simpl. rewrite app_nil_r. auto.
  - destruct (h_do st x) as [st' o]. rewrite IH. destruct (h_run st' l) as [st2 o2]. simpl. rewrite app_assoc. auto.
Qed.
Lemma inv_all : forall fps l, HInv fps l (fst (h_run (h_start fps) l)).
Proof.
  intros fps l. induction l as [|s l IH] using rev_ind.
  - simpl. constructor; simpl.
    + intros q. unfold decl, known_pred. simpl. split; auto. intros [K|[[]|(i & (x & [] & _) & _)]]; auto.
    + intros q (i & (x & [] & _) & _).
    + intros q [].
    + constructor.
  - rewrite run_snoc. simpl. apply inv_do. auto.
Qed.

(** ** Theorems *)
(** The warnings printed for an accepted source: exactly the relations that it or an earlier accepted source needs,
    that none of them gives, that are not foreign and have no hash in their names; each once. *)
Theorem C93_warnings : forall fps l its, exists w, snd (h_run (h_start fps) (l ++ [Compile its false])) = snd (h_run (h_start fps) l) ++ [w] /\
  NoDup (map fst w) /\
  forall p, In p (map fst w) <-> needed (l ++ [Compile its false]) p /\ ~ known_pred fps (l ++ [Compile its false]) p /\ no_hash p.
Proof.
  intros fps l its. set (l' := l ++ [Compile its false]). assert (I := inv_all fps l'). unfold l' in I at 2. rewrite run_snoc in I. simpl in I.
  set (st := fold_left h_visit (h_transform its) (fst (h_run (h_start fps) l))) in *. exists (h_warn st). split; [unfold l'; rewrite run_snoc; reflexivity|].
  destruct I as [I1 I2 I3 I4]. unfold h_warn. split.
  - clear - I4. induction (h_used st) as [|[q y] u IH]; simpl; [constructor|]. inversion I4 as [|? ? N1 N2]; subst.
    destruct (_ && _); simpl; auto. constructor; auto. intros X. apply N1. apply in_map_iff in X as (x & E & X). apply filter_In in X as [X _]. apply in_map_iff. eauto.
  - intros p. rewrite in_map_iff. split.
    + intros ([q y] & E & X). simpl in E. subst q. apply filter_In in X as [X C]. simpl in C. apply andb_prop in C as [C1 C2]. apply negb_true_iff in C1, C2.
      assert (NK : ~ known_pred fps l' p). { rewrite <- I1. unfold decl. rewrite <- mem_spec. congruence. }
      assert (U : used st p) by (apply in_map_iff; exists (p, y); auto). apply I3 in U as [U|U]; [|tauto]. split; auto. split; auto. apply hash_spec. auto.
    + intros (N & NK & H). apply I2 in N. apply in_map_iff in N as ([q y] & E & X). simpl in E. subst q. exists (p, y). split; auto. apply filter_In. split; auto. simpl.
      apply andb_true_intro. split; apply negb_true_iff; [|apply hash_spec; auto]. destruct (h_mem p (h_decl st)) eqn:M; auto. apply mem_spec in M. exfalso. apply NK. apply I1. auto.
Qed.
Print Assumptions C93_warnings.
(** without warnings everything that is needed is there *)
Theorem C93_silent : forall fps l its o, snd (h_run (h_start fps) (l ++ [Compile its false])) = o ++ [[]] ->
  forall i p, accepted (l ++ [Compile its false]) i -> needs p i -> no_hash p -> ~ ~ known_pred fps (l ++ [Compile its false]) p.
Proof.
  intros fps l its o E i p A N H K. destruct (C93_warnings fps l its) as (w & E2 & _ & W). rewrite E in E2. apply app_inj_tail in E2 as [_ <-].
  apply (W p). split; [exists i; auto|]. auto.
Qed.
Print Assumptions C93_silent.
(** sources that are rejected leave no trace *)
Theorem C93_rejected : forall l st, h_run st (filter (fun s => match s with Compile _ true => false | _ => true end) l) = h_run st l.
Proof.
  induction l as [|s l IH]; intros st; simpl; auto. destruct s as [its [|]|p]; simpl; rewrite IH; auto. destruct (h_run st l). auto.
Qed.
Print Assumptions C93_rejected.
(** neither the order of the items of a source nor where a source is cut matters for what is warned about at the end *)
Theorem C93_order : forall fps l l' its its' w w' o o',
  snd (h_run (h_start fps) (l ++ [Compile its false])) = o ++ [w] -> snd (h_run (h_start fps) (l' ++ [Compile its' false])) = o' ++ [w'] ->
  (forall i, accepted (l ++ [Compile its false]) i <-> accepted (l' ++ [Compile its' false]) i) ->
  (forall p, In (Register p) l <-> In (Register p) l') -> forall p, In p (map fst w) <-> In p (map fst w').
Proof.
  intros fps l l' its its' w w' o o' E E' A R p. destruct (C93_warnings fps l its) as (v & F & _ & W). destruct (C93_warnings fps l' its') as (v' & F' & _ & W').
  rewrite E in F. rewrite E' in F'. apply app_inj_tail in F as [_ <-]. apply app_inj_tail in F' as [_ <-]. rewrite W, W'.
  assert (RR : forall q, In (Register q) (l ++ [Compile its false]) <-> In (Register q) (l' ++ [Compile its' false])).
  { intros q. rewrite !in_app_iff. rewrite R. simpl. split; intros [X|[X|[]]]; auto; discriminate. }
  assert (N : needed (l ++ [Compile its false]) p <-> needed (l' ++ [Compile its' false]) p) by (unfold needed; split; intros (i & B & C); exists i; split; auto; apply A; auto).
  assert (K : known_pred fps (l ++ [Compile its false]) p <-> known_pred fps (l' ++ [Compile its' false]) p).
  { unfold known_pred. rewrite RR. split; (intros [X|[X|(i & B & C)]]; [auto|auto|right; right; exists i; split; auto; apply A; auto]). }
  tauto.
Qed.
Print Assumptions C93_order.

(** a warning with a location points at a use in an accepted source *)
Definition used_at (p : string) (n : nat) (i : hitem) : Prop :=
  match i with
  | HRule _ b => occurs p (Some n) b
  | HReduceRule _ _ b g => occurs p (Some n) (HReduce b g)
  | HQuery q l => q = p /\ l = Some n
  | _ => False
  end.
Lemma use_from : forall l st e, In e (h_used (fold_left h_use l st)) -> In e (h_used st) \/ In e l.
Proof.
  induction l as [|[q x] l IH]; intros st e I; simpl in *; auto. apply IH in I as [I|I]; auto. simpl in I. apply hset_in in I as [->|I]; auto.
Qed.
Lemma visits_from : forall its st e, In e (h_used (fold_left h_visit its st)) -> In e (h_used st) \/ exists j, In j its /\ In e (iuses j).
Proof.
  induction its as [|i its IH]; intros st e I; simpl in *; auto. apply IH in I as [I|(j & J & K)]; [|right; eauto].
  enough (In e (h_used st) \/ In e (iuses i)) as [X|X]; eauto.
  destruct i as [ps|p|p l|hs b|k p b g|p l|n p l]; unfold h_visit in I; cbn [iuses].
  - destruct (fold_declare (fun p => p) ps st "") as [_ B]. rewrite B in I. auto.
  - auto.
  - simpl in I. apply hset_in in I as [->|I]; simpl; auto.
  - apply use_from in I as [I|I]; auto. destruct (fold_declare (@fst string hloc) hs st "") as [_ B]. rewrite B in I. auto.
  - apply use_from in I. auto.
  - simpl in I. apply hset_in in I as [->|I]; simpl; auto.
  - simpl in I. apply hset_in in I as [->|I]; [simpl; auto|]. apply hset_in in I as [->|I]; simpl; auto.
Qed.
Lemma run_from : forall fps l e, In e (h_used (fst (h_run (h_start fps) l))) -> exists its j, In (Compile its false) l /\ In j (h_transform its) /\ In e (iuses j).
Proof.
  intros fps l e. induction l as [|s l IH] using rev_ind; [intros []|]. rewrite run_snoc. cbn [fst]. intros I.
  assert (K : In e (h_used (fst (h_run (h_start fps) l))) \/ exists its j, s = Compile its false /\ In j (h_transform its) /\ In e (iuses j)).
  { destruct s as [its [|]|p]; simpl in I; auto. apply visits_from in I as [I|(j & A & B)]; auto. right. eauto. }
  destruct K as [K|(its & j & -> & A & B)].
  - destruct (IH K) as (its & j & A & B & C). exists its, j. split; auto. apply in_app_iff. auto.
  - exists its, j. split; auto. apply in_app_iff. simpl. auto.
Qed.
Theorem C93_location : forall fps l its o w p n, snd (h_run (h_start fps) (l ++ [Compile its false])) = o ++ [w] -> In (p, Some n) w ->
  exists i, accepted (l ++ [Compile its false]) i /\ used_at p n i.
Proof.
  intros fps l its o w p n E I. destruct (C93_warnings fps l its) as (v & F & _ & W). rewrite E in F. apply app_inj_tail in F as [_ <-].
  destruct (proj1 (W p)) as (_ & NK & _); [apply in_map_iff; exists (p, Some n); auto|].
  rewrite run_snoc in E. simpl in E. apply app_inj_tail in E as [_ <-]. unfold h_warn in I. apply filter_In in I as [I _].
  assert (R := run_from fps (l ++ [Compile its false]) (p, Some n)). rewrite run_snoc in R. simpl in R. destruct (R I) as (src & j & A & B & C).
  apply in_transform in B as (i & B & D). exists i. assert (AC : accepted (l ++ [Compile its false]) i) by (exists src; auto). split; auto.
  assert (NG : ~ gives p i) by (intros G; apply NK; right; right; eauto).
  destruct D as [->|D].
  - destruct i as [ps|q|q m|hs b|[] q b g|q m|nm q m]; cbn [h_item iuses] in C; simpl in NG.
    + destruct C.
    + destruct C.
    + destruct C as [C|[]]. inversion C; subst. tauto.
    + apply in_app_iff in C as [C|C]; [exfalso; apply NG; apply in_map_iff; exists (p, Some n); auto|]. apply atoms_spec. auto.
    + apply in_app_iff in C as [[C|[]]|C]; [discriminate|]. apply atoms_spec. auto.
    + apply atoms_spec. auto.
    + destruct C as [C|[]]. inversion C. simpl. auto.
    + destruct C as [C|[]]. discriminate.
  - destruct i as [ps|q|q m|hs b|k q b g|q m|nm q m]; simpl in D; try tauto. destruct D as [<-|[]]. simpl in C. destruct C as [C|[C|[]]]; discriminate.
Qed.
Print Assumptions C93_location.

(** ** Examples *)
Definition ex_src : list hitem :=
  [HRule [("path", Some 1)] (HOr [HAtom "edge" (Some 2); HAnd [HAtom "path" (Some 3); HNegAtom "blocked" (Some 4)]]);
   HType ["node"]; HReduceRule true "n" (HAtom "node" (Some 5)) (Some (HAtom "part" (Some 6)));
   HQueryAtom "path(1, x)" "path" (Some 7); HQuery "range" (Some 8); HQuery "rt#x" (Some 9)].
Example C93_ex : snd (h_run (h_start ["range"]) [Compile [HQuery "zzz" (Some 0)] true; Compile ex_src false; Register "part"; Compile [HFact "edge" (Some 10)] false]) =
  [[("edge", Some 2); ("blocked", Some 4); ("part", Some 6)]; [("blocked", Some 4)]].
Proof. vm_compute. reflexivity. Qed.

(** ** What does not hold *)
(** a warning is printed once: it is printed again for every later source, also for an empty one *)
Theorem C93_once_refuted : exists src p, snd (h_run (h_start []) [Compile src false; Compile [] false]) = [[p]; [p]].
Proof. exists [HQuery "r" (Some 1)], ("r", Some 1). vm_compute. reflexivity. Qed.
Print Assumptions C93_once_refuted.
(** a warning points at a use in a source: not for queries of atoms, where it points nowhere and even hides the
    location of another use *)
Theorem C93_location_refuted : exists src, snd (h_run (h_start []) [Compile src false]) = [[("r", None)]] /\
  (forall i, In i src -> exists n l, i = HQueryAtom n "r" (Some l) \/ i = HRule [(n, Some 0)] (HAtom "r" (Some l))).
Proof.
  exists [HRule [("s", Some 0)] (HAtom "r" (Some 1)); HQueryAtom "r(1)" "r" (Some 2)]. split; [vm_compute; reflexivity|].
  intros i [<-|[<-|[]]]; [exists "s", 1|exists "r(1)", 2]; auto.
Qed.
Print Assumptions C93_location_refuted.
