(** C85: facts from files (CsvFile.v). *)
From Coq Require Import List ZArith Bool Arith String Lia.
From Coq Require Import List.
From Verif Require Import Value Back Eval TypeSet Cast PropsTypedEval CsvFile.
Import ListNotations.
Local Open Scope list_scope.

(** ** Specification *)
Section Spec.
  Variable c : cenv.
  (** What a cell says as a tag. *)
  Inductive tag_means : string -> ctag -> Prop :=
  | TmTrue : tag_means "true" (CtBool true)
  | TmFalse : tag_means "false" (CtBool false)
  | TmFloat : forall s f, s <> "true"%string -> s <> "false"%string -> cv_parse (ce_conv c) true s = Some f -> tag_means s (CtFloat f).
  (** The values of cells of given types. *)
  Inductive typed : list vtype -> list string -> list value -> Prop :=
  | TyNil : typed [] [] []
  | TyCons : forall t s v ts ss vs, parse_value c t s = EOk v -> typed ts ss vs -> typed (t :: ts) (s :: ss) (v :: vs).
  (** The cell of a row under a header. *)
  Definition column (hs row : list string) (h s : string) : Prop := exists i, nth_error hs i = Some h /\ nth_error row i = Some s.
  (** The tag is in the first cell, if there is one. *)
  Definition tagged (prob : bool) (row : list string) (tag : ctag) : Prop :=
    if prob then exists s r, row = s :: r /\ tag_means s tag else tag = CtNone.
  Definition cells (prob : bool) (row : list string) : list string := if prob then tl row else row.
End Spec.

(** ** Lemmas *)
Lemma ebind_ok : forall A B (x : ev A) (f : A -> ev B) r, ebind x f = EOk r <-> exists a, x = EOk a /\ f a = EOk r.
Proof. intros A B [a| |] f r; cbn; split; try discriminate; try (intros (a' & H & K); congruence); eauto. Qed.
Lemma ok_or_ok : forall A (o : option A) a, ok_or o = EOk a <-> o = Some a.
Proof. intros A [x|] a; cbn; split; congruence. Qed.
Lemma eall_map : forall A B (f : A -> ev B) l r, eall (map f l) = EOk r <-> Forall2 (fun x y => f x = EOk y) l r.
Proof.
  induction l as [|x l IH]; cbn; intros r.
  - split; [intros H; injection H as <-; constructor|intros H; inversion H; auto].
  - rewrite ebind_ok. split.
    + intros (a & H & K). apply ebind_ok in K. destruct K as (r' & K & E). injection E as <-. constructor; auto. apply IH; auto.
    + intros H. inversion H as [|? y ? r' H1 H2]; subst. exists y. split; auto. apply ebind_ok. exists r'. split; auto. apply IH; auto.
Qed.
Lemma Forall2_iff : forall A B (P Q : A -> B -> Prop) l r, (forall x y, In x l -> (P x y <-> Q x y)) -> (Forall2 P l r <-> Forall2 Q l r).
Proof.
  intros A B P Q l r H. split; intros F; induction F; constructor; try apply H; cbn; auto; apply IHF; intros; apply H; cbn; auto.
Qed.
Lemma header_nth : forall hs h i, header_id hs h = Some i -> nth_error hs i = Some h.
Proof.
  induction hs as [|f hs IH]; cbn; intros h i H; [discriminate|].
  destruct (header_id hs h) as [j|] eqn:Q; [injection H as <-; cbn; auto|].
  destruct (String.eqb_spec f h); [injection H as <-; cbn; congruence|discriminate].
Qed.
Lemma header_some : forall hs h, In h hs <-> exists i, header_id hs h = Some i.
Proof.
  intros hs h. split.
  - induction hs as [|f hs IH]; [intros []|]. cbn. destruct (header_id hs h) eqn:Q; [eauto|].
    intros [->|I]; [rewrite String.eqb_refl; eauto|]. destruct (IH I); discriminate.
  - intros (i & H). apply header_nth in H. eapply nth_error_In; eauto.
Qed.
Lemma header_id_nth : forall hs h i, NoDup hs -> (header_id hs h = Some i <-> nth_error hs i = Some h).
Proof.
  intros hs h i N. split; [apply header_nth|]. intros H.
  destruct (proj1 (header_some hs h) (nth_error_In _ _ H)) as (j & Q). rewrite Q. f_equal.
  pose proof (header_nth _ _ _ Q) as J. eapply NoDup_nth_error; eauto; [apply nth_error_Some; congruence|congruence].
Qed.
Lemma parse_tag_means : forall c s t, parse_tag c s = EOk t <-> tag_means c s t.
Proof.
  intros c s t. unfold parse_tag. destruct (String.eqb_spec s "true") as [->|N1].
  { split; [intros H; injection H as <-; constructor|intros H; inversion H; subst; congruence]. }
  destruct (String.eqb_spec s "false") as [->|N2].
  { split; [intros H; injection H as <-; constructor|intros H; inversion H; subst; congruence]. }
  unfold some_or. split.
  - destruct (cv_parse (ce_conv c) true s) eqn:Q; [|discriminate]. intros H; injection H as <-. constructor; auto.
  - intros H. inversion H; subst; try congruence. rewrite H2. auto.
Qed.
Lemma row_tag_tagged : forall c prob row t, row_tag c prob row = EOk t <-> tagged c prob row t.
Proof.
  intros c [] row t; cbn.
  - rewrite ebind_ok. split.
    + intros (s & H & K). apply ok_or_ok in H. destruct row as [|x r]; [discriminate|]. cbn in H. injection H as ->. exists s, r. split; auto. apply parse_tag_means; auto.
    + intros (s & r & -> & H). exists s. split; auto. apply parse_tag_means; auto.
  - split; congruence.
Qed.
Lemma skipn_cells : forall (prob : bool) (row : list string), skipn (if prob then 1 else 0) row = cells prob row.
Proof. intros [] [|]; reflexivity. Qed.
Lemma typed_length : forall c ts ss vs, typed c ts ss vs -> length ss = length ts /\ length vs = length ts.
Proof. induction 1; cbn; auto. destruct IHtyped. split; congruence. Qed.
Lemma combine_typed : forall c ts ss vs, length ss = length ts ->
  (Forall2 (fun (st : string * vtype) v => parse_value c (snd st) (fst st) = EOk v) (combine ss ts) vs <-> typed c ts ss vs).
Proof.
  induction ts as [|t ts IH]; intros [|s ss] vs L; try discriminate; cbn.
  - split; intros H; inversion H; constructor.
  - split; intros H; inversion H; subst; constructor; auto; apply IH; auto.
Qed.

(** The values in the columns of names. *)
Lemma columns_values : forall c hs names ts cols row vs, NoDup hs -> length names <= length ts -> columns hs names ts = EOk cols ->
  (column_values c cols row = EOk vs <-> exists ss, Forall2 (column hs row) names ss /\ typed c (firstn (length names) ts) ss vs).
Proof.
  intros c hs names ts cols row vs N. revert ts cols vs. induction names as [|h names IH]; intros ts cols vs L C.
  - cbn in C. injection C as <-. cbn. split.
    + intros H; injection H as <-. exists []. split; constructor.
    + intros (ss & H & K). inversion H; subst. inversion K; auto.
  - destruct ts as [|t ts]; [cbn in L; lia|]. unfold columns in C. cbn in C.
    apply ebind_ok in C. destruct C as (x & X & C). apply ebind_ok in X. destruct X as (i & X & E). injection E as <-. apply ok_or_ok in X.
    apply ebind_ok in C. destruct C as (cs & C & E). injection E as <-.
    assert (L' : length names <= length ts) by (cbn in L; lia). specialize (IH ts cs). unfold column_values. cbn. rewrite ebind_ok. split.
    + intros (v & V & K). apply ebind_ok in V. destruct V as (s & V1 & V2). apply ok_or_ok in V1. cbn in V1, V2.
      apply ebind_ok in K. destruct K as (vs' & K & E). injection E as <-. apply (IH vs' L' C) in K. destruct K as (ss & K1 & K2).
      exists (s :: ss). split; [|constructor; auto]. constructor; auto. exists i. split; auto. apply header_nth; auto.
    + intros (ss & H & K). inversion H as [|? s ? ss' (j & J1 & J2) H']; subst. inversion K as [|? ? v ? ? vs' V K']; subst.
      apply (header_id_nth _ _ _ N) in J1. assert (j = i) by congruence. subst j. exists v. split.
      * apply ebind_ok. exists s. split; auto. apply ok_or_ok; auto.
      * apply ebind_ok. exists vs'. split; auto. apply (IH vs' L' C). eauto.
Qed.
Lemma columns_exist : forall hs names ts, length names <= length ts -> ((exists cols, columns hs names ts = EOk cols) <-> forall h, In h names -> In h hs).
Proof.
  intros hs. induction names as [|h names IH]; intros ts L.
  - cbn. split; [intros _ h []|]. eexists; reflexivity.
  - destruct ts as [|t ts]; [cbn in L; lia|]. assert (L' : length names <= length ts) by (cbn in L; lia). unfold columns. cbn. split.
    + intros (cols & C). apply ebind_ok in C. destruct C as (x & X & C). apply ebind_ok in X. destruct X as (i & X & _). apply ok_or_ok in X.
      apply ebind_ok in C. destruct C as (cs & C & _). intros h' [<-|I]; [apply header_some; eauto|]. apply (proj1 (IH ts L')); auto. exists cs; exact C.
    + intros H. destruct (proj1 (header_some hs h) (H h (or_introl eq_refl))) as (i & Q). rewrite Q. cbn.
      destruct (proj2 (IH ts L') (fun h' I => H h' (or_intror I))) as (cs & C). unfold columns in C. rewrite C. cbn. eauto.
Qed.
Lemma columns_ids : forall hs names ts cols, length names <= length ts -> columns hs names ts = EOk cols -> Forall2 (fun h ct => header_id hs h = Some (fst ct)) names cols.
Proof.
  intros hs. induction names as [|h names IH]; intros ts cols L C; [cbn in C; injection C as <-; constructor|].
  destruct ts as [|t ts]; [cbn in L; lia|]. unfold columns in C. cbn in C.
  apply ebind_ok in C. destruct C as (x & X & C). apply ebind_ok in X. destruct X as (i & X & E). injection E as <-. apply ok_or_ok in X.
  apply ebind_ok in C. destruct C as (cs & C & E). injection E as <-. constructor; auto. eapply IH; eauto. cbn in L; lia.
Qed.

(** ** Files without headers *)
Theorem C85_raw : forall c prob f ts out,
  load_raw c prob f ts = EOk out <->
  Forall2 (fun row o => tagged c prob row (fst o) /\ typed c ts (cells prob row) (snd o)) (cs_rows f) out.
Proof.
  intros c prob f ts out. unfold load_raw. rewrite eall_map. apply Forall2_iff. intros row [tag vs] _. cbn [fst snd].
  destruct (Nat.eqb_spec (length row) (length ts + (if prob then 1 else 0))) as [L|L]; cbn [negb].
  - rewrite ebind_ok. assert (L' : tagged c prob row tag -> length (cells prob row) = length ts).
    { unfold tagged, cells. destruct prob; [|cbn; lia]. intros (s & r & -> & _). cbn in *. lia. }
    split.
    + intros (t & T & K). apply row_tag_tagged in T. apply ebind_ok in K. destruct K as (ws & K & E). injection E as -> ->. split; auto.
      apply eall_map in K. rewrite skipn_cells in K. apply combine_typed; auto.
    + intros (T & K). exists tag. split; [apply row_tag_tagged; auto|]. apply ebind_ok. exists vs. split; auto.
      apply eall_map. rewrite skipn_cells. apply combine_typed; auto.
  - split; [discriminate|]. intros (T & K). exfalso. apply L. apply typed_length in K. destruct K as [K _].
    unfold tagged, cells in *. destruct prob; [|lia]. destruct T as (s & r & -> & _). cbn in *. lia.
Qed.

(** ** Files with selected fields *)
Theorem C85_fields : forall c fields prob f ts out, NoDup (cs_fields f) ->
  (load_fields c fields prob f ts = EOk out <->
   length ts = length fields /\ (forall h, In h fields -> In h (cs_fields f)) /\
   Forall2 (fun row o => tagged c prob row (fst o) /\ exists ss, Forall2 (column (cs_fields f) row) fields ss /\ typed c ts ss (snd o)) (cs_rows f) out).
Proof.
  intros c fields prob f ts out N. unfold load_fields.
  destruct (Nat.eqb_spec (length ts) (length fields)) as [L|L]; cbn [negb]; [|split; [discriminate|intros (H & _); congruence]].
  rewrite ebind_ok. assert (L' : length fields <= length ts) by lia.
  assert (ROW : forall cols, columns (cs_fields f) fields ts = EOk cols -> (eall (map (fun row => ebind (row_tag c prob row) (fun tag => ebind (column_values c cols row) (fun vs => EOk (tag, vs)))) (cs_rows f)) = EOk out <->
    Forall2 (fun row o => tagged c prob row (fst o) /\ exists ss, Forall2 (column (cs_fields f) row) fields ss /\ typed c ts ss (snd o)) (cs_rows f) out)).
  { intros cols C. rewrite eall_map. apply Forall2_iff. intros row [tag vs] _. cbn [fst snd]. rewrite ebind_ok.
    pose proof (columns_values c (cs_fields f) fields ts cols row vs N L' C) as V. rewrite <- L, firstn_all in V. split.
    - intros (t & T & K). apply ebind_ok in K. destruct K as (ws & K & E). injection E as -> ->. split; [apply row_tag_tagged; auto|]. apply V; auto.
    - intros (T & K). exists tag. split; [apply row_tag_tagged; auto|]. apply ebind_ok. exists vs. split; auto. apply V; auto. }
  split.
  - intros (cols & C & K). split; auto. split; [apply (proj1 (columns_exist _ _ ts L')); eauto|]. apply (ROW cols C); auto.
  - intros (_ & H & K). destruct (proj2 (columns_exist _ _ ts L') H) as (cols & C). exists cols. split; auto. apply (ROW cols C); auto.
Qed.

(** ** Files with keys *)
Lemma index_row_In : forall row i s, In (i, s) (index_row row) <-> nth_error row i = Some s.
Proof.
  intros row i s. unfold index_row. assert (G : forall r k, In (i, s) (combine (seq k (length r)) r) <-> k <= i /\ nth_error r (i - k) = Some s).
  { induction r as [|x r IH]; intros k; cbn.
    - split; [intros []|]. intros [_ H]. destruct (i - k); discriminate.
    - rewrite IH. split.
      + intros [E|[L H]]; [injection E as -> ->; rewrite Nat.sub_diag; cbn; auto|]. split; [lia|]. replace (i - k) with (S (i - S k)) by lia. auto.
      + intros [L H]. destruct (Nat.eq_dec k i) as [->|Q]; [rewrite Nat.sub_diag in H; cbn in H; injection H as ->; auto|].
        right. split; [lia|]. replace (i - k) with (S (i - S k)) in H by lia. auto. }
  rewrite G, Nat.sub_0_r. intuition lia.
Qed.
Lemma skip_index_In : forall (prob : bool) row i s, In (i, s) (skipn (if prob then 1 else 0) (index_row row)) <-> nth_error row i = Some s /\ (prob = true -> i <> 0).
Proof.
  intros prob row i s. destruct prob; [|cbn [skipn]; rewrite index_row_In; intuition discriminate].
  destruct row as [|x r]; [cbn; split; [intros []|intros [H _]; destruct i; discriminate]|].
  assert (H : In (i, s) (index_row (x :: r)) <-> i = 0 /\ s = x \/ In (i, s) (skipn 1 (index_row (x :: r)))).
  { unfold index_row. cbn. split; [intros [E|I]; [injection E as <- <-; auto|auto]|intros [[-> ->]|I]; auto]. }
  assert (Z : ~ In (0, s) (skipn 1 (index_row (x :: r)))).
  { unfold index_row. cbn. intros I. apply in_combine_l in I. apply in_seq in I. lia. }
  rewrite <- index_row_In. rewrite H. split.
  - intros I. split; auto. intros _ ->. auto.
  - intros [[[-> _]|I] K]; auto. exfalso. apply K; auto.
Qed.
Lemma In_Forall2_l : forall A B (P : A -> B -> Prop) l r y, Forall2 P l r -> In y r -> exists x, In x l /\ P x y.
Proof. induction 1; cbn; [intros []|]. intros [<-|I]; eauto. destruct (IHForall2 I) as (z & ? & ?); eauto. Qed.
Lemma In_Forall2_r : forall A B (P : A -> B -> Prop) l r x, Forall2 P l r -> In x l -> exists y, In y r /\ P x y.
Proof. induction 1; cbn; [intros []|]. intros [<-|I]; eauto. destruct (IHForall2 I) as (z & ? & ?); eauto. Qed.

(** What a fact of a file with keys says: the keys of a row, a header that is not a key nor that
    of the tag, and the cell under it. *)
Definition key_fact (c : cenv) (keys : list string) (fields : option (list string)) (prob : bool) (hs : list string) (ts : list vtype)
  (row : list string) (tag : ctag) (vs : list value) : Prop :=
  tagged c prob row tag /\
  exists ss ks h s, Forall2 (column hs row) keys ss /\ typed c (firstn (length keys) ts) ss ks /\
    column hs row h s /\ ~ In h keys /\ (forall l, fields = Some l -> In h l) /\ (prob = true -> nth_error hs 0 <> Some h) /\
    vs = ks ++ [VSymbol (cv_register (ce_conv c) h); VString s].

Lemma selected_In : forall hs keys ts cols fields sel i h, NoDup hs -> length keys <= length ts -> columns hs keys ts = EOk cols ->
  match fields with Some l => ebind (eall (map (fun h => ok_or (header_id hs h)) l)) (fun l => EOk (Some l)) | None => EOk None end = EOk sel ->
  nth_error hs i = Some h ->
  (negb (existsb (fun j => Nat.eqb i (fst j)) cols) && match sel with Some l => existsb (Nat.eqb i) l | None => true end = true <->
   ~ In h keys /\ forall l, fields = Some l -> In h l).
Proof.
  intros hs keys ts cols fields sel i h N L C S H. apply columns_ids in C; auto.
  apply (header_id_nth _ _ _ N) in H. rewrite andb_true_iff, negb_true_iff.
  assert (A : existsb (fun j => Nat.eqb i (fst j)) cols = true <-> In h keys).
  { rewrite existsb_exists. split.
    - intros (j & J & E). apply Nat.eqb_eq in E. destruct (In_Forall2_l _ _ _ _ _ _ C J) as (k & K & Q). rewrite <- E in Q.
      apply (header_id_nth _ _ _ N) in Q. apply (header_id_nth _ _ _ N) in H. replace h with k by congruence. auto.
    - intros I. destruct (In_Forall2_r _ _ _ _ _ _ C I) as (j & J & Q). exists j. split; auto. apply Nat.eqb_eq. congruence. }
  assert (B : match sel with Some l => existsb (Nat.eqb i) l | None => true end = true <-> forall l, fields = Some l -> In h l).
  { destruct fields as [l|].
    - apply ebind_ok in S. destruct S as (is & S & E). injection E as <-. apply eall_map in S. rewrite existsb_exists. split.
      + intros (j & J & E) l' Q. injection Q as <-. apply Nat.eqb_eq in E. subst j. destruct (In_Forall2_l _ _ _ _ _ _ S J) as (k & K & Q).
        apply ok_or_ok in Q. apply (header_id_nth _ _ _ N) in Q. apply (header_id_nth _ _ _ N) in H. replace h with k by congruence. auto.
      + intros I. specialize (I l eq_refl). destruct (In_Forall2_r _ _ _ _ _ _ S I) as (j & J & Q). apply ok_or_ok in Q. exists j. split; auto. apply Nat.eqb_eq. congruence.
    - injection S as <-. split; auto. intros _ l Q. discriminate. }
  rewrite B. destruct (existsb (fun j => Nat.eqb i (fst j)) cols); intuition congruence.
Qed.
Theorem C85_keys : forall c keys fields prob f ts out, NoDup (cs_fields f) ->
  load_keys c keys fields prob f ts = EOk out ->
  forall tag vs, In (tag, vs) out <-> exists row, In row (cs_rows f) /\ key_fact c keys fields prob (cs_fields f) ts row tag vs.
Proof.
  intros c keys fields prob f ts out N H tag vs. unfold load_keys in H.
  destruct (Nat.eqb_spec (length ts) (length keys + 2)) as [L|]; cbn [negb] in H; [|discriminate].
  destruct (skipn (length keys) ts) as [|[] [|[] [|]]]; try discriminate H.
  apply ebind_ok in H. destruct H as (cols & C & H). apply ebind_ok in H. destruct H as (sel & S & H).
  apply ebind_ok in H. destruct H as (outs & H & E). injection E as <-. apply eall_map in H.
  assert (L' : length keys <= length ts) by lia.
  assert (ROW : forall row o, ebind (row_tag c prob row) (fun tag => ebind (column_values c cols row) (fun ks =>
      eall (map (fun x => ebind (ok_or (nth_error (cs_fields f) (fst x))) (fun h => EOk (tag, ks ++ [VSymbol (cv_register (ce_conv c) h); VString (snd x)])))
               (filter (fun x => negb (existsb (fun j => Nat.eqb (fst x) (fst j)) cols) && match sel with Some l => existsb (Nat.eqb (fst x)) l | None => true end)
                  (skipn (if prob then 1 else 0) (index_row row)))))) = EOk o ->
    (In (tag, vs) o <-> key_fact c keys fields prob (cs_fields f) ts row tag vs)).
  { intros row o R. apply ebind_ok in R. destruct R as (t & T & R). apply ebind_ok in R. destruct R as (ks & K & R). apply eall_map in R.
    unfold key_fact. split.
    - intros I. destruct (In_Forall2_l _ _ _ _ _ _ R I) as ([i s] & J & Q). cbn [fst snd] in Q. apply ebind_ok in Q. destruct Q as (h & Hh & Q).
      apply ok_or_ok in Hh. injection Q as <- <-. apply filter_In in J. destruct J as [J J']. cbn [fst] in J'. apply skip_index_In in J. destruct J as [J0 J1].
      apply (selected_In _ _ _ _ _ _ _ _ N L' C S Hh) in J'. split; [apply row_tag_tagged; auto|].
      apply (columns_values _ _ _ _ _ _ _ N L' C) in K. destruct K as (ss & K1 & K2). exists ss, ks, h, s. destruct J' as [J2 J3].
      split; auto. split; auto. split; [exists i; auto|]. split; auto. split; auto. split; auto.
      intros P Z. apply (J1 P). apply (header_id_nth _ _ _ N) in Z. apply (header_id_nth _ _ _ N) in Hh. congruence.
    - intros (T' & ss & ks' & h & s & K1 & K2 & (i & Hh & Hs) & J2 & J3 & P & ->).
      assert (ks' = ks). { assert (column_values c cols row = EOk ks') by (apply (columns_values _ _ _ _ _ _ _ N L' C); eauto). congruence. } subst ks'.
      assert (tag = t). { apply row_tag_tagged in T'. congruence. } subst t.
      assert (J : In (i, s) (filter (fun x => negb (existsb (fun j => Nat.eqb (fst x) (fst j)) cols) && match sel with Some l => existsb (Nat.eqb (fst x)) l | None => true end)
                  (skipn (if prob then 1 else 0) (index_row row)))).
      { apply filter_In. split; [apply skip_index_In; split; auto; intros Q ->; apply (P Q); auto|]. cbn [fst]. apply (selected_In _ _ _ _ _ _ _ _ N L' C S Hh). auto. }
      destruct (In_Forall2_r _ _ _ _ _ _ R J) as (o' & O & Q). cbn [fst snd] in Q. rewrite Hh in Q. cbn in Q. injection Q as <-. auto. }
  rewrite in_concat. split.
  - intros (o & O & I). destruct (In_Forall2_l _ _ _ _ _ _ H O) as (row & R & Q). exists row. split; auto. apply (ROW row o Q); auto.
  - intros (row & R & K). destruct (In_Forall2_r _ _ _ _ _ _ H R) as (o & O & Q). exists o. split; auto. apply (ROW row o Q); auto.
Qed.
(** It is loaded if the types and headers fit, the rows are as long as the header, and the tags and keys can
    be read. *)
Theorem C85_keys_loaded : forall c keys fields prob f ts0, NoDup (cs_fields f) -> length ts0 = length keys ->
  (forall h, In h keys -> In h (cs_fields f)) -> (forall l h, fields = Some l -> In h l -> In h (cs_fields f)) ->
  (forall row, In row (cs_rows f) -> length row = length (cs_fields f) /\ (exists tag, tagged c prob row tag) /\
     exists ss ks, Forall2 (column (cs_fields f) row) keys ss /\ typed c ts0 ss ks) ->
  exists out, load_keys c keys fields prob f (ts0 ++ [TSymbol; TString]) = EOk out.
Proof.
  intros c keys fields prob f ts0 N L HK HF HR. unfold load_keys.
  rewrite app_length. cbn [length]. rewrite L, Nat.eqb_refl. cbn [negb]. rewrite <- L, skipn_app, skipn_all, Nat.sub_diag. cbn [app skipn].
  assert (L' : length keys <= length (ts0 ++ [TSymbol; TString])) by (rewrite app_length; lia).
  destruct (proj2 (columns_exist _ _ _ L') HK) as (cols & C). rewrite C. cbn [ebind].
  assert (S : exists sel, match fields with Some l => ebind (eall (map (fun h => ok_or (header_id (cs_fields f) h)) l)) (fun l => EOk (Some l)) | None => EOk None end = EOk sel).
  { destruct fields as [l|]; [|eauto]. assert (G : exists is, eall (map (fun h => ok_or (header_id (cs_fields f) h)) l) = EOk is).
    { specialize (HF l). clear -HF. assert (HF' : forall h, In h l -> In h (cs_fields f)) by auto. clear HF. induction l as [|h l IH]; [eexists; reflexivity|].
      destruct IH as (is & E); [intros; apply HF'; cbn; auto|]. destruct (proj1 (header_some (cs_fields f) h)) as (i & Q); [apply HF'; cbn; auto|].
      cbn. rewrite Q. cbn. rewrite E. cbn. eauto. }
    destruct G as (is & ->). cbn. eauto. }
  destruct S as (sel & ->). cbn [ebind].
  assert (G : forall A B (g : A -> ev B) l, (forall x, In x l -> exists y, g x = EOk y) -> exists r, eall (map g l) = EOk r).
  { clear. induction l as [|x l IH]; intros H; [eexists; reflexivity|]. destruct (H x) as (y & Y); [cbn; auto|]. destruct IH as (r & R); [intros; apply H; cbn; auto|].
    cbn. rewrite Y. cbn. rewrite R. cbn. eauto. }
  match goal with |- exists out, ebind (eall (map ?g ?l)) _ = _ => destruct (G _ _ g l) as (r & ->) end; [|cbn; eauto].
  intros row I. destruct (HR row I) as (LR & (tag & T) & ss & ks & K1 & K2). apply row_tag_tagged in T. rewrite T. cbn [ebind].
  assert (K : column_values c cols row = EOk ks).
  { apply (columns_values _ _ _ _ _ _ _ N L' C). exists ss. split; auto. rewrite firstn_app, <- L, firstn_all, Nat.sub_diag, firstn_O, app_nil_r. auto. }
  rewrite K. cbn [ebind]. apply G. intros [i s] J. apply filter_In in J. destruct J as [J _]. apply skip_index_In in J. destruct J as [J _]. cbn [fst snd].
  destruct (nth_error (cs_fields f) i) as [h|] eqn:Q; [cbn; eauto|]. exfalso. apply nth_error_None in Q.
  assert (i < length row) by (apply nth_error_Some; congruence). lia.
Qed.

(** ** Which of the three is used *)
(** Keys come first, then fields; the tag column is read as declared. *)
Theorem C85_load : forall c i f ts out, NoDup (cs_fields f) -> load_csv c i f ts = EOk out ->
  match in_keys i, in_fields i with
  | Some keys, fields => forall tag vs, In (tag, vs) out <->
      exists row, In row (cs_rows f) /\ key_fact c keys fields (in_prob i) (cs_fields f) ts row tag vs
  | None, Some fields => length ts = length fields /\
      Forall2 (fun row o => tagged c (in_prob i) row (fst o) /\
        exists ss, Forall2 (column (cs_fields f) row) fields ss /\ typed c ts ss (snd o)) (cs_rows f) out
  | None, None =>
      Forall2 (fun row o => tagged c (in_prob i) row (fst o) /\ typed c ts (cells (in_prob i) row) (snd o)) (cs_rows f) out
  end.
Proof.
  intros c i f ts out N H. unfold load_csv in H. destruct (in_keys i) as [keys|].
  - apply C85_keys; auto.
  - destruct (in_fields i) as [fields|].
    + apply C85_fields in H; auto. tauto.
    + apply C85_raw in H. auto.
Qed.
Print Assumptions C85_load.


(** ** Values *)
Theorem C85_value : forall c t s,
  (forall v, parse_value c t s = EOk v -> val_type v = t) /\
  (parse_value c t s = EPanic <-> t = TStr \/ t = TSymbol \/ t = TEntity \/ t = TTensor).
Proof.
  intros c t s. split.
  - intros v. destruct t; cbn; try discriminate; unfold some_or;
    try (match goal with |- context [match ?o with Some _ => _ | None => _ end] => destruct o end; [|discriminate]; intros H; injection H as <-; reflexivity).
    + destruct (String.eqb s "true"); [intros H; injection H as <-; auto|]. destruct (String.eqb s "false"); [intros H; injection H as <-; auto|discriminate].
    + intros H; injection H as <-; auto.
  - destruct t; cbn; unfold some_or;
    try (match goal with |- context [match ?o with Some _ => _ | None => _ end] => destruct o end; (split; [discriminate|intuition discriminate]));
    try (split; [discriminate|intuition discriminate]); try (split; auto 6; fail).
    destruct (String.eqb s "true"); [split; [discriminate|intuition discriminate]|]. destruct (String.eqb s "false"); (split; [discriminate|intuition discriminate]).
Qed.
(** Integers, strings and booleans are read back as they are shown. *)
Theorem C85_read_back : forall c,
  (forall t k z, kind_of t = Some k -> (imin k <= z <= imax k)%Z -> parse_value c t (show_int z) = EOk (of_int k z)) /\
  (forall b, parse_value c TBool (show_bool b) = EOk (VBool b)) /\ (forall s, parse_value c TString s = EOk (VString s)).
Proof.
  intros c. split; [|split; [intros []; reflexivity|reflexivity]].
  intros t k z K R. unfold parse_value. rewrite K, (parse_show k z R). reflexivity.
Qed.
(** Rows are as long as their header. *)
Theorem C85_content : forall hdr recs f, from_records hdr recs = EOk f ->
  (if hdr then recs = [] /\ cs_fields f = [] /\ cs_rows f = [] \/ recs = cs_fields f :: cs_rows f else cs_fields f = [] /\ cs_rows f = recs) /\
  (hdr = true -> forall row, In row (cs_rows f) -> length row = length (cs_fields f)).
Proof.
  intros hdr [|r rs] f H; cbn in H.
  - injection H as <-. cbn. destruct hdr; split; auto; intros _ row [].
  - destruct (forallb _ rs) eqn:Q; [|discriminate]. injection H as <-. destruct hdr; cbn; split; auto; try discriminate.
    intros _ row I. rewrite forallb_forall in Q. apply Nat.eqb_eq, Q; auto.
Qed.

(** ** The registry *)
Lemma registry_keeps : forall D sh is g g' p f, registry_load D sh is g = EOk g' -> file_of g p = Some f -> file_of g' p = Some f.
Proof.
  induction is as [|i is IH]; cbn; intros g g' p f H F; [injection H as <-; auto|].
  destruct (file_of g (in_path i)) eqn:Q; [eapply IH; eauto|]. apply ebind_ok in H. destruct H as (f' & _ & H). destruct sh; [discriminate|].
  eapply IH; eauto. cbn. destruct (Nat.eqb_spec (in_path i) p); [congruence|auto].
Qed.
Lemma registry_has : forall D sh is g g', registry_load D sh is g = EOk g' -> forall i, In i is -> exists f, file_of g' (in_path i) = Some f.
Proof.
  induction is as [|i is IH]; cbn; intros g g' H j [].
  - subst j. destruct (file_of g (in_path i)) eqn:Q; [eexists; eapply registry_keeps; eauto|].
    apply ebind_ok in H. destruct H as (f' & _ & H). destruct sh; [discriminate|]. exists f'. eapply registry_keeps; eauto. cbn. rewrite Nat.eqb_refl. auto.
  - destruct (file_of g (in_path i)) eqn:Q; [eapply IH; eauto|]. apply ebind_ok in H. destruct H as (f' & _ & H). destruct sh; [discriminate|]. eapply IH; eauto.
Qed.
Lemma registry_from : forall D sh is g g', registry_load D sh is g = EOk g' -> forall p f, file_of g' p = Some f ->
  file_of g p = Some f \/ exists i, In i is /\ in_path i = p /\ load_content D i = EOk f.
Proof.
  induction is as [|i is IH]; cbn; intros g g' H p f F; [injection H as <-; auto|].
  destruct (file_of g (in_path i)) eqn:Q.
  - destruct (IH _ _ H _ _ F) as [K|(j & J & K)]; eauto 6.
  - apply ebind_ok in H. destruct H as (f' & C & H). destruct sh; [discriminate|].
    destruct (IH _ _ H _ _ F) as [K|(j & J & K)]; eauto 6. cbn in K. destruct (Nat.eqb_spec (in_path i) p); [|auto]. injection K as ->. right. exists i. auto.
Qed.
(** Relations that agree about what is in a file get the facts that their own file has; the facts
    are loaded if all files can be. *)
Definition agreeing (is : list infile) : Prop :=
  forall i j, In i is -> In j is -> in_path i = in_path j -> in_delim i = in_delim j /\ in_header i = in_header j.
Definition own_facts (c : cenv) (D : disk) (r : infile * list vtype) (out : list (ctag * list value)) : Prop :=
  exists f, load_content D (fst r) = EOk f /\ load_csv c (fst r) f (snd r) = EOk out.
Theorem C85_registry : forall c D rels outs, agreeing (map fst rels) ->
  (populate_files c D false rels [] = EOk outs <-> Forall2 (own_facts c D) rels outs).
Proof.
  intros c D rels outs A. unfold populate_files.
  assert (SAME : forall i j, In i (map fst rels) -> In j (map fst rels) -> in_path i = in_path j -> load_content D i = load_content D j).
  { intros i j I J P. destruct (A i j I J P) as [E1 E2]. unfold load_content. rewrite P, E1, E2. auto. }
  assert (BODY : forall g, registry_load D false (map fst rels) [] = EOk g ->
    (eall (map (fun r => match file_of g (in_path (fst r)) with
                      | Some f => ebind (load_from_file c (fst r) f (snd r) (mkFrel [] [])) (fun x => EOk (fl_dyn x))
                      | None => EPanic end) rels) = EOk outs <-> Forall2 (own_facts c D) rels outs)).
  { intros g G. rewrite eall_map. apply Forall2_iff. intros r out I.
    assert (I' : In (fst r) (map fst rels)) by (apply in_map; auto).
    destruct (registry_has _ _ _ _ _ G _ I') as (f & F). rewrite F.
    destruct (registry_from _ _ _ _ _ G _ _ F) as [K|(j & J & P & C)]; [discriminate|].
    rewrite <- (SAME _ _ I' J (eq_sym P)) in C. unfold own_facts, load_from_file. cbn [fl_loaded existsb]. split.
    - intros H. apply ebind_ok in H. destruct H as (x & H & E). injection E as <-. apply ebind_ok in H. destruct H as (o & H & E). injection E as <-. eauto.
    - intros (f' & C' & H). rewrite C in C'. injection C' as <-. rewrite H. reflexivity. }
  rewrite ebind_ok. split; [intros (g & G & K); apply (BODY g G); auto|]. intros H.
  assert (G : exists g, registry_load D false (map fst rels) [] = EOk g).
  { assert (OK : forall i, In i (map fst rels) -> exists f, load_content D i = EOk f).
    { intros i I. apply in_map_iff in I. destruct I as (r & <- & I). destruct (In_Forall2_r _ _ _ _ _ _ H I) as (o & _ & f & F & _). eauto. }
    clear -OK. generalize (@nil (nat * csv)). induction (map fst rels) as [|i is IH]; intros g; cbn; [eauto|].
    destruct (file_of g (in_path i)); [apply IH; intros; apply OK; cbn; auto|]. destruct (OK i) as (f & ->); [cbn; auto|]. cbn. apply IH; intros; apply OK; cbn; auto. }
  destruct G as (g & G). exists g. split; auto. apply (BODY g G); auto.
Qed.
(** Files with keys or fields have a header, whatever the options say. *)
Theorem C85_options : forall p d h pr ks fs D f, ks <> None \/ fs <> None -> load_content D (csv_with_options p d h pr ks fs) = EOk f ->
  forall row, In row (cs_rows f) -> length row = length (cs_fields f).
Proof.
  intros p d h pr ks fs D f K C. unfold load_content in C. apply ebind_ok in C. destruct C as (recs & _ & C).
  assert (H : in_header (csv_with_options p d h pr ks fs) = true).
  { cbn. destruct h as [[]|], ks, fs; auto; destruct K; congruence. }
  rewrite H in C. apply C85_content in C. apply C; auto.
Qed.
(** A file is loaded once. *)
Theorem C85_once : forall c i f f' ts r r', load_from_file c i f ts r = EOk r' -> load_from_file c i f' ts r' = EOk r'.
Proof.
  intros c i f f' ts r r' H. unfold load_from_file in H. destruct (existsb (Nat.eqb (in_path i)) (fl_loaded r)) eqn:Q.
  - injection H as <-. unfold load_from_file. rewrite Q. auto.
  - apply ebind_ok in H. destruct H as (o & _ & H). injection H as <-. unfold load_from_file. cbn. rewrite Nat.eqb_refl. auto.
Qed.

(** ** Refutations and examples *)
Local Open Scope string_scope.
Definition C85_env : cenv := mkCenv (mkConv (fun _ z => z) (fun _ z => z) (fun _ s => parse_int KI32 s) (fun _ => "") (fun _ => "") (fun _ => None) (fun s => Z.of_nat (String.length s)))
  (fun _ => None) (fun _ => None) (fun _ => None).
Definition C85_disk : disk := fun p d => if Nat.eqb p 1 then Some [["p"; "id"; "name"]; ["1"; "7"; "ann"]; ["true"; "8"; "bob"]] else None.
Definition C85_fields_file : infile := csv_with_options 1 None None (Some true) None (Some ["name"; "id"]).
Definition C85_keys_file : infile := csv_with_options 1 None None (Some true) (Some ["id"]) None.
Definition C85_raw_file : infile := csv_with_options 1 None None None None None.
Definition C85_out1 : list (ctag * list value) := [(CtFloat 1, [VString "ann"; I32 7]); (CtBool true, [VString "bob"; I32 8])].
Definition C85_out2 : list (ctag * list value) := [(CtNone, [VString "p"; VString "id"; VString "name"]); (CtNone, [VString "1"; VString "7"; VString "ann"]); (CtNone, [VString "true"; VString "8"; VString "bob"])].
(** Two relations from one file, with and without a header: the second is loaded with the header of the
    first, so that a row is missing. *)
Theorem C85_registry_refuted : exists c D rels outs, populate_files c D false rels [] = EOk outs /\ ~ Forall2 (own_facts c D) rels outs /\
  exists own, Forall2 (own_facts c D) rels own.
Proof.
  exists C85_env, C85_disk, [(C85_fields_file, [TString; TI32]); (C85_raw_file, [TString; TString; TString])].
  eexists. split; [vm_compute; reflexivity|]. split.
  - intros H. inversion H as [|? ? ? ? _ H1]; subst. inversion H1 as [|? ? ? ? (f & F & K) _]; subst. vm_compute in F. injection F as <-. vm_compute in K. discriminate K.
  - exists [C85_out1; C85_out2]. apply Forall2_cons; [exists (mkCsv ["p"; "id"; "name"] [["1"; "7"; "ann"]; ["true"; "8"; "bob"]]); split; vm_compute; reflexivity|].
    apply Forall2_cons; [exists (mkCsv [] [["p"; "id"; "name"]; ["1"; "7"; "ann"]; ["true"; "8"; "bob"]]); split; vm_compute; reflexivity|]. apply Forall2_nil.
Qed.
(** A new file cannot be loaded while a clone of the database is alive. *)
Theorem C85_clone_refuted : exists c D rels own, Forall2 (own_facts c D) rels own /\ populate_files c D true rels [] = EPanic.
Proof.
  exists C85_env, C85_disk, [(C85_raw_file, [TString; TString; TString])], [C85_out2]. split; [|vm_compute; reflexivity].
  apply Forall2_cons; [exists (mkCsv [] [["p"; "id"; "name"]; ["1"; "7"; "ann"]; ["true"; "8"; "bob"]]); split; vm_compute; reflexivity|]. apply Forall2_nil.
Qed.
(** Relations with symbols cannot be loaded; if nothing else is wrong there is a panic, not an error. *)
Theorem C85_symbol : forall c prob f ts out, In TSymbol ts -> cs_rows f <> [] -> load_raw c prob f ts <> EOk out.
Proof.
  intros c prob f ts out I R Q. apply C85_raw in Q. destruct (cs_rows f) as [|row rows]; [auto|].
  inversion Q as [|? o ? ? [_ K] _]; subst. clear -I K.
  induction K as [|t s v ts ss vs P K IH]; cbn in I; [auto|]. destruct I as [->|I]; auto. discriminate P.
Qed.
Theorem C85_symbol_refuted : exists c f ts, (forall row, In row (cs_rows f) -> length row = length ts) /\ load_raw c false f ts = EPanic.
Proof. exists C85_env, (mkCsv [] [["a"]]), [TSymbol]. split; [intros row [<-|[]]; reflexivity|reflexivity]. Qed.
Example C85_fields_ex : populate_files C85_env C85_disk false [(C85_fields_file, [TString; TI32]); (C85_keys_file, [TI32; TSymbol; TString])] [] =
  EOk [[(CtFloat 1, [VString "ann"; I32 7]); (CtBool true, [VString "bob"; I32 8])];
       [(CtFloat 1, [I32 7; VSymbol 4; VString "ann"]); (CtBool true, [I32 8; VSymbol 4; VString "bob"])]].
Proof. vm_compute. reflexivity. Qed.
Example C85_registry_ex : agreeing (map fst [(C85_fields_file, [TString; TI32]); (C85_keys_file, [TI32; TSymbol; TString])]) /\
  NoDup ["p"; "id"; "name"].
Proof. split; [intros i j [<-|[<-|[]]] [<-|[<-|[]]] _; auto|]. repeat constructor; cbn; intuition discriminate. Qed.

Print Assumptions C85_raw.
Print Assumptions C85_fields.
Print Assumptions C85_keys.
Print Assumptions C85_keys_loaded.
Print Assumptions C85_value.
Print Assumptions C85_read_back.
Print Assumptions C85_content.
Print Assumptions C85_registry.
Print Assumptions C85_once.
Print Assumptions C85_registry_refuted.
Print Assumptions C85_clone_refuted.
Print Assumptions C85_symbol.
Print Assumptions C85_symbol_refuted.
Print Assumptions C85_options.
